(** Model of c++/nda/mem/allocators.hpp: mallocator, bucket, multi_bucket, segregator, leak_check and stats, on the host.
    Addresses and bytes are integers.  Failure of malloc and overflow of the counters are not modelled. *)
From Verif Require Import Base.

(** The memory the operating system has given out, as regions (address, length), and the contents of all bytes. *)
Record sys := Sys { os : list (Z * Z); bytes : Z -> Z }.
(** What the environment chooses at a step: an address for new memory and the garbage in it. *)
Record env := Env { e_addr : Z; e_junk : Z -> Z }.
(** Outcome of a call: a result, undefined behaviour or abort, or an address the environment may not give (such
    executions do not exist). *)
Inductive res (T : Type) := Ok (x : T) | Bad | NoEnv.
Arguments Ok {T}. Arguments Bad {T}. Arguments NoEnv {T}.
Notation "'let!' x ':=' a 'in' b" := (match a with Ok x => b | Bad => Bad | NoEnv => NoEnv end) (at level 200, x pattern, a at level 100, b at level 200).

Definition apart (r q : Z * Z) : bool := (fst r + snd r <=? fst q) || (fst q + snd q <=? fst r).
Definition inside_b (r : Z * Z) (x : Z) : bool := (fst r <=? x) && (x <? fst r + snd r).
(** malloc / calloc / new char[n] (external): a region apart from all others, filled by [fill]; at least one byte is reserved. *)
Definition os_alloc (n : Z) (fill : Z -> Z) (a : Z) (s : sys) : res (sys * Z) :=
  let r := (a, Z.max n 1) in
  if forallb (apart r) (os s) then Ok (Sys (r :: os s) (fun x => if inside_b r x then fill x else bytes s x), a) else NoEnv.
(** free / delete[] (external): the pointer must be the start of a region *)
Fixpoint remove_region (p : Z) (l : list (Z * Z)) : option (list (Z * Z)) :=
  match l with
  | [] => None
  | r :: l' => if fst r =? p then Some l' else match remove_region p l' with Some l'' => Some (r :: l'') | None => None end
  end.
Definition os_free (p : Z) (s : sys) : res sys :=
  match remove_region p (os s) with Some l => Ok (Sys l (bytes s)) | None => Bad end.
Definition memset0 (p n : Z) (s : sys) : sys := Sys (os s) (fun x => if inside_b (p, n) x then 0 else bytes s x).

(** Concept Allocator: a state, its constructor and destructor, allocate ([true]: allocate_zero), deallocate of a block
    (pointer, size).  A constructor may ask the operating system several times. *)
Record allocator := Allocator {
  st : Type;
  mk : (nat -> env) -> sys -> res (st * sys);
  al : bool -> Z -> env -> st -> sys -> res (st * sys * Z);
  de : Z * Z -> st -> sys -> res (st * sys);
  fin : st -> sys -> res sys }.

(** allocators.hpp:57-83 [mallocator]. *)
Definition mallocator : allocator := {|
  st := unit;
  mk := fun _ s => Ok (tt, s);
  al := fun z n e _ s => let! (s', p) := os_alloc n (if z then (fun _ => 0) else e_junk e) (e_addr e) s in Ok (tt, s', p);
  de := fun b _ s => let! s' := os_free (fst b) s in Ok (tt, s');
  fin := fun _ s => Ok s |}.

(** ** bucket (allocators.hpp:89-143) *)
Record bucket := Bucket { b_p : Z; b_flags : Z }.
Definition all_free : Z := 2 ^ 64 - 1.
(** __builtin_ctzll: number of the lowest bit that is set *)
Definition ctz (f : Z) : Z := match find (fun i => Z.testbit f (Z.of_nat i)) (seq 0 64) with Some i => Z.of_nat i | None => 64 end.

Section Bucket.
Variable chunk : Z.
(** allocators.hpp:90-93, 102: constructor; make_unique<char[]> sets the bytes to zero *)
Definition bk_new (e : env) (s : sys) : res (bucket * sys) :=
  let! (s', p) := os_alloc (64 * chunk) (fun _ => 0) (e_addr e) s in Ok (Bucket p all_free, s').
(** allocators.hpp:137-138 [is_full], [empty] *)
Definition bk_full (b : bucket) : bool := b_flags b =? 0.
Definition bk_empty (b : bucket) : bool := b_flags b =? all_free.
(** allocators.hpp:142 [owns] *)
Definition bk_owns (b : bucket) (p : Z) : bool := (b_p b <=? p) && (p <? b_p b + 64 * chunk).
(** allocators.hpp:109-121 [allocate]; abort is Bad *)
Definition bk_alloc (b : bucket) : res (bucket * Z) :=
  if b_flags b =? 0 then Bad
  else let pos := ctz (b_flags b) in
       Ok (Bucket (b_p b) (Z.land (b_flags b) (Z.lnot (Z.shiftl 1 pos))), b_p b + pos * chunk).
(** allocators.hpp:129-135 [deallocate]; a shift by a negative amount or by 64 or more is undefined *)
Definition bk_free (p : Z) (b : bucket) : res bucket :=
  let pos := Z.quot (p - b_p b) chunk in
  if (0 <=? pos) && (pos <? 64) then Ok (Bucket (b_p b) (Z.lor (b_flags b) (Z.shiftl 1 pos))) else Bad.

Definition bucket_alloc : allocator := {|
  st := bucket;
  mk := fun e => bk_new (e O);
  al := fun z n e b s => let! (b', p) := bk_alloc b in Ok (b', if z then memset0 p n s else s, p);   (* 123-127 *)
  de := fun blk b s => let! b' := bk_free (fst blk) b in Ok (b', s);
  fin := fun b s => os_free (b_p b) s |}.

(** ** multi_bucket (allocators.hpp:149-208).  The current bucket is a position in the vector, its length is end(). *)
Record multi := Multi { m_vec : list bucket; m_cur : nat }.
Fixpoint take_while (f : bucket -> bool) (l : list bucket) : nat :=
  match l with [] => O | x :: l' => if f x then S (take_while f l') else O end.
Definition partitioned (f : bucket -> bool) (l : list bucket) : bool := forallb (fun x => negb (f x)) (skipn (take_while f l) l).
(** std::lower_bound / upper_bound (external): the range must be partitioned by the predicate *)
Definition bound (f : bucket -> bool) (l : list bucket) : res nat := if partitioned f l then Ok (take_while f l) else Bad.
Definition insert_at (n : nat) (x : bucket) (l : list bucket) : list bucket := firstn n l ++ x :: skipn n l.
Definition erase_at (n : nat) (l : list bucket) : list bucket := firstn n l ++ skipn (S n) l.

(** allocators.hpp:156-168 [find_non_full_bucket] *)
Definition find_non_full (e : env) (m : multi) (s : sys) : res (multi * sys) :=
  let k := take_while bk_full (m_vec m) in
  if Nat.ltb k (length (m_vec m)) then Ok (Multi (m_vec m) k, s)
  else let! (b, s') := bk_new e s in
       let! pos := bound (fun x => negb (b_p b <? b_p x)) (m_vec m) in
       Ok (Multi (insert_at pos b (m_vec m)) pos, s').
(** allocators.hpp:180: bu->is_full() *)
Definition cur_full (m : multi) : bool := match nth_error (m_vec m) (m_cur m) with Some b => bk_full b | None => true end.
(** allocators.hpp:178-188 [allocate], [allocate_zero] *)
Definition multi_al (z : bool) (n : Z) (e : env) (m : multi) (s : sys) : res (multi * sys * Z) :=
  let! (m1, s1) := (if Nat.eqb (m_cur m) (length (m_vec m)) || cur_full m then find_non_full e m s else Ok (m, s)) in
  match nth_error (m_vec m1) (m_cur m1) with
  | None => Bad
  | Some b => let! (b', p) := bk_alloc b in
              Ok (Multi (upd (m_vec m1) (m_cur m1) b') (m_cur m1), if z then memset0 p n s1 else s1, p)
  end.
(** allocators.hpp:190-205 [deallocate]; the two EXPECTS are Bad *)
Definition multi_de (blk : Z * Z) (m : multi) (s : sys) : res (multi * sys) :=
  let p := fst blk in
  let put k := match nth_error (m_vec m) k with
               | None => Bad
               | Some b => let! b' := bk_free p b in Ok (b', Multi (upd (m_vec m) k b') k)
               end in
  if Nat.ltb (m_cur m) (length (m_vec m)) && match nth_error (m_vec m) (m_cur m) with Some b => bk_owns b p | None => false end
  then let! (_, m') := put (m_cur m) in Ok (m', s)
  else
    let! k1 := bound (fun x => b_p x <=? p) (m_vec m) in
    match k1 with
    | O => Bad
    | S k =>
        if match nth_error (m_vec m) k with Some b => bk_owns b p | None => false end then
          let! (b', m') := put k in
          if negb (bk_empty b') then Ok (m', s)
          else if Nat.leb (length (m_vec m')) 1 then Ok (m', s)
          else let v := erase_at k (m_vec m') in
               let! s' := os_free (b_p b') s in Ok (Multi v (length v), s')
        else Bad
    end.
(** allocators.hpp:172: constructor, and the destructor of the vector *)
Definition multi_fin (m : multi) (s : sys) : res sys :=
  fold_left (fun r b => let! s := r in os_free (b_p b) s) (m_vec m) (Ok s).
Definition multi_bucket : allocator := {|
  st := multi;
  mk := fun e s => let! (b, s') := bk_new (e O) s in Ok (Multi [b] 0, s');
  al := multi_al; de := multi_de; fin := multi_fin |}.
End Bucket.

(** allocators.hpp:215-235 [segregator]; the small allocator is constructed first and destroyed last. *)
Definition segregator (threshold : Z) (small big : allocator) : allocator := {|
  st := st small * st big;
  mk := fun e s => let! (a, s1) := mk small (fun i => e (2 * i)%nat) s in let! (b, s2) := mk big (fun i => e (2 * i + 1)%nat) s1 in Ok ((a, b), s2);
  al := fun z n e ab s =>
    if n <=? threshold then let! (a', s', p) := al small z n e (fst ab) s in Ok ((a', snd ab), s', p)
    else let! (b', s', p) := al big z n e (snd ab) s in Ok ((fst ab, b'), s', p);
  de := fun blk ab s =>
    if snd blk <=? threshold then let! (a', s') := de small blk (fst ab) s in Ok ((a', snd ab), s')
    else let! (b', s') := de big blk (snd ab) s in Ok ((fst ab, b'), s');
  fin := fun ab s => let! s1 := fin big (snd ab) s in fin small (fst ab) s1 |}.

(** allocators.hpp:239-293 [leak_check], debug build: the destructor and [deallocate] abort on a wrong counter. *)
Definition leak_check (a : allocator) : allocator := {|
  st := st a * Z;
  mk := fun e s => let! (x, s1) := mk a e s in Ok ((x, 0), s1);
  al := fun z n e xu s => let! (x', s', p) := al a z n e (fst xu) s in Ok ((x', snd xu + n), s', p);
  de := fun blk xu s => let used := snd xu - snd blk in
        if used <? 0 then Bad else let! (x', s') := de a blk (fst xu) s in Ok ((x', used), s');
  fin := fun xu s => if snd xu =? 0 then fin a (fst xu) s else Bad |}.

(** __builtin_clzl of a 64 bit number, undefined for 0 *)
Definition clz (n : Z) : Z := 63 - Z.log2 n.
(** allocators.hpp:297-336 [stats]; allocate_zero calls [allocate] of the base (326-329). *)
Definition stats (a : allocator) : allocator := {|
  st := st a * list Z;
  mk := fun e s => let! (x, s1) := mk a e s in Ok ((x, repeat 0 65), s1);
  al := fun z n e xh s =>
    if n <=? 0 then Bad else
    let k := Z.to_nat (clz n) in
    let h := upd (snd xh) k (nthZ (snd xh) k + 1) in
    let! (x', s', p) := al a false n e (fst xh) s in Ok ((x', h), s', p);
  de := fun blk xh s => let! (x', s') := de a blk (fst xh) s in Ok ((x', snd xh), s');
  fin := fun xh s => fin a (fst xh) s |}.
