(** What allocators should do: every block handed out is private memory until it is given back. *)
From Verif Require Import Base M_Alloc.

(** two blocks or regions (address, length) have no byte in common *)
Definition separate (l : list (Z * Z)) : Prop := ForallOrdPairs (fun r q => fst r + snd r <= fst q \/ fst q + snd q <= fst r) l.
(** the regions the operating system has given out *)
Definition regions_ok (l : list (Z * Z)) : Prop := separate l /\ Forall (fun r => 0 < snd r) l.
Definition within (b r : Z * Z) : Prop := fst r <= fst b /\ fst b + snd b <= fst r + snd r.
Definition byte_of (x : Z) (r : Z * Z) : Prop := fst r <= x < fst r + snd r.

(** ** A client: allocates, writes to its blocks, gives them back.  [live]: the blocks it has, the latest first. *)
Inductive cop := CAlloc (zero : bool) (n : Z) (e : env) | CFree (k : nat) | CPoke (k i : nat) (c : Z).
Fixpoint drop_at {T} (k : nat) (l : list T) : list T :=
  match l, k with [] , _ => [] | _ :: l', O => l' | x :: l', S k' => x :: drop_at k' l' end.
Section Client.
Variable X : allocator.
Notation state := (st X * sys * list (Z * Z))%type.
Definition c_step (w : state) (o : cop) : res state :=
  let '(x, s, live) := w in
  match o with
  | CAlloc z n e => let! (x', s', p) := al X z n e x s in Ok (x', s', (p, n) :: live)
  | CFree k => match nth_error live k with
               | Some b => let! (x', s') := de X b x s in Ok (x', s', drop_at k live)
               | None => Bad
               end
  | CPoke k i c => match nth_error live k with
                   | Some b => Ok (x, Sys (os s) (fun a => if a =? fst b + Z.of_nat i then c else bytes s a), live)
                   | None => Bad
                   end
  end.
Fixpoint c_run (w : state) (p : list cop) : res state :=
  match p with [] => Ok w | o :: p' => let! w' := c_step w o in c_run w' p' end.
(** a program: the allocator is constructed, used, and destroyed if [close] *)
Definition c_program (e : nat -> env) (junk : Z -> Z) (p : list cop) : res state :=
  let! (x, s) := mk X e (Sys [] junk) in c_run (x, s, []) p.
End Client.

(** ** What the client should see: blocks of its own ([None]: unspecified byte).  [ok]: allocations that are allowed, given
    the sizes of the blocks in use; [clears]: allocate_zero gives zeros. *)
Definition ideal_c (ok : list Z -> Z -> bool) (clears : bool) (l : list (list (option Z))) (o : cop) : option (list (list (option Z))) :=
  match o with
  | CAlloc z n _ => if (0 <=? n) && ok (map (fun b => Z.of_nat (length b)) l) n
                    then Some (repeat (if z && clears then Some 0 else None) (Z.to_nat n) :: l) else None
  | CFree k => if Nat.ltb k (length l) then Some (drop_at k l) else None
  | CPoke k i c => match nth_error l k with
                   | Some b => if Nat.ltb i (length b) then Some (upd l k (upd b i (Some c))) else None
                   | None => None
                   end
  end.
Fixpoint ideal_cs (ok : list Z -> Z -> bool) (clears : bool) (l : list (list (option Z))) (p : list cop) : option (list (list (option Z))) :=
  match p with [] => Some l | o :: p' => match ideal_c ok clears l o with Some l' => ideal_cs ok clears l' p' | None => None end end.

Definition has_bytes (m : Z -> Z) (b : Z * Z) (l : list (option Z)) : Prop :=
  snd b = Z.of_nat (length l) /\ forall i c, nth_error l i = Some (Some c) -> m (fst b + Z.of_nat i) = c.

(** an allocator serves all legal clients: no undefined behaviour, blocks apart, inside memory of the operating system, with
    the right contents; destroying it without blocks in use gives all memory back *)
Definition serves_if (clears : bool) (X : allocator) (ok : list Z -> Z -> bool) : Prop :=
  forall e junk p l, ideal_cs ok clears [] p = Some l ->
  match c_program X e junk p with
  | NoEnv => True
  | Bad => False
  | Ok (x, s, live) =>
      separate live /\ Forall2 (has_bytes (bytes s)) live l /\ Forall (fun b => exists r, In r (os s) /\ within b r) live
      /\ (l = [] -> match fin X x s with Ok s' => os s' = [] | _ => False end)
  end.

Definition serves := serves_if true.
(** the program with allocate instead of allocate_zero *)
Definition unzero (o : cop) : cop := match o with CAlloc _ n e => CAlloc false n e | _ => o end.
Definition sizes_of (p : list cop) : list Z := flat_map (fun o => match o with CAlloc _ n _ => [n] | _ => [] end) p.
Definition total (live : list (Z * Z)) : Z := fold_right Z.add 0 (map snd live).

(** allocations the allocators are meant for: [bucket] has 64 chunks; [segregator] passes the sizes on *)
Definition bucket_ok (chunk : Z) (sizes : list Z) (n : Z) : bool := (n <=? chunk) && Nat.ltb (length sizes) 64.
Definition multi_ok (chunk : Z) (sizes : list Z) (n : Z) : bool := n <=? chunk.
Definition seg_ok (T : Z) (okA okB : list Z -> Z -> bool) (sizes : list Z) (n : Z) : bool :=
  if n <=? T then okA (filter (fun k => k <=? T) sizes) n else okB (filter (fun k => negb (k <=? T)) sizes) n.
Definition stats_ok (ok : list Z -> Z -> bool) (sizes : list Z) (n : Z) : bool := (0 <? n) && ok sizes n.
(** number of sizes in [2^(63-c), 2^(64-c)) *)
Definition in_bin (c : nat) (n : Z) : bool := (2 ^ (63 - Z.of_nat c) <=? n) && (n <? 2 ^ (64 - Z.of_nat c)).
Definition count_bin (c : nat) (ns : list Z) : Z := Z.of_nat (length (filter (in_bin c) ns)).

(** ** The same for an allocator that is part of a larger program: it touches its own regions [R] only, the other regions
    [F] of the system and the blocks in use [L] keep their contents. *)
Definition keeps (L F : list (Z * Z)) (m m' : Z -> Z) : Prop := forall x r, In r (L ++ F) -> byte_of x r -> m' x = m x.
Record reliable (X : allocator) (ok : list Z -> Z -> bool) (zeroing : bool) (Inv : st X -> list (Z * Z) -> list (Z * Z) -> Prop) : Prop := {
  rel_make : forall e s, regions_ok (os s) -> match mk X e s with
      | NoEnv => True | Bad => False
      | Ok (x, s') => exists R, Permutation (os s') (R ++ os s) /\ regions_ok (os s') /\ Inv x [] R /\ keeps [] (os s) (bytes s) (bytes s')
      end;
  rel_alloc : forall x L R F s z n e, Inv x L R -> Permutation (os s) (R ++ F) -> regions_ok (os s) -> 0 <= n -> ok (map snd L) n = true ->
      match al X z n e x s with
      | NoEnv => True | Bad => False
      | Ok (x', s', p) => exists R', Permutation (os s') (R' ++ F) /\ regions_ok (os s') /\ Inv x' ((p, n) :: L) R' /\ keeps L F (bytes s) (bytes s')
                          /\ (z = true -> zeroing = true -> forall a, byte_of a (p, n) -> bytes s' a = 0)
      end;
  rel_free : forall x L L' R F s b, Inv x L R -> Permutation (os s) (R ++ F) -> regions_ok (os s) -> Permutation L (b :: L') ->
      match de X b x s with
      | NoEnv => True | Bad => False
      | Ok (x', s') => exists R', Permutation (os s') (R' ++ F) /\ regions_ok (os s') /\ Inv x' L' R' /\ bytes s' = bytes s
      end;
  rel_fin : forall x R F s, Inv x [] R -> Permutation (os s) (R ++ F) -> regions_ok (os s) ->
      match fin X x s with Ok s' => Permutation (os s') F | _ => False end;
  rel_perm : forall x L L' R R', Inv x L R -> Permutation L L' -> Permutation R R' -> Inv x L' R';
  rel_inside : forall x L R, Inv x L R -> regions_ok R -> separate L /\ Forall (fun b => exists r, In r R /\ within b r) L
}.
