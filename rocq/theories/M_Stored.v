(** Model of lazy expressions kept in variables: which operands c++/nda/arithmetic.hpp ([expr], [expr_unary]) and c++/nda/map.hpp
    ([expr_call]) hold by reference and which by value, slices of expressions, conj of real arrays, declarations with auto, auto &&
    and an array type, assignments, and ends of scopes.  Elements are numbered in index order, a shape is the number of elements
    and a slice the list of positions it selects (indices and strides: C07, C23); a scalar operand is part of the function; arrays are
    on the heap, their elements do not throw; a freed block is never reused.  Variables are numbered by declaration.  None is
    undefined behaviour, or a statement that does not compile. *)
From Verif Require Import Base.

Notation "'do' x <- a ; b" := (match a with Some x => b | None => None end) (at level 200, x pattern, a at level 100, b at level 200).

(** [thread f l m]: f on each member from left to right; memory is passed on, results and temporaries are collected *)
Section Thread.
Context {M X Y : Type} (f : X -> M -> option (M * Y * list nat)).
Fixpoint thread (l : list X) (m : M) : option (M * list Y * list nat) :=
  match l with
  | [] => Some (m, [], [])
  | x :: l => do (m1, y, t) <- f x m; do (m2, ys, ts) <- thread l m1; Some (m2, y :: ys, t ++ ts)
  end.
End Thread.
Section Gather.
Context {X Y : Type} (f : X -> option Y).
Fixpoint gather (l : list X) : option (list Y) := match l with [] => Some [] | x :: l => do y <- f x; do ys <- gather l; Some (y :: ys) end.
End Gather.

Section Stored.
Context {V : Type}.
(** The objects: a member or variable that is a reference to variable [x]; an array that owns block [b]; a view; an expression with its
    operands ([cm]: expr_call, whose operands are const members of a tuple, map.hpp:50; otherwise arithmetic.hpp:33-35 and 58-61); a
    reference to something that is gone. *)
Inductive obj := ORef (x : nat) | OOwn (b : nat) | OView (b : nat) (sel : list nat) | OCall (cm : bool) (f : list V -> V) (args : list obj) | ODangling.
Definition mem := list (option (list V)).
Record world := World { w_mem : mem; w_var : list (option obj) }.

Definition block (m : mem) (b : nat) : option (list V) := match nth_error m b with Some (Some l) => Some l | _ => None end.
Definition var (vs : list (option obj)) (x : nat) : option obj := match nth_error vs x with Some (Some o) => Some o | _ => None end.
Definition new_block (l : list V) (m : mem) : mem * nat := (m ++ [Some l], length m).
Definition free (b : nat) (m : mem) : option mem := do l <- block m b; Some (upd m b None).
Fixpoint free_all (l : list nat) (m : mem) : option mem := match l with [] => Some m | b :: l => do m1 <- free b m; free_all l m1 end.
(** the blocks released by the destructor of an object *)
Fixpoint owned (o : obj) : list nat := match o with OOwn b => [b] | OCall _ _ l => flat_map owned l | _ => [] end.

(** copy construction: arrays are copied, views and references refer to the same *)
Fixpoint copy_obj (o : obj) (m : mem) : option (mem * obj * list nat) :=
  match o with
  | OOwn b => do l <- block m b; let '(m1, c) := new_block l m in Some (m1, OOwn c, [])
  | OCall cm f l => do (m1, l1, t) <- thread copy_obj l m; Some (m1, OCall cm f l1, t)
  | ODangling => None
  | _ => Some (m, o, [])
  end.
(** move construction from a temporary: arrays hand over their block; const members can only be copied, and the copied arrays are
    released with the temporary *)
Fixpoint move_obj (o : obj) (m : mem) : option (mem * obj * list nat) :=
  match o with
  | OCall true f l => do (m1, o1, t) <- copy_obj o m; Some (m1, o1, owned o)
  | OCall false f l => do (m1, l1, t) <- thread move_obj l m; Some (m1, OCall false f l1, t)
  | ODangling => None
  | _ => Some (m, o, [])
  end.

(** operator()(args...) with ranges: arithmetic.hpp:36-39 and 101-157, map.hpp:56-66, _impl_basic_array_view_common.hpp:137-155: the
    same expression of views of the operands, whoever owns these *)
Definition pick {T} (l : list T) (sel : list nat) : option (list T) := gather (nth_error l) sel.
Fixpoint slice_obj (fuel : nat) (vs : list (option obj)) (sel : list nat) (o : obj) : option obj :=
  let fix go (o : obj) : option obj :=
    match o with
    | ORef x => match fuel with O => None | S k => do o1 <- var vs x; slice_obj k vs sel o1 end
    | OOwn b => Some (OView b sel)
    | OView b s => do s1 <- pick s sel; Some (OView b s1)
    | OCall cm f l => do l1 <- gather go l; Some (OCall cm f l1)
    | ODangling => None
    end in go o.
(** element [i]: arithmetic.hpp:36-39 and 101-157, map.hpp:56-79 *)
Fixpoint read (fuel : nat) (w : world) (i : nat) (o : obj) : option V :=
  let fix go (o : obj) : option V :=
    match o with
    | ORef x => match fuel with O => None | S k => do o1 <- var (w_var w) x; read k w i o1 end
    | OOwn b => do l <- block (w_mem w) b; nth_error l i
    | OView b s => do l <- block (w_mem w) b; do p <- nth_error s i; nth_error l p
    | OCall _ f l => do vs <- gather go l; Some (f vs)
    | ODangling => None
    end in go o.
(** the shape: arithmetic.hpp:41 and 77-87, map.hpp:83: that of the first array *)
Fixpoint size (fuel : nat) (w : world) (o : obj) : option nat :=
  let fix go (o : obj) : option nat :=
    match o with
    | ORef x => match fuel with O => None | S k => do o1 <- var (w_var w) x; size k w o1 end
    | OOwn b => do l <- block (w_mem w) b; Some (length l)
    | OView _ s => Some (length s)
    | OCall _ _ (a :: _) => go a
    | OCall _ _ [] => Some O
    | ODangling => None
    end in go o.

(** What is written: a variable; a temporary array (the result of a function, of std::move or of a conversion); operators and mapped
    functions of arrays; a slice; conj of a real array. *)
Inductive src := SVar (x : nat) | STemp (l : list V) | SCall (cm : bool) (f : list V -> V) (args : list src) | SSlice (e : src) (sel : list nat) | SReal (e : src).
(** the value categories of its result: variable, temporary, reference to a temporary *)
Inductive res := LV (x : nat) | PRV (o : obj) | XV (o : obj).
(** a variable declared with auto && stands for what it refers to *)
Definition resolve (vs : list (option obj)) (x : nat) : option nat := do o <- var vs x; match o with ORef y => Some y | _ => Some x end.
(** [std::forward] into a member of the deduced type (arithmetic.hpp:180-216, 248, 261-310, map.hpp:95-99): variables are bound by
    reference, temporaries move into the member *)
Definition bind_arg (r : res) (m : mem) : option (mem * obj * list nat) := match r with LV x => Some (m, ORef x, []) | PRV o | XV o => move_obj o m end.
Definition destroyed (r : res) : list nat := match r with LV _ => [] | PRV o | XV o => owned o end.
(** evaluates what is written; the list has the blocks released at the end of the full expression *)
Fixpoint build (vs : list (option obj)) (e : src) (m : mem) : option (mem * res * list nat) :=
  match e with
  | SVar x => do y <- resolve vs x; Some (m, LV y, [])
  | STemp l => let '(m1, b) := new_block l m in Some (m1, PRV (OOwn b), [])
  | SCall cm f args =>
      do (m1, os, t) <- thread (fun e m => do (m1, r, t) <- build vs e m; do (m2, o, t2) <- bind_arg r m1; Some (m2, o, t ++ t2)) args m;
      Some (m1, PRV (OCall cm f os), t)
  | SSlice e sel =>
      do (m1, r, t) <- build vs e m;
      do o <- (match r with LV x => Some (ORef x) | PRV o | XV o => Some o end);
      do o1 <- slice_obj (length vs) vs sel o; Some (m1, PRV o1, t ++ destroyed r)
  (** mapped_functions.hpp:89-95: [std::forward<A>(a)] is returned *)
  | SReal e => do (m1, r, t) <- build vs e m; Some (m1, match r with LV x => LV x | PRV o | XV o => XV o end, t)
  end.

Inductive stmt := Decl (e : src) | DeclRef (e : src) | DeclArray (e : src) | Assign (x : nat) (e : src) | Set_ (x i : nat) (a : V) | End (x : nat).
Definition obj_of (r : res) : obj := match r with LV x => ORef x | PRV o | XV o => o end.
(** all elements, as read by the assignment loops *)
Definition values (w : world) (o : obj) : option (list V) :=
  do n <- size (length (w_var w)) w o; gather (fun i => read (length (w_var w)) w i o) (seq 0 n).
(** element-wise assignment to block [b] in place *)
Fixpoint assign_loop (w : world) (b : nat) (o : obj) (l : list nat) : option world :=
  match l with
  | [] => Some w
  | i :: l => do a <- read (length (w_var w)) w i o; do old <- block (w_mem w) b; assign_loop (World (upd (w_mem w) b (Some (upd old i a))) (w_var w)) b o l
  end.
Definition declare (w : world) (m : mem) (o : obj) (t : list nat) : option world := do m1 <- free_all t m; Some (World m1 (w_var w ++ [Some o])).
Definition exec (w : world) (s : stmt) : option world :=
  match s with
  (** auto x = e *)
  | Decl e =>
      do (m, r, t) <- build (w_var w) e (w_mem w);
      match r with
      | LV x => do o <- var (w_var w) x; do (m1, o1, _) <- copy_obj o m; declare w m1 o1 t
      | PRV o => declare w m o t
      | XV o => do (m1, o1, t1) <- move_obj o m; declare w m1 o1 (t ++ t1)
      end
  (** auto &&x = e: a temporary lives as long as x, but not if e is a reference to it *)
  | DeclRef e =>
      do (m, r, t) <- build (w_var w) e (w_mem w);
      match r with LV x => declare w m (ORef x) t | PRV o => declare w m o t | XV o => declare w m ODangling (t ++ owned o) end
  (** array<T, R> x = e (basic_array.hpp:165-214): moved from a temporary array, else made of the elements *)
  | DeclArray e =>
      do (m, r, t) <- build (w_var w) e (w_mem w);
      match r with
      | PRV (OOwn b) | XV (OOwn b) => declare w m (OOwn b) t
      | _ => do l <- values (World m (w_var w)) (obj_of r); let '(m1, b) := new_block l m in declare w m1 (OOwn b) (t ++ destroyed r)
      end
  (** x = e for an array x: basic_array.hpp:339-342 (defaulted: the handle is copied or moved, handle.hpp:124-137) and 357-363 *)
  | Assign x e =>
      do y <- resolve (w_var w) x;
      match var (w_var w) y with
      | Some (OOwn bx) =>
          do (m, r, t) <- build (w_var w) e (w_mem w);
          let replace m b t := do m1 <- free_all (t ++ [bx]) m; Some (World m1 (upd (w_var w) y (Some (OOwn b)))) in
          match r, match r with LV z => var (w_var w) z | PRV o | XV o => Some o end with
          | LV _, Some (OOwn bz) => do l <- block m bz; let '(m1, b) := new_block l m in replace m1 b t
          | PRV _, Some (OOwn b) | XV _, Some (OOwn b) => replace m b t
          | _, _ =>
              let w1 := World m (w_var w) in
              do n <- size (length (w_var w)) w1 (obj_of r); do old <- block m bx;
              if Nat.eqb n (length old) then
                do w2 <- assign_loop w1 bx (obj_of r) (seq 0 n); do m2 <- free_all (t ++ destroyed r) (w_mem w2); Some (World m2 (w_var w2))
              else
                (* resize: the old block is released before the elements are read; x cannot be read meanwhile *)
                do m1 <- free bx m; do l <- gather (fun i => read (length (w_var w)) (World m1 (upd (w_var w) y None)) i (obj_of r)) (seq 0 n);
                let '(m2, b) := new_block l m1 in do m3 <- free_all (t ++ destroyed r) m2; Some (World m3 (upd (w_var w) y (Some (OOwn b))))
          end
      | _ => None
      end
  (** x(i) = a for an array or view x *)
  | Set_ x i a =>
      do y <- resolve (w_var w) x; do o <- var (w_var w) y;
      do (b, p) <- (match o with OOwn b => Some (b, i) | OView b s => do p <- nth_error s i; Some (b, p) | _ => None end);
      do l <- block (w_mem w) b; if Nat.ltb p (length l) then Some (World (upd (w_mem w) b (Some (upd l p a))) (w_var w)) else None
  (** the destructor of x *)
  | End x => do o <- var (w_var w) x; do m <- free_all (owned o) (w_mem w); Some (World m (upd (w_var w) x None))
  end.
Fixpoint run (w : world) (p : list stmt) : option world := match p with [] => Some w | s :: p => do w1 <- exec w s; run w1 p end.
End Stored.
Arguments obj : clear implicits. Arguments world : clear implicits. Arguments src : clear implicits. Arguments stmt : clear implicits. Arguments res : clear implicits.
