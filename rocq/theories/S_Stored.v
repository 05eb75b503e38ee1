(** What programs with lazy expressions in variables should do, without memory: a variable is an array with elements, a lazy value, or
    another name; a lazy value says of which variables and constants it is made. *)
From Verif Require Import Base M_Stored.

Section Ideal.
Context {V : Type}.
(** a lazy value: the elements array variable [x] has at the time of reading; elements of [x], as long as [x] keeps the storage (number
    [g]) it had when the view was made; elements of its own; what lazy variable [x] stands for, as long as [x] is in scope; a
    function of such values *)
Inductive tree := TArr (x : nat) | TView (x g : nat) (sel : list nat) | TConst (l : list V) | TGuard (x : nat) (t : tree) | TCall (f : list V -> V) (args : list tree).
Inductive kind := KArr (g : nat) (l : list V) | KTree (t : tree) | KAlias (y : nat).
(** variables in order of declaration, with whether they are in scope; the number of storages ever made *)
Record ideal := Ideal { i_next : nat; i_var : list (bool * kind) }.

Definition alive (s : ideal) (x : nat) : bool := match nth_error (i_var s) x with Some (true, _) => true | _ => false end.
Definition array (s : ideal) (x : nat) : option (nat * list V) := match nth_error (i_var s) x with Some (true, KArr g l) => Some (g, l) | _ => None end.
(** the value of element [i] *)
Fixpoint tval (s : ideal) (i : nat) (t : tree) : option V :=
  match t with
  | TArr x => do (_, l) <- array s x; nth_error l i
  | TView x g sel => do (g1, l) <- array s x; if Nat.eqb g g1 then do p <- nth_error sel i; nth_error l p else None
  | TConst l => nth_error l i
  | TGuard x t => if alive s x then tval s i t else None
  | TCall f l => do vs <- gather (tval s i) l; Some (f vs)
  end.
Fixpoint tlen (s : ideal) (t : tree) : option nat :=
  match t with
  | TArr x => do (_, l) <- array s x; Some (length l)
  | TView x g sel => Some (length sel)
  | TConst l => Some (length l)
  | TGuard x t => if alive s x then tlen s t else None
  | TCall f (t :: _) => tlen s t
  | TCall f [] => Some O
  end.
Definition tvals (s : ideal) (t : tree) : option (list V) := do n <- tlen s t; gather (fun i => tval s i t) (seq 0 n).
(** a slice of a lazy value of variable [owner] (None: a temporary, whose own elements must not be sliced) *)
Fixpoint tslice (s : ideal) (owner : option nat) (sel : list nat) (t : tree) : option tree :=
  match t with
  | TArr x => do (g, _) <- array s x; Some (TView x g sel)
  | TView x g s0 => do s1 <- pick s0 sel; Some (TView x g s1)
  | TConst l => do x <- owner; do l1 <- pick l sel; Some (TGuard x (TConst l1))
  | TGuard x t => if alive s x then tslice s (Some x) sel t else None
  | TCall f l => do l1 <- gather (tslice s owner sel) l; Some (TCall f l1)
  end.

(** what is written denotes a variable, a new value, or a reference to a new value *)
Inductive ires := ILV (x : nat) | IPR (t : tree) | IXV (t : tree).
Definition name_of (s : ideal) (x : nat) : option nat :=
  match nth_error (i_var s) x with Some (true, KAlias y) => if alive s y then Some y else None | Some (true, _) => Some x | _ => None end.
Definition by_name (s : ideal) (x : nat) : option tree :=
  match nth_error (i_var s) x with Some (true, KArr _ _) => Some (TArr x) | Some (true, KTree t) => Some (TGuard x t) | _ => None end.
Definition tree_of (s : ideal) (r : ires) : option tree := match r with ILV x => by_name s x | IPR t | IXV t => Some t end.
Fixpoint denote (s : ideal) (e : src V) : option ires :=
  match e with
  | SVar x => do y <- name_of s x; Some (ILV y)
  | STemp l => Some (IPR (TConst l))
  | SCall _ f args => do ts <- gather (fun e => do r <- denote s e; tree_of s r) args; Some (IPR (TCall f ts))
  | SSlice e sel => do r <- denote s e; do t <- tree_of s r; do t1 <- tslice s None sel t; Some (IPR t1)
  | SReal e => do r <- denote s e; Some (match r with ILV x => ILV x | IPR t | IXV t => IXV t end)
  end.

(** a variable with a new value: an array if these are elements, else lazy *)
Definition fresh (s : ideal) (t : tree) : ideal :=
  match t with
  | TConst l => Ideal (S (i_next s)) (i_var s ++ [(true, KArr (i_next s) l)])
  | _ => Ideal (i_next s) (i_var s ++ [(true, KTree t)])
  end.
(** the value reads array [x] *)
Fixpoint reads (x : nat) (t : tree) : bool :=
  match t with TArr y | TView y _ _ => Nat.eqb x y | TConst _ => false | TGuard _ t => reads x t | TCall _ l => existsb (reads x) l end.
(** the value reads elements of [x] through a view, hence perhaps in another place *)
Fixpoint views (x : nat) (t : tree) : bool :=
  match t with TView y _ _ => Nat.eqb x y | TArr _ | TConst _ => false | TGuard _ t => views x t | TCall _ l => existsb (views x) l end.
Definition put (s : ideal) (x g : nat) (l : list V) (n : nat) : ideal := Ideal n (upd (i_var s) x (true, KArr g l)).
(** One statement; None: not legal.  Assigning an array, or other elements in another number, gives the array a new storage; an array can
    be assigned a value that reads it only in the same place (x = x + y), and only if its storage stays. *)
Definition ideal_step (s : ideal) (o : stmt V) : option ideal :=
  match o with
  | Decl e =>
      do r <- denote s e;
      match r with
      | ILV x => match nth_error (i_var s) x with Some (true, KArr _ l) => Some (fresh s (TConst l)) | Some (true, KTree t) => Some (fresh s t) | _ => None end
      | IPR t | IXV t => Some (fresh s t)
      end
  | DeclRef e =>
      do r <- denote s e;
      match r with ILV x => Some (Ideal (i_next s) (i_var s ++ [(true, KAlias x)])) | IPR t => Some (fresh s t) | IXV _ => None end
  | DeclArray e => do r <- denote s e; do t <- tree_of s r; do l <- tvals s t; Some (fresh s (TConst l))
  | Assign x e =>
      do y <- name_of s x; do (g, old) <- array s y;
      do r <- denote s e; do t <- tree_of s r; do l <- tvals s t;
      match t with
      | TArr _ | TConst _ => Some (put s y (i_next s) l (S (i_next s)))
      | _ => if Nat.eqb (length l) (length old) then (if views y t then None else Some (put s y g l (i_next s)))
             else if reads y t then None else Some (put s y (i_next s) l (S (i_next s)))
      end
  | Set_ x i a =>
      do y <- name_of s x;
      match nth_error (i_var s) y with
      | Some (true, KArr g l) => if Nat.ltb i (length l) then Some (put s y g (upd l i a) (i_next s)) else None
      | Some (true, KTree (TView z g sel)) =>
          do (g1, l) <- array s z; do p <- nth_error sel i;
          if Nat.eqb g g1 && Nat.ltb p (length l) then Some (put s z g (upd l p a) (i_next s)) else None
      | _ => None
      end
  | End x => match nth_error (i_var s) x with Some (true, k) => Some (Ideal (i_next s) (upd (i_var s) x (false, k))) | _ => None end
  end.
Fixpoint ideal_run (s : ideal) (p : list (stmt V)) : option ideal := match p with [] => Some s | o :: p => do s1 <- ideal_step s o; ideal_run s1 p end.

(** what variable [x] shows as element [i] *)
Definition shown (w : world V) (x i : nat) : option V := read (length (w_var w)) w i (ORef x).
Definition meant (s : ideal) (x i : nat) : option V := do y <- name_of s x; do t <- by_name s y; tval s i t.
(** memory that is allocated belongs to one variable in scope *)
Definition all_owned (w : world V) : list nat := flat_map (fun o => match o with Some o => owned o | None => [] end) (w_var w).
Definition no_leak (w : world V) : Prop := NoDup (all_owned w) /\ forall b, block (w_mem w) b <> None <-> In b (all_owned w).
End Ideal.
Arguments tree : clear implicits. Arguments kind : clear implicits. Arguments ideal : clear implicits. Arguments ires : clear implicits.
