(** Specification vocabulary for layouts with string labels. *)
From Coq Require Import String Ascii.
From Verif Require Import Base M_IdxMap M_Slice S_Layout M_RectStr.
Local Open Scope list_scope.

(** ** decimal writing *)
Definition is_digit (c : ascii) : bool := (48 <=? nat_of_ascii c)%nat && (nat_of_ascii c <=? 57)%nat.
Fixpoint all_digits (s : string) : bool := match s with EmptyString => true | String c s' => is_digit c && all_digits s' end.
(** the number written by the digits of [s] *)
Fixpoint value_from (acc : nat) (s : string) : nat :=
  match s with EmptyString => acc | String c s' => value_from (10 * acc + (nat_of_ascii c - 48)) s' end.
(** [s] is the usual decimal writing of [n]: digits only, at least one, no leading zero unless it is "0" *)
Definition writes (s : string) (n : nat) : Prop :=
  all_digits s = true /\ value_from 0 s = n /\
  match s with EmptyString => False | String c s' => c = "0"%char -> s' = EmptyString end.

(** ** labels *)
(** [ls] are the labels of [x]: the given ones, or the decimal numbers 0, 1, 2, ... of the positions *)
Definition labels_of (x : rect_str) (ls : list (list string)) : Prop :=
  match rs_ind x with
  | Some ind => ls = ind
  | None => length ls = rank (rs_map x) /\
            forall d, (d < rank (rs_map x))%nat -> Z.of_nat (length (nth d ls [])) = nthZ (im_len (rs_map x)) d /\
                      forall k, (k < length (nth d ls []))%nat -> writes (nth k (nth d ls []) EmptyString) k
  end.

(** one label per position in every dimension *)
Definition one_label_each (m : idx_map) (ls : list (list string)) : Prop := map (fun l => Z.of_nat (length l)) ls = im_len m.
Definition wf_str (x : rect_str) : Prop :=
  wf (rs_map x) /\ flags_true (rs_map x) /\ match rs_ind x with Some ind => one_label_each (rs_map x) ind | None => True end.

(** the labels of the element with index tuple [idx] *)
Fixpoint names (ls : list (list string)) (idx : list Z) : list string :=
  match ls, idx with
  | l :: ls', i :: idx' => nth (Z.to_nat i) l EmptyString :: names ls' idx'
  | _, _ => []
  end.

(** [i] is the first position with label [s] *)
Definition first_at (l : list string) (s : string) (i : Z) : Prop :=
  0 <= i /\ nth_error l (Z.to_nat i) = Some s /\ forall k, (k < Z.to_nat i)%nat -> nth_error l k <> Some s.

(** [l] is the argument list [args] with every string replaced by the position it labels *)
Fixpoint resolved (ls : list (list string)) (args : list sarg) (l : list arg) : Prop :=
  match args, l with
  | [], [] => True
  | SArg a :: args', b :: l' => a = b /\ resolved (tl ls) args' l'
  | SStr s :: args', ALong i :: l' => first_at (hd [] ls) s i /\ resolved (tl ls) args' l'
  | _, _ => False
  end.

(** some string of [args] is no label of its dimension *)
Definition unknown_label (ls : list (list string)) (args : list sarg) : Prop :=
  exists d s, nth_error args d = Some (SStr s) /\ ~ In s (nth d ls []).

(** of a list with one entry per dimension, the entries of the dimensions the slice keeps *)
Fixpoint of_kept {A} (ex : list arg) (l : list A) : list A :=
  match ex, l with
  | ALong _ :: ex', _ :: l' => of_kept ex' l'
  | _ :: ex', y :: l' => y :: of_kept ex' l'
  | _, _ => []
  end.

(** the object is labelled, or becomes so because a string is looked up *)
Definition has_labels (x : rect_str) (args : list sarg) : Prop := rs_ind x <> None \/ exists s, In (SStr s) args.
