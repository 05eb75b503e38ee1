(** Model of c++/nda/layout/rect_str.hpp: layouts whose positions carry string labels.
    The base class is the model of M_IdxMap / M_Slice.  The shared pointer to the labels is an option
    (the labels are never modified through it); the array of arrays of strings is a list of lists. *)
From Coq Require Import String DecimalString.
From Verif Require Import Base M_Perm M_IdxMap M_Slice.
Local Open Scope list_scope.

(** rect_str.hpp:46-50: the base class and [s_indices] (None: null pointer). *)
Record rect_str := RectStr { rs_map : idx_map; rs_ind : option (list (list string)) }.

(** How a call ends: a result, nda::runtime_error, std::terminate, undefined behaviour, or an argument
    list that does not compile. *)
Inductive outcome (A : Type) := Ok (a : A) | Throws | Aborts | Undefined | Ill_formed.
Arguments Ok {A}. Arguments Throws {A}. Arguments Aborts {A}. Arguments Undefined {A}. Arguments Ill_formed {A}.

(** std::to_string of a non-negative number: its decimal digits. *)
Definition to_string (n : nat) : string := NilEmpty.string_of_uint (Nat.to_uint n).

(** rect_str.hpp:64-69: the labels made up for a layout without any. *)
Definition default_indices (lengths : list Z) : list (list string) :=
  map (fun i => map to_string (seq 0 (Z.to_nat (nthZ lengths i)))) (seq 0 (length lengths)).

(** rect_str.hpp:62-74 [get_string_indices]: the labels, and the object after the call ([s_indices] is
    mutable and keeps the labels made up here). *)
Definition get_string_indices (x : rect_str) : list (list string) * rect_str :=
  match rs_ind x with
  | Some ind => (ind, x)
  | None => let ind := default_indices (im_len (rs_map x)) in (ind, RectStr (rs_map x) (Some ind))
  end.

(** Arguments of a call: a string, or what the base class takes. *)
Inductive sarg := SStr (s : string) | SArg (a : arg).

(** rect_str.hpp:76-77 with idx_map.hpp:97 [argument_is_allowed_for_call]: integers and strings. *)
Definition argument_is_allowed_for_call (a : sarg) : bool :=
  match a with SStr _ => true | SArg (ALong _) => true | SArg _ => false end.

(** std::find: the number of elements before the first one equal to [x]. *)
Fixpoint find_pos (x : string) (l : list string) : nat :=
  match l with [] => 0%nat | y :: l' => if string_dec y x then 0%nat else S (find_pos x l') end.

(** rect_str.hpp:130-142 [peel_string]; [sind[pos]] out of range is undefined. *)
Definition peel_string (x : rect_str) (pos : nat) (a : sarg) : outcome arg * rect_str :=
  match a with
  | SArg a => (Ok a, x)
  | SStr s =>
      let '(sind, x') := get_string_indices x in
      match nth_error sind pos with
      | None => (Undefined, x')
      | Some idx => let it := find_pos s idx in
                    if Nat.eqb it (length idx) then (Throws, x') else (Ok (ALong (Z.of_nat it)), x')
      end
  end.

(** the pack expansion [peel_string(Is, args)...] of rect_str.hpp:146 and 161 (taken left to right; the
    order is unspecified and only the kind of failure could depend on it). *)
Fixpoint peel_all (x : rect_str) (pos : nat) (args : list sarg) : outcome (list arg) * rect_str :=
  match args with
  | [] => (Ok [], x)
  | a :: args' =>
      let '(r, x1) := peel_string x pos a in
      match r with
      | Ok a' => let '(rs, x2) := peel_all x1 (S pos) args' in
                 (match rs with Ok l => Ok (a' :: l) | Throws => Throws | Aborts => Aborts
                           | Undefined => Undefined | Ill_formed => Ill_formed end, x2)
      | Throws => (Throws, x1) | Aborts => (Aborts, x1) | Undefined => (Undefined, x1) | Ill_formed => (Ill_formed, x1)
      end
  end.

Fixpoint cargs (l : list arg) : option (list carg) :=
  match l with
  | [] => Some []
  | ALong i :: l' => option_map (cons (CLong i)) (cargs l')
  | AEll :: l' => option_map (cons CEll) (cargs l')
  | _ :: _ => None
  end.

(** rect_str.hpp:144-152 [operator()]: the position of the element; [check] is NDA_ENFORCE_BOUNDCHECK. *)
Definition rs_call (check : bool) (x : rect_str) (args : list sarg) : outcome Z * rect_str :=
  let '(r, x') := peel_all x 0 args in
  (match r with
   | Ok l => match cargs l with
             | None => Ill_formed
             | Some c => if check then match call_checked (rs_map x) c with Some p => Ok p | None => Throws end
                         else Ok (call_impl (rs_map x) c)
             end
   | Throws => Throws | Aborts => Aborts | Undefined => Undefined | Ill_formed => Ill_formed
   end, x').

(** [current_ind[n](y)] of rect_str.hpp:167: the one-dimensional array of labels [l] called with a range,
    range::all or an ellipsis and copied; reading outside of the array is undefined. *)
Fixpoint read_all (l : list string) (pos : list Z) : outcome (list string) :=
  match pos with
  | [] => Ok []
  | p :: pos' =>
      if (p <? 0) || (Z.of_nat (length l) <=? p) then Undefined else
      match read_all l pos' with Ok r => Ok (nth (Z.to_nat p) l EmptyString :: r) | e => e end
  end.
Definition slice_labels (l : list string) (y : arg) : outcome (list string) :=
  match slice (idx_map_of_shape [0%nat] [0] LP_contiguous [0] [Z.of_nat (length l)]) [y] with
  | None => Ill_formed
  | Some (off, m) => read_all l (map (fun x => off + call_impl m [CLong (Z.of_nat x)]) (seq 0 (Z.to_nat (nthZ (im_len m) 0))))
  end.

(** rect_str.hpp:163-169: the labels of the view; [n] is the position of the argument. *)
Fixpoint slice_ind (current_ind : list (list string)) (n : nat) (args : list sarg) : outcome (list (list string)) :=
  match args with
  | [] => Ok []
  | a :: args' =>
      if argument_is_allowed_for_call a then slice_ind current_ind (S n) args'
      else match nth_error current_ind n, a with
           | Some l, SArg y =>
               match slice_labels l y with
               | Ok r => match slice_ind current_ind (S n) args' with Ok rs => Ok (r :: rs) | e => e end
               | Throws => Throws | Aborts => Aborts | Undefined => Undefined | Ill_formed => Ill_formed
               end
           | _, _ => Undefined
           end
  end.

(** rect_str.hpp:156-178 [slice]: the offset, the layout of the view, and the sliced object afterwards. *)
Definition rs_slice (x : rect_str) (args : list sarg) : outcome (Z * rect_str) * rect_str :=
  let '(r, x') := peel_all x 0 args in
  (match r with
   | Ok l =>
       match slice (rs_map x) l with
       | None => Ill_formed
       | Some (offset, m) =>
           match rs_ind x' with
           | None => Ok (offset, RectStr m None)
           | Some ind => match slice_ind ind 0 args with
                         | Ok ind2 => Ok (offset, RectStr m (Some ind2))
                         | Throws => Throws | Aborts => Aborts | Undefined => Undefined | Ill_formed => Ill_formed
                         end
           end
       end
   | Throws => Throws | Aborts => Aborts | Undefined => Undefined | Ill_formed => Ill_formed
   end, x').

(** rect_str.hpp:183 [operator==]. *)
Definition ind_eqb (a b : list (list string)) : bool := if list_eq_dec (list_eq_dec string_dec) a b then true else false.
Definition rs_eqb (x y : rect_str) : bool :=
  idx_map_eqb (rs_map x) (rs_map y) &&
  match rs_ind x, rs_ind y with
  | Some a, Some b => ind_eqb a b
  | _, _ => true
  end.

(** rect_str.hpp:188-200 [transpose]: the loop that puts the labels of dimension [u] at [permu[u]]. *)
Definition rs_transpose (permu : list nat) (x : rect_str) : outcome rect_str :=
  let m2 := transpose permu (rs_map x) in
  match rs_ind x with
  | None => Ok (RectStr m2 None)
  | Some ind =>
      if Nat.eqb (length ind) (rank (rs_map x)) then
        Ok (RectStr m2 (Some (fold_left (fun r u => upd r (nthN permu u) (nth u ind [])) (seq 0 (rank (rs_map x)))
                                        (repeat [] (length ind)))))
      else Undefined
  end.

(** rect_str.hpp:54-59 and 118-119: the layout with given labels.  The constructor is noexcept, so the
    exception for a wrong number of label lists ends the program. *)
Definition rs_of_labels (so : list nat) (se : list Z) (p : layout_prop) (junk : list Z) (R : nat) (ind : list (list string)) : outcome rect_str :=
  if negb (Nat.eqb (length ind) R) then Aborts else
  Ok (RectStr (idx_map_of_shape so se p junk (map (fun i => Z.of_nat (length (nth i ind []))) (seq 0 R))) (Some ind)).

(** rect_str.hpp:94 and 111-115: layouts without labels. *)
Definition rs_of_map (m : idx_map) : rect_str := RectStr m None.

(** rect_str.hpp:100-108: conversion to another layout property / static extents: the new object takes
    (and the old one keeps) the labels returned by get_string_indices; None: a failed EXPECTS of the base. *)
Definition rs_convert (checks : bool) (p : layout_prop) (se : list Z) (x : rect_str) : outcome rect_str * rect_str :=
  let '(ind, x') := get_string_indices x in
  (match convert checks p se (rs_map x) with Some m => Ok (RectStr m (Some ind)) | None => Aborts end, x').
