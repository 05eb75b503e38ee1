(** Model of c++/nda/layout/permutation.hpp.
    [std::array<int, Rank>] is a list whose length is Rank.  A dimension number is a
    [nat]; where the C++ int can be negative or out of range ([is_valid], [cycle],
    [encode]) the model uses [Z].  EXPECTS(is_valid(..)) guards are not part of the
    functions (they abort in debug builds only); they appear as hypotheses. *)
From Verif Require Import Base.

(** permutation.hpp:37-41 [decode]: [(binary_representation >> (4*i)) & 0b1111]. *)
Definition decode (rank : nat) (bin : Z) : list Z :=
  map (fun i => Z.land (Z.shiftr bin (4 * Z.of_nat i)) 15) (seq 0 rank).

(** [a << n] on 32-bit [int] (C++20 semantics): None when the shift count is not below the width,
    otherwise the value congruent mod 2^32 in the range of int.  Used by permutation.hpp:46. *)
Definition int_shl (a : Z) (n : Z) : option Z :=
  if (0 <=? n) && (n <? 32) then
    let v := (a * 2 ^ n) mod 2 ^ 32 in
    Some (if v <? 2 ^ 31 then v else v - 2 ^ 32)
  else None.

(** permutation.hpp:43-48 [encode]: [result += (a[i] << (4*i))] with [uint64_t result];
    the loop is the recursion on [a] with the running index [i].  None is undefined behaviour. *)
Fixpoint encode_from (i : Z) (a : list Z) (acc : Z) : option Z :=
  match a with
  | [] => Some acc
  | x :: a' => match int_shl x (4 * i) with
               | Some v => encode_from (i + 1) a' ((acc + v) mod 2 ^ 64)
               | None => None
               end
  end.
Definition encode (a : list Z) : option Z := encode_from 0 a 0.

(** permutation.hpp:54-62 [is_valid]; reading or writing [idx_counts] out of range is None. *)
Fixpoint is_valid_loop (counts : list bool) (p : list Z) : option bool :=
  match p with
  | [] => Some true
  | idx :: p' =>
      if (0 <=? idx) && (idx <? Z.of_nat (length counts)) then
        if nth (Z.to_nat idx) counts false then Some false
        else is_valid_loop (upd counts (Z.to_nat idx) true) p'
      else None
  end.
Definition is_valid (p : list Z) : option bool := is_valid_loop (repeat false (length p)) p.

(** permutation.hpp:66-72 [compose]. *)
Definition compose (p1 p2 : list nat) : list nat := map (fun u => nthN p1 (nthN p2 u)) (seq 0 (length p2)).

(** permutation.hpp:74-80 [inverse]: the loop [result[permutation[u]] = u]. *)
Definition inverse (p : list nat) : list nat :=
  fold_left (fun r u => upd r (nthN p u) u) (seq 0 (length p)) (repeat 0%nat (length p)).

(** permutation.hpp:82-88 [apply_inverse]: the loop [result[permutation[u]] = a[u]]. *)
Definition apply_inverse {A} (d : A) (p : list nat) (a : list A) : list A :=
  fold_left (fun r u => upd r (nthN p u) (nth u a d)) (seq 0 (length p)) (repeat d (length p)).

(** permutation.hpp:90-96 [apply]. *)
Definition apply {A} (d : A) (p : list nat) (a : list A) : list A :=
  map (fun u => nth (nthN p u) a d) (seq 0 (length p)).

(** permutation.hpp:98-103 [identity]. *)
Definition identity (rank : nat) : list nat := seq 0 rank.

(** permutation.hpp:105-110 [reverse_identity]. *)
Definition reverse_identity (rank : nat) : list nat := map (fun i => rank - 1 - i)%nat (seq 0 rank).

(** permutation.hpp:112-118 [transposition]: [r[i] = j; r[j] = i] on the identity. *)
Definition transposition (rank i j : nat) : list nat := upd (upd (identity rank) i j) j i.

(** permutation.hpp:127-132 [cycle]; C++ [%] truncates towards zero ([Z.rem]). *)
Definition cycle (rank : nat) (p pos : Z) : list Z :=
  map (fun i => let i := Z.of_nat i in if i <? pos then Z.rem (pos + i - p) pos else i) (seq 0 rank).
