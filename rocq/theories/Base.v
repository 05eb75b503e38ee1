(** Generic list / Z facts; nothing in this file mentions nda. *)
From Coq Require Export List Arith ZArith Lia Bool Permutation ZifyBool ZifyNat.
Export ListNotations.
Open Scope Z_scope.

(** total lookup, used only under length side conditions *)
Definition nthZ (l : list Z) (i : nat) : Z := nth i l 0.
Definition nthN (l : list nat) (i : nat) : nat := nth i l 0%nat.

(** list update; no effect out of range *)
Fixpoint upd {A} (l : list A) (i : nat) (x : A) : list A :=
  match l, i with
  | [], _ => []
  | _ :: l', O => x :: l'
  | y :: l', S i' => y :: upd l' i' x
  end.

Definition sumZ (l : list Z) : Z := fold_right Z.add 0 l.
Definition prodZ (l : list Z) : Z := fold_right Z.mul 1 l.
Fixpoint dot (a b : list Z) : Z :=
  match a, b with
  | x :: a', y :: b' => x * y + dot a' b'
  | _, _ => 0
  end.

Lemma upd_length {A} (l : list A) i x : length (upd l i x) = length l.
Proof. revert i; induction l as [|y l IH]; intros [|i]; simpl; auto. Qed.

Lemma nth_upd_eq {A} (l : list A) i x d : (i < length l)%nat -> nth i (upd l i x) d = x.
Proof. revert i; induction l as [|y l IH]; intros [|i] H; simpl in *; try lia; auto. apply IH; lia. Qed.

Lemma nth_upd_neq {A} (l : list A) i j x d : i <> j -> nth j (upd l i x) d = nth j l d.
Proof.
  revert i j; induction l as [|y l IH]; intros [|i] [|j] H; simpl; auto; try congruence.
  all: try (destruct j; reflexivity).
Qed.

Lemma nth_upd {A} (l : list A) i j x d :
  (i < length l)%nat -> nth j (upd l i x) d = if Nat.eqb i j then x else nth j l d.
Proof.
  intros H. destruct (Nat.eqb_spec i j) as [->|Hn].
  - now apply nth_upd_eq.
  - now apply nth_upd_neq.
Qed.

Lemma nth_ext_len {A} (d : A) (l l' : list A) :
  length l = length l' -> (forall i, (i < length l)%nat -> nth i l d = nth i l' d) -> l = l'.
Proof. intros. now apply (nth_ext l l' d d). Qed.

Lemma nth_map_seq {A} (f : nat -> A) n i d : (i < n)%nat -> nth i (map f (seq 0 n)) d = f i.
Proof.
  intros H. rewrite nth_indep with (d' := f 0%nat) by (rewrite map_length, seq_length; lia).
  rewrite map_nth. now rewrite seq_nth by lia.
Qed.

Lemma nth_map_lt {A B} (f : A -> B) l i d d' : (i < length l)%nat -> nth i (map f l) d = f (nth i l d').
Proof.
  intros H. rewrite nth_indep with (d' := f d') by now rewrite map_length. apply map_nth.
Qed.

Lemma map_seq_nth {A} (l : list A) d : map (fun i => nth i l d) (seq 0 (length l)) = l.
Proof.
  apply nth_ext_len with (d := d).
  - now rewrite map_length, seq_length.
  - intros i Hi. rewrite map_length, seq_length in Hi. now rewrite nth_map_seq.
Qed.

Lemma skipn_cons_nth {A} (l : list A) k d : (k < length l)%nat -> skipn k l = nth k l d :: skipn (S k) l.
Proof.
  revert k; induction l as [|x l IH]; intros k H; [simpl in H; lia|].
  destruct k as [|k]; [reflexivity|]. cbn [skipn nth]. simpl in H. apply IH. lia.
Qed.

Lemma sumZ_app a b : sumZ (a ++ b) = sumZ a + sumZ b.
Proof. induction a as [|x a IH]; simpl; auto. rewrite IH; lia. Qed.

Lemma prodZ_app a b : prodZ (a ++ b) = prodZ a * prodZ b.
Proof. induction a as [|x a IH]; cbn [app prodZ fold_right] in *; unfold prodZ in *; simpl; [destruct (fold_right Z.mul 1 b); auto|]. rewrite IH; ring. Qed.

Lemma prodZ_cons x a : prodZ (x :: a) = x * prodZ a.
Proof. reflexivity. Qed.
Lemma sumZ_cons x a : sumZ (x :: a) = x + sumZ a.
Proof. reflexivity. Qed.
Lemma prodZ_nil : prodZ [] = 1.
Proof. reflexivity. Qed.

Lemma sumZ_perm a b : Permutation a b -> sumZ a = sumZ b.
Proof. induction 1; simpl in *; lia. Qed.

Lemma prodZ_perm a b : Permutation a b -> prodZ a = prodZ b.
Proof. induction 1; unfold prodZ in *; simpl in *; try lia; try nia. Qed.

Lemma prodZ_pos l : Forall (fun x => 0 < x) l -> 0 < prodZ l.
Proof. induction 1; rewrite ?prodZ_cons; [reflexivity|]. nia. Qed.

Lemma prodZ_nonneg l : Forall (fun x => 0 <= x) l -> 0 <= prodZ l.
Proof. induction 1; rewrite ?prodZ_cons; [discriminate|]. nia. Qed.

Lemma prodZ_zero l : prodZ l = 0 <-> In 0 l.
Proof.
  induction l as [|x l IH]; rewrite ?prodZ_cons; simpl.
  - split; [discriminate|contradiction].
  - rewrite Z.mul_eq_0, IH. split; intros [H|H]; auto.
Qed.

Lemma dot_sum_seq a b : length a = length b ->
  dot a b = sumZ (map (fun i => nthZ a i * nthZ b i) (seq 0 (length a))).
Proof.
  revert b; induction a as [|x a IH]; intros [|y b] H; simpl in *; try discriminate; auto.
  rewrite IH by lia. rewrite <- seq_shift, map_map. reflexivity.
Qed.

Lemma dot_nil_r a : dot a [] = 0.
Proof. destruct a; reflexivity. Qed.

Lemma dot_app a b c d : length a = length c -> dot (a ++ b) (c ++ d) = dot a c + dot b d.
Proof.
  revert c; induction a as [|x a IH]; intros [|y c] H; simpl in *; try discriminate; auto.
  rewrite IH by lia. lia.
Qed.

Lemma dot_comm a b : dot a b = dot b a.
Proof. revert b; induction a as [|x a IH]; intros [|y b]; simpl; auto. rewrite IH; lia. Qed.

Lemma Forall2_length_eq {A B} (R : A -> B -> Prop) l l' : Forall2 R l l' -> length l = length l'.
Proof. induction 1; simpl; auto. Qed.

Lemma Forall2_nth {A B} (R : A -> B -> Prop) l l' da db :
  Forall2 R l l' <-> length l = length l' /\ forall i, (i < length l)%nat -> R (nth i l da) (nth i l' db).
Proof.
  split.
  - induction 1 as [|x y l l' Hxy H [Hl IH]]; simpl; split; auto; try lia.
    intros [|i] Hi; auto. apply IH; lia.
  - revert l'; induction l as [|x l IH]; intros [|y l'] [Hl H]; simpl in *; try discriminate; constructor.
    + apply (H 0%nat); lia.
    + apply IH; split; [lia|]. intros i Hi. apply (H (S i)); lia.
Qed.

Lemma nth_In_len {A} (l : list A) i d : (i < length l)%nat -> In (nth i l d) l.
Proof. apply nth_In. Qed.

(** ** mixed radix numbers, most significant digit first *)
Fixpoint radix (len dig : list Z) : Z :=
  match len, dig with
  | _ :: len', i :: dig' => i * prodZ len' + radix len' dig'
  | _, _ => 0
  end.

Fixpoint digits (len : list Z) (n : Z) : list Z :=
  match len with
  | [] => []
  | l :: len' => n / prodZ len' :: digits len' (n mod prodZ len')
  end.

Definition inr (i l : Z) : Prop := 0 <= i < l.
Definition in_range (idx len : list Z) : Prop := Forall2 inr idx len.

Lemma in_range_length idx len : in_range idx len -> length idx = length len.
Proof. apply Forall2_length_eq. Qed.

Lemma in_range_pos idx len : in_range idx len -> Forall (fun l => 0 < l) len.
Proof. induction 1 as [|i l idx len H]; constructor; auto. unfold inr in H; lia. Qed.

Lemma radix_bound len dig : in_range dig len -> 0 <= radix len dig < prodZ len.
Proof.
  induction 1 as [|i l dig len H Hr IH]; simpl radix; rewrite ?prodZ_cons; [split; [lia|reflexivity]|].
  pose proof (in_range_pos _ _ Hr) as Hp. apply prodZ_pos in Hp.
  unfold inr in H. nia.
Qed.

Lemma digits_radix len dig : in_range dig len -> digits len (radix len dig) = dig.
Proof.
  induction 1 as [|i l dig len H Hr IH]; simpl; auto.
  pose proof (radix_bound _ _ Hr) as Hb.
  assert (0 < prodZ len) by lia.
  rewrite (Z.add_comm (i * _)), Z.div_add, Z.mod_add by lia.
  rewrite Z.div_small, Z.mod_small by lia. rewrite IH. reflexivity.
Qed.

Lemma digits_length len n : length (digits len n) = length len.
Proof. revert n; induction len as [|l len IH]; intros n; simpl; auto. Qed.

Lemma digits_in_range len n : Forall (fun l => 0 < l) len -> 0 <= n < prodZ len -> in_range (digits len n) len.
Proof.
  intros Hp; revert n; induction Hp as [|l len Hl Hp IH]; intros n Hn; simpl; constructor.
  - rewrite prodZ_cons in Hn. pose proof (prodZ_pos _ Hp). unfold inr. split.
    + apply Z.div_pos; lia.
    + apply Z.div_lt_upper_bound; nia.
  - apply IH. pose proof (prodZ_pos _ Hp). apply Z.mod_pos_bound; lia.
Qed.

Lemma radix_digits len n : Forall (fun l => 0 < l) len -> 0 <= n < prodZ len -> radix len (digits len n) = n.
Proof.
  intros Hp; revert n; induction Hp as [|l len Hl Hp IH]; intros n Hn; simpl.
  - rewrite prodZ_nil in Hn. lia.
  - pose proof (prodZ_pos _ Hp). rewrite IH by (apply Z.mod_pos_bound; lia).
    rewrite (Z.div_mod n (prodZ len)) at 3 by lia. ring.
Qed.

Lemma prodZ_pos_Forall l : Forall (fun x => 0 <= x) l -> 0 < prodZ l -> Forall (fun x => 0 < x) l.
Proof.
  induction 1 as [|x l Hx H IH]; rewrite ?prodZ_cons; intros Hp; constructor.
  - pose proof (prodZ_nonneg _ H). destruct (Z.eq_dec x 0) as [->|]; lia.
  - apply IH. pose proof (prodZ_nonneg _ H). destruct (Z.eq_dec (prodZ l) 0) as [E|]; [rewrite E in Hp; lia|lia].
Qed.

Lemma nth_repeat_any {A} (d : A) n i : nth i (repeat d n) d = d.
Proof. revert i; induction n as [|n IH]; intros [|i]; simpl; auto. Qed.

Lemma filter_length_le' {A} (f : A -> bool) l : (length (filter f l) <= length l)%nat.
Proof. induction l as [|x l IH]; simpl; auto. destruct (f x); simpl; lia. Qed.
