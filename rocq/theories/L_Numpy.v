(** Lemmas about NumPy conversions. *)
From Verif Require Import Base M_Perm M_IdxMap M_Slice M_Loops M_Assign M_Expr M_Transform M_Numpy S_Layout S_Assign S_Numpy
  L_Perm L_IdxMap L_Slice L_Layout L_Loops L_Assign L_Transform P_Assign.

(** 2^64 and 2^63, kept folded *)
Definition two64 : Z := 18446744073709551616.
Definition two63 : Z := 9223372036854775808.
Lemma two64_63 : two64 = 2 * two63 /\ 0 < two63. Proof. split; reflexivity. Qed.
Lemma to_long_id z : - two63 <= z < two63 -> to_long z = z.
Proof. intros H. unfold to_long. fold two64 two63. rewrite Z.mod_small; pose proof two64_63; lia. Qed.
Lemma to_long_cong a b : a mod two64 = b mod two64 -> to_long a = to_long b.
Proof. intros H. unfold to_long. fold two64 two63. rewrite <- (Z.add_mod_idemp_l a), <- (Z.add_mod_idemp_l b) by discriminate. now rewrite H. Qed.
Lemma bytes_stride s w : - two63 <= s * w < two63 -> to_long (to_size_t (to_size_t s * w)) = s * w.
Proof.
  intros H. transitivity (to_long (s * w)); [|now apply to_long_id]. apply to_long_cong. unfold to_size_t. fold two64. rewrite Z.mod_mod by discriminate. now rewrite Z.mul_mod_idemp_l by discriminate.
Qed.
Lemma element_stride s w : 0 < w -> 0 <= s < two63 -> to_long (to_size_t s / w) = s / w.
Proof.
  intros Hw Hs. pose proof two64_63 as [H1 H2]. unfold to_size_t. fold two64. rewrite Z.mod_small by lia. apply to_long_id. split; [pose proof (Z.div_pos s w); lia|]. apply Z.le_lt_trans with s; [|lia]. apply Z.div_le_upper_bound; nia.
Qed.
(** a negative stride of k elements *)
Lemma negative_stride w k : 1 < w -> 0 < k -> k * w < two63 -> to_long (to_size_t (- (k * w)) / w) = (two64 - k * w) / w.
Proof.
  intros Hw Hk Hb. pose proof two64_63 as [H1 H2]. unfold to_size_t. fold two64. replace (- (k * w)) with (two64 - k * w + (-1) * two64) by lia. rewrite Z.mod_add by discriminate. rewrite Z.mod_small by nia.
  apply to_long_id. split; [pose proof (Z.div_pos (two64 - k * w) w); nia|]. apply Z.div_lt_upper_bound; nia.
Qed.

Lemma dot_scaled w (f : Z -> Z) idx dims strides : in_range idx dims -> length strides = length dims ->
  (forall d, (d < length dims)%nat -> 1 < nthZ dims d -> w * f (nthZ strides d) = nthZ strides d) -> w * dot idx (map f strides) = dot idx strides.
Proof.
  intros Hr. revert strides. induction Hr as [|i l idx dims Hi Hr IH]; intros [|s strides] L Hd; try discriminate; cbn [map dot]; [lia|].
  rewrite Z.mul_add_distr_l. rewrite IH; [|cbn [length] in L; lia|intros d H1 H2; exact (Hd (S d) ltac:(cbn [length]; lia) H2)]. f_equal.
  unfold inr in Hi. destruct (Z.eq_dec l 1) as [->|N]; [replace i with 0 by lia; lia|]. pose proof (Hd 0%nat ltac:(cbn [length]; lia)) as H. cbn in H. specialize (H ltac:(lia)). rewrite <- H at 2. ring.
Qed.
Lemma firstn_same {A} (l : list A) n : length l = n -> firstn n l = l.
Proof. intros <-. apply firstn_all. Qed.

(** C order of a new NumPy array *)
Lemma c_strides_length w shape : length (c_strides w shape) = length shape.
Proof. induction shape as [|d s IH]; cbn [c_strides length]; auto. Qed.
Lemma dot_c_strides w shape idx : in_range idx shape -> dot idx (c_strides w shape) = w * radix shape idx.
Proof.
  induction 1 as [|i d idx shape Hi Hr IH]; cbn [c_strides dot radix]; [lia|]. rewrite IH. replace (prodZ (map (Z.max 1) shape)) with (prodZ shape); [ring|].
  f_equal. clear -Hr. induction Hr as [|i d idx shape Hi Hr IH]; cbn [map]; [reflexivity|]. unfold inr in Hi. rewrite Z.max_r by lia. now f_equal.
Qed.
Lemma prod_max_pos shape : 1 <= prodZ (map (Z.max 1) shape).
Proof. induction shape as [|d s IH]; cbn [map]; [reflexivity|]. rewrite prodZ_cons. pose proof (Z.le_max_l 1 d). nia. Qed.
Lemma c_strides_nth w shape d : (d < length shape)%nat -> nthZ (c_strides w shape) d = w * prodZ (map (Z.max 1) (skipn (S d) shape)).
Proof.
  revert d. induction shape as [|x s IH]; intros d Hd; [cbn in Hd; lia|]. destruct d as [|d]; cbn [c_strides nthZ nth skipn]; [reflexivity|]. apply IH. cbn [length] in Hd. lia.
Qed.
Lemma c_strides_decrease w shape a b : 0 <= w -> (a <= b < length shape)%nat -> nthZ (c_strides w shape) b <= nthZ (c_strides w shape) a.
Proof.
  intros Hw [Hab Hb]. induction Hab as [|b Hab IH]; [lia|]. specialize (IH ltac:(lia)). apply Z.le_trans with (nthZ (c_strides w shape) b); [|exact IH].
  rewrite !c_strides_nth by lia. rewrite (skipn_cons_nth shape (S b) 0) by lia. cbn [map]. rewrite prodZ_cons. pose proof (prod_max_pos (skipn (S (S b)) shape)) as P. pose proof (Z.le_max_l 1 (nth (S b) shape 0)) as Q. apply Z.mul_le_mono_nonneg_l; [exact Hw|]. nia.
Qed.
Lemma filter_sorted (f : nat -> bool) : forall len start n, (S n < length (filter f (seq start len)))%nat ->
  (nthN (filter f (seq start len)) n < nthN (filter f (seq start len)) (S n))%nat.
Proof.
  assert (B : forall len start n, (n < length (filter f (seq start len)))%nat -> (start <= nthN (filter f (seq start len)) n < start + len)%nat).
  { intros len start n Hn. apply in_seq, (filter_In f). now apply nth_In. }
  induction len as [|len IH]; intros start n Hn; cbn [seq filter length] in Hn |- *; [lia|]. destruct (f start); [|now apply IH].
  destruct n as [|n]; cbn [length] in Hn.
  - change (nthN (start :: filter f (seq (S start) len)) 0) with start. change (nthN (start :: filter f (seq (S start) len)) 1) with (nthN (filter f (seq (S start) len)) 0). pose proof (B len (S start) 0%nat ltac:(lia)). lia.
  - exact (IH (S start) n ltac:(lia)).
Qed.
Lemma c_order_valid dims strides R se : length dims = R -> Forall (fun s => 0 <= s) strides -> (forall a b, (a <= b < R)%nat -> nthZ strides b <= nthZ strides a) ->
  is_stride_order_valid (IdxMap dims strides (identity R) se LP_none) = true.
Proof.
  intros Hl Hp Hd. unfold is_stride_order_valid. cbn [im_len im_str im_so]. unfold identity. set (f := fun d => 1 <? nthZ dims d). apply forallb_forall. intros n Hn. apply in_seq in Hn.
  destruct n as [|n]; [lia|]. replace (S n - 1)%nat with n by lia. pose proof (filter_sorted f R 0 n ltac:(fold f in Hn; lia)) as H.
  assert (B : (nthN (filter f (seq 0 R)) (S n) < R)%nat) by (assert (I : In (nthN (filter f (seq 0 R)) (S n)) (seq 0 R)) by (apply (filter_In f); apply nth_In; fold f in Hn; lia); apply in_seq in I; lia).
  set (a := nthN (filter f (seq 0 R)) n) in *. set (b := nthN (filter f (seq 0 R)) (S n)) in *. specialize (Hd a b ltac:(lia)).
  assert (P : forall k, 0 <= nthZ strides k) by (intros k; unfold nthZ; destruct (Nat.lt_ge_cases k (length strides)) as [Hk|Hk]; [rewrite Forall_forall in Hp; apply Hp, nth_In; exact Hk|rewrite nth_overflow by lia; lia]).
  pose proof (P a). pose proof (P b). rewrite !Z.abs_eq by auto. apply negb_true_iff, Z.ltb_ge. exact Hd.
Qed.
Lemma adjacent_all (g : nat -> Z) l : (forall n, (1 <= n < length l)%nat -> g (nthN l n) <= g (nthN l (n - 1))) -> forall i j, (i <= j < length l)%nat -> g (nthN l j) <= g (nthN l i).
Proof.
  intros H i j [Hij Hj]. induction Hij as [|j Hij IH]; [lia|]. specialize (IH ltac:(lia)). specialize (H (S j) ltac:(lia)). replace (S j - 1)%nat with j in H by lia. lia.
Qed.
Lemma filter_place (f : nat -> bool) : forall len start a b, (start <= a < b)%nat -> (b < start + len)%nat -> f a = true -> f b = true ->
  exists i j, (i < j < length (filter f (seq start len)))%nat /\ nthN (filter f (seq start len)) i = a /\ nthN (filter f (seq start len)) j = b.
Proof.
  induction len as [|len IH]; intros start a b Ha Hb Fa Fb; [lia|]. cbn [seq filter]. destruct (Nat.eq_dec a start) as [->|N].
  - rewrite Fa. assert (I : In b (filter f (seq (S start) len))) by (apply filter_In; split; [apply in_seq; lia|exact Fb]). destruct (In_nth _ _ 0%nat I) as (j & Hj & E). exists 0%nat, (S j). cbn [length]. split; [lia|]. split; [reflexivity|exact E].
  - destruct (IH (S start) a b ltac:(lia) ltac:(lia) Fa Fb) as (i & j & Hij & E1 & E2). destruct (f start); [exists (S i), (S j)|exists i, j]; cbn [length]; (split; [lia|]); split; assumption.
Qed.
Lemma c_order_exact dims strides R se p : length dims = R -> is_stride_order_valid (IdxMap dims strides (identity R) se p) = true <-> in_c_order dims strides.
Proof.
  intros <-. unfold is_stride_order_valid. cbn [im_len im_str im_so]. unfold identity. set (f := fun d => 1 <? nthZ dims d). rewrite forallb_forall. split.
  - intros H a b Hab Ha Hb. destruct (filter_place f (length dims) 0 a b) as (i & j & Hij & E1 & E2); [lia|lia|now apply Z.ltb_lt|now apply Z.ltb_lt|]. rewrite <- E1, <- E2.
    apply (adjacent_all (fun d => Z.abs (nthZ strides d)) (filter f (seq 0 (length dims)))); [|lia]. intros n Hn. specialize (H n ltac:(apply in_seq; lia)). apply negb_true_iff, Z.ltb_ge in H. exact H.
  - intros H n Hn. apply in_seq in Hn. destruct n as [|n]; [lia|]. replace (S n - 1)%nat with n by lia. apply negb_true_iff, Z.ltb_ge.
    assert (I : forall k, (k < length (filter f (seq 0 (length dims))))%nat -> (nthN (filter f (seq 0 (length dims))) k < length dims)%nat /\ 1 < nthZ dims (nthN (filter f (seq 0 (length dims))) k)) by (intros k Hk; pose proof (nth_In _ 0%nat Hk) as I; apply filter_In in I; destruct I as [I1 I2]; apply in_seq in I1; split; [exact (proj2 I1)|now apply Z.ltb_lt]).
    destruct (I n ltac:(lia)) as [_ I1]. destruct (I (S n) ltac:(lia)) as [I2 I3]. apply H; auto. split; [|exact I2]. apply filter_sorted. lia.
Qed.
