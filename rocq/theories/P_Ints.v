(** C78: arrays of integers. *)
From Verif Require Import Base M_Loops M_Expr M_Ints S_Layout S_Loops S_Expr S_Ints L_Loops L_Expr L_Ints.

(** ** expressions *)
(** If no operand or intermediate result leaves the type it is computed in, the elements are those of integer arithmetic; stored in an
    array they are unchanged if they are values of its type. *)
Theorem C78_expression e idx z t : proper_types e -> no_overflow e idx -> imeans e idx = Some z -> proper t -> value t z -> ieval e idx = Some z /\ istored t e idx = Some z.
Proof. intros P N E Q V. destruct (ieval_exact e idx z P N E) as (H & _). unfold istored. rewrite H, conv_value; auto. Qed.
Print Assumptions C78_expression.
(** a value that does not fit in the array is stored wrapped *)
Theorem C78_stored e idx z t : proper t -> ieval e idx = Some z -> exists r, istored t e idx = Some r /\ wrapped t z r.
Proof. intros P E. unfold istored. rewrite E. eexists. split; [reflexivity|]. now apply conv_wrapped. Qed.
Print Assumptions C78_stored.
(** unsigned arrays of 32 bits and more compute modulo 2^w, whatever overflows on the way *)
Theorem C78_unsigned w e idx : 32 <= w -> made_of (TUnsigned w) e -> exists z, imeans e idx = Some z /\ istored (TUnsigned w) e idx = Some (z mod 2 ^ w).
Proof. intros W M. destruct (ieval_modular w e idx W M) as (z & r & E1 & E2 & E3 & _). exists z. split; auto. unfold istored. rewrite E2. cbn [conv]. now rewrite E3. Qed.
Print Assumptions C78_unsigned.
(** int and wider: a sum, difference or product that is not a value of the type is undefined behaviour, any other is right *)
Theorem C78_signed t op a b idx z r : signed t -> op <> OpDiv -> value t (a idx) -> value t (b idx) -> imeans (IBin op (IArr t a) (IArr t b)) idx = Some z ->
  ieval (IBin op (IArr t a) (IArr t b)) idx = Some r <-> r = z /\ value t z.
Proof.
  intros S D Va Vb E. assert (PT : promote t = t) by (apply wide_promote; destruct t; cbn [signed] in S; tauto). assert (P : proper t) by (destruct t; cbn [signed proper] in *; try contradiction; lia).
  cbn [ieval both type_of]. unfold binary. rewrite common_self, PT. rewrite !conv_value by auto. unfold iop. cbn [imeans] in E.
  assert (X : exact_op op (a idx) (b idx) = Some z) by (destruct op; exact E). rewrite X. now apply fit_signed.
Qed.
Print Assumptions C78_signed.
(** Mixed signs: -1 of type int divided by 2 of type unsigned is not 0, although that is a value of the type of the result. *)
Theorem C78_mixed_signs_refuted : exists e idx z, proper_types e /\ imeans e idx = Some z /\ value (type_of e) z /\ ieval e idx = Some 2147483647 /\ z = 0.
Proof. exists (IBin OpDiv (INum (TSigned 32) (-1)) (INum (TUnsigned 32) 2)), [], 0. vm_compute. repeat split; congruence. Qed.
Print Assumptions C78_mixed_signs_refuted.

(** ** sum and product *)
(** The result of sum has at least the type int; it is the sum iff every sum of first elements is a value of that type, else the
    behaviour is undefined. *)
Theorem C78_sum t shape a : proper t -> signed (promote t) -> has_type t shape a -> exists L, lists_all_indices shape L /\
  forall s, int_sum t shape a = Some s <-> s = sumZ (map a L) /\ forall k, value (promote t) (sumZ (firstn k (map a L))).
Proof.
  intros P S V. exists (all_idx shape). split; [split; [intros; apply all_idx_In|apply all_idx_sorted]|]. intros s. unfold int_sum, int_fold. rewrite fold_list.
  assert (V0 : value (promote t) 0) by (destruct (promote t) as [|w|w]; cbn [signed value] in *; try contradiction; pose proof (pow2_pos (w - 1) ltac:(lia)); lia).
  rewrite conv_value by (auto using promote_proper). rewrite (acc_signed t OpPlus) by (auto; try (now left); intros x Hx; apply in_map_iff in Hx; destruct Hx as (idx & <- & Hi); apply V; now apply all_idx_In).
  cbn [zop]. unfold so_far. rewrite sum_left, Z.add_0_l. split; intros [E H]; split; auto; intros k; specialize (H k); rewrite sum_left, Z.add_0_l in *; exact H.
Qed.
Theorem C78_product t shape a : proper t -> signed (promote t) -> has_type t shape a -> exists L, lists_all_indices shape L /\
  forall s, int_product t shape a = Some s <-> s = prodZ (map a L) /\ forall k, value (promote t) (prodZ (firstn k (map a L))).
Proof.
  intros P S V. exists (all_idx shape). split; [split; [intros; apply all_idx_In|apply all_idx_sorted]|]. intros s. unfold int_product, int_fold. rewrite fold_list.
  assert (V1 : value (promote t) 1) by (destruct (promote t) as [|w|w]; cbn [signed value] in *; try contradiction; pose proof (pow2_le 1 (w - 1) ltac:(lia) ltac:(lia)); lia).
  rewrite conv_value by (auto using promote_proper). rewrite (acc_signed t OpTimes) by (auto; try (now right); intros x Hx; apply in_map_iff in Hx; destruct Hx as (idx & <- & Hi); apply V; now apply all_idx_In).
  cbn [zop]. unfold so_far. rewrite prod_left, Z.mul_1_l. split; intros [E H]; split; auto; intros k; specialize (H k); rewrite prod_left, Z.mul_1_l in *; exact H.
Qed.
Print Assumptions C78_sum.
Print Assumptions C78_product.

Lemma sumZ_perm l l' : Permutation l l' -> sumZ l = sumZ l'.
Proof. induction 1; unfold sumZ in *; cbn in *; lia. Qed.
Lemma prodZ_perm l l' : Permutation l l' -> prodZ l = prodZ l'.
Proof. induction 1 as [|x l l' _ IH|x y l|l l' l'' _ IH1 _ IH2]; unfold prodZ in *; cbn in *; [auto|rewrite IH; auto|ring|congruence]. Qed.
Lemma sum_bound b l : (forall x, In x l -> Z.abs x <= b) -> Z.abs (sumZ l) <= Z.of_nat (length l) * b.
Proof. induction l as [|x l IH]; intros H; [cbn; lia|]. pose proof (H x (or_introl eq_refl)). specialize (IH (fun y Hy => H y (or_intror Hy))). change (sumZ (x :: l)) with (x + sumZ l). cbn [length]. rewrite Nat2Z.inj_succ, Z.mul_succ_l. lia. Qed.
(** Types narrower than int: the sum is right for up to 2^31 / 2^w elements, though it may not be a value of the element type; the sum of
    an array of bool is the number of true elements. *)
Theorem C78_sum_narrow t shape a L : proper t -> narrow t -> has_type t shape a -> enumerates shape L -> Z.of_nat (length L) * 2 ^ bits t <= 2 ^ 31 -> int_sum t shape a = Some (sumZ (map a L)).
Proof.
  intros P N V HL Hn. pose proof (enumerates_perm shape L HL) as Pm. rewrite (sumZ_perm _ _ (Permutation_map a Pm)). rewrite (Permutation_length Pm) in Hn.
  assert (PT : promote t = int_t) by (destruct t as [|w|w]; cbn [promote narrow] in *; auto; destruct (Z.ltb_spec w 32); auto; lia).
  assert (VL : forall x, In x (map a (all_idx shape)) -> value t x) by (intros x Hx; apply in_map_iff in Hx; destruct Hx as (idx & <- & Hi); apply V; now apply all_idx_In).
  assert (B : forall x, In x (map a (all_idx shape)) -> Z.abs x <= 2 ^ bits t - 1).
  { intros x Hx. specialize (VL x Hx). destruct t as [|w|w]; cbn [value bits proper] in *; [lia| |lia]. pose proof (pow2_half w ltac:(lia)). pose proof (pow2_le 1 (w - 1) ltac:(lia) ltac:(lia)). lia. }
  unfold int_sum, int_fold. rewrite fold_list. rewrite PT. change (conv int_t 0) with 0. rewrite <- PT.
  apply (acc_signed t OpPlus); auto; [now left|rewrite PT; cbn; lia|rewrite PT; cbn; lia|]. cbn [zop]. rewrite sum_left, Z.add_0_l. split; auto. intros k. unfold so_far. rewrite sum_left, Z.add_0_l, PT. cbn [value int_t].
  pose proof (sum_bound (2 ^ bits t - 1) (firstn k (map a (all_idx shape)))) as SB.
  assert (SB' : Z.abs (sumZ (firstn k (map a (all_idx shape)))) <= Z.of_nat (length (firstn k (map a (all_idx shape)))) * (2 ^ bits t - 1)) by (apply SB; intros x Hx; apply B; rewrite <- (firstn_skipn k (map a (all_idx shape))); apply in_or_app; now left).
  assert (K : (length (firstn k (map a (all_idx shape))) <= length (all_idx shape))%nat) by (rewrite firstn_length, map_length; lia). change (32 - 1) with 31.
  assert (0 < 2 ^ bits t) by (apply pow2_pos; destruct t; cbn in *; lia). nia.
Qed.
Print Assumptions C78_sum_narrow.
(** unsigned types of 32 bits and more: modulo 2^w, in any order *)
Theorem C78_sum_unsigned w shape a L : 32 <= w -> enumerates shape L -> int_sum (TUnsigned w) shape a = Some (sumZ (map a L) mod 2 ^ w) /\ int_product (TUnsigned w) shape a = Some (prodZ (map a L) mod 2 ^ w).
Proof.
  intros W HL. pose proof (Permutation_map a (enumerates_perm shape L HL)) as Pm. rewrite (sumZ_perm _ _ Pm), (prodZ_perm _ _ Pm). unfold int_sum, int_product, int_fold. rewrite !fold_list.
  assert (PW : promote (TUnsigned w) = TUnsigned w) by (apply wide_promote; exact W). rewrite PW. cbn [conv].
  pose proof (acc_unsigned w OpPlus (map a (all_idx shape)) 0 (or_introl eq_refl) W) as E1. pose proof (acc_unsigned w OpTimes (map a (all_idx shape)) 1 (or_intror eq_refl) W) as E2. cbn [zop] in *.
  rewrite sum_left, Z.add_0_l in E1. rewrite prod_left, Z.mul_1_l in E2. split; assumption.
Qed.
Print Assumptions C78_sum_unsigned.
(** Products of elements none of which is 0 are right if they are not too large for the type; *)
Theorem C78_product_nonzero t w shape a L : proper t -> promote t = TSigned w -> has_type t shape a -> enumerates shape L -> (forall idx, in_range idx shape -> a idx <> 0) ->
  Z.abs (prodZ (map a L)) < 2 ^ (w - 1) -> int_product t shape a = Some (prodZ (map a L)).
Proof.
  intros P PT V HL NZ B. pose proof (Permutation_map a (enumerates_perm shape L HL)) as Pm. rewrite (prodZ_perm _ _ Pm) in *. assert (W : 32 <= w) by (pose proof (promote_wide t) as H; rewrite PT in H; exact H).
  assert (S : signed (promote t)) by (rewrite PT; exact W). unfold int_product, int_fold. rewrite fold_list. pose proof (pow2_le 1 (w - 1) ltac:(lia) ltac:(lia)) as H2.
  assert (V1 : value (promote t) 1) by (rewrite PT; cbn; lia). rewrite conv_value by (auto using promote_proper).
  apply (acc_signed t OpTimes); auto; [now right| |]; [intros x Hx; apply in_map_iff in Hx; destruct Hx as (idx & <- & Hi); apply V; now apply all_idx_In|].
  cbn [zop]. rewrite prod_left, Z.mul_1_l. split; auto. intros k. unfold so_far. rewrite prod_left, Z.mul_1_l, PT. cbn [value].
  assert (G : forall l1 l2, prodZ (l1 ++ l2) = prodZ l1 * prodZ l2) by (intros l1 l2; induction l1 as [|x l1 IH]; unfold prodZ in *; cbn [app fold_right]; [ring|rewrite IH; ring]).
  rewrite <- (firstn_skipn k (map a (all_idx shape))), G, Z.abs_mul in B.
  assert (NZ2 : prodZ (skipn k (map a (all_idx shape))) <> 0).
  { assert (H : forall l, (forall x, In x l -> x <> 0) -> prodZ l <> 0) by (induction l as [|x l IH]; intros H; unfold prodZ in *; cbn; [lia|]; specialize (IH (fun y Hy => H y (or_intror Hy))); pose proof (H x (or_introl eq_refl)); nia).
    apply H. intros x Hx. assert (Hx' : In x (map a (all_idx shape))) by (rewrite <- (firstn_skipn k (map a (all_idx shape))); apply in_or_app; now right). apply in_map_iff in Hx'. destruct Hx' as (idx & <- & Hi). apply NZ. now apply all_idx_In. }
  nia.
Qed.
Print Assumptions C78_product_nonzero.
(** but elements whose sum is a value of the type may be summed in an order that overflows, and so may a product that is 0 *)
Theorem C78_order_refuted : exists a b, has_type int_t [3] a /\ has_type int_t [3] b /\ value int_t (a [0] + a [1] + a [2]) /\ int_sum int_t [3] a = None /\ int_sum int_t [3] b = Some (a [0] + a [1] + a [2]) /\
  b [0] = a [0] /\ b [1] = a [2] /\ b [2] = a [1].
Proof.
  exists (fun idx => nthZ [2147483647; 1; -1] (Z.to_nat (nthZ idx 0))), (fun idx => nthZ [2147483647; -1; 1] (Z.to_nat (nthZ idx 0))).
  assert (H : forall l, (forall k, In k [0; 1; 2]%nat -> value int_t (nthZ l k)) -> has_type int_t [3] (fun idx => nthZ l (Z.to_nat (nthZ idx 0)))).
  { intros l H idx Hi. apply H. apply all_idx_In in Hi. vm_compute in Hi. destruct Hi as [<-|[<-|[<-|[]]]]; cbn; auto. }
  split; [|split]; [apply H; intros k [<-|[<-|[<-|[]]]]; cbn; lia|apply H; intros k [<-|[<-|[<-|[]]]]; cbn; lia|]. vm_compute. repeat split; congruence.
Qed.
Theorem C78_zero_product_refuted : int_product int_t [3] (fun idx => nthZ [65536; 65536; 0] (Z.to_nat (nthZ idx 0))) = None.
Proof. vm_compute. reflexivity. Qed.
Print Assumptions C78_order_refuted.
Print Assumptions C78_zero_product_refuted.

(** ** frobenius_norm: right iff the square of every element is a value of its (promoted) type *)
Theorem C78_frobenius t shape a : proper t -> signed (promote t) -> has_type t shape a -> exists L, lists_all_indices shape L /\
  forall s, int_frobenius t shape a = Some s <-> s = sumZ (map (fun idx => a idx * a idx) L) /\ forall idx, in_range idx shape -> value (promote t) (a idx * a idx).
Proof.
  intros P S V. pose proof (promote_proper t P) as Q. exists (all_idx shape). split; [split; [intros; apply all_idx_In|apply all_idx_sorted]|]. intros s. unfold int_frobenius. rewrite fold_list.
  assert (G : forall l i, (forall x, In x l -> value t x) -> fold_left (fun r x => match r, int_abs t x with Some r, Some ab => match binary (promote t) (promote t) OpTimes ab ab with Some p => Some (r + p) | None => None end | _, _ => None end) l (Some i) = Some s <->
     s = i + sumZ (map (fun x => x * x) l) /\ forall x, In x l -> value (promote t) (x * x)).
  { induction l as [|x l IH]; intros i Vl; cbn [fold_left map].
    - cbn. split; [intros E; injection E as <-; split; [lia|contradiction]|intros [-> _]; f_equal; lia].
    - assert (Vx : value (promote t) x) by (apply promote_value; auto; apply Vl; cbn; auto).
      assert (D : (exists ab, int_abs t x = Some ab /\ ab * ab = x * x /\ value (promote t) ab) \/ int_abs t x = None /\ ~ value (promote t) (x * x)).
      { unfold int_abs. destruct (Z.ltb_spec x 0) as [Hx|Hx]; [|left; eauto]. destruct (inside (promote t) (- x)) eqn:E; [apply inside_value in E; left; exists (- x); rewrite fit_value by auto; repeat split; auto; lia|].
        right. assert (Nv : ~ value (promote t) (- x)) by (rewrite <- inside_value; congruence). split; [now apply fit_signed_none|]. intros C. apply Nv. destruct (promote t) as [|w|w]; cbn [signed value] in *; try contradiction. nia. }
      destruct D as [(ab & -> & Eab & Vab)|[-> Nv]].
      + rewrite binary_self by (auto; now right). rewrite promote_idem. cbn [zop]. rewrite Eab. destruct (inside (promote t) (x * x)) eqn:E.
        * apply inside_value in E. rewrite fit_value by auto. rewrite IH by (intros; apply Vl; cbn; auto). change (sumZ (x * x :: map (fun x => x * x) l)) with (x * x + sumZ (map (fun x => x * x) l)).
          split; intros [-> H]; split; try lia; intros y Hy; [destruct Hy as [<-|Hy]; auto|apply H; cbn; auto].
        * assert (Nv : ~ value (promote t) (x * x)) by (rewrite <- inside_value; congruence). rewrite (fit_signed_none _ _ S Nv), fold_none by auto. split; [discriminate|]. intros [_ H]. contradiction (Nv (H x (or_introl eq_refl))).
      + rewrite fold_none by auto. split; [discriminate|]. intros [_ H]. contradiction (Nv (H x (or_introl eq_refl))). }
  rewrite G, map_map, Z.add_0_l by (intros x Hx; apply in_map_iff in Hx; destruct Hx as (idx & <- & Hi); apply V; now apply all_idx_In).
  split; intros [E H]; split; auto.
  - intros idx Hi. apply H. apply in_map. now apply all_idx_In.
  - intros x Hx. apply in_map_iff in Hx. destruct Hx as (idx & <- & Hi). apply H. now apply all_idx_In.
Qed.
Print Assumptions C78_frobenius.
(** the norm of the 1 x 1 matrix of int with element 46341 is 46341, and undefined behaviour *)
Theorem C78_frobenius_refuted : has_type int_t [1; 1] (fun _ => 46341) /\ int_frobenius int_t [1; 1] (fun _ => 46341) = None.
Proof. split; [intros idx _; cbn; lia|vm_compute; reflexivity]. Qed.
Print Assumptions C78_frobenius_refuted.

(** ** trace: accumulates in the element type *)
Lemma trace_acc t shape a : int_trace t shape a = fold_left (acc_conv t OpPlus) (map (fun i => a [i; i]) (zseq (nthZ shape 0))) (Some 0).
Proof. unfold int_trace. generalize (Some 0). induction (zseq (nthZ shape 0)) as [|i l IH]; intros r; cbn [fold_left map]; auto. Qed.
Lemma trace_values t n a : has_type t [n; n] a -> forall x, In x (map (fun i => a [i; i]) (zseq n)) -> value t x.
Proof.
  intros V x Hx. apply in_map_iff in Hx. destruct Hx as (i & <- & Hi). apply V. apply zseq_In in Hi. repeat constructor; lia.
Qed.
(** int and wider: right iff no partial sum overflows, else undefined; unsigned of 32 bits and more: modulo 2^w; *)
Theorem C78_trace t n a s : signed t -> has_type t [n; n] a -> int_trace t [n; n] a = Some s <-> s = sumZ (map (fun i => a [i; i]) (zseq n)) /\ forall k, value t (sumZ (firstn k (map (fun i => a [i; i]) (zseq n)))).
Proof.
  intros S V. rewrite trace_acc. change (nthZ [n; n] 0) with n. rewrite (acc_conv_signed t OpPlus); auto; [|now left|now apply trace_values|destruct t as [|w|w]; cbn [signed value] in *; try contradiction; pose proof (pow2_pos (w - 1) ltac:(lia)); lia].
  cbn [zop]. unfold so_far. rewrite sum_left, Z.add_0_l. split; intros [E H]; split; auto; intros k; specialize (H k); rewrite sum_left, Z.add_0_l in *; exact H.
Qed.
Theorem C78_trace_unsigned w n a : 32 <= w -> int_trace (TUnsigned w) [n; n] a = Some (sumZ (map (fun i => a [i; i]) (zseq n)) mod 2 ^ w).
Proof.
  intros W. rewrite trace_acc. change (nthZ [n; n] 0) with n. pose proof (acc_conv_unsigned w OpPlus (map (fun i => a [i; i]) (zseq n)) 0 (or_introl eq_refl) W) as E. cbn [zop] in E. rewrite sum_left, Z.add_0_l in E. exact E.
Qed.
(** narrower types than int: never undefined, but wrapped; *)
Theorem C78_trace_narrow t n a : proper t -> narrow t -> t <> TBool -> has_type t [n; n] a -> exists s, int_trace t [n; n] a = Some s /\ wrapped t (sumZ (map (fun i => a [i; i]) (zseq n))) s.
Proof.
  intros P N B V. rewrite trace_acc. change (nthZ [n; n] 0) with n.
  assert (PT : promote t = int_t) by (destruct t as [|w|w]; cbn [promote narrow] in *; auto; destruct (Z.ltb_spec w 32); auto; lia).
  assert (C0 : conv t 0 = 0). { apply conv_value; auto. destruct t as [|w|w]; cbn [value proper] in *; auto; [pose proof (pow2_pos (w - 1) ltac:(lia))|pose proof (pow2_pos w ltac:(lia))]; lia. }
  pose proof (acc_conv_small t OpPlus (map (fun i => a [i; i]) (zseq n)) 0 (or_introl eq_refl) P B) as E. rewrite C0 in E. rewrite E; [|intros x y Vx Vy; rewrite PT; cbn [zop value int_t]|now apply trace_values].
  - cbn [zop]. rewrite sum_left, Z.add_0_l. eexists. split; [reflexivity|]. now apply conv_wrapped.
  - destruct t as [|w|w]; cbn [value narrow proper] in *; try congruence; [pose proof (pow2_le (w - 1) 16 ltac:(lia) ltac:(lia))|pose proof (pow2_le w 16 ltac:(lia) ltac:(lia))]; lia.
Qed.
Print Assumptions C78_trace.
Print Assumptions C78_trace_unsigned.
Print Assumptions C78_trace_narrow.
(** ... 256 for a matrix of unsigned char is 0, where sum gives 256; and the trace of a matrix of bool is at most 1, where sum counts. *)
Theorem C78_trace_refuted : int_trace (TUnsigned 8) [2; 2] (fun _ => 128) = Some 0 /\ int_sum (TUnsigned 8) [2] (fun _ => 128) = Some 256 /\
  int_trace TBool [2; 2] (fun _ => 1) = Some 1 /\ int_sum TBool [2] (fun _ => 1) = Some 2.
Proof. vm_compute. auto. Qed.
Print Assumptions C78_trace_refuted.

(** ** dot of integer vectors with at least one element, possibly of different types with a signed common type *)
Theorem C78_dot t u n x y : 1 <= n -> proper t -> proper u -> signed (common t u) -> (forall i, 0 <= i < n -> value t (x i) /\ value u (y i)) -> forall s,
  int_dot t u n x y = Some s <-> s = sumZ (map (fun i => x i * y i) (zseq n)) /\ (forall i, 0 <= i < n -> value (common t u) (x i * y i)) /\ forall k, value (common t u) (sumZ (firstn k (map (fun i => x i * y i) (zseq n)))).
Proof.
  intros Hn P Q S V s. set (c := common t u) in *. pose proof (common_proper t u P Q) as R. fold c in R. assert (PC : promote c = c) by apply promote_common.
  assert (Bm : forall i, 0 <= i < n -> binary t u OpTimes (x i) (y i) = fit c (x i * y i)).
  { intros i Hi. destruct (V i Hi) as [Vx Vy]. unfold binary. fold c. rewrite !conv_value by (auto; apply common_signed; auto). reflexivity. }
  assert (V0 : value c 0) by (destruct c as [|w|w]; cbn [signed value] in *; try contradiction; pose proof (pow2_pos (w - 1) ltac:(lia)); lia).
  assert (G : forall l i, (forall j, In j l -> 0 <= j < n) -> value c i -> fold_left (fun r i => both r (binary t u OpTimes (x i) (y i)) (binary c c OpPlus)) l (Some i) = Some s <->
     s = i + sumZ (map (fun i => x i * y i) l) /\ (forall j, In j l -> value c (x j * y j)) /\ forall k, value c (i + sumZ (firstn k (map (fun i => x i * y i) l)))).
  { induction l as [|j l IH]; intros i Hl Vi; cbn [fold_left map].
    - split; [intros E; injection E as <-; split; [cbn; lia|split; [contradiction|]]|intros [-> _]; f_equal; cbn; lia]. intros k. rewrite firstn_nil. cbn. now rewrite Z.add_0_r.
    - assert (Hj : 0 <= j < n) by (apply Hl; cbn; auto). rewrite (Bm j Hj). change (sumZ (x j * y j :: map (fun i => x i * y i) l)) with (x j * y j + sumZ (map (fun i => x i * y i) l)).
      destruct (inside c (x j * y j)) eqn:E.
      + apply inside_value in E. rewrite fit_value by auto. cbn [both]. rewrite binary_self by (auto; now left). rewrite PC. cbn [zop]. destruct (inside c (i + x j * y j)) eqn:E2.
        * apply inside_value in E2. rewrite fit_value by auto. rewrite IH by (auto; intros; apply Hl; cbn; auto). split.
          -- intros (-> & H1 & H2). split; [lia|]. split; [intros q [<-|Hq]; auto|]. intros [|k]; [cbn; now rewrite Z.add_0_r|]. cbn [firstn]. change (sumZ (x j * y j :: firstn k (map (fun i => x i * y i) l))) with (x j * y j + sumZ (firstn k (map (fun i => x i * y i) l))). rewrite Z.add_assoc. apply H2.
          -- intros (-> & H1 & H2). split; [lia|]. split; [intros q Hq; apply H1; cbn; auto|]. intros k. specialize (H2 (Datatypes.S k)). cbn [firstn] in H2. change (sumZ (x j * y j :: firstn k (map (fun i => x i * y i) l))) with (x j * y j + sumZ (firstn k (map (fun i => x i * y i) l))) in H2. now rewrite Z.add_assoc in H2.
        * assert (Nv : ~ value c (i + x j * y j)) by (rewrite <- inside_value; congruence). rewrite (fit_signed_none _ _ S Nv), fold_none by auto. split; [discriminate|]. intros (_ & _ & H). exfalso. apply Nv. specialize (H 1%nat). cbn in H. now rewrite Z.add_0_r in H.
      + assert (Nv : ~ value c (x j * y j)) by (rewrite <- inside_value; congruence). rewrite (fit_signed_none _ _ S Nv). cbn [both]. rewrite fold_none by auto. split; [discriminate|]. intros (_ & H & _). contradiction (Nv (H j (or_introl eq_refl))). }
  assert (Z0 : zseq n = 0 :: map (fun i => i + 1) (zseq (n - 1))).
  { unfold zseq. replace (Z.to_nat n) with (Datatypes.S (Z.to_nat (n - 1))) by lia. cbn [seq map]. f_equal. rewrite <- seq_shift, !map_map. apply map_ext. intros; lia. }
  unfold int_dot. fold c. rewrite (Bm 0) by lia. rewrite Z0. cbn [map]. set (l := map (fun i => i + 1) (zseq (n - 1))) in *.
  assert (Hl : forall j, In j l -> 0 <= j < n) by (intros j Hj; apply zseq_In; rewrite Z0; cbn; auto).
  change (sumZ (x 0 * y 0 :: map (fun i => x i * y i) l)) with (x 0 * y 0 + sumZ (map (fun i => x i * y i) l)).
  destruct (inside c (x 0 * y 0)) eqn:E.
  - apply inside_value in E. rewrite fit_value by auto. rewrite G by auto. split.
    + intros (-> & H1 & H2). split; auto. split.
      * intros i Hi. apply zseq_In in Hi. rewrite Z0 in Hi. destruct Hi as [<-|Hi]; auto.
      * intros [|k]; [exact V0|]. apply (H2 k).
    + intros (-> & H1 & H2). split; auto. split; [intros j Hj; apply H1; auto|]. intros k. apply (H2 (Datatypes.S k)).
  - assert (Nv : ~ value c (x 0 * y 0)) by (rewrite <- inside_value; congruence). rewrite (fit_signed_none _ _ S Nv), fold_none by auto. split; [discriminate|]. intros (_ & H & _). contradiction (Nv (H 0 ltac:(lia))).
Qed.
Print Assumptions C78_dot.

(** ** pow *)
Lemma pow_acc t x n : int_pow_at t x n = fold_left (acc_conv t OpTimes) (map (fun _ => x) (zseq n)) (Some 1).
Proof. unfold int_pow_at. generalize (Some 1). induction (zseq n) as [|i l IH]; intros r; cbn [fold_left map]; auto. Qed.
Lemma zseq_len n : 0 <= n -> Z.of_nat (length (zseq n)) = n. Proof. intros H. unfold zseq. rewrite map_length, seq_length. lia. Qed.
(** pow(x, n) is x to the power n for every type if that is a value of the type, *)
Theorem C78_pow t x n : proper t -> value t x -> 0 <= n -> value t (x ^ n) -> int_pow_at t x n = Some (x ^ n).
Proof.
  intros P V Hn Vn. rewrite pow_acc, (acc_conv_exact t OpTimes); auto; [|now right| |].
  - cbn [zop]. rewrite power_left, zseq_len by lia. reflexivity.
  - intros y Hy. apply in_map_iff in Hy. destruct Hy as (i & <- & _). exact V.
  - intros k. cbn [zop]. rewrite power_prefix. apply (power_value t x _ n); auto. pose proof (zseq_len n Hn). lia.
Qed.
(** undefined if not, for int and wider, *)
Theorem C78_pow_signed t x n r : signed t -> value t x -> 0 <= n -> int_pow_at t x n = Some r <-> r = x ^ n /\ value t (x ^ n).
Proof.
  intros S V Hn. assert (P : proper t) by (destruct t; cbn [signed proper] in *; try contradiction; lia). split; [|intros [-> H]; now apply C78_pow].
  rewrite pow_acc. intros E. apply (acc_conv_signed t OpTimes) in E; auto; [|now right| |].
  - destruct E as [-> H]. cbn [zop] in *. specialize (H (length (zseq n))). rewrite power_prefix, Nat.min_id in H. rewrite power_left. rewrite (zseq_len n Hn) in *. auto.
  - intros y Hy. apply in_map_iff in Hy. destruct Hy as (i & <- & _). exact V.
  - destruct t as [|w|w]; cbn [signed value] in *; try contradiction. pose proof (pow2_le 1 (w - 1) ltac:(lia) ltac:(lia)). lia.
Qed.
(** modulo 2^w for unsigned int and wider, and wrapped for signed types of up to 16 bits and unsigned ones of up to 15 *)
Theorem C78_pow_unsigned w x n : 32 <= w -> 0 <= n -> int_pow_at (TUnsigned w) x n = Some (x ^ n mod 2 ^ w).
Proof.
  intros W Hn. rewrite pow_acc. pose proof (acc_conv_unsigned w OpTimes (map (fun _ => x) (zseq n)) 1 (or_intror eq_refl) W) as E. pose proof (pow2_le 1 w ltac:(lia) ltac:(lia)). rewrite Z.mod_small in E by lia.
  cbn [zop] in E. rewrite power_left, zseq_len in E by lia. exact E.
Qed.
Theorem C78_pow_narrow t x n : proper t -> match t with TBool => False | TSigned w => w <= 16 | TUnsigned w => w <= 15 end -> value t x -> 0 <= n -> exists r, int_pow_at t x n = Some r /\ wrapped t (x ^ n) r.
Proof.
  intros P N V Hn. assert (B : t <> TBool) by (destruct t; try contradiction; discriminate). rewrite pow_acc.
  assert (PT : promote t = int_t) by (destruct t as [|w|w]; cbn [promote] in *; try contradiction; destruct (Z.ltb_spec w 32); auto; lia).
  assert (C1 : conv t 1 = 1). { apply conv_value; auto. destruct t as [|w|w]; cbn [value proper] in *; auto; [pose proof (pow2_le 1 (w - 1) ltac:(lia) ltac:(lia))|pose proof (pow2_le 1 w ltac:(lia) ltac:(lia))]; lia. }
  pose proof (acc_conv_small t OpTimes (map (fun _ => x) (zseq n)) 1 (or_intror eq_refl) P B) as E. rewrite C1 in E. rewrite E.
  - cbn [zop]. rewrite power_left, zseq_len by lia. eexists. split; [reflexivity|]. now apply conv_wrapped.
  - intros a b Va Vb. rewrite PT. cbn [zop value int_t]. change (32 - 1) with 31. destruct t as [|w|w]; cbn [value proper] in *; try contradiction.
    + pose proof (pow2_le (w - 1) 15 ltac:(lia) ltac:(lia)) as H. change (2 ^ 31) with 2147483648. change (2 ^ 15) with 32768 in H. nia.
    + pose proof (pow2_le w 15 ltac:(lia) ltac:(lia)) as H. change (2 ^ 31) with 2147483648. change (2 ^ 15) with 32768 in H. nia.
  - intros y Hy. apply in_map_iff in Hy. destruct Hy as (i & <- & _). exact V.
Qed.
Print Assumptions C78_pow.
Print Assumptions C78_pow_signed.
Print Assumptions C78_pow_unsigned.
Print Assumptions C78_pow_narrow.
(** The square of the unsigned short 65535 is computed as int and undefined behaviour, although unsigned types wrap; *)
Theorem C78_pow_unsigned_short_refuted : value (TUnsigned 16) 65535 /\ int_pow_at (TUnsigned 16) 65535 2 = None.
Proof. split; [cbn; lia|vm_compute; reflexivity]. Qed.
(** negative powers are 1 *)
Theorem C78_pow_negative_refuted t x n : n < 0 -> int_pow_at t x n = Some 1.
Proof. intros H. unfold int_pow_at, zseq. replace (Z.to_nat n) with O by lia. reflexivity. Qed.
Print Assumptions C78_pow_unsigned_short_refuted.
Print Assumptions C78_pow_negative_refuted.

(** ** the hypotheses are met *)
Definition ex_at (l : list Z) (idx : list Z) : Z := nthZ l (Z.to_nat (nthZ idx 0)).
Definition ex_expr : iexpr := IBin OpPlus (IBin OpTimes (IArr (TUnsigned 8) (ex_at [200; 7])) (IArr (TUnsigned 8) (ex_at [200; 9]))) (INeg (INum int_t 5)).
Example C78_ex_expression : proper_types ex_expr /\ no_overflow ex_expr [0] /\ imeans ex_expr [0] = Some 39995 /\ ieval ex_expr [0] = Some 39995 /\ istored (TUnsigned 8) ex_expr [0] = Some 59 /\
  istored (TUnsigned 8) ex_expr [1] = Some 58.
Proof.
  split; [cbn; lia|]. split; [|vm_compute; auto]. assert (X : forall z x : Z, Some x = Some z -> x = z) by (intros z x E; now injection E).
  unfold ex_expr. cbn [no_overflow]. split; [split; [cbn; lia|split; [cbn; lia|]]|split; [split; [cbn; lia|]|]]; intros z H; [destruct H as [H|[H|H]]| |destruct H as [H|[H|H]]]; vm_compute in H; apply X in H; subst z; vm_compute; split; congruence.
Qed.
Example C78_ex_unsigned : made_of (TUnsigned 32) (IBin OpMinus (IArr (TUnsigned 32) (ex_at [1])) (IArr (TUnsigned 32) (ex_at [2]))) /\
  istored (TUnsigned 32) (IBin OpMinus (IArr (TUnsigned 32) (ex_at [1])) (IArr (TUnsigned 32) (ex_at [2]))) [0] = Some 4294967295.
Proof. cbn [made_of]. repeat split; discriminate. Qed.
Example C78_ex_sum : int_sum int_t [2; 2] (fun idx => 10 * nthZ idx 0 + nthZ idx 1) = Some 22 /\ int_product (TSigned 16) [2] (ex_at [300; 300]) = Some 90000 /\ int_sum (TSigned 8) [3] (ex_at [100; 100; -128]) = Some 72.
Proof. vm_compute. auto. Qed.
Example C78_ex_rest : int_frobenius int_t [1; 2] (fun idx => 3 + nthZ idx 1) = Some 25 /\ int_trace int_t [2; 2] (fun idx => nthZ idx 0 + 1) = Some 3 /\
  int_dot (TUnsigned 8) int_t 2 (fun i => 250 + i) (fun i => i - 3) = Some (-1252) /\ int_pow_at (TSigned 8) (-2) 7 = Some (-128) /\ int_pow_at (TSigned 8) 2 7 = Some (-128) /\ int_pow_at int_t (-2) 31 = Some (-2147483648) /\ int_pow_at int_t 2 31 = None.
Proof. vm_compute. repeat split. Qed.
