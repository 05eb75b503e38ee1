(** C70: what an expression says about its layout; linear access to expressions; regular copies. C46: dot products of expressions. *)
From Verif Require Import Base M_Perm M_IdxMap M_Slice M_Loops M_Assign M_Expr M_Transform M_Blas M_Info S_Layout S_Assign S_Expr S_Blas S_Program S_Info
  L_Perm L_IdxMap L_Layout L_Loops L_Assign L_Expr L_Transform L_Blas L_Blas2 L_Blas3 L_Blas4 L_Program L_Program2 P_Expr P_Blas.

Lemma lp_and_strided p q : has_strided_1d (lp_and p q) = has_strided_1d p && has_strided_1d q.
Proof. now destruct p, q. Qed.
Lemma lp_and_smallest p q : has_smallest_stride_is_one (lp_and p q) = has_smallest_stride_is_one p && has_smallest_stride_is_one q.
Proof. now destruct p, q. Qed.
Lemma same_code_spec a b : same_code a b = true -> a = b /\ exists c, a = Some c.
Proof. destruct a as [x|], b as [y|]; cbn; try discriminate. intros H. apply Z.eqb_eq in H. subst. eauto. Qed.

Lemma expr_up {V} (P : expr V -> Prop) : (forall alg v, P (ELeaf alg v)) -> (forall a, P a -> P (ENeg a)) -> (forall op l, P l -> forall r, P r -> P (EBin op l r)) ->
  (forall op s r, P r -> P (EScalL op s r)) -> (forall op l, P l -> forall s, P (EScalR op l s)) -> (forall f a, P (EMap f a)) -> forall e, P e.
Proof. intros H1 H2 H3 H4 H5 H6. apply (expr_mind V P (fun _ => True)); auto. Qed.

(** what a flag of the whole says about the parts *)
Definition says {V} (e : expr V) : Prop :=
  (has_strided_1d (li_prop (get_layout_info e)) = true -> forall v, In v (leaves e) -> has_strided_1d (im_prop (v_lay v)) = true /\ encode (map Z.of_nat (im_so (v_lay v))) = li_so (get_layout_info e)) /\
  (has_smallest_stride_is_one (li_prop (get_layout_info e)) = true -> forall v, In v (leaves e) -> has_smallest_stride_is_one (im_prop (v_lay v)) = true /\ encode (map Z.of_nat (im_so (v_lay v))) = li_so (get_layout_info e)).
Lemma all_says {V} (e : expr V) : says e.
Proof.
  induction e as [alg v|a IH|op l IHl r IHr|op s r IH|op l IH s|f a] using expr_up; unfold says in *; cbn [get_layout_info leaves li_prop li_so].
  - split; intros H w [<-|[]]; auto.
  - exact IH.
  - unfold info_and. destruct (same_code _ _) eqn:E; [|cbn; split; discriminate]. apply same_code_spec in E. destruct E as [E _]. cbn [li_prop li_so]. rewrite lp_and_strided, lp_and_smallest.
    destruct IHl as [L1 L2], IHr as [R1 R2]. split; intros H v Hv; apply andb_prop in H; destruct H as [Hr Hl]; apply in_app_or in Hv; destruct Hv as [Hv|Hv]; auto; rewrite E; auto.
  - destruct (is_A (get_algebra r)); [exact IH|cbn; split; discriminate].
  - destruct (is_A (get_algebra l)); [exact IH|cbn; split; discriminate].
  - cbn; split; discriminate.
Qed.
Lemma some_leaf {V} : (forall e : expr V, exists v, In v (leaves e)) /\ (forall l : exprs V, exists v, In v (leaves_list l)).
Proof.
  apply expr_exprs_ind; cbn [leaves leaves_list]; auto.
  - intros _ v. exists v. now left.
  - intros _ l [v Hv] r _. exists v. apply in_or_app. now left.
  - intros a [v Hv] l _. exists v. apply in_or_app. now left.
Qed.
Lemma encode_inj n so so' : is_order n so -> is_order n so' -> (n <= 8)%nat -> encode (map Z.of_nat so) = encode (map Z.of_nat so') -> so = so'.
Proof.
  intros O O' Hn E.
  assert (B : forall p, is_order n p -> Forall (fun x => 0 <= x < 16) (map Z.of_nat p) /\ length (map Z.of_nat p) = n).
  { intros p Hp. pose proof (Permutation_length Hp) as L. rewrite seq_length in L. split; [|now rewrite map_length]. apply Forall_forall. intros x Hx. apply in_map_iff in Hx. destruct Hx as (k & <- & Hk).
    apply (Permutation_in _ Hp) in Hk. apply in_seq in Hk. lia. }
  destruct (B so O) as [B1 L1], (B so' O') as [B2 L2].
  destruct (encode_decode _ B1 ltac:(lia)) as (w & E1 & D1). destruct (encode_decode _ B2 ltac:(lia)) as (w' & E2 & D2).
  rewrite E1, E2 in E. injection E as <-. rewrite L1 in D1. rewrite L2 in D2. rewrite D1 in D2.
  clear -D2. revert so' D2. induction so as [|x so IH]; intros [|y so'] H; try discriminate; [reflexivity|]. cbn [map] in H. injection H as H1 H2. f_equal; [lia|auto].
Qed.
Lemma same_orders {V} (e : expr V) sh c : common_shape e sh -> leaves_truthful e -> (length sh <= 8)%nat ->
  (forall v, In v (leaves e) -> encode (map Z.of_nat (im_so (v_lay v))) = c) -> exists so, is_order (length sh) so /\ one_order e so.
Proof.
  intros Hs Ht Hl Hc. destruct (proj1 some_leaf e) as [v0 H0]. exists (im_so (v_lay v0)).
  assert (O : forall v, In v (leaves e) -> is_order (length sh) (im_so (v_lay v))) by (intros v Hv; destruct (Ht v Hv) as ((_ & O & _) & _); now rewrite (Hs v Hv) in O).
  split; [auto|]. intros v Hv. apply (encode_inj (length sh)); auto. rewrite (Hc v Hv), (Hc v0 H0). reflexivity.
Qed.

(** ** C70 *)
(** If the layout information of an expression has the flag strided_1d, all its arrays are stored in one order, and the linear index k
    of the expression gives the value at the k-th index tuple in that order. *)
Theorem C70_linear : forall V (A : arith V) (m : mem V) (e : expr V) sh, common_shape e sh -> leaves_truthful e -> (length sh <= 8)%nat ->
  has_strided_1d (li_prop (get_layout_info e)) = true ->
  exists so, is_order (length sh) so /\ one_order e so /\ forall idx, in_range idx sh -> expr_lin A m e (seq_number so sh idx) = Some (denote A m e idx).
Proof.
  intros V A m e sh Hs Ht Hl Hf. destruct (same_orders e sh (li_so (get_layout_info e)) Hs Ht Hl) as (so & O & Hso); [intros v Hv; exact (proj2 (proj1 (all_says e) Hf v Hv))|].
  exists so. split; [exact O|]. split; [exact Hso|]. intros idx Hi. clear Hl.
  revert Hs Ht Hf Hso. unfold common_shape, leaves_truthful, one_order.
  induction e as [alg v|a IH|op l IHl r IHr|op s r IH|op l IH s|f a] using expr_up; cbn [get_layout_info leaves expr_lin denote li_prop]; intros Hs Ht Hf Hso.
  - pose proof (Hs v (or_introl eq_refl)) as Es. pose proof (Hso v (or_introl eq_refl)) as Eo. destruct (Ht v (or_introl eq_refl)) as [W F].
    assert (Hv : valid_idx (v_lay v) idx) by (unfold valid_idx; now rewrite Es).
    unfold lin_elem, cell. rewrite <- Es, <- Eo. rewrite (regular_strided_1d _ W (proj1 F Hf) _ Hv).
    destruct (im_prop (v_lay v)) eqn:Ep; try discriminate; [do 2 f_equal; ring|]. pose proof (proj2 F) as F2. rewrite Ep in F2. rewrite (F2 eq_refl). do 2 f_equal. ring.
  - now rewrite IH.
  - unfold info_and in Hf. destruct (same_code _ _); [|discriminate]. cbn [li_prop] in Hf. rewrite lp_and_strided in Hf. apply andb_prop in Hf. destruct Hf as [Hr Hl].
    rewrite IHl, IHr; auto using in_or_app.
  - destruct (is_A (get_algebra r)) eqn:Ea; [|discriminate]. rewrite IH by auto. destruct op, (get_algebra r); try discriminate; reflexivity.
  - destruct (is_A (get_algebra l)) eqn:Ea; [|discriminate]. rewrite IH by auto. destruct op, (get_algebra l); try discriminate; reflexivity.
  - discriminate.
Qed.
Print Assumptions C70_linear.
(** If it has the flag smallest_stride_is_one, all arrays are stored in one order and their fastest dimension has stride 1. *)
Theorem C70_smallest : forall V (e : expr V) sh, common_shape e sh -> leaves_truthful e -> (length sh <= 8)%nat ->
  has_smallest_stride_is_one (li_prop (get_layout_info e)) = true ->
  exists so, is_order (length sh) so /\ one_order e so /\ forall v, In v (leaves e) -> nth (last so 0%nat) (im_str (v_lay v)) 0 = 1.
Proof.
  intros V e sh Hs Ht Hl Hf. destruct (same_orders e sh (li_so (get_layout_info e)) Hs Ht Hl) as (so & O & Hso); [intros v Hv; exact (proj2 (proj2 (all_says e) Hf v Hv))|].
  exists so. split; [exact O|]. split; [exact Hso|]. intros v Hv. destruct (Ht v Hv) as [W F]. pose proof (proj2 F (proj1 (proj2 (all_says e) Hf v Hv))) as M. unfold smallest_one_true, min_stride, nthZ, nthN in M.
  rewrite <- (Hso v Hv). rewrite <- M. f_equal. destruct W as (_ & O' & _). unfold rank. pose proof (Permutation_length O') as L. rewrite seq_length in L. rewrite <- L.
  destruct (im_so (v_lay v)) as [|x t] using rev_ind; [reflexivity|]. rewrite last_last, app_length. cbn [length]. rewrite app_nth2 by lia. replace (length t + 1 - 1 - length t)%nat with 0%nat by lia. reflexivity.
Qed.
Print Assumptions C70_smallest.
(** The information loses nothing for plain arithmetic of arrays stored in one order: it has each flag that all the arrays have. *)
Theorem C70_complete : forall V (e : expr V) sh so, common_shape e sh -> (length sh <= 8)%nat -> is_order (length sh) so -> one_order e so -> plain e ->
  li_so (get_layout_info e) = encode (map Z.of_nat so) /\
  ((forall v, In v (leaves e) -> has_strided_1d (im_prop (v_lay v)) = true) -> has_strided_1d (li_prop (get_layout_info e)) = true) /\
  ((forall v, In v (leaves e) -> has_smallest_stride_is_one (im_prop (v_lay v)) = true) -> has_smallest_stride_is_one (li_prop (get_layout_info e)) = true).
Proof.
  intros V e sh so _ Hl O. assert (C : exists c, encode (map Z.of_nat so) = Some c).
  { destruct (encode_decode (map Z.of_nat so)) as (w & E & _); [|rewrite map_length, (Permutation_length O), seq_length; exact Hl|now exists w].
    apply Forall_forall. intros x Hx. apply in_map_iff in Hx. destruct Hx as (k & <- & Hk). apply (Permutation_in _ O) in Hk. apply in_seq in Hk. lia. }
  destruct C as [c Ec]. rewrite Ec. unfold one_order.
  induction e as [alg v|a IH|op l IHl r IHr|op s r IH|op l IH s|f a] using expr_up; cbn [get_layout_info leaves plain li_prop li_so]; intros Hso Hp.
  - rewrite (Hso v (or_introl eq_refl)). split; [exact Ec|]. split; intros H; apply H; now left.
  - auto.
  - destruct Hp as [Pl Pr]. destruct IHl as (El & L1 & L2); auto using in_or_app. destruct IHr as (Er & R1 & R2); auto using in_or_app.
    unfold info_and. rewrite El, Er. unfold same_code. rewrite Z.eqb_refl. cbn [li_so li_prop]. rewrite lp_and_strided, lp_and_smallest. split; [reflexivity|].
    split; intros H; apply andb_true_intro; split; first [apply R1|apply L1|apply R2|apply L2]; auto using in_or_app.
  - destruct Hp as [Pr Ea]. rewrite Ea. cbn. auto.
  - destruct Hp as [Pr Ea]. rewrite Ea. cbn. auto.
  - contradiction.
Qed.
Print Assumptions C70_complete.
(** make_regular of an expression or view: a new contiguous array with its values; a view keeps its storage order, expressions are stored
    in C order. *)
Theorem C70_regular : forall V (A : arith V) checks trivial base (e : expr V) (m : mem V) sh, zero_neutral A -> common_shape e sh -> leaves_truthful e -> possible_shape sh ->
  (forall v a, In v (leaves e) -> is_cell_of v a -> ~ base <= a < base + prodZ sh) ->
  exists a m', make_regular_copy A checks trivial base e m = (a, Some m') /\ im_len (v_lay a) = sh /\ usable (v_lay a) /\ has_contiguous (im_prop (v_lay a)) = true /\
    im_so (v_lay a) = (match e with ELeaf _ v => im_so (v_lay v) | _ => seq 0 (length sh) end) /\
    (forall c, is_cell_of a c <-> base <= c < base + prodZ sh) /\
    (forall idx, in_range idx sh -> m' (cell a idx) = denote A m e idx) /\ (forall c, ~ base <= c < base + prodZ sh -> m' c = m c).
Proof.
  intros V A checks trivial base e m sh HZ Hs Ht Hps Hn.
  assert (G : forall so r, is_order (length sh) so -> (forall src, r = RMem src -> truthful (v_lay src) /\ im_len (v_lay src) = sh) ->
    (forall i m1 m2, in_range i sh -> (forall a, ~ base <= a < base + prodZ sh -> m1 a = m2 a) -> rhs_value r m1 i = rhs_value r m2 i) ->
    (forall idx, in_range idx sh -> rhs_value r m idx = denote A m e idx) ->
    exists a m', array_of_ndarray checks trivial so base sh r m = (a, Some m') /\ im_len (v_lay a) = sh /\ usable (v_lay a) /\ has_contiguous (im_prop (v_lay a)) = true /\
    im_so (v_lay a) = so /\ (forall c, is_cell_of a c <-> base <= c < base + prodZ sh) /\
    (forall idx, in_range idx sh -> m' (cell a idx) = denote A m e idx) /\ (forall c, ~ base <= c < base + prodZ sh -> m' c = m c)).
  { intros so r O Hm Hr Hv. destruct (construct_spec checks trivial so base sh r m O Hps Hm Hr) as (m' & E & Hh & Hu). destruct Hps as [Hp Hk]. exists (new_array so base sh), m'.
    split; [exact E|]. split; [reflexivity|]. split; [now apply new_array_usable|]. split; [reflexivity|]. split; [reflexivity|]. split; [intros c; now apply new_array_cells|]. split.
    - intros idx Hi. rewrite <- Hv by auto. now apply Hh.
    - intros c Hc. apply Hu. intros C. apply Hc. now apply new_array_cells in C. }
  assert (X : forall idx m, in_range idx sh -> expr_at A m e idx = denote A m e idx) by (intros idx m0 Hi; exact (proj2 (C23_value A m0 e sh idx HZ Hs Ht Hi))).
  assert (D : forall idx m1 m2, in_range idx sh -> (forall a, ~ base <= a < base + prodZ sh -> m1 a = m2 a) -> denote A m1 e idx = denote A m2 e idx).
  { intros idx m1 m2 Hi H. apply (proj1 (denote_reads A m1 m2 idx)). intros v Hv. apply H. apply (Hn v); auto. exists idx. split; [|reflexivity]. unfold in_view, valid_idx. now rewrite (Hs v Hv). }
  assert (O : is_order (length sh) (identity (length sh))) by apply Permutation_refl.
  assert (E : expr_shape e = sh) by now apply (proj1 shapes_of_common).
  assert (K : exists a m', array_of_ndarray checks trivial (identity (length (expr_shape e))) base (expr_shape e) (RExpr (fun m idx => expr_at A m e idx)) m = (a, Some m') /\ im_len (v_lay a) = sh /\ usable (v_lay a) /\ has_contiguous (im_prop (v_lay a)) = true /\
    im_so (v_lay a) = seq 0 (length sh) /\ (forall c, is_cell_of a c <-> base <= c < base + prodZ sh) /\
    (forall idx, in_range idx sh -> m' (cell a idx) = denote A m e idx) /\ (forall c, ~ base <= c < base + prodZ sh -> m' c = m c)).
  { rewrite E. apply G; [exact O|discriminate| |].
    - intros idx m1 m2 Hi H. cbn [rhs_value]. rewrite !X by auto. now apply D.
    - intros idx Hi. now apply X. }
  destruct e; try exact K. cbn [make_regular_copy]. pose proof (Hs v (or_introl eq_refl)) as Es. rewrite Es. apply G.
  - destruct (Ht v (or_introl eq_refl)) as ((_ & Ov & _) & _). now rewrite Es in Ov.
  - intros src H. injection H as <-. split; [apply Ht; now left|exact Es].
  - intros idx m1 m2 Hi H. exact (D idx m1 m2 Hi H).
  - intros idx Hi. reflexivity.
Qed.
Print Assumptions C70_regular.

(** ** C46: dot of expressions *)
Lemma dot_loop {V} (A : arith V) (cj : V -> V) (star : bool) n (px py : Z -> option V) (x y : Z -> V) : 1 <= n -> (forall i, 0 <= i < n -> px i = Some (x i) /\ py i = Some (y i)) ->
  fold_left (fun (res : option V) (i : Z) => match res, px i, py i with Some r, Some a, Some b => Some (v_add A r (v_mul A (if star then cj a else a) b)) | _, _, _ => @None V end)
      (map (fun i => i + 1) (zseq (n - 1))) (match px 0, py 0 with Some a, Some b => Some (v_mul A (if star then cj a else a) b) | _, _ => None end) = Some (dot_impl A cj star n x y).
Proof.
  intros Hn H. destruct (H 0 ltac:(lia)) as [-> ->]. unfold dot_impl.
  assert (G : forall l r, (forall i, In i l -> 0 <= i < n) ->
    fold_left (fun (res : option V) (i : Z) => match res, px i, py i with Some r, Some a, Some b => Some (v_add A r (v_mul A (if star then cj a else a) b)) | _, _, _ => @None V end) l (Some r) =
    Some (fold_left (fun res i => v_add A res (v_mul A (if star then cj (x i) else x i) (y i))) l r)).
  { induction l as [|i l IH]; intros r Hl; [reflexivity|]. cbn [fold_left]. destruct (H i) as [-> ->]; [apply Hl; now left|]. apply IH. intros j Hj. apply Hl. now right. }
  apply G. intros i Hi. apply in_map_iff in Hi. destruct Hi as (k & <- & Hk). apply zseq_In in Hk. lia.
Qed.
Lemma leaf_is {V} (e : expr V) v : is_leaf e = Some v -> exists alg, e = ELeaf alg v.
Proof. destruct e; try discriminate. intros H. injection H as <-. eauto. Qed.
Lemma order_one so : is_order 1 so -> so = [0%nat].
Proof. intros O. apply Permutation_sym, Permutation_length_1_inv in O. exact O. Qed.
(** The generic product of two vectors or expressions with n elements: whichever of its three loops is taken, it compiles exactly if not
    both claim unit strides, or both are in memory, or both can be indexed linearly; and then gives the sum. *)
Theorem C46_dot_expressions : forall V (A : arith V) (cj : V -> V) star (x y : expr V) (m : mem V) n, is_ring A -> zero_neutral A -> 1 <= n ->
  common_shape x [n] -> common_shape y [n] -> leaves_truthful x -> leaves_truthful y ->
  (has_smallest_stride_is_one (li_prop (get_layout_info x)) = true -> has_smallest_stride_is_one (li_prop (get_layout_info y)) = true ->
   (exists a b v w, x = ELeaf a v /\ y = ELeaf b w) \/ (has_strided_1d (li_prop (get_layout_info x)) = true /\ has_strided_1d (li_prop (get_layout_info y)) = true)) ->
  dot_branches A cj star x y m = Some (sum_to A n (fun i => v_mul A (if star then cj (denote A m x [i]) else denote A m x [i]) (denote A m y [i]))).
Proof.
  intros V A cj star x y m n R HZ Hn Sx Sy Tx Ty Hc. unfold dot_branches. assert (Ex0 : expr_shape x = [n]) by now apply (proj1 shapes_of_common). rewrite Ex0. unfold nthZ. cbn [nth].
  rewrite <- (dot_impl_spec A cj R star n (fun i => denote A m x [i]) (fun i => denote A m y [i])) by exact Hn.
  assert (I1 : forall i, 0 <= i < n -> in_range [i] [n]) by (intros i Hi; repeat constructor; unfold inr; lia).
  destruct (has_smallest_stride_is_one (li_prop (get_layout_info x)) && has_smallest_stride_is_one (li_prop (get_layout_info y))) eqn:Ef.
  - apply andb_prop in Ef. destruct Ef as [Fx Fy].
    assert (P : forall e, common_shape e [n] -> leaves_truthful e -> has_smallest_stride_is_one (li_prop (get_layout_info e)) = true -> forall v, is_leaf e = Some v -> forall i, v_base v + i = cell v [i] /\ denote A m e [i] = m (cell v [i])).
    { intros e Se Te Fe v Hv i. apply leaf_is in Hv. destruct Hv as [alg ->]. split; [|reflexivity]. pose proof (Se v (or_introl eq_refl)) as Es. destruct (Te v (or_introl eq_refl)) as [W F]. pose proof (proj2 F Fe) as M.
      unfold smallest_one_true, min_stride, rank, nthZ, nthN in M. destruct W as (L & O & _). rewrite Es in L, O, M. cbn [length] in L, O, M. apply order_one in O. rewrite O in M. cbn [nth Nat.sub] in M.
      unfold cell, addr. destruct (im_str (v_lay v)) as [|s [|? ?]]; try discriminate. cbn [nth] in M. subst s. cbn. lia. }
    assert (L : forall e, common_shape e [n] -> leaves_truthful e -> has_strided_1d (li_prop (get_layout_info e)) = true -> forall i, 0 <= i < n -> expr_lin A m e i = Some (denote A m e [i])).
    { intros e Se Te Fe i Hi. destruct (C70_linear V A m e [n] Se Te ltac:(cbn; lia) Fe) as (so & O & _ & H). cbn [length] in O. apply order_one in O. subst so. specialize (H [i] (I1 i Hi)).
      replace (seq_number [0%nat] [n] [i]) with i in H; [exact H|]. unfold seq_number, in_order. cbn. lia. }
    assert (LL : has_strided_1d (li_prop (get_layout_info x)) = true /\ has_strided_1d (li_prop (get_layout_info y)) = true \/ (exists v w, is_leaf x = Some v /\ is_leaf y = Some w)).
    { destruct (Hc Fx Fy) as [(a & b & v & w & -> & ->)|H]; [right; now exists v, w|now left]. }
    destruct (is_leaf x) as [v|] eqn:Ex; [destruct (is_leaf y) as [w|] eqn:Ey|].
    + apply (dot_loop A cj star n (fun i => Some (m (v_base v + i))) (fun i => Some (m (v_base w + i))) (fun i => denote A m x [i]) (fun i => denote A m y [i]) Hn). intros i Hi. destruct (P x Sx Tx Fx v Ex i) as [-> ->]. destruct (P y Sy Ty Fy w Ey i) as [-> ->]. split; reflexivity.
    + destruct LL as [[Lx Ly]|(? & ? & ? & C)]; [|discriminate]. apply (dot_loop A cj star n (expr_lin A m x) (expr_lin A m y) (fun i => denote A m x [i]) (fun i => denote A m y [i]) Hn). intros i Hi. split; now apply L.
    + destruct LL as [[Lx Ly]|(? & ? & C & ?)]; [|discriminate]. apply (dot_loop A cj star n (expr_lin A m x) (expr_lin A m y) (fun i => denote A m x [i]) (fun i => denote A m y [i]) Hn). intros i Hi. split; now apply L.
  - apply (dot_loop A cj star n (fun i => Some (expr_at A m x [i])) (fun i => Some (expr_at A m y [i])) (fun i => denote A m x [i]) (fun i => denote A m y [i]) Hn). intros i Hi. split; f_equal; [exact (proj2 (C23_value A m x [n] [i] HZ Sx Tx (I1 i Hi)))|exact (proj2 (C23_value A m y [n] [i] HZ Sy Ty (I1 i Hi)))].
Qed.
Print Assumptions C46_dot_expressions.

(** nda::dot and nda::dotc of vectors, views and expressions with double or complex elements. *)
Theorem C46_nda_dot : forall V (A : arith V) (cj : V -> V) checks star b1 b2 (x y : vec_operand V) (P : Z -> Prop) (m : mem V) n, is_ring A -> 0 <= n -> int_range n ->
  match x with VMem v => exists s, 0 < s /\ vector_of v n s | VOther n' _ => n' = n end -> match y with VMem v => exists s, 0 < s /\ vector_of v n s | VOther n' _ => n' = n end ->
  vec_reads x P -> vec_reads y P -> new_blocks P [(b1, n); (b2, n)] ->
  exists m', linalg_dot A cj checks star b1 b2 x y m = BRet (sum_to A n (fun i => v_mul A (if star then cj (vec_at x m i) else vec_at x m i) (vec_at y m i)), m') /\ (forall a, P a -> m' a = m a).
Proof.
  intros V A cj checks star b1 b2 x y P m n R Hn In Fx Fy Rx Ry (N1 & N2 & _).
  assert (G : forall b (z : vec_operand V) (Q : Z -> Prop) m, match z with VMem v => exists s, 0 < s /\ vector_of v n s | VOther n' _ => n' = n end -> vec_reads z Q -> (forall a, block b n a -> ~ Q a) ->
    exists v s m', vec_container checks b z m = BRet (v, m') /\ 0 < s /\ vector_of v n s /\ (forall a, is_cell_of v a -> Q a \/ block b n a) /\ (forall i, 0 <= i < n -> m' (cell v [i]) = vec_at z m i) /\ (forall a, ~ block b n a -> m' a = m a)).
  { intros b [v|n' f] Q m0 Fz Rz Nz; cbn [vec_container vec_at vec_reads] in *.
    - destruct Fz as (s & Hs & Hv). exists v, s, m0. split; [reflexivity|]. split; [exact Hs|]. split; [exact Hv|]. split; [intros a Ha; left; auto|]. split; reflexivity.
    - subst n'. destruct (copy_new1 checks b n f m0 Hn) as (m' & -> & Hv & Hu).
      + intros idx m1 m2 Hi H. apply Rz; auto. intros a Ha. apply H. intros C. exact (Nz a C Ha).
      + exists (new_array [0%nat] b [n]), 1, m'. split; [reflexivity|]. split; [lia|]. split; [now apply new_vector|]. split; [intros a Ha; right; now apply new_cells1|]. split; assumption. }
  destruct (G b1 x P m Fx Rx N1) as (u & su & m1 & E1 & Hu & Vu & Cu & Xu & U1).
  assert (K1 : forall a, P a -> m1 a = m a) by (intros a Ha; apply U1; intros C; exact (N1 a C Ha)).
  assert (Ry' : vec_reads y (fun a => P a \/ block b1 n a)).
  { destruct y as [v|n' f]; cbn [vec_reads] in *; [intros a Ha; left; auto|]. intros idx m1' m2' Hi H. apply Ry; auto. }
  destruct (G b2 y _ m1 Fy Ry' N2) as (w & sw & m2 & E2 & Hw & Vw & Cw & Xw & U2).
  unfold linalg_dot. rewrite E1. cbn [bbind]. rewrite E2. cbn [bbind]. rewrite (blas_dot_spec A cj R checks star u w m2 n su sw Vu Vw Hu Hw). cbn [bbind].
  exists m2. split.
  - do 2 f_equal. apply sum_to_ext. intros i Hi.
    assert (Eu : m2 (cell u [i]) = vec_at x m i).
    { rewrite <- Xu by auto. apply U2. intros C. apply (N2 _ C). apply Cu. exists [i]. split; [|reflexivity]. unfold in_view, valid_idx. destruct Vu as (_ & _ & _ & -> & _). repeat constructor; unfold inr; lia. }
    assert (Ew : m2 (cell w [i]) = vec_at y m i).
    { rewrite Xw by auto. destruct y as [v|n' f]; cbn [vec_at vec_reads] in *.
      - apply K1, Ry. destruct Fy as (s & _ & Hv). exists [i]. split; [|reflexivity]. unfold in_view, valid_idx. destruct Hv as (_ & _ & _ & -> & _). repeat constructor; unfold inr; lia.
      - subst n'. apply Ry; [|exact K1]. repeat constructor; unfold inr; lia. }
    now rewrite Eu, Ew.
  - intros a Ha. rewrite U2; [now apply K1|]. intros C. apply (N2 a C). now left.
Qed.
Print Assumptions C46_nda_dot.

(** non-vacuity: -a + b * 2 of two arrays in Fortran order is contiguous and can be indexed linearly; with an array in C order it cannot *)
Definition ex_f70 (base : Z) : expr Z := ELeaf AlgA (new_array [1; 0]%nat base [2; 3]).
Example C70_example : let e := EBin OpPlus (ENeg (ex_f70 0)) (EScalR OpTimes (ex_f70 10) 2) in
  common_shape e [2; 3] /\ leaves_truthful e /\ has_contiguous (li_prop (get_layout_info e)) = true /\
  (forall m, expr_lin Z_arith m e 3 = Some (- m 3 + m 13 * 2)) /\ (forall m, denote Z_arith m e [1; 1] = - m 3 + m 13 * 2) /\ seq_number [1; 0]%nat [2; 3] [1; 1] = 3 /\
  get_layout_info (EBin OpMinus e (ELeaf AlgA (new_array [0; 1]%nat 20 [2; 3]))) = LInfo (Some (2 ^ 64 - 1)) LP_none.
Proof.
  cbv zeta. assert (O : is_order 2 [1; 0]%nat) by (apply perm_check_ok; reflexivity).
  split; [intros v [<-|[<-|[]]]; reflexivity|]. split.
  - intros v [<-|[<-|[]]]; apply usable_truthful, new_array_usable; try exact O; try (repeat constructor; lia); cbn; lia.
  - repeat split.
Qed.
(** a regular copy of a view in Fortran order keeps this order; that of -a is in C order *)
Example C70_regular_example : im_so (v_lay (fst (make_regular_copy Z_arith true true 50 (ex_f70 0) (fun a => a)))) = [1; 0]%nat /\
  im_so (v_lay (fst (make_regular_copy Z_arith true true 50 (ENeg (ex_f70 0)) (fun a => a)))) = [0; 1]%nat /\
  match make_regular_copy Z_arith true true 50 (ENeg (ex_f70 0)) (fun a => a) with (a, Some m') => m' (cell a [1; 0]) | _ => 0 end = -1.
Proof. repeat split. Qed.
(** dot(x + y, z) of contiguous vectors *)
Definition ex_v46 (base : Z) : expr Z := ELeaf AlgV (new_array [0%nat] base [3]).
Example C46_expressions_example : let x := EBin OpPlus (ex_v46 0) (ex_v46 10) in let y := ex_v46 20 in
  common_shape x [3] /\ leaves_truthful x /\ has_strided_1d (li_prop (get_layout_info x)) = true /\ has_smallest_stride_is_one (li_prop (get_layout_info x)) = true /\
  dot_branches Z_arith (fun z => z) false x y (fun a => a) = Some (10 * 20 + 12 * 21 + 14 * 22).
Proof.
  cbv zeta. split; [intros v [<-|[<-|[]]]; reflexivity|]. split; [|repeat split].
  intros v [<-|[<-|[]]]; apply usable_truthful, new_usable1; lia.
Qed.
Example C46_nda_example : let x := VMem (ex_view [0%nat] [3] [2] 0) in let y := VOther 3 (fun (m : mem Z) idx => 2 * m (nthZ idx 0)) in
  match linalg_dot Z_arith (fun z => z) true false 100 200 x y (fun a => a + 1) with BRet (r, _) => r | _ => 0 end = 1 * 2 + 3 * 4 + 5 * 6.
Proof. reflexivity. Qed.
(** Not so: a row of a slice that skips a middle dimension is known to have stride 1 but not to be strided_1d, so the product of an
    expression with it takes the linear loop, which does not compile. *)
Theorem C46_smallest_refuted : exists w v, slice_view AlgV (c_array 0 [2; 2; 3]) [AAll; ALong 0; AAll] = Some (AlgV, w) /\ slice_view AlgV w [ALong 1; AAll] = Some (AlgV, v) /\
  im_len (v_lay v) = [3] /\ truthful (v_lay v) /\ forall m : mem Z, dot_branches Z_arith (fun z => z) false (ENeg (ELeaf AlgV v)) (ELeaf AlgV v) m = None /\
    dot_branches Z_arith (fun z => z) false (ELeaf AlgV v) (ELeaf AlgV v) m = Some (m 6 * m 6 + m 7 * m 7 + m 8 * m 8).
Proof.
  eexists _, _. split; [reflexivity|]. split; [reflexivity|]. split; [reflexivity|]. split.
  - split; [|split; [discriminate|reflexivity]]. split; [reflexivity|]. split; [unfold is_order; cbn; reflexivity|]. split; [reflexivity|]. split; [change (Forall (fun l => 0 <= l) [3]); repeat constructor; lia|change (0 < 1 < 16)%nat; lia].
  - intros m. split; reflexivity.
Qed.
Print Assumptions C46_smallest_refuted.
