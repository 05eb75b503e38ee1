(** Properties C24-C28, C55: layout transformations, nested lists, matrix functions, factories. *)
From Verif Require Import Base M_Perm L_Perm M_IdxMap M_Slice M_Loops M_Assign M_Expr M_Transform S_Layout S_Loops S_Assign S_Expr S_Transform L_IdxMap L_Slice L_Layout L_Loops L_Assign L_Expr L_Transform L_Factory P_Slice P_Assign P_Expr.

(** ** C24 *)
(** the layout policy, at the rank of the new shape, names every dimension once and does not ask for other extents *)
Definition policy_fits (pol : policy) (shape : list Z) : Prop :=
  is_order (length shape) (policy_order pol (length shape)) /\ static_extents_ok (policy_extents pol (length shape)) shape = true.
Definition good_shape (shape : list Z) : Prop := Forall (fun l => 0 <= l) shape /\ (0 < length shape < 16)%nat.
Lemma policy_extents_length pol n : length (policy_extents pol n) = n.
Proof. destruct pol; cbn [policy_extents]; rewrite ?repeat_length; auto. unfold decode. now rewrite map_length, seq_length. Qed.
Lemma reshape_view pol junk shape : policy_fits pol shape -> good_shape shape -> length junk = length shape ->
  usable (idx_map_of_shape (policy_order pol (length shape)) (policy_extents pol (length shape)) (policy_prop pol) junk shape).
Proof.
  intros [Ho _] [Hs Hr] Hj. apply (view_usable (fun _ => True) (prodZ shape) 0). apply vo_fresh; auto. apply policy_extents_length.
Qed.

Theorem C24_reshape (checks : bool) (pol : policy) (alg : algebra) (junk : list Z) (a : view) (shape : list Z) :
  usable (v_lay a) -> contiguous_true (v_lay a) -> is_contiguous (v_lay a) = true ->
  good_shape shape -> policy_fits pol shape -> length junk = length shape -> prodZ shape = prodZ (im_len (v_lay a)) ->
  exists alg' b, reshape checks pol alg junk a shape = Some (alg', b) /\
    im_len (v_lay b) = shape /\ usable (v_lay b) /\ v_base b = v_base a /\ same_sequence a b /\
    (forall c, is_cell_of b c <-> is_cell_of a c).
Proof.
  intros U Hc Hic Hs Hp Hj E. unfold reshape, policy_layout. rewrite size_prodZ, fold_mul_acc, Z.mul_1_l, E, Z.eqb_refl, Hic.
  destruct Hp as [Ho Hse]. rewrite Hse. cbn [negb]. rewrite !andb_false_r. eexists _, _. split; [reflexivity|].
  pose proof (reshape_view pol junk shape (conj Ho Hse) Hs Hj) as Ub. cbn [map_layout_transform v_lay v_base].
  assert (Hcb : contiguous_true (idx_map_of_shape (policy_order pol (length shape)) (policy_extents pol (length shape)) (policy_prop pol) junk shape))
    by (apply regular_contiguous; [apply (usable_wf _ Ub)|now apply fresh_regular]).
  split; [reflexivity|]. split; [exact Ub|]. split; [reflexivity|]. split.
  - now apply same_sequence_contiguous.
  - intros c. rewrite !contiguous_cells; auto. cbn [v_lay v_base idx_map_of_shape im_len]. now rewrite E.
Qed.
(** arrays of any rank and order, and all views declared contiguous, meet the conditions on [a] *)
Theorem C24_declared_contiguous (a : view) : usable (v_lay a) -> im_prop (v_lay a) = LP_contiguous ->
  contiguous_true (v_lay a) /\ is_contiguous (v_lay a) = true.
Proof.
  intros U E. pose proof (usable_wf _ U) as W. pose proof (usable_flags _ U) as F. split.
  - destruct F as [F1 F2]. rewrite E in F1, F2. specialize (F1 eq_refl). specialize (F2 eq_refl). unfold smallest_one_true in F2. rewrite F2 in F1. now apply regular_contiguous.
  - now apply C12_declared_contiguous_answers_true.
Qed.
(** views cut with positive steps meet them as soon as the run-time test says they are contiguous *)
Theorem C24_checked_contiguous (n off : Z) (m : idx_map) : view_of (fun s => 0 < s) n off m -> is_contiguous m = true -> usable m /\ contiguous_true m.
Proof. intros Hv H. split; [eapply view_usable; eauto|eapply contiguous_answer; eauto]. Qed.
(** the four standard policies fit every shape *)
Theorem C24_standard_policies (pol : policy) (shape : list Z) : In pol [PolC; PolF; PolCStride; PolFStride] -> policy_fits pol shape.
Proof.
  intros H. split.
  - destruct H as [<-|[<-|[<-|[<-|[]]]]]; cbn [policy_order]; solve [apply is_perm_identity|apply is_perm_reverse_identity].
  - apply forallb_forall. intros u Hu. assert (E : policy_extents pol (length shape) = repeat 0 (length shape)) by (destruct H as [<-|[<-|[<-|[<-|[]]]]]; reflexivity).
    rewrite E. unfold nthZ. now rewrite nth_repeat_any.
Qed.
(** basic_layout with a given stride order and given static extents, both encoded in integers: they are the ones asked for (up to rank 8, see C05); the
    code 0 for the stride order stands for C order (the class only accepts it at rank 1, idx_map.hpp:82) *)
Theorem C24_basic_policy (se : list Z) (so : list nat) (wse wso : Z) (p : layout_prop) : length se = length so -> (length so <= 8)%nat ->
  Forall (fun x => 0 <= x < 16) se -> encode se = Some wse -> is_order (length so) so -> encode (map Z.of_nat so) = Some wso ->
  let n := length so in
  policy_order (PolBasic wse wso p) n = so /\ policy_order (PolBasic wse 0 p) n = identity n /\ policy_extents (PolBasic wse wso p) n = se /\ policy_prop (PolBasic wse wso p) = p /\
  (forall shape, length shape = n -> (forall d, nthZ se d = 0 \/ nthZ se d = nthZ shape d) -> policy_fits (PolBasic wse wso p) shape).
Proof.
  intros Ls L8 Hse Ese Ho Eso n. subst n.
  assert (Bo : Forall (fun x => 0 <= x < 16) (map Z.of_nat so)).
  { rewrite Forall_forall. intros x Hx. apply in_map_iff in Hx. destruct Hx as (k & <- & Hk). apply (is_perm_In _ _ k Ho) in Hk. lia. }
  destruct (encode_decode _ Bo ltac:(now rewrite map_length)) as (w & Ew & Dw). rewrite Eso in Ew. injection Ew as <-. rewrite map_length in Dw.
  destruct (encode_decode _ Hse ltac:(now rewrite Ls)) as (w & Ew & Dse). rewrite Ese in Ew. injection Ew as <-. rewrite Ls in Dse.
  assert (Eo : policy_order (PolBasic wse wso p) (length so) = so).
  { cbn [policy_order]. destruct (Z.eqb_spec wso 0) as [E|E].
    - subst wso. assert (Z0 : Forall (fun k => k = 0%nat) so).
      { assert (F : Forall (fun z => z = 0) (map Z.of_nat so)).
        { rewrite <- Dw. unfold decode. rewrite Forall_forall. intros z Hz. apply in_map_iff in Hz. destruct Hz as (i & <- & _). now rewrite Z.shiftr_0_l. }
        clear - F. induction so as [|k so IH]; constructor; inversion F; subst; [lia|auto]. }
      pose proof (is_perm_NoDup _ _ Ho) as N. destruct so as [|a [|b so]]; [reflexivity| |].
      + inversion Z0; subst. reflexivity.
      + exfalso. inversion Z0 as [|x l Ha Z1]; subst. inversion Z1; subst. inversion N as [|x l Hn _]; subst. apply Hn. now left.
    - rewrite Dw. rewrite map_map, <- (map_id so) at 1. rewrite map_id. rewrite (map_ext _ (fun k => k)) by (intros; apply Nat2Z.id). apply map_id. }
  split; [exact Eo|]. split; [reflexivity|]. split; [exact Dse|]. split; [reflexivity|].
  intros shape Hs Hd. split; [rewrite Hs, Eo; exact Ho|]. rewrite Hs. cbn [policy_extents]. rewrite Dse. unfold static_extents_ok. apply forallb_forall. intros u Hu.
  destruct (Hd u) as [-> | ->]; [reflexivity|]. rewrite Z.eqb_refl. apply orb_true_r.
Qed.
(** static extents 0 3 2, of which the last two are fixed, in the order 2 0 1 *)
Example C24_basic_policy_ex : encode [0; 3; 2] = Some 560 /\ encode (map Z.of_nat [2; 0; 1]%nat) = Some 258 /\ policy_order (PolBasic 560 258 LP_none) 3 = [2; 0; 1]%nat /\
  policy_fits (PolBasic 560 258 LP_none) [7; 3; 2] /\ is_order 3 [2; 0; 1]%nat.
Proof. assert (O : is_order 3 [2; 0; 1]%nat) by (apply perm_check_ok; reflexivity). repeat (split; try reflexivity); exact O. Qed.
(** where the elements of the reshaped view are: rows first for C_layout and C_stride_layout, columns first for F_layout and F_stride_layout;
    the first and third are known to be contiguous *)
Lemma in_order_reverse (l : list Z) : in_order 0 (reverse_identity (length l)) l = rev l.
Proof.
  unfold in_order, reverse_identity. rewrite map_map. apply (nth_ext_len 0); [rewrite map_length, seq_length, rev_length; reflexivity|]. intros k Hk. rewrite map_length, seq_length in Hk.
  rewrite (nth_map_lt _ (seq 0 (length l)) k 0 0%nat) by (now rewrite seq_length). rewrite seq_nth, rev_nth by auto. f_equal. lia.
Qed.
Theorem C24_element_order (checks : bool) (pol : policy) (alg : algebra) (junk : list Z) (a : view) (shape : list Z) (alg' : algebra) (b : view) :
  length junk = length shape -> reshape checks pol alg junk a shape = Some (alg', b) ->
  (In pol [PolC; PolCStride] -> forall idx, in_range idx shape -> cell b idx = v_base a + radix shape idx) /\
  (In pol [PolF; PolFStride] -> forall idx, in_range idx shape -> cell b idx = v_base a + radix (rev shape) (rev idx)) /\
  (is_order (length shape) (policy_order pol (length shape)) -> forall idx, in_range idx shape ->
     cell b idx = v_base a + radix (in_order 0 (policy_order pol (length shape)) shape) (in_order 0 (policy_order pol (length shape)) idx)) /\
  (In pol [PolC; PolF] -> im_prop (v_lay b) = LP_contiguous) /\ (In pol [PolCStride; PolFStride] -> im_prop (v_lay b) = LP_none) /\
  (alg' = if Nat.eqb (length shape) (rank (v_lay a)) then alg else AlgA).
Proof.
  intros Hj E. unfold reshape in E. destruct (_ && _); [discriminate|]. destruct (_ && _); [discriminate|]. unfold policy_layout in E. destruct (_ && _); [discriminate|]. injection E as <- <-.
  assert (C : is_order (length shape) (policy_order pol (length shape)) -> forall idx, in_range idx shape ->
    cell (View (idx_map_of_shape (policy_order pol (length shape)) (policy_extents pol (length shape)) (policy_prop pol) junk shape) (v_base a)) idx = v_base a + seq_number (policy_order pol (length shape)) shape idx).
  { intros Ho idx Hi. unfold cell, addr, seq_number. cbn [v_lay v_base im_str idx_map_of_shape]. f_equal. rewrite (dot_compute_strides (length shape)); auto; [now rewrite !in_order_apply|now apply in_range_length in Hi]. }
  split; [|split; [|split; [|split; [|split]]]].
  - intros Hp idx Hi. assert (Eo : policy_order pol (length shape) = identity (length shape)) by (destruct Hp as [<-|[<-|[]]]; reflexivity). rewrite C by (auto; rewrite Eo; apply is_perm_identity). rewrite Eo. unfold seq_number.
    pose proof (in_range_length _ _ Hi) as L. rewrite !in_order_apply, apply_identity by reflexivity. rewrite <- L at 1. now rewrite apply_identity.
  - intros Hp idx Hi. assert (Eo : policy_order pol (length shape) = reverse_identity (length shape)) by (destruct Hp as [<-|[<-|[]]]; reflexivity). rewrite C by (auto; rewrite Eo; apply is_perm_reverse_identity). rewrite Eo. unfold seq_number.
    pose proof (in_range_length _ _ Hi) as L. rewrite in_order_reverse. rewrite <- L at 1. now rewrite in_order_reverse.
  - intros Ho idx Hi. exact (C Ho idx Hi).
  - intros [<-|[<-|[]]]; reflexivity.
  - intros [<-|[<-|[]]]; reflexivity.
  - reflexivity.
Qed.
(** flatten: rank one, all elements in stride order *)
Theorem C24_flatten (checks : bool) (pol : policy) (alg : algebra) (j0 : Z) (a : view) :
  usable (v_lay a) -> contiguous_true (v_lay a) -> is_contiguous (v_lay a) = true -> In pol [PolC; PolF; PolCStride; PolFStride] ->
  exists alg' b, flatten checks pol alg [j0] a = Some (alg', b) /\ im_len (v_lay b) = [prodZ (im_len (v_lay a))] /\ usable (v_lay b) /\
    (forall idx, in_view a idx -> cell b [seq_number (im_so (v_lay a)) (im_len (v_lay a)) idx] = cell a idx) /\
    (forall c, is_cell_of b c <-> is_cell_of a c).
Proof.
  intros U Hc Hic Hp. pose proof (usable_wf _ U) as W. assert (Hnn : 0 <= prodZ (im_len (v_lay a))) by (apply prodZ_nonneg; apply W).
  unfold flatten. rewrite size_prodZ. destruct (C24_reshape checks pol alg [j0] a [prodZ (im_len (v_lay a))]) as (alg' & b & E & El & Ub & Eb & [Ep Hq] & Hcell); auto.
  { split; [repeat constructor; auto|cbn [length]; lia]. } { now apply C24_standard_policies. } { rewrite prodZ_cons, prodZ_nil. ring. }
  exists alg', b. split; auto. split; auto. split; auto. split; auto. intros idx Hi.
  pose proof (seq_number_bound _ _ W Hi) as B. symmetry. apply Hq; auto.
  - unfold in_view, valid_idx. rewrite El. repeat constructor; unfold inr; lia.
  - pose proof (usable_wf _ Ub) as (_ & Ho & _). rewrite El in *. cbn [length] in Ho. rewrite (rank1_order _ Ho). unfold seq_number at 2. cbn [in_order map nth radix]. rewrite prodZ_nil. ring.
Qed.
(** with checks on, a wrong number of elements or a view that is not contiguous is reported *)
Theorem C24_reported (pol : policy) (alg : algebra) (junk : list Z) (a : view) (shape : list Z) :
  prodZ shape <> prodZ (im_len (v_lay a)) \/ is_contiguous (v_lay a) = false -> reshape true pol alg junk a shape = None.
Proof.
  unfold reshape. rewrite size_prodZ, fold_mul_acc, Z.mul_1_l. cbn [andb]. destruct (Z.eqb_spec (prodZ (im_len (v_lay a))) (prodZ shape)) as [E|E]; [|reflexivity].
  intros [H|H]; [congruence|]. now rewrite H.
Qed.
(** the elements keep their values, in order: A and reshape(A) printed in stride order read the same *)
Theorem C24_same_values {V} (m : mem V) (a b : view) : wf (v_lay a) -> wf (v_lay b) -> same_sequence a b ->
  forall La Lb, lists_in_stride_order (v_lay a) La -> lists_in_stride_order (v_lay b) Lb ->
  map (fun idx => m (cell a idx)) La = map (fun idx => m (cell b idx)) Lb.
Proof.
  intros Wa Wb [Ep H] La Lb [Na Ha] [Nb Hb]. apply (nth_ext_len (m 0)); rewrite !map_length; [lia|]. intros k Hk.
  rewrite (nth_map_lt (fun idx => m (cell a idx)) La k (m 0) []) by auto. rewrite (nth_map_lt (fun idx => m (cell b idx)) Lb k (m 0) []) by lia.
  destruct (Ha k Hk) as [Va Sa]. destruct (Hb k ltac:(lia)) as [Vb Sb]. f_equal. apply H; auto. congruence.
Qed.

(** flatten of the transpose of a 2x3 matrix: the policy of the transposed view is basic_layout with its stride order
    encoded for rank 2; decoded for rank 1 it names dimension 1, the stride of dimension 0 is never written *)
Definition ex_t : view := snd (transpose_view AlgM (ex_c 0)).
Theorem C24_flatten_transposed_refuted : exists (n off code : Z) (junk : list Z) (alg' : algebra) (b : view),
  view_of (fun s => 0 < s) n off (v_lay ex_t) /\ is_contiguous (v_lay ex_t) = true /\ contiguous_true (v_lay ex_t) /\
  encode (map Z.of_nat (im_so (v_lay ex_t))) = Some code /\
  flatten true (PolBasic 0 code (im_prop (v_lay ex_t))) AlgM junk ex_t = Some (alg', b) /\
  in_view b [1] /\ ~ is_cell_of ex_t (cell b [1]).
Proof.
  exists 6, 0, 1, [7], AlgA. eexists.
  assert (Hv : view_of (fun s => 0 < s) 6 0 (v_lay ex_t)).
  { unfold ex_t. apply (vo_transpose _ _ 0 (v_lay (ex_c 0)) [1; 0]%nat); [apply vo_fresh; build_view|build_view]. }
  assert (Hc : is_contiguous (v_lay ex_t) = true) by reflexivity.
  split; [exact Hv|]. split; [exact Hc|]. split; [eapply contiguous_answer; eauto|]. split; [reflexivity|]. split; [reflexivity|].
  split; [unfold in_view, valid_idx; cbn; repeat constructor; lia|]. intros C. apply contiguous_cells in C.
  - vm_compute in C. destruct C as [_ C]. discriminate.
  - eapply view_wf; eauto.
  - eapply contiguous_answer; eauto.
Qed.
(** the static extents of a stack array are kept by reshape: (2,3) to (3,2) is reported *)
Theorem C24_static_extents_refuted : exists (pol : policy) (a : view), usable (v_lay a) /\ im_prop (v_lay a) = LP_contiguous /\ im_se (v_lay a) = policy_extents pol 2 /\
  im_so (v_lay a) = policy_order pol 2 /\ im_len (v_lay a) = [2; 3] /\ reshape true pol AlgM [0; 0] a [3; 2] = None.
Proof.
  exists (PolBasic 50 16 LP_contiguous), (View (idx_map_of_shape [0; 1]%nat [2; 3] LP_contiguous [0; 0] [2; 3]) 0).
  split; [|repeat split]. apply (view_usable (fun _ => True) 6 0). apply vo_fresh; build_view.
Qed.
Example C24_example : usable (v_lay (ex_f 10)) /\ exists alg' b, reshape true PolF AlgM [9; 9; 9] (ex_f 10) [3; 1; 2] = Some (alg', b) /\
  map (cell b) (order_list (v_lay b)) = map (cell (ex_f 10)) (order_list (v_lay (ex_f 10))) /\ cell b [1; 0; 1] = 14.
Proof. split; [apply ex_f_usable|]. eexists _, _. split; [reflexivity|]. split; reflexivity. Qed.

(** ** C06: the views that permute indices *)
(** [l] with the entries [i] and [j] exchanged *)
Definition exchange {A} (d : A) (i j : nat) (l : list A) : list A := map (fun u => nth (if Nat.eqb u i then j else if Nat.eqb u j then i else u) l d) (seq 0 (length l)).
Theorem C06_transposed_view (i j : nat) (alg : algebra) (a : view) (idx : list Z) : wf (v_lay a) -> (i < rank (v_lay a))%nat -> (j < rank (v_lay a))%nat -> length idx = rank (v_lay a) ->
  fst (transposed_view i j alg a) = alg /\ im_len (v_lay (snd (transposed_view i j alg a))) = exchange 0 i j (im_len (v_lay a)) /\ cell (snd (transposed_view i j alg a)) idx = cell a (exchange 0 i j idx).
Proof.
  intros W Hi Hj L. pose proof (is_perm_transposition _ _ _ Hi Hj) as Ho. pose proof (is_perm_length _ _ Ho) as Lo.
  assert (X : forall l, length l = rank (v_lay a) -> in_order 0 (transposition (rank (v_lay a)) i j) l = exchange 0 i j l).
  { intros l Ll. unfold in_order, exchange. apply (nth_ext _ _ 0 0); [rewrite !map_length, seq_length; congruence|]. intros u Hu. rewrite map_length, Lo in Hu.
    rewrite (nth_map_lt _ _ u 0 0%nat) by now rewrite Lo. rewrite (nth_map_lt _ _ u 0 0%nat) by (rewrite seq_length; lia). rewrite seq_nth by lia. cbn [Nat.add].
    f_equal. apply nth_transposition; auto. }
  unfold transposed_view, permuted_indices_view, map_layout_transform. cbn [fst snd v_lay].
  assert (R : rank (transpose (transposition (rank (v_lay a)) i j) (v_lay a)) = rank (v_lay a)) by (unfold rank at 1, transpose; cbn [im_len]; rewrite apply_inverse_length; exact Lo).
  rewrite R, Nat.eqb_refl. split; [reflexivity|]. split.
  - unfold transpose. cbn [im_len]. rewrite <- X by reflexivity. rewrite in_order_apply. apply (nth_ext _ _ 0 0); [now rewrite apply_inverse_length, apply_length|]. intros u Hu. rewrite apply_inverse_length, Lo in Hu.
    pose proof (transposition_involutive _ _ _ Hi Hj) as Inv. assert (E : nthN (transposition (rank (v_lay a)) i j) (nthN (transposition (rank (v_lay a)) i j) u) = u).
    { rewrite (nth_transposition _ i j u) by auto. destruct (Nat.eqb_spec u i); [|destruct (Nat.eqb_spec u j)]; rewrite nth_transposition by auto;
        repeat match goal with |- context [Nat.eqb ?x ?y] => destruct (Nat.eqb_spec x y) end; congruence. }
    rewrite <- E at 1. rewrite (nth_apply_inverse 0 0 (rank (v_lay a))) by (auto; apply (is_perm_lt _ _ _ Ho Hu)). rewrite nth_apply by lia. reflexivity.
  - unfold cell. cbn [v_lay v_base]. rewrite transpose_addr, <- in_order_apply, X by auto. reflexivity.
Qed.
(** ** C25 *)
(** group_indices_view compiles exactly if the array is declared contiguous, the groups mention every dimension once and
    the dimensions of each group are neighbours in the stride order *)
Theorem C25_accepted (alg : algebra) (a : view) (grps : list (list nat)) : wf (v_lay a) -> Forall (fun g => g <> []) grps ->
  group_indices_view alg a grps <> None <->
  im_prop (v_lay a) = LP_contiguous /\ partition_of (rank (v_lay a)) grps /\ Forall (side_by_side (im_so (v_lay a))) grps.
Proof.
  intros W Hn. rewrite <- group_layout_accepts by auto. unfold group_indices_view. destruct (group_indices_layout (v_lay a) grps); split; congruence.
Qed.
Lemma contiguous_regular m : usable m -> im_prop m = LP_contiguous -> regular 1 m.
Proof.
  intros U E. pose proof (usable_flags _ U) as [F1 F2]. rewrite E in F1, F2. specialize (F1 eq_refl). specialize (F2 eq_refl). unfold smallest_one_true in F2. now rewrite F2 in F1.
Qed.
(** the grouped view has one dimension per group; element idx of the array is element merged(idx) of the view *)
Theorem C25_elements (alg : algebra) (a : view) (grps : list (list nat)) (alg' : algebra) (b : view) : usable (v_lay a) -> Forall (fun g => g <> []) grps ->
  group_indices_view alg a grps = Some (alg', b) ->
  v_base b = v_base a /\
  im_len (v_lay b) = map (fun g => prodZ (map (nthZ (im_len (v_lay a))) g)) grps /\
  (forall idx, in_view a idx -> in_view b (merged (v_lay a) grps idx) /\ cell b (merged (v_lay a) grps idx) = cell a idx) /\
  (forall i j, in_view a i -> in_view a j -> merged (v_lay a) grps i = merged (v_lay a) grps j -> i = j) /\
  (forall x, in_view b x -> exists idx, in_view a idx /\ merged (v_lay a) grps idx = x).
Proof.
  intros U Hn H. unfold group_indices_view in H. destruct (group_indices_layout (v_lay a) grps) as [m'|] eqn:E; [|discriminate]. injection H as _ <-.
  pose proof (usable_wf _ U) as W. apply group_layout_iff in E; auto. destruct E as (Ec & Hp & mins & Hs & ->). pose proof (contiguous_regular _ U Ec) as Hr.
  cbn [map_layout_transform v_base v_lay]. split; [reflexivity|]. split.
  { unfold grouped, idx_map_of_shape_strides. cbn [im_len]. apply map_ext. intros g. apply total_len_prod. }
  assert (HA : forall idx, in_view a idx -> valid_idx (grouped (v_lay a) grps mins) (merged (v_lay a) grps idx) /\ addr (grouped (v_lay a) grps mins) (merged (v_lay a) grps idx) = addr (v_lay a) idx)
    by (intros idx Hi; now apply grouped_addr).
  split; [|split].
  - intros idx Hi. destruct (HA idx Hi) as [H1 H2]. split; [exact H1|]. unfold cell. cbn [v_base v_lay]. now rewrite H2.
  - intros i j Hi Hj Em. apply (usable_inj (v_lay a)); auto. rewrite <- (proj2 (HA i Hi)), <- (proj2 (HA j Hj)). now rewrite Em.
  - intros x Hx. apply (grouped_onto (v_lay a) grps mins x W Hr Hp Hn Hs Hx).
Qed.
(** for arrays without zero extents the view is again a usable, truly contiguous layout *)
Theorem C25_contiguous (alg : algebra) (a : view) (grps : list (list nat)) (alg' : algebra) (b : view) : usable (v_lay a) -> Forall (fun g => g <> []) grps ->
  Forall (fun l => 0 < l) (im_len (v_lay a)) -> group_indices_view alg a grps = Some (alg', b) ->
  usable (v_lay b) /\ contiguous_true (v_lay b) /\ im_prop (v_lay b) = LP_contiguous /\ rank (v_lay b) = length grps.
Proof.
  intros U Hn Hpos H. unfold group_indices_view in H. destruct (group_indices_layout (v_lay a) grps) as [m'|] eqn:E; [|discriminate]. injection H as _ <-.
  pose proof (usable_wf _ U) as W. apply group_layout_iff in E; auto. destruct E as (Ec & Hp & mins & Hs & ->). pose proof (contiguous_regular _ U Ec) as Hr.
  cbn [map_layout_transform v_base v_lay]. pose proof (grouped_wf _ _ _ W Hp Hn Hs) as W'. pose proof (grouped_regular _ _ _ W Hr Hpos Hp Hn Hs) as Hr'.
  pose proof (regular_contiguous _ W' Hr') as Hc. split; [|split; [exact Hc|split; [reflexivity|]]].
  - split; [split; [exact W'|]|].
    + pose proof (regular_min_stride _ 1 W' Hr') as Em. split; intros _; [now rewrite Em|exact Em].
    + intros i j Hi Hj Ea. rewrite (Hc i Hi), (Hc j Hj) in Ea. unfold seq_number in Ea. rewrite !in_order_apply in Ea. destruct W' as (_ & Ho' & _).
      apply (apply_inj 0 (length (im_len (grouped (v_lay a) grps mins))) (im_so (grouped (v_lay a) grps mins))); auto; try (now apply in_range_length).
      pose proof (in_range_apply _ _ _ _ Ho' eq_refl Hi) as R1. pose proof (in_range_apply _ _ _ _ Ho' eq_refl Hj) as R2. rewrite <- (digits_radix _ _ R1), <- (digits_radix _ _ R2). now rewrite Ea.
  - unfold rank, grouped, idx_map_of_shape_strides. cbn [im_len]. apply map_length.
Qed.
(** each merged index counts through its group with the fastest dimension (in memory) of the group running fastest,
    whatever the order in which the group lists its dimensions *)
Theorem C25_listing_order (m : idx_map) (g g' : list nat) (idx : list Z) : Permutation g g' -> merged_index m idx g = merged_index m idx g'.
Proof.
  intros HP. unfold merged_index. f_equal. unfold mem_order. apply filter_ext. intros k.
  destruct (existsb (Nat.eqb k) g) eqn:E1, (existsb (Nat.eqb k) g') eqn:E2; auto; exfalso.
  - apply existsb_eqb_In in E1. apply (Permutation_in _ HP) in E1. apply existsb_eqb_In in E1. congruence.
  - apply existsb_eqb_In in E2. apply (Permutation_in _ (Permutation_sym HP)) in E2. apply existsb_eqb_In in E2. congruence.
Qed.
Definition ex_4d : view := new_array [3; 0; 1; 2]%nat 100 [2; 3; 2; 5].
Example C25_example : usable (v_lay ex_4d) /\ exists alg' b, group_indices_view AlgA ex_4d [[1; 2; 0]; [3]]%nat = Some (alg', b) /\ im_len (v_lay b) = [12; 5] /\
  im_so (v_lay b) = [1; 0]%nat /\ merged (v_lay ex_4d) [[1; 2; 0]; [3]]%nat [1; 2; 0; 4] = [10; 4] /\ cell b [10; 4] = cell ex_4d [1; 2; 0; 4] /\
  group_indices_view AlgA ex_4d [[0; 2]; [1]; [3]]%nat = None.
Proof.
  split; [apply new_array_usable; build_view; split; simpl; lia|]. eexists _, _. split; [reflexivity|]. repeat split.
Qed.

(** ** C26 *)
Theorem C26_add_dims (N : nat) (alg : algebra) (a : view) : usable (v_lay a) ->
  let b := snd (reinterpret_add_fast_dims N alg a) in
  im_len (v_lay b) = im_len (v_lay a) ++ repeat 1 N /\
  (forall idx', in_view b idx' <-> exists idx, idx' = idx ++ repeat 0 N /\ in_view a idx) /\
  (forall idx, in_view a idx -> cell b (idx ++ repeat 0 N) = cell a idx).
Proof.
  intros U b. pose proof (usable_wf _ U) as (Ls & _). unfold b, reinterpret_add_fast_dims, map_layout_transform. cbn [snd v_lay v_base]. split; [reflexivity|]. split.
  - intros idx'. apply add_dims_valid.
  - intros idx Hi. unfold cell. cbn [v_lay v_base]. rewrite add_dims_addr; auto. rewrite (in_range_length _ _ Hi). exact Ls.
Qed.
(** the declared layout properties stay true, except for views declared strided_1d *)
Theorem C26_usable (N : nat) (alg : algebra) (a : view) : usable (v_lay a) -> im_prop (v_lay a) <> LP_strided_1d -> (0 < N)%nat -> (rank (v_lay a) + N < 16)%nat ->
  let b := snd (reinterpret_add_fast_dims N alg a) in usable (v_lay b) /\ im_prop (v_lay b) = im_prop (v_lay a).
Proof.
  intros U Hp HN HR b. pose proof (usable_wf _ U) as W. unfold b, reinterpret_add_fast_dims, map_layout_transform. cbn [snd v_lay]. split; [|reflexivity].
  pose proof (add_dims_min_stride N _ W HN) as Em. split; [split; [now apply add_dims_wf|]|].
  - split.
    + intros H1. change (im_prop (add_fast_dims_layout N (v_lay a))) with (im_prop (v_lay a)) in H1. rewrite Em. apply add_dims_regular; auto.
      apply contiguous_regular; auto. destruct (im_prop (v_lay a)); try discriminate; congruence.
    + intros _. exact Em.
  - intros i j Hi Hj Ea. apply add_dims_valid in Hi, Hj. destruct Hi as (i0 & -> & Hi), Hj as (j0 & -> & Hj). destruct W as (Ls & _).
    rewrite !add_dims_addr in Ea by (rewrite Ls; symmetry; now apply in_range_length). f_equal. now apply (usable_inj (v_lay a)).
Qed.
(** a column of a 2x3 matrix is declared strided_1d; with one more dimension its smallest stride becomes 1 but the declaration
    stays: the element reached as the second in one-dimensional access is not the second element *)
Theorem C26_strided_refuted : exists (n off : Z) (a : view), view_of (fun s => 0 < s) n off (v_lay a) /\ im_prop (v_lay a) = LP_strided_1d /\
  let b := snd (reinterpret_add_fast_dims 1 AlgA a) in ~ flags_true (v_lay b) /\ in_view b [1; 0] /\ seq_number (im_so (v_lay b)) (im_len (v_lay b)) [1; 0] = 1 /\ lin_elem b 1 <> Some (cell b [1; 0]).
Proof.
  exists 6, 1, (View (IdxMap [2] [3] [0%nat] [0] LP_strided_1d) 1). split; [|split; [reflexivity|]].
  - change 1 with (0 + 1) at 1. eapply vo_slice with (m := v_lay (ex_c 0)) (args := [AAll; ALong 1]).
    + apply vo_fresh; build_view.
    + reflexivity.
    + intros r [H|[H|[]]]; discriminate.
    + constructor; [exact I|]. constructor; [cbn; lia|constructor].
    + exists AAll. split; [left; reflexivity|reflexivity].
  - cbn zeta. split; [|split; [|split; [reflexivity|]]].
    + intros [F _]. specialize (F eq_refl 0%nat). assert (C : 3 = 1) by (apply F; cbn; lia). discriminate.
    + unfold in_view, valid_idx. cbn. repeat constructor; lia.
    + vm_compute. discriminate.
Qed.
Example C26_example : usable (v_lay (ex_f 10)) /\ im_len (v_lay (snd (reinterpret_add_fast_dims 2 AlgM (ex_f 10)))) = [2; 3; 1; 1] /\
  cell (snd (reinterpret_add_fast_dims 2 AlgM (ex_f 10))) [1; 2; 0; 0] = 15.
Proof. split; [apply ex_f_usable|]. split; reflexivity. Qed.

(** ** C27 *)
Theorem C27_diagonal (a : view) : usable (v_lay a) -> rank (v_lay a) = 2%nat ->
  usable (v_lay (diagonal a)) /\ im_len (v_lay (diagonal a)) = [Z.min (nthZ (im_len (v_lay a)) 0) (nthZ (im_len (v_lay a)) 1)] /\
  im_se (v_lay (diagonal a)) = [0] /\ forall i, cell (diagonal a) [i] = cell a [i; i].
Proof.
  intros U R. split; [now apply diagonal_usable|]. split; [reflexivity|]. split; [reflexivity|]. intros i. apply diagonal_cell; auto.
Qed.
Theorem C27_diag {V} (A : arith V) (checks : bool) (base n : Z) (r : rhs V) (m : mem V) : 0 <= n -> reads_outside (c_array base [n; n]) [n] r ->
  exists m', diag A checks base n r m = (c_array base [n; n], Some m') /\
    (forall i j, 0 <= i < n -> 0 <= j < n -> m' (cell (c_array base [n; n]) [i; j]) = if i =? j then rhs_value r m [i] else v_zero A) /\
    unchanged_outside (c_array base [n; n]) m m'.
Proof. apply diag_spec. Qed.
Theorem C27_eye {V} (A : arith V) (base n : Z) (m : mem V) : 0 <= n ->
  exists m', eye A base n m = (c_array base [n; n], Some m') /\
    (forall i j, 0 <= i < n -> 0 <= j < n -> m' (cell (c_array base [n; n]) [i; j]) = if i =? j then v_one A else v_zero A) /\
    unchanged_outside (c_array base [n; n]) m m'.
Proof.
  intros Hn. destruct (fill_new_matrix 0 (identity 2) base n n (v_one A) (v_zero A) m) as (m' & E & H1 & H2); auto; [apply is_perm_identity|].
  exists m'. unfold eye. split; [|split; assumption]. unfold c_array at 1. cbn [length]. f_equal. exact E.
Qed.
(** trace: defined exactly for square matrices, and the sum of the diagonal, for every element type whose addition is associative with
    neutral element 0 *)
Theorem C27_trace {V} (A : arith V) (n k : Z) (a : list Z -> V) :
  (forall x y z, v_add A x (v_add A y z) = v_add A (v_add A x y) z) -> (forall x, v_add A (v_zero A) x = x) -> (forall x, v_add A x (v_zero A) = x) ->
  trace A [n; k] a = if n =? k then Some (fold_right (v_add A) (v_zero A) (map (fun i => a [i; i]) (zseq n))) else None.
Proof.
  intros Assoc Zl Zr. unfold trace, nthZ. cbn [nth]. destruct (n =? k); auto. f_equal.
  assert (G : forall l acc, fold_left (fun r i => v_add A r (a [i; i])) l acc = v_add A acc (fold_right (v_add A) (v_zero A) (map (fun i => a [i; i]) l))).
  { induction l as [|x l IH]; intros acc; cbn [fold_left map fold_right]; [now rewrite Zr|]. now rewrite IH, Assoc. }
  now rewrite G, Zl.
Qed.
Theorem C27_trace_integers (n k : Z) (a : list Z -> Z) : trace Z_arith [n; k] a = if n =? k then Some (sumZ (map (fun i => a [i; i]) (zseq n))) else None.
Proof. apply (C27_trace Z_arith); cbn; intros; lia. Qed.
Theorem C27_dagger {V} (A : arith V) (conj : V -> V) (m : mem V) (a : view) (n k i j : Z) : usable (v_lay a) -> im_len (v_lay a) = [n; k] -> 0 <= i < k -> 0 <= j < n ->
  expr_shape (dagger A conj a) = [k; n] /\ expr_at A m (dagger A conj a) [i; j] = conj (m (cell a [j; i])).
Proof.
  intros U E Hi Hj. unfold dagger, transpose_view, permuted_indices_view, map_layout_transform. cbn [expr_shape expr_at exprs_at v_lay].
  pose proof (usable_wf _ U) as W. assert (R : rank (v_lay a) = 2%nat) by (unfold rank; now rewrite E). pose proof (usable_flags _ U) as F.
  assert (Ho : is_order (rank (v_lay a)) [1; 0]%nat) by (rewrite R; apply perm_check_ok; reflexivity).
  assert (El : im_len (transpose [1; 0]%nat (v_lay a)) = [k; n]) by (unfold transpose; cbn [im_len]; rewrite E; reflexivity).
  split; [exact El|]. f_equal. f_equal. rewrite elem_cell.
  - unfold cell. cbn [v_lay v_base]. f_equal. now rewrite transpose_addr.
  - now apply transpose_wf.
  - now apply transpose_flags.
  - unfold rank. cbn [v_lay]. now rewrite El.
Qed.
(** vstack: the rows of the first matrix followed by the rows of the second *)
Theorem C27_vstack {V} (checks : bool) (base n p q : Z) (ra rb : rhs V) (m : mem V) : 0 <= n -> 0 <= p -> 0 <= q ->
  reads_outside (c_array base [n + p; q]) [n; q] ra -> reads_outside (c_array base [n + p; q]) [p; q] rb ->
  exists m', vstack checks base [n; q] ra [p; q] rb m = Some (c_array base [n + p; q], m') /\
    (forall i j, 0 <= i < n + p -> 0 <= j < q -> m' (cell (c_array base [n + p; q]) [i; j]) = if i <? n then rhs_value ra m [i; j] else rhs_value rb m [i - n; j]) /\
    unchanged_outside (c_array base [n + p; q]) m m'.
Proof. apply vstack_spec. Qed.
Theorem C27_vstack_mismatch {V} (base n p q q' : Z) (ra rb : rhs V) (m : mem V) : q <> q' -> vstack true base [n; q] ra [p; q'] rb m = None.
Proof. intros H. unfold vstack, nthZ. cbn [nth andb]. destruct (Z.eqb_spec q q'); [contradiction|reflexivity]. Qed.
Lemma ex_reads_outside base shape : base + prodZ shape <= 10 -> good_shape shape -> reads_outside (c_array base shape) [2; 3] (@RMem Z (ex_f 10)).
Proof.
  intros Hb [Hs Hr]. split.
  - intros src H. injection H as <-. split; [apply usable_truthful, ex_f_usable|reflexivity].
  - intros idx m1 m2 Hi Hc. cbn [rhs_value]. apply Hc. intros C. apply new_array_cells in C; auto; [|apply is_perm_identity].
    assert (B : 10 <= cell (ex_f 10) idx < 10 + 6) by (apply ex_f_cells; exists idx; auto). lia.
Qed.
Example C27_example : reads_outside (c_array (-8) [2 + 2; 3]) [2; 3] (@RMem Z (ex_f 10)) /\
  exists m', vstack true (-8) [2; 3] (RMem (ex_f 10)) [2; 3] (RMem (ex_f 10)) (fun a => a) = Some (c_array (-8) [4; 3], m') /\
  map m' [-8; -7; -6; -5; -4; -3; -2; -1; 0; 1; 2; 3; 4] = [10; 12; 14; 11; 13; 15; 10; 12; 14; 11; 13; 15; 4] /\
  trace Z_arith [2; 2] (fun idx => cell (ex_c 5) idx) = Some (5 + 9).
Proof.
  split; [apply ex_reads_outside; [vm_compute; discriminate|split; [repeat constructor; lia|simpl; lia]]|]. eexists. split; [reflexivity|]. split; vm_compute; reflexivity.
Qed.

(** ** C28 *)
Theorem C28_rank1 {V} (base : Z) (l : list V) (m : mem V) :
  let '(a, m') := array_of_list1 [0%nat] base l m in
  im_len (v_lay a) = [Z.of_nat (length l)] /\ (forall i x, nth_error l i = Some x -> m' (cell a [Z.of_nat i]) = x) /\ unchanged_outside a m m'.
Proof.
  unfold array_of_list1. set (a := new_array [0%nat] base [Z.of_nat (length l)]).
  assert (U : usable (v_lay a)) by (apply new_array_usable; [apply perm_check_ok; reflexivity|repeat constructor; lia|cbn [length]; lia]).
  rewrite (fill_list1_fold a [] l (m 0)). pose proof (write_all a (fun idx => nth (Z.to_nat (nthZ idx 0)) l (m 0)) m U) as W. cbn zeta in W.
  change (im_len (v_lay a)) with [Z.of_nat (length l)] in W. cbn [all_idx] in W. rewrite fold_left_flat_map in W. cbn [map fold_left] in W. destruct W as [W1 W2].
  split; [reflexivity|]. split; [|exact W2]. intros i x Hx. cbn [app]. assert (Hi : (i < length l)%nat) by (apply nth_error_Some; congruence).
  etransitivity; [apply (W1 [Z.of_nat i])|].
  - apply (in_view1 a (Z.of_nat (length l))); [reflexivity|]. exists (Z.of_nat i). split; auto. lia.
  - unfold nthZ. cbn [nth]. rewrite Nat2Z.id. now apply nth_error_nth.
Qed.
Theorem C28_rank2 {V} (checks : bool) (so : list nat) (base : Z) (n : nat) (l : list (list V)) (m : mem V) : is_order 2 so -> rectangular n l -> l <> [] ->
  exists m', array_of_list2 checks so base l m = LArray (new_array so base [Z.of_nat (length l); Z.of_nat n]) m' /\
    (forall i j row x, nth_error l i = Some row -> nth_error row j = Some x -> m' (cell (new_array so base [Z.of_nat (length l); Z.of_nat n]) [Z.of_nat i; Z.of_nat j]) = x) /\
    unchanged_outside (new_array so base [Z.of_nat (length l); Z.of_nat n]) m m'.
Proof.
  intros Ho Hr Hn. unfold array_of_list2. rewrite (shape_rect2 checks n l Hr Hn). set (a := new_array so base _).
  assert (U : usable (v_lay a)) by (apply new_array_usable; [exact Ho|repeat constructor; lia|cbn [length]; lia]).
  rewrite (fill_list2_fold a [] n l (m 0) m Hr). pose proof (write_all a (fun ij => nth (Z.to_nat (nthZ ij 1)) (nth (Z.to_nat (nthZ ij 0)) l []) (m 0)) m U) as W. cbn zeta in W. destruct W as [W1 W2].
  eexists. split; [reflexivity|]. split; [|exact W2]. intros i j row x Hrow Hx.
  assert (Hi : (i < length l)%nat) by (apply nth_error_Some; congruence). assert (Hj : (j < length row)%nat) by (apply nth_error_Some; congruence).
  rewrite (Hr row) in Hj by (eapply nth_error_In; eauto).
  etransitivity; [apply (W1 [Z.of_nat i; Z.of_nat j])|].
  - apply (in_view2 a (Z.of_nat (length l)) (Z.of_nat n)); [reflexivity|lia].
  - unfold nthZ. cbn [nth]. rewrite !Nat2Z.id, (nth_error_nth l i [] Hrow). now apply nth_error_nth.
Qed.
Theorem C28_rank3 {V} (checks : bool) (so : list nat) (base : Z) (n k : nat) (l : list (list (list V))) (m : mem V) : is_order 3 so ->
  rectangular n l -> (forall l2, In l2 l -> rectangular k l2) -> l <> [] -> (0 < n)%nat ->
  let a := new_array so base [Z.of_nat (length l); Z.of_nat n; Z.of_nat k] in
  exists m', array_of_list3 checks so base l m = LArray a m' /\
    (forall i j h plane row x, nth_error l i = Some plane -> nth_error plane j = Some row -> nth_error row h = Some x ->
       m' (cell a [Z.of_nat i; Z.of_nat j; Z.of_nat h]) = x) /\
    unchanged_outside a m m'.
Proof.
  intros Ho Hr Hk Hn Hp a. unfold array_of_list3. rewrite (shape_rect3 checks n k l Hr Hk Hn Hp). fold a.
  assert (U : usable (v_lay a)) by (apply new_array_usable; [exact Ho|repeat constructor; lia|cbn [length]; lia]).
  rewrite (fill_list3_fold a n k l (m 0) m Hr Hk).
  pose proof (write_all a (fun x => nth (Z.to_nat (nthZ x 2)) (nth (Z.to_nat (nthZ x 1)) (nth (Z.to_nat (nthZ x 0)) l []) []) (m 0)) m U) as W. cbn zeta in W. destruct W as [W1 W2].
  eexists. split; [reflexivity|]. split; [|exact W2]. intros i j h plane row x Hpl Hrow Hx.
  assert (Hi : (i < length l)%nat) by (apply nth_error_Some; congruence). assert (Hj : (j < length plane)%nat) by (apply nth_error_Some; congruence).
  assert (Hh : (h < length row)%nat) by (apply nth_error_Some; congruence).
  assert (Ipl : In plane l) by (eapply nth_error_In; eauto). rewrite (Hr plane Ipl) in Hj. rewrite (Hk plane Ipl row) in Hh by (eapply nth_error_In; eauto).
  etransitivity; [apply (W1 [Z.of_nat i; Z.of_nat j; Z.of_nat h])|].
  - unfold in_view, valid_idx. change (im_len (v_lay a)) with [Z.of_nat (length l); Z.of_nat n; Z.of_nat k]. repeat constructor; unfold inr; lia.
  - unfold nthZ. cbn [nth]. rewrite !Nat2Z.id, (nth_error_nth l i [] Hpl), (nth_error_nth plane j [] Hrow). now apply nth_error_nth.
Qed.
Lemma shape_of_list_eq s0 subs : shape_of_list true (LShape s0 :: map LShape subs) =
  match minmax_element shape_eqb (s0 :: subs) with
  | None => LUndefined | Some (mn, mx) => if negb (shape_eqb mn mx) then LNotRectangular else LShape (Z.of_nat (S (length subs)) :: mx) end.
Proof.
  unfold shape_of_list. rewrite find_bad_none.
  - cbn [map shape_known]. rewrite map_map. cbn [shape_known]. rewrite map_id. cbn [length]. rewrite map_length. reflexivity.
  - constructor; [reflexivity|]. apply Forall_forall. intros x Hx. apply in_map_iff in Hx. destruct Hx as (y & <- & _). reflexivity.
Qed.
Lemma shape_of_list2_ragged {V} (r0 : list V) l : (seen_ragged (r0 :: l) -> shape_of_list2 true (r0 :: l) = LNotRectangular) /\
  (~ seen_ragged (r0 :: l) -> shape_of_list2 true (r0 :: l) = LShape [Z.of_nat (length (r0 :: l)); Z.of_nat (length r0)]).
Proof.
  unfold shape_of_list2. change (map shape_of_list1 (r0 :: l)) with (LShape [Z.of_nat (length r0)] :: map (fun r : list V => LShape [Z.of_nat (length r)]) l).
  replace (map (fun r : list V => LShape [Z.of_nat (length r)]) l) with (map LShape (map (fun r => [Z.of_nat (length r)]) l)) by (rewrite map_map; reflexivity).
  rewrite shape_of_list_eq. destruct (minmax_element_eq [Z.of_nat (length r0)] (map (fun r : list V => [Z.of_nat (length r)]) l)) as (mx & -> & H).
  assert (HR : mx <> [Z.of_nat (length r0)] <-> seen_ragged (r0 :: l)).
  { rewrite H. cbn [length]. rewrite map_length. change ([Z.of_nat (length r0)] :: map (fun r : list V => [Z.of_nat (length r)]) l) with (map (fun r : list V => [Z.of_nat (length r)]) (r0 :: l)).
    split.
    - intros (k & Hk & HN). assert (Hl : (k < length (r0 :: l))%nat) by (cbn [length]; lia). destruct (nth_error (r0 :: l) k) as [r|] eqn:E; [|apply nth_error_None in E; lia].
      exists k, r0, r. split; [exact Hk|]. split; [reflexivity|]. split; [exact E|]. intros C. apply HN.
      rewrite (map_nth (fun r : list V => [Z.of_nat (length r)])). rewrite (nth_error_nth _ _ r0 E). now rewrite C.
    - intros (k & x0 & r & Hk & E0 & E & HN). injection E0 as <-. exists k. split; [exact Hk|]. intros C.
      rewrite (map_nth (fun r : list V => [Z.of_nat (length r)])) in C. rewrite (nth_error_nth _ _ r0 E) in C. injection C as C. lia. }
  split; intros HS.
  - apply HR in HS. destruct (shape_eqb [Z.of_nat (length r0)] mx) eqn:E; [|reflexivity]. apply shape_eqb_iff in E. congruence.
  - assert (mx = [Z.of_nat (length r0)]) as -> by (destruct (list_eq_dec Z.eq_dec mx [Z.of_nat (length r0)]); [auto|tauto]).
    rewrite shape_eqb_refl. cbn [negb length]. rewrite map_length. reflexivity.
Qed.
(** With checks on, exactly the lists are reported in which the last row, or the one before the last if their number is odd, has another length than the first;
    otherwise an array as wide as the first row is made. *)
Theorem C28_reported {V} (so : list nat) (base : Z) (r0 : list V) (l : list (list V)) (m : mem V) :
  (seen_ragged (r0 :: l) -> array_of_list2 true so base (r0 :: l) m = LReported) /\
  (~ seen_ragged (r0 :: l) -> exists m', array_of_list2 true so base (r0 :: l) m = LArray (new_array so base [Z.of_nat (length (r0 :: l)); Z.of_nat (length r0)]) m').
Proof.
  unfold array_of_list2. destruct (shape_of_list2_ragged r0 l) as [H1 H2]. split; intros H; [now rewrite H1|]. rewrite H2 by auto. eexists. reflexivity.
Qed.
(** so lists of up to three rows that are not rectangular are always reported *)
Theorem C28_reported_three {V} (so : list nat) (base : Z) (l : list (list V)) (m : mem V) : (length l <= 3)%nat -> (forall n, ~ rectangular n l) ->
  array_of_list2 true so base l m = LReported.
Proof.
  intros Hl Hr. destruct l as [|x [|y [|z [|w l]]]]; cbn [length] in Hl; try lia.
  - exfalso. apply (Hr 0%nat). intros r [].
  - exfalso. apply (Hr (length x)). intros r [<-|[]]. reflexivity.
  - apply C28_reported. exists 1%nat, x, y. split; [left; reflexivity|]. split; [reflexivity|]. split; [reflexivity|]. intros E. apply (Hr (length x)). intros r [<-|[<-|[]]]; auto.
  - apply C28_reported. destruct (Nat.eq_dec (length y) (length x)) as [E|E].
    + exists 2%nat, x, z. split; [left; reflexivity|]. split; [reflexivity|]. split; [reflexivity|]. intros E2. apply (Hr (length x)). intros r [<-|[<-|[<-|[]]]]; auto.
    + exists 1%nat, x, y. split; [right; split; reflexivity|]. auto.
Qed.
(** rank 3: as rank 2 for every plane, and the planes compared have the number and first length of rows of the first *)
Theorem C28_reported_rank3 {V} (so : list nat) (base : Z) (p0 : list (list V)) (l : list (list (list V))) (m : mem V) : (forall p, In p (p0 :: l) -> p <> []) ->
  let differ := exists k p, looked_at (length (p0 :: l)) k /\ nth_error (p0 :: l) k = Some p /\ (length p <> length p0 \/ length (hd [] p) <> length (hd [] p0)) in
  ((exists p, In p (p0 :: l) /\ seen_ragged p) \/ differ -> array_of_list3 true so base (p0 :: l) m = LReported) /\
  (~ (exists p, In p (p0 :: l) /\ seen_ragged p) -> ~ differ ->
     exists m', array_of_list3 true so base (p0 :: l) m = LArray (new_array so base [Z.of_nat (length (p0 :: l)); Z.of_nat (length p0); Z.of_nat (length (hd [] p0))]) m').
Proof.
  intros HN differ. set (sh := fun p : list (list V) => [Z.of_nat (length p); Z.of_nat (length (hd [] p))]).
  assert (HP : forall p, In p (p0 :: l) -> (seen_ragged p -> shape_of_list2 true p = LNotRectangular) /\ (~ seen_ragged p -> shape_of_list2 true p = LShape (sh p))).
  { intros [|r p] Hp; [now elim (HN [] Hp)|]. apply shape_of_list2_ragged. }
  assert (dec : forall p : list (list V), In p (p0 :: l) -> bad_shape (shape_of_list2 true p) = true <-> seen_ragged p).
  { intros [|r p] Hp; [now elim (HN [] Hp)|]. destruct (shape_of_list2_ragged r p) as [H1 H2]. split.
    - intros Hb. destruct (minmax_element_eq [Z.of_nat (length r)] (map (fun r : list V => [Z.of_nat (length r)]) p)) as (mx & Em & H).
      unfold shape_of_list2 in Hb. change (map shape_of_list1 (r :: p)) with (LShape [Z.of_nat (length r)] :: map (fun r : list V => LShape [Z.of_nat (length r)]) p) in Hb.
      replace (map (fun r : list V => LShape [Z.of_nat (length r)]) p) with (map LShape (map (fun r => [Z.of_nat (length r)]) p)) in Hb by (rewrite map_map; reflexivity).
      rewrite shape_of_list_eq, Em in Hb. destruct (shape_eqb [Z.of_nat (length r)] mx) eqn:E; cbn [negb bad_shape] in Hb; [discriminate|].
      assert (NE : mx <> [Z.of_nat (length r)]) by (intros ->; rewrite shape_eqb_refl in E; discriminate).
      apply H in NE. destruct NE as (k & Hk & HNk). cbn [length] in Hk. rewrite map_length in Hk.
      change ([Z.of_nat (length r)] :: map (fun r : list V => [Z.of_nat (length r)]) p) with (map (fun r : list V => [Z.of_nat (length r)]) (r :: p)) in HNk.
      destruct (nth_error (r :: p) k) as [q|] eqn:Eq; [|apply nth_error_None in Eq; cbn [length] in Eq; lia].
      exists k, r, q. split; [exact Hk|]. split; [reflexivity|]. split; [exact Eq|]. intros C. apply HNk.
      rewrite (map_nth (fun r : list V => [Z.of_nat (length r)])). rewrite (nth_error_nth _ _ r Eq). now rewrite C.
    - intros Hs. rewrite H1 by auto. reflexivity. }
  unfold array_of_list3. assert (ES : (exists p, In p (p0 :: l) /\ seen_ragged p) \/ (forall p, In p (p0 :: l) -> ~ seen_ragged p)).
  { destruct (existsb (fun p => bad_shape (shape_of_list2 true p)) (p0 :: l)) eqn:E.
    - left. apply existsb_exists in E. destruct E as (p & Hp & E). exists p. split; auto. now apply dec.
    - right. intros p Hp C. apply (dec p Hp) in C. assert (X : existsb (fun p => bad_shape (shape_of_list2 true p)) (p0 :: l) = true) by (apply existsb_exists; eauto). congruence. }
  destruct ES as [(p & Hp & Hs)|HS].
  - split; [intros _|intros C; elim C; eauto]. enough (E : shape_of_list3 true (p0 :: l) = LNotRectangular) by now rewrite E.
    unfold shape_of_list3, shape_of_list. destruct (find bad_shape (map (shape_of_list2 true) (p0 :: l))) as [x|] eqn:E.
    + apply find_some in E. destruct E as [Hx Hb]. apply in_map_iff in Hx. destruct Hx as (q & <- & Hq). apply (HP q Hq). now apply dec.
    + exfalso. pose proof (find_none _ _ E (shape_of_list2 true p) (in_map _ _ _ Hp)) as C. rewrite (proj2 (dec p Hp) Hs) in C. discriminate.
  - assert (E3 : shape_of_list3 true (p0 :: l) = shape_of_list true (LShape (sh p0) :: map LShape (map sh l))).
    { unfold shape_of_list3. cbn [map]. f_equal. rewrite (proj2 (HP p0 (or_introl eq_refl)) (HS p0 (or_introl eq_refl))). f_equal. rewrite map_map. apply map_ext_in. intros p Hp.
      apply (HP p (or_intror Hp)). now apply HS, or_intror. }
    rewrite E3, shape_of_list_eq. destruct (minmax_element_eq (sh p0) (map sh l)) as (mx & -> & H).
    assert (HR : mx <> sh p0 <-> differ).
    { rewrite H. cbn [length]. rewrite map_length. change (sh p0 :: map sh l) with (map sh (p0 :: l)). split.
      - intros (k & Hk & HNk). destruct (nth_error (p0 :: l) k) as [p|] eqn:E; [|apply nth_error_None in E; cbn [length] in E; lia].
        exists k, p. split; [exact Hk|]. split; [exact E|]. rewrite (map_nth sh) in HNk. rewrite (nth_error_nth _ _ p0 E) in HNk.
        destruct (Nat.eq_dec (length p) (length p0)) as [E1|]; [|now left]. destruct (Nat.eq_dec (length (hd [] p)) (length (hd [] p0))) as [E2|]; [|now right].
        elim HNk. unfold sh. now rewrite E1, E2.
      - intros (k & p & Hk & E & HNk). exists k. split; [exact Hk|]. rewrite (map_nth sh), (nth_error_nth _ _ p0 E). intros C. unfold sh in C. injection C as C1 C2. lia. }
    split.
    + intros [(p & Hp & Hs)|D]; [now elim (HS p Hp)|]. apply HR in D. destruct (shape_eqb (sh p0) mx) eqn:E; [|reflexivity]. apply shape_eqb_iff in E. congruence.
    + intros _ D. assert (mx = sh p0) as -> by (destruct (list_eq_dec Z.eq_dec mx (sh p0)); [auto|tauto]). rewrite shape_eqb_refl. cbn [negb]. eexists. cbn [length]. rewrite map_length. reflexivity.
Qed.
Example C28_reported_example : seen_ragged [[1; 2]; [3; 4]; [5; 6]; [7]] /\ seen_ragged [[1; 2]; [3]; [5; 6]] /\ ~ seen_ragged [[1; 2]; [3; 4]; [5; 6; 7]; [7; 8]] /\
  array_of_list2 true [0; 1]%nat 0 [[1; 2]; [3; 4]; [5; 6]; [7]] (fun _ => 0) = LReported.
Proof.
  assert (H1 : seen_ragged [[1; 2]; [3; 4]; [5; 6]; [7]]) by (exists 3%nat, [1; 2], [7]; split; [left; reflexivity|]; split; [reflexivity|]; split; [reflexivity|]; cbn; lia).
  split; [exact H1|]. split; [exists 1%nat, [1; 2], [3]; split; [right; split; reflexivity|]; split; [reflexivity|]; split; [reflexivity|]; cbn; lia|]. split.
  - intros (k & r0 & r & Hk & E0 & E & N). cbn in E0. injection E0 as <-. destruct Hk as [Hk|[C _]]; [|discriminate]. cbn in Hk. injection Hk as ->. cbn in E. injection E as <-. now elim N.
  - now apply C28_reported.
Qed.
(** with four rows the check can be fooled: row lengths 2, 2, 7, 2 pass it, and the long row is written past the end of
    the array; it compares with == where std::minmax_element wants an ordering *)
Theorem C28_reported_refuted : exists (l : list (list Z)) (m m' : mem Z) (a : view) (c : Z),
  (forall n, ~ rectangular n l) /\ array_of_list2 true [0; 1]%nat 0 l m = LArray a m' /\ ~ is_cell_of a c /\ m' c <> m c.
Proof.
  exists [[1; 2]; [3; 4]; [5; 6; 7; 8; 9; 10; 11]; [12; 13]], (fun _ => 0). eexists _, _, 10. split; [|split; [reflexivity|split]].
  - intros n Hr. assert (E1 : length [1; 2] = n) by (apply Hr; now left). assert (E2 : length [5; 6; 7; 8; 9; 10; 11] = n) by (apply Hr; right; right; now left). cbn in *. lia.
  - intros C. apply new_array_cells in C; [cbn in C; lia|apply perm_check_ok; reflexivity|repeat constructor; cbn; lia|cbn; lia].
  - vm_compute. discriminate.
Qed.
(** an empty outer list: the end iterators of std::minmax_element are dereferenced *)
Theorem C28_empty_list_refuted {V} (checks : bool) (so : list nat) (base : Z) (m : mem V) : array_of_list2 checks so base [] m = LUB /\ array_of_list3 checks so base [] m = LUB.
Proof. split; reflexivity. Qed.
Example C28_example : rectangular 3 [[1; 2; 3]; [4; 5; 6]] /\ exists m', array_of_list2 true [1; 0]%nat 0 [[1; 2; 3]; [4; 5; 6]] (fun _ => 0) = LArray (ex_f 0) m' /\
  map m' [0; 1; 2; 3; 4; 5; 6] = [1; 4; 2; 5; 3; 6; 0].
Proof. split; [intros x [<-|[<-|[]]]; reflexivity|]. eexists. split; [reflexivity|]. vm_compute. reflexivity. Qed.

(** ** C55 *)
Theorem C55_zeros {V} (zero : V) (so : list nat) (base : Z) (shape : list Z) (m : mem V) : is_order (length shape) so -> good_shape shape ->
  let '(a, m') := zeros zero so base shape m in
  usable (v_lay a) /\ im_len (v_lay a) = shape /\ holds a m' (fun _ => zero) /\ unchanged_outside a m m'.
Proof.
  intros Ho [Hs Hr]. pose proof (zeros_spec zero so base shape m Ho Hs Hr) as H. destruct (zeros zero so base shape m) as [a m']. destruct H as (-> & H1 & H2).
  split; [now apply new_array_usable|]. split; [reflexivity|]. split; assumption.
Qed.
(** ones of arrays and vectors *)
Theorem C55_ones {V} (A : arith V) (so : list nat) (base : Z) (shape : list Z) (m : mem V) : is_order (length shape) so -> good_shape shape ->
  exists m', ones A false so base shape m = (new_array so base shape, Some m') /\ holds (new_array so base shape) m' (fun _ => v_one A) /\
    unchanged_outside (new_array so base shape) m m'.
Proof.
  intros Ho [Hs Hr]. destruct (fill_new 0 so base shape (v_one A) m Ho Hs Hr) as (m' & E & H1 & H2). exists m'. split; [|split; assumption]. unfold ones, assign_from_scalar. cbn [negb]. now rewrite E.
Qed.
(** an array of rank 1 with all elements of one value *)
Theorem C55_filled {V} (zero : V) (base n : Z) (val : V) (m : mem V) : 0 <= n ->
  exists m', array_filled zero base n val m = (new_array [0%nat] base [n], Some m') /\ holds (new_array [0%nat] base [n]) m' (fun _ => val) /\ unchanged_outside (new_array [0%nat] base [n]) m m'.
Proof.
  intros Hn. destruct (fill_new 0 [0%nat] base [n] val m) as (m' & E & H1 & H2); [exact (is_perm_identity 1)|repeat constructor; lia|cbn; lia|].
  exists m'. split; [|split; assumption]. unfold array_filled, assign_from_scalar. cbn [negb]. unfold c_array. cbn [length]. change (identity 1) with [0%nat]. now rewrite E.
Qed.
(** ones of a matrix is the identity matrix: the scalar is assigned to an object of matrix algebra *)
Theorem C55_matrix_ones_refuted {V} (A : arith V) (so : list nat) (base n k : Z) (m : mem V) : is_order 2 so -> 0 < n -> 1 < k ->
  v_one A <> v_zero A -> exists m', ones A true so base [n; k] m = (new_array so base [n; k], Some m') /\ m' (cell (new_array so base [n; k]) [0; 1]) <> v_one A.
Proof.
  intros Ho Hn Hk Hne. destruct (fill_new_matrix 0 so base n k (v_one A) (v_zero A) m Ho) as (m' & E & H1 & H2); try lia. exists m'. split; [unfold ones; now rewrite E|].
  rewrite H1 by lia. change (0 =? 1) with false. cbv iota. congruence.
Qed.
(** arange(first, last, step): element k is first + k step; all and only the values before last are there *)
Theorem C55_arange (base first last step : Z) (m : mem Z) : step <> 0 ->
  let '(a, m') := arange base first last step m in
  exists n, im_len (v_lay a) = [n] /\ 0 <= n /\ (forall k, 0 <= k -> k < n <-> (if 0 <? step then first + k * step < last else last < first + k * step)) /\
    (forall k, 0 <= k < n -> m' (cell a [k]) = first + k * step) /\ unchanged_outside a m m'.
Proof.
  intros Hs. pose proof (arange_spec base first last step m) as H. destruct (arange base first last step m) as [a m']. destruct H as (-> & Hh & Hu).
  exists (range_size (Range first last step)). split; [reflexivity|]. split; [apply range_size_nonneg|]. split; [intros k Hk; now apply range_size_spec|]. split; [|exact Hu].
  intros k Hk. rewrite (Hh [k]); [reflexivity|]. apply (in_view1 _ (range_size (Range first last step))); [reflexivity|]. eauto.
Qed.
(** arange(n): the numbers 0, 1, ..., n - 1 (none if n is negative). *)
Theorem C55_arange_to (base last : Z) (m : mem Z) :
  let '(a, m') := arange1 base last m in
  im_len (v_lay a) = [Z.max 0 last] /\ (forall k, 0 <= k < last -> m' (cell a [k]) = k) /\ unchanged_outside a m m'.
Proof.
  unfold arange1. pose proof (C55_arange base 0 last 1 m ltac:(lia)) as H. destruct (arange base 0 last 1 m) as [a m']. destruct H as (n & Hl & Hn & Hk & Hv & Hu).
  change (0 <? 1) with true in Hk. cbv iota in Hk. assert (E : n = Z.max 0 last).
  { destruct (Z_lt_le_dec 0 n) as [H|H].
    - pose proof (proj1 (Hk (n - 1) ltac:(lia)) ltac:(lia)). destruct (Z_lt_le_dec n last) as [H'|H']; [|lia]. pose proof (proj2 (Hk n ltac:(lia)) ltac:(lia)). lia.
    - destruct (Z_lt_le_dec 0 last) as [H'|H']; [|lia]. pose proof (proj2 (Hk 0 ltac:(lia)) ltac:(lia)). lia. }
  subst n. split; [exact Hl|]. split; [|exact Hu]. intros k Hk'. rewrite Hv by lia. lia.
Qed.
Example C55_example : let '(a, m') := arange 3 10 1 (-4) (fun _ => 77) in im_len (v_lay a) = [3] /\ map m' [2; 3; 4; 5; 6] = [77; 10; 6; 2; 77].
Proof. vm_compute. split; reflexivity. Qed.

Print Assumptions C24_element_order.
Print Assumptions C24_basic_policy.
Print Assumptions C55_arange_to.
Print Assumptions C24_reshape.
Print Assumptions C24_declared_contiguous.
Print Assumptions C24_checked_contiguous.
Print Assumptions C24_standard_policies.
Print Assumptions C24_flatten.
Print Assumptions C24_reported.
Print Assumptions C24_same_values.
Print Assumptions C24_flatten_transposed_refuted.
Print Assumptions C24_static_extents_refuted.
Print Assumptions C25_accepted.
Print Assumptions C25_elements.
Print Assumptions C25_contiguous.
Print Assumptions C25_listing_order.
Print Assumptions C26_add_dims.
Print Assumptions C26_usable.
Print Assumptions C26_strided_refuted.
Print Assumptions C27_diagonal.
Print Assumptions C27_diag.
Print Assumptions C27_eye.
Print Assumptions C27_trace.
Print Assumptions C27_trace_integers.
Print Assumptions C27_dagger.
Print Assumptions C27_vstack.
Print Assumptions C27_vstack_mismatch.
Print Assumptions C28_rank1.
Print Assumptions C28_rank2.
Print Assumptions C28_rank3.
Print Assumptions C28_reported.
Print Assumptions C28_reported_three.
Print Assumptions C28_reported_rank3.
Print Assumptions C28_reported_refuted.
Print Assumptions C28_empty_list_refuted.
Print Assumptions C55_zeros.
Print Assumptions C55_ones.
Print Assumptions C55_filled.
Print Assumptions C55_matrix_ones_refuted.
Print Assumptions C55_arange.
Print Assumptions C06_transposed_view.
Example C06_transposed_example : let a := c_array 0 [2; 3; 4] in wf (v_lay a) /\ (0 < rank (v_lay a))%nat /\ (2 < rank (v_lay a))%nat /\
  im_len (v_lay (snd (transposed_view 0 2 AlgA a))) = [4; 3; 2] /\ cell (snd (transposed_view 0 2 AlgA a)) [3; 1; 0] = cell a [0; 1; 3] /\ cell a [0; 1; 3] = 7.
Proof. cbn zeta. split; [apply usable_wf; apply new_array_usable; [apply is_perm_identity|repeat constructor; lia|cbn; lia]|]. cbn. repeat split; lia. Qed.
