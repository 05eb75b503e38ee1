(** Property C88: the types of arrays and views describe their layouts; which of them can be reshaped to which rank. *)
From Verif Require Import Base M_Perm L_Perm M_IdxMap M_Slice M_Loops M_Assign M_Expr M_Transform M_Policy S_Layout S_Loops S_Assign S_Expr S_Transform L_IdxMap L_Slice L_Layout L_Loops L_Assign L_Expr L_Transform L_Factory P_Slice P_Assign P_Expr P_Transform.

(** ** Specification *)
(** at this rank the layout policy stands for this stride order, these static extents and this property *)
Definition describes (pol : policy) (so : list nat) (se : list Z) (p : layout_prop) : Prop :=
  policy_order pol (length so) = so /\ policy_extents pol (length so) = se /\ policy_prop pol = p.
(** layouts of which the numbers in their type can be written: at most 8 dimensions, static extents below 16 *)
Definition writable (lay : idx_map) : Prop :=
  (1 <= rank lay <= 8)%nat /\ is_order (rank lay) (im_so lay) /\ length (im_se lay) = rank lay /\ Forall (fun x => 0 <= x < 16) (im_se lay).

(** ** Codes *)
Lemma order_code n so : is_order n so -> (n <= 8)%nat -> exists c, encode (map Z.of_nat so) = Some c /\ decode n c = map Z.of_nat so.
Proof.
  intros H Hn. pose proof (is_perm_length _ _ H) as L. destruct (encode_decode (map Z.of_nat so)) as [w [E D]].
  - apply (order_small n); auto. lia.
  - rewrite map_length. lia.
  - exists w. rewrite map_length, L in D. auto.
Qed.
Lemma order_code_nonzero n so c : is_order n so -> (2 <= n <= 8)%nat -> encode (map Z.of_nat so) = Some c -> c <> 0.
Proof.
  intros H Hn E C. subst c. pose proof (encode_zero_identity n so H ltac:(lia) E) as ->.
  destruct (order_code n (identity n) H ltac:(lia)) as [c [E' D]]. rewrite E in E'. injection E' as <-.
  apply (f_equal (fun l => nth 1 l 0)) in D. unfold decode in D. rewrite nth_map_seq in D by lia. rewrite Z.shiftr_0_l, Z.land_0_l in D.
  rewrite (nth_map_lt Z.of_nat (identity n) 1 0 0%nat) in D by (rewrite (is_perm_length _ _ H); lia).
  unfold identity in D. rewrite seq_nth in D by lia. discriminate.
Qed.
Lemma to_nat_of_nat l : map Z.to_nat (map Z.of_nat l) = l.
Proof. rewrite map_map. rewrite <- (map_id l) at 2. apply map_ext. intros x. apply Nat2Z.id. Qed.
Lemma decode_zero n : decode n 0 = repeat 0 n.
Proof.
  apply (nth_ext_len 0); [unfold decode; now rewrite map_length, seq_length, repeat_length|]. intros k Hk. unfold decode in *. rewrite map_length, seq_length in Hk.
  rewrite nth_map_seq by auto. rewrite Z.shiftr_0_l, Z.land_0_l. now rewrite nth_repeat_any.
Qed.
Lemma code_order n so c : is_order n so -> (1 <= n <= 8)%nat -> encode (map Z.of_nat so) = Some c ->
  (if c =? 0 then identity n else map Z.to_nat (decode n c)) = so /\ (c <> 0 \/ n = 1%nat).
Proof.
  intros H Hn E. destruct (order_code n so H ltac:(lia)) as [c' [E' D]]. assert (c' = c) as -> by congruence. destruct (Z.eqb_spec c 0) as [->|C].
  - split; [symmetry; now apply encode_zero_identity|]. right. destruct (Nat.eq_dec n 1) as [|N]; auto. exfalso. apply (order_code_nonzero n so 0); auto. lia.
  - rewrite D, to_nat_of_nat. auto.
Qed.
Lemma is_code_spec c so : is_code c so = true <-> c = Some so.
Proof. destruct c as [x|]; cbn [is_code]; [rewrite Z.eqb_eq; split; congruence|split; discriminate]. Qed.

(** ** The type of a view names exactly the type of its layout *)
Theorem C88_same_type (t : ltype) : compiles t = true -> mapping (layout_to_policy t) (lt_rank t) = Some t.
Proof.
  intros H. unfold layout_to_policy. destruct t as [n se so p]; cbn [lt_rank lt_se lt_so lt_prop]. destruct ((se =? 0) && is_code (C_code n) so) eqn:E.
  - apply andb_true_iff in E. destruct E as [E1 E2]. apply Z.eqb_eq in E1. subst se. apply is_code_spec in E2.
    destruct p; cbn [mapping]; rewrite ?E2; cbn [with_code]; unfold checked; now rewrite H.
  - cbn [mapping]. unfold checked. now rewrite H.
Qed.
Lemma describes_basic so se wse wso p : is_order (length so) so -> (1 <= length so <= 8)%nat -> length se = length so -> Forall (fun x => 0 <= x < 16) se ->
  encode se = Some wse -> encode (map Z.of_nat so) = Some wso -> describes (PolBasic wse wso p) so se p.
Proof. intros Ho Hn Ls Hse E1 E2. destruct (C24_basic_policy se so wse wso p) as (A & _ & B & C & _); auto; [lia|]. repeat split; auto. Qed.
(** the type that a policy stands for at a rank has the order, the extents and the property of the policy; the standard policies stand for C order and
    Fortran order with dynamic extents at every rank *)
Theorem C88_mapping (pol : policy) (n : nat) : (1 <= n <= 8)%nat ->
  (forall t, mapping pol n = Some t -> lt_rank t = n /\ type_order t = policy_order pol n /\ type_extents t = policy_extents pol n /\ lt_prop t = policy_prop pol) /\
  (In pol [PolC; PolF; PolCStride; PolFStride] -> exists t, mapping pol n = Some t /\ type_extents t = repeat 0 n /\
     type_order t = (if match pol with PolC | PolCStride => true | _ => false end then seq 0 n else rev (seq 0 n)) /\
     (lt_prop t = LP_contiguous <-> In pol [PolC; PolF]) /\ (lt_prop t = LP_none <-> In pol [PolCStride; PolFStride])).
Proof.
  intros Hn. destruct n as [|[|[|[|[|[|[|[|[|k]]]]]]]]]; try lia; (split; [|intros [<-|[<-|[<-|[<-|[]]]]]; eexists; (split; [vm_compute; reflexivity|]);
    cbn [lt_prop]; repeat split; try reflexivity; cbn [In]; intros; try discriminate; intuition discriminate]);
    (destruct pol as [| | | |se so p]; [intros t H; vm_compute in H; injection H as <-; repeat split; reflexivity..|]);
    cbn [mapping]; unfold checked; destruct (compiles _); [|discriminate|..|discriminate]; try discriminate; intros t H; injection H as <-; repeat split; reflexivity.
Qed.
(** for every layout: its view type exists, has its rank, stride order, static extents and property *)
Theorem C88_view_type (lay : idx_map) : writable lay -> exists t pol, type_of lay = Some t /\ view_policy lay = Some pol /\ mapping pol (rank lay) = Some t /\
  lt_rank t = rank lay /\ type_order t = im_so lay /\ type_extents t = im_se lay /\ lt_prop t = im_prop lay /\ describes pol (im_so lay) (im_se lay) (im_prop lay).
Proof.
  intros (Hn & Ho & Ls & Hse). pose proof (is_perm_length _ _ Ho) as Lo. destruct (encode_decode (im_se lay) Hse ltac:(lia)) as [wse [E1 D1]]. destruct (order_code _ _ Ho ltac:(lia)) as [wso [E2 D2]].
  destruct (code_order _ _ _ Ho Hn E2) as [Co Cz].
  assert (Cm : compiles (LType (rank lay) wse wso (im_prop lay)) = true).
  { unfold compiles. cbn [lt_rank lt_so]. apply andb_true_iff. split; [apply Nat.ltb_lt; lia|]. apply orb_true_iff. destruct Cz as [Cz|Cz]; [left|right].
    - apply negb_true_iff. now apply Z.eqb_neq.
    - rewrite Cz. reflexivity. }
  exists (LType (rank lay) wse wso (im_prop lay)), (layout_to_policy (LType (rank lay) wse wso (im_prop lay))).
  assert (T : type_of lay = Some (LType (rank lay) wse wso (im_prop lay))) by (unfold type_of; rewrite E1, E2; unfold checked; now rewrite Cm).
  split; [exact T|]. split; [unfold view_policy; now rewrite T|]. split; [exact (C88_same_type _ Cm)|]. split; [reflexivity|].
  split; [exact Co|]. split; [unfold type_extents; cbn [lt_rank lt_se]; now rewrite <- Ls|]. split; [reflexivity|].
  pose proof (describes_basic (im_so lay) (im_se lay) wse wso (im_prop lay) ltac:(now rewrite Lo) ltac:(lia) ltac:(lia) Hse E1 E2) as B.
  unfold layout_to_policy. cbn [lt_rank lt_se lt_so lt_prop]. destruct ((wse =? 0) && is_code (C_code (rank lay)) wso) eqn:E; [|exact B].
  apply andb_true_iff in E. destruct E as [Ez Ec]. apply Z.eqb_eq in Ez. subst wse. apply is_code_spec in Ec.
  assert (Eso : im_so lay = identity (rank lay)).
  { destruct (code_order _ _ _ (is_perm_identity (rank lay)) Hn Ec) as [Ci _]. congruence. }
  assert (Ese : im_se lay = repeat 0 (rank lay)) by (rewrite <- D1, Ls; apply decode_zero).
  destruct (im_prop lay); try exact B; (split; [rewrite Lo; cbn [policy_order]; congruence|split; [rewrite Lo; cbn [policy_extents]; congruence|reflexivity]]).
Qed.
(** so have the layouts made from it: slices and views with permuted indices; the type of the result is the one of the new layout *)
Theorem C88_derived_views (m m' : idx_map) : writable m -> wf m ->
  (exists args off, slice m args = Some (off, m') /\ some_dim_left (rank m) args) \/ (exists p, is_order (rank m) p /\ m' = transpose p m) ->
  writable m' /\ wf m' /\ (rank m' <= rank m)%nat /\ exists pol, view_policy m' = Some pol /\ describes pol (im_so m') (im_se m') (im_prop m').
Proof.
  intros (Hn & Ho & Ls & Hse) W H.
  assert (X : wf m' /\ (rank m' <= rank m)%nat /\ Forall (fun x => 0 <= x < 16) (im_se m')).
  { assert (Hd : forall k, 0 <= nthZ (im_se m) k < 16).
    { intros k. unfold nthZ. destruct (Nat.lt_ge_cases k (length (im_se m))) as [Hk|Hk]; [|rewrite nth_overflow by auto; lia]. rewrite Forall_forall in Hse. apply Hse. now apply nth_In. }
    destruct H as [(args & off & HS & HD)|(p & Hp & ->)].
    - split; [eapply slice_wf; eauto|]. destruct (slice_inv _ _ _ HS) as [Hok E]. rewrite slice_impl_expand in E by auto. injection E as -> ->.
      pose proof (expand_args_length _ _ Hok) as Lex. set (ex := expand_args _ args) in *. unfold rank at 1. cbn [im_len im_se].
      rewrite slice_len_length by (unfold rank in Lex; lia). split.
      + clear -Lex. rewrite <- Lex. clear Lex. induction ex as [|a ex IH]; [reflexivity|]. rewrite n_kept_cons. cbn [length]. destruct (is_range a); lia.
      + rewrite <- map_kept_se by lia. apply Forall_forall. intros x Hx. apply in_map_iff in Hx. destruct Hx as (k & <- & _). destruct (is_range_all _); [apply Hd|lia].
    - split; [now apply transpose_wf|]. unfold transpose, rank at 1. cbn [im_len im_se]. rewrite apply_inverse_length, (is_perm_length _ _ Hp). split; [lia|].
      rewrite (apply_inverse_is_apply 0 (rank m)) by auto. unfold apply. apply Forall_forall. intros x Hx. apply in_map_iff in Hx. destruct Hx as (k & <- & _). apply Hd. }
  destruct X as (W' & Hr & Hse'). assert (Wr : writable m').
  { pose proof W' as (_ & Ho' & Ls' & _ & Hr'). unfold rank in *. repeat split; auto; unfold rank; lia. }
  split; [exact Wr|]. split; [exact W'|]. split; [exact Hr|]. destruct (C88_view_type _ Wr) as (t & pol & _ & Vp & _ & _ & _ & _ & _ & D). eauto.
Qed.
(** the array that is made from a view keeps the stride order; its extents are dynamic and it is contiguous; C and F order give C_layout and F_layout *)
Theorem C88_regular_type (t : ltype) : (1 <= lt_rank t <= 8)%nat -> is_order (lt_rank t) (type_order t) ->
  exists pol, regular_policy_of t = Some pol /\ describes pol (type_order t) (repeat 0 (lt_rank t)) LP_contiguous /\
    (type_order t = identity (lt_rank t) -> pol = PolC) /\ (type_order t = reverse_identity (lt_rank t) -> (2 <= lt_rank t)%nat -> pol = PolF) /\
    (exists t', mapping pol (lt_rank t) = Some t' /\ type_order t' = type_order t).
Proof.
  intros Hn Ho. pose proof (is_perm_length _ _ Ho) as Lo. destruct (order_code _ _ Ho ltac:(lia)) as [c [E D]]. destruct (code_order _ _ _ Ho Hn E) as [Co Cz].
  unfold regular_policy_of. rewrite E. eexists. split; [reflexivity|]. set (n := lt_rank t) in *. set (so := type_order t) in *.
  assert (Cm : forall p, compiles (LType n 0 c p) = true).
  { intros p. unfold compiles. cbn [lt_rank lt_so]. apply andb_true_iff. split; [apply Nat.ltb_lt; lia|]. apply orb_true_iff. destruct Cz as [Cz|Cz]; [left|right].
    - apply negb_true_iff. now apply Z.eqb_neq.
    - rewrite Cz. reflexivity. }
  unfold contiguous_policy. destruct (is_code (C_code n) c) eqn:E1; [|destruct (is_code (F_code n) c) eqn:E2].
  - apply is_code_spec in E1. destruct (code_order _ _ _ (is_perm_identity n) Hn E1) as [Ci _]. split; [|split; [auto|split]].
    + unfold describes. rewrite Lo. repeat split. cbn [policy_order]. congruence.
    + intros Er H2. exfalso. assert (X : nth 0 (identity n) 0%nat = nth 0 (reverse_identity n) 0%nat) by congruence. unfold identity, reverse_identity in X.
      rewrite seq_nth, nth_map_seq in X by lia. lia.
    + exists (LType n 0 c LP_contiguous). cbn [mapping]. rewrite E1. cbn [with_code]. unfold checked. rewrite Cm. auto.
  - apply is_code_spec in E2. destruct (code_order _ _ _ (is_perm_reverse_identity n) Hn E2) as [Cr _]. split; [|split; [|split]]; auto.
    + unfold describes. rewrite Lo. repeat split. cbn [policy_order]. congruence.
    + intros Ei. exfalso. assert (C_code n = Some c) as X by (unfold C_code; now rewrite <- Ei). apply is_code_spec in X. congruence.
    + exists (LType n 0 c LP_contiguous). cbn [mapping]. rewrite E2. cbn [with_code]. unfold checked. rewrite Cm. auto.
  - split; [|split; [|split]].
    + unfold describes. rewrite Lo. cbn [policy_order policy_extents policy_prop]. rewrite decode_zero. auto.
    + intros Ei. exfalso. assert (C_code n = Some c) as X by (unfold C_code; now rewrite <- Ei). apply is_code_spec in X. congruence.
    + intros Ei _. exfalso. assert (F_code n = Some c) as X by (unfold F_code; now rewrite <- Ei). apply is_code_spec in X. congruence.
    + exists (LType n 0 c LP_contiguous). cbn [mapping]. unfold checked. rewrite Cm. auto.
Qed.
(** the weaker and the stronger variant of a policy differ from it in the property only *)
Theorem C88_weaker_stronger (pol : policy) (n : nat) :
  policy_order (with_lowest_guarantee pol) n = policy_order pol n /\ policy_extents (with_lowest_guarantee pol) n = policy_extents pol n /\ policy_prop (with_lowest_guarantee pol) = LP_none /\
  policy_order (contiguous_of pol) n = policy_order pol n /\ policy_extents (contiguous_of pol) n = policy_extents pol n /\ policy_prop (contiguous_of pol) = LP_contiguous /\
  (policy_prop pol = LP_contiguous -> contiguous_of pol = pol) /\ (policy_prop pol = LP_none -> with_lowest_guarantee pol = pol).
Proof. destruct pol; cbn; repeat split; try congruence; discriminate. Qed.

(** ** Reshaping *)
Lemma plain_view_policy pol junk shape : In pol [PolC; PolCStride] -> (1 <= length shape <= 8)%nat ->
  view_policy (idx_map_of_shape (policy_order pol (length shape)) (policy_extents pol (length shape)) (policy_prop pol) junk shape) = Some pol.
Proof.
  intros P Hn. unfold view_policy, type_of, rank. cbn [im_len im_so im_se im_prop idx_map_of_shape].
  destruct (length shape) as [|[|[|[|[|[|[|[|[|k]]]]]]]]]; try lia; destruct P as [<-|[<-|[]]]; vm_compute; reflexivity.
Qed.
(** views of C order with dynamic extents whose property is contiguous or none can be reshaped to every shape *)
Theorem C88_reshape (checks : bool) (alg : algebra) (junk : list Z) (a : view) (shape : list Z) : writable (v_lay a) ->
  im_so (v_lay a) = identity (rank (v_lay a)) -> im_se (v_lay a) = repeat 0 (rank (v_lay a)) -> In (im_prop (v_lay a)) [LP_contiguous; LP_none] ->
  usable (v_lay a) -> contiguous_true (v_lay a) -> is_contiguous (v_lay a) = true ->
  good_shape shape -> length junk = length shape -> prodZ shape = prodZ (im_len (v_lay a)) ->
  exists pol alg' b, view_policy (v_lay a) = Some pol /\ In pol [PolC; PolCStride] /\ reshape checks pol alg junk a shape = Some (alg', b) /\
    im_len (v_lay b) = shape /\ usable (v_lay b) /\ same_sequence a b /\ (forall c, is_cell_of b c <-> is_cell_of a c) /\
    ((length shape <= 8)%nat -> view_policy (v_lay b) = Some pol /\ writable (v_lay b)).
Proof.
  intros W Eso Ese Hp U Hc Hic Hs Hj Epr. destruct (C88_view_type _ W) as (t & pol & T & Vp & _). destruct W as (Hn & Ho & Ls & Hse).
  assert (P : In pol [PolC; PolCStride]).
  { unfold view_policy in Vp. rewrite T in Vp. cbn [option_map] in Vp. injection Vp as <-. unfold type_of in T.
    destruct (encode (im_se (v_lay a))) as [wse|] eqn:E1; [|discriminate]. destruct (encode (map Z.of_nat (im_so (v_lay a)))) as [wso|] eqn:E2; [|discriminate].
    unfold checked in T. destruct (compiles _); [|discriminate]. injection T as <-. unfold layout_to_policy. cbn [lt_rank lt_se lt_so lt_prop].
    assert (wse = 0) as ->.
    { rewrite Ese in E1. clear -E1 Hn. destruct (rank (v_lay a)) as [|[|[|[|[|[|[|[|[|k]]]]]]]]]; try lia; vm_compute in E1; congruence. }
    rewrite Eso in E2. assert (X : is_code (C_code (rank (v_lay a))) wso = true) by now apply is_code_spec. rewrite X, Z.eqb_refl. cbn [andb].
    destruct Hp as [<-|[<-|[]]]; cbn; auto. }
  destruct (C24_reshape checks pol alg junk a shape U Hc Hic Hs) as (alg' & b & R & L1 & U1 & _ & S1 & C1); auto.
  { apply C24_standard_policies. destruct P as [<-|[<-|[]]]; cbn; auto. }
  exists pol, alg', b. do 7 (split; [assumption|]). intros H8.
  unfold reshape in R. destruct (_ && _); [discriminate|]. destruct (_ && _); [discriminate|]. unfold policy_layout in R. destruct (_ && _); [discriminate|]. injection R as _ <-.
  cbn [map_layout_transform snd v_lay] in *. split.
  - apply plain_view_policy; auto. destruct Hs as [_ Hs]. lia.
  - destruct Hs as [_ Hs]. assert (E1 : policy_order pol (length shape) = identity (length shape)) by (destruct P as [<-|[<-|[]]]; reflexivity).
    assert (E2 : policy_extents pol (length shape) = repeat 0 (length shape)) by (destruct P as [<-|[<-|[]]]; reflexivity).
    unfold writable, rank. cbn [im_len im_so im_se idx_map_of_shape]. rewrite E1, E2, repeat_length. split; [lia|]. split; [apply is_perm_identity|]. split; [reflexivity|].
    apply Forall_forall. intros x Hx. apply repeat_spec in Hx. lia.
Qed.
(** the stride order of any other view is encoded for its own rank: with a shape of another rank the policy asks for the first entries of that order,
    followed by zeros *)
Lemma encode_from_exact (a : list Z) : Forall (fun x => 0 <= x < 8) a -> forall i acc, 0 <= i -> i + Z.of_nat (length a) <= 8 -> 0 <= acc < 16 ^ i ->
  encode_from i a acc = Some (acc + 16 ^ i * hex a).
Proof.
  induction 1 as [|x a Hx H IH]; intros i acc Hi HL Hacc; cbn [encode_from hex length] in *; [f_equal; ring|].
  assert (P : 16 ^ i = 2 ^ (4 * i)) by (rewrite Z.pow_mul_r by lia; reflexivity).
  assert (B : 16 ^ i <= 16 ^ 7) by (apply Z.pow_le_mono_r; lia). change (16 ^ 7) with 268435456 in B.
  assert (Bp : 0 < 16 ^ i) by (apply Z.pow_pos_nonneg; lia).
  assert (Sx : 16 ^ (i + 1) = 16 * 16 ^ i) by (rewrite Z.pow_add_r by lia; ring).
  assert (E : int_shl x (4 * i) = Some (x * 16 ^ i)).
  { unfold int_shl. replace ((0 <=? 4 * i) && (4 * i <? 32)) with true by (symmetry; lia). rewrite <- P. change (2 ^ 32) with 4294967296. change (2 ^ 31) with 2147483648.
    rewrite Z.mod_small by nia. replace (x * 16 ^ i <? 2147483648) with true by (symmetry; apply Z.ltb_lt; nia). reflexivity. }
  rewrite E. change (2 ^ 64) with 18446744073709551616. rewrite Z.mod_small by nia. rewrite IH by (try lia; nia). f_equal. rewrite Sx. ring.
Qed.
Lemma order_code_digits n so c k : is_order n so -> (n <= 8)%nat -> encode (map Z.of_nat so) = Some c -> (n <= k)%nat -> Z.land (Z.shiftr c (4 * Z.of_nat k)) 15 = 0.
Proof.
  intros Ho Hn E Hk. pose proof (is_perm_length _ _ Ho) as L.
  assert (F : Forall (fun x => 0 <= x < 8) (map Z.of_nat so)).
  { rewrite Forall_forall. intros x Hx. apply in_map_iff in Hx. destruct Hx as (u & <- & Hu). apply (is_perm_In _ _ u Ho) in Hu. lia. }
  unfold encode in E. rewrite encode_from_exact in E; auto; try lia; [|rewrite map_length; lia]. assert (Ec : hex (map Z.of_nat so) = c) by (apply (f_equal (fun o => match o with Some w => w | None => 0 end)) in E; rewrite <- E; change (16 ^ 0) with 1; ring). subst c. clear E.
  pose proof (hex_bound (map Z.of_nat so)) as B. rewrite map_length, L in B. destruct B as [B1 B2]; [eapply Forall_impl; [|exact F]; cbn; intros; lia|].
  rewrite Z.shiftr_div_pow2 by lia. rewrite Z.div_small; [reflexivity|]. split; auto. eapply Z.lt_le_trans; [exact B2|].
  change 16 with (2 ^ 4). rewrite <- Z.pow_mul_r by lia. apply Z.pow_le_mono_r; lia.
Qed.
Lemma other_rank_order n so c m : is_order n so -> (n <= 8)%nat -> encode (map Z.of_nat so) = Some c ->
  map Z.to_nat (decode m c) = firstn m so ++ repeat 0%nat (m - n).
Proof.
  intros Ho Hn E. pose proof (is_perm_length _ _ Ho) as L. destruct (order_code n so Ho Hn) as [c' [E' D]]. assert (c' = c) as -> by congruence. clear E'.
  apply (nth_ext_len 0%nat); [unfold decode; rewrite !map_length, seq_length, app_length, firstn_length, repeat_length; lia|].
  intros k Hk. unfold decode in *. rewrite !map_length, seq_length in Hk. rewrite map_map, nth_map_seq by auto.
  destruct (Nat.lt_ge_cases k n) as [Hkn|Hkn].
  - rewrite app_nth1 by (rewrite firstn_length; lia). rewrite <- (firstn_skipn m so) in D at 1. apply (f_equal (fun l => nth k l 0)) in D. rewrite nth_map_seq in D by auto. rewrite D.
    rewrite (nth_map_lt Z.of_nat _ k 0 0%nat) by (rewrite firstn_skipn; lia). rewrite Nat2Z.id. rewrite app_nth1 by (rewrite firstn_length; lia). reflexivity.
  - rewrite app_nth2 by (rewrite firstn_length; lia). rewrite nth_repeat_any. now rewrite (order_code_digits n so c k).
Qed.
Lemma unnamed_stride so len junk d : ~ In d (firstn (length len) so ++ repeat 0%nat (length len - length so)) -> nthZ (compute_strides_contiguous so len junk) d = nthZ junk d.
Proof.
  intros H. unfold compute_strides_contiguous.
  assert (G : forall l st, (forall v, In v l -> nthN so v <> d) -> nthZ (fst (fold_left (compute_strides_step so len) l st)) d = nthZ (fst st) d).
  { induction l as [|v l IH]; intros st Hl; [reflexivity|]. cbn [fold_left]. rewrite IH by (intros; apply Hl; now right). unfold compute_strides_step. cbn [fst]. unfold nthZ. apply nth_upd_neq. apply Hl. now left. }
  rewrite G; [reflexivity|]. intros v Hv. apply in_rev in Hv. apply in_seq in Hv. intros C. apply H. apply in_or_app. destruct (Nat.lt_ge_cases v (length so)) as [Hs|Hs].
  - left. subst d. unfold nthN. rewrite <- (firstn_skipn (length len) so) at 1. rewrite app_nth1 by (rewrite firstn_length; lia). apply nth_In. rewrite firstn_length; lia.
  - right. unfold nthN in C. rewrite nth_overflow in C by auto. subst d. destruct (length len - length so)%nat eqn:Z0; [lia|]. now left.
Qed.
(** what the type of a view stands for at another rank *)
Lemma view_policy_cases lay pol : writable lay -> view_policy lay = Some pol ->
  (In pol [PolC; PolCStride] /\ im_so lay = identity (rank lay) /\ im_se lay = repeat 0 (rank lay)) \/
  exists se so, encode (im_se lay) = Some se /\ encode (map Z.of_nat (im_so lay)) = Some so /\ pol = PolBasic se so (im_prop lay).
Proof.
  intros W Vp. destruct (C88_view_type _ W) as (t & pol' & T & Vp' & _ & _ & _ & _ & _ & Ds). assert (pol' = pol) as -> by congruence.
  destruct W as (Hn & Ho & Ls & Hse). pose proof (is_perm_length _ _ Ho) as Lo. unfold view_policy in Vp. rewrite T in Vp. cbn [option_map] in Vp. injection Vp as Vp. unfold type_of in T.
  destruct (encode (im_se lay)) as [wse|] eqn:E1; [|discriminate]. destruct (encode (map Z.of_nat (im_so lay))) as [wso|] eqn:E2; [|discriminate].
  unfold checked in T. destruct (compiles _); [|discriminate]. injection T as <-. unfold layout_to_policy in Vp. cbn [lt_rank lt_se lt_so lt_prop] in Vp.
  destruct ((wse =? 0) && is_code (C_code (rank lay)) wso) eqn:E.
  - apply andb_true_iff in E. destruct E as [Ez _]. apply Z.eqb_eq in Ez. destruct Ds as (D1 & D2 & _). rewrite Lo in D1, D2. destruct (im_prop lay) eqn:Ep; subst pol.
    1, 4: left; cbn [policy_order policy_extents] in *; cbn [In]; auto.
    all: right; exists 0, wso; subst wse; auto.
  - right. exists wse, wso. auto.
Qed.
Theorem C88_other_rank (lay : idx_map) (pol : policy) (m : nat) : writable lay -> (2 <= rank lay)%nat -> view_policy lay = Some pol -> ~ In pol [PolC; PolCStride] ->
  policy_order pol m = firstn m (im_so lay) ++ repeat 0%nat (m - rank lay).
Proof.
  intros W H2 Vp Np. destruct (view_policy_cases _ _ W Vp) as [[P _]|(se & so & E1 & E2 & ->)]; [contradiction|]. destruct W as (Hn & Ho & _).
  cbn [policy_order]. pose proof (order_code_nonzero _ _ _ Ho ltac:(lia) E2) as Nz. apply Z.eqb_neq in Nz. rewrite Nz. apply other_rank_order; auto. lia.
Qed.
(** to a lower rank: it works if and only if the slowest dimensions are the first ones, in some order *)
Theorem C88_lower_rank (lay : idx_map) (pol : policy) (shape : list Z) : writable lay -> (2 <= rank lay)%nat -> view_policy lay = Some pol -> im_se lay = repeat 0 (rank lay) ->
  (length shape <= rank lay)%nat -> policy_fits pol shape <-> is_order (length shape) (firstn (length shape) (im_so lay)).
Proof.
  intros W H2 Vp Ese Hm. pose proof W as (Hn & Ho & Ls & _). pose proof (is_perm_length _ _ Ho) as Lo.
  assert (X : static_extents_ok (policy_extents pol (length shape)) shape = true).
  { assert (E : policy_extents pol (length shape) = repeat 0 (length shape)).
    { destruct (view_policy_cases _ _ W Vp) as [[[<-|[<-|[]]] _]|(se & so & E1 & _ & ->)]; try reflexivity. cbn [policy_extents].
      assert (se = 0) as ->. { rewrite Ese in E1. clear -E1 Hn. destruct (rank lay) as [|[|[|[|[|[|[|[|[|k]]]]]]]]]; try lia; vm_compute in E1; congruence. }
      apply decode_zero. }
    rewrite E. apply forallb_forall. intros u _. unfold nthZ. now rewrite nth_repeat_any. }
  assert (Y : policy_order pol (length shape) = firstn (length shape) (im_so lay)).
  { destruct (view_policy_cases _ _ W Vp) as [(P & Eso & _)|(se & so & E1 & E2 & Ep)].
    - assert (policy_order pol (length shape) = identity (length shape)) as -> by (destruct P as [<-|[<-|[]]]; reflexivity). rewrite Eso. unfold identity.
      apply (nth_ext_len 0%nat); [rewrite firstn_length, !seq_length; lia|]. rewrite seq_length. intros k Hk. rewrite seq_nth by auto.
      rewrite <- (app_nth1 _ (skipn (length shape) (seq 0 (rank lay)))) by (rewrite firstn_length, seq_length; lia). rewrite firstn_skipn, seq_nth by lia. reflexivity.
    - rewrite (C88_other_rank lay pol (length shape)); auto; [|subst pol; intros [C|[C|[]]]; discriminate]. replace (length shape - rank lay)%nat with 0%nat by lia. apply app_nil_r. }
  unfold policy_fits. rewrite Y, X. tauto.
Qed.
(** to a higher rank: the type compiles, but it names the first dimension more than once and dimension [rank] never; the stride of that dimension is what
    was in memory *)
Theorem C88_higher_rank_refuted (checks : bool) (alg : algebra) (junk : list Z) (a : view) (shape : list Z) (pol : policy) (alg' : algebra) (b : view) :
  writable (v_lay a) -> (2 <= rank (v_lay a))%nat -> view_policy (v_lay a) = Some pol -> ~ In pol [PolC; PolCStride] ->
  (rank (v_lay a) < length shape < 16)%nat -> reshape checks pol alg junk a shape = Some (alg', b) ->
  mapping pol (length shape) <> None /\ ~ policy_fits pol shape /\ im_len (v_lay b) = shape /\ nthZ (im_str (v_lay b)) (rank (v_lay a)) = nthZ junk (rank (v_lay a)).
Proof.
  intros W H2 Vp Np Hm R. pose proof W as (Hn & Ho & _). pose proof (is_perm_length _ _ Ho) as Lo. pose proof (C88_other_rank _ _ (length shape) W H2 Vp Np) as Po.
  assert (Nn : ~ In (rank (v_lay a)) (policy_order pol (length shape))).
  { rewrite Po. intros C. apply in_app_or in C. destruct C as [C|C].
    - assert (C' : In (rank (v_lay a)) (im_so (v_lay a))) by (rewrite <- (firstn_skipn (length shape) (im_so (v_lay a))); apply in_or_app; now left). apply (is_perm_In _ _ _ Ho) in C'. lia.
    - apply repeat_spec in C. lia. }
  assert (Pl : length (policy_order pol (length shape)) = length shape) by (rewrite Po, app_length, firstn_length, repeat_length; lia).
  split; [|split; [|split]].
  - destruct (view_policy_cases _ _ W Vp) as [[P _]|(se & so & E1 & E2 & ->)]; [contradiction|]. pose proof (order_code_nonzero _ _ _ Ho ltac:(lia) E2) as Nz.
    cbn [mapping]. unfold checked, compiles. cbn [lt_rank lt_so]. apply Z.eqb_neq in Nz. rewrite Nz. replace (Nat.ltb (length shape) 16) with true by (symmetry; apply Nat.ltb_lt; lia). discriminate.
  - intros [F _]. apply Nn. apply (is_perm_In _ _ _ F). lia.
  - unfold reshape in R. destruct (_ && _); [discriminate|]. destruct (_ && _); [discriminate|]. unfold policy_layout in R. destruct (_ && _); [discriminate|]. injection R as _ <-. reflexivity.
  - unfold reshape in R. destruct (_ && _); [discriminate|]. destruct (_ && _); [discriminate|]. unfold policy_layout in R. destruct (_ && _); [discriminate|]. injection R as _ <-.
    cbn [v_lay map_layout_transform idx_map_of_shape im_str snd]. apply unnamed_stride. rewrite Pl, Nat.sub_diag, app_nil_r. rewrite firstn_all2 by lia. exact Nn.
Qed.
(** a view of rank 1 with a stride, and dynamic extent: a shape of two or more dimensions does not compile *)
Theorem C88_strided_vector (lay : idx_map) (pol : policy) (m : nat) : writable lay -> rank lay = 1%nat -> view_policy lay = Some pol -> In (im_prop lay) [LP_strided_1d; LP_smallest_one] ->
  (2 <= m)%nat -> mapping pol m = None.
Proof.
  intros W R1 Vp Hp Hm. pose proof (C88_view_type _ W) as (t & pol' & T & Vp' & _ & _ & _ & _ & _ & (_ & _ & Dp)). assert (pol' = pol) as -> by congruence.
  destruct (view_policy_cases _ _ W Vp) as [[[<-|[<-|[]]] _]|(se & so & E1 & E2 & ->)].
  - cbn [policy_prop] in Dp. rewrite <- Dp in Hp. cbn in Hp. intuition discriminate.
  - cbn [policy_prop] in Dp. rewrite <- Dp in Hp. cbn in Hp. intuition discriminate.
  - destruct W as (Hn & Ho & _). rewrite R1 in Ho. pose proof (rank1_order _ Ho) as Eo. rewrite Eo in E2. vm_compute in E2. injection E2 as <-.
    cbn [mapping]. unfold checked, compiles. cbn [lt_rank lt_so]. replace (Nat.eqb m 1) with false by (symmetry; apply Nat.eqb_neq; lia). now rewrite andb_false_r.
Qed.

(** ** Examples *)
(** a vector in F_layout can be reshaped to a matrix, but the result no longer has the type F_layout: reshaping it once more to rank 3 reads a stride that
    was never written, whereas in C_layout both steps work *)
Definition ex_v : view := View (idx_map_of_shape [0%nat] [0] LP_contiguous [0] [6]) 0.
Theorem C88_second_reshape_refuted (j : Z) : exists b c, usable (v_lay ex_v) /\ reshape true PolF AlgV [0; 0] ex_v [2; 3] = Some (AlgA, b) /\ usable (v_lay b) /\
  view_policy (v_lay b) = Some (PolBasic 0 1 LP_contiguous) /\ reshape true (PolBasic 0 1 LP_contiguous) AlgA [0; 0; j] b [2; 1; 3] = Some (AlgA, c) /\
  in_view c [0; 0; 1] /\ cell c [0; 0; 1] = j.
Proof.
  eexists _, _. assert (U : usable (v_lay ex_v)) by (apply (view_usable (fun _ => True) 6 0); apply vo_fresh; build_view).
  split; [exact U|]. split; [reflexivity|]. split; [apply (view_usable (fun _ => True) 6 0); apply (vo_fresh _ 6 [1; 0]%nat [0; 0] LP_contiguous [0; 0] [2; 3]); build_view|].
  split; [reflexivity|]. split; [reflexivity|]. split; [unfold in_view, valid_idx; cbn; repeat constructor; unfold inr; lia|].
  vm_compute. destruct j; reflexivity.
Qed.
Example C88_example : writable (v_lay (ex_f 10)) /\ view_policy (v_lay (ex_f 10)) = Some (PolBasic 0 1 LP_contiguous) /\
  regular_policy_of (LType 2 0 1 LP_none) = Some PolF /\ regular_policy_of (LType 3 0 33 LP_none) = Some (PolBasic 0 33 LP_contiguous) /\ regular_policy_of (LType 1 0 0 LP_strided_1d) = Some PolC /\
  writable (v_lay (ex_c 0)) /\ view_policy (v_lay (ex_c 0)) = Some PolC /\ im_se (v_lay (ex_c 0)) = repeat 0 2 /\ compiles (LType 2 50 16 LP_contiguous) = true /\
  layout_to_policy (LType 2 50 16 LP_contiguous) = PolBasic 50 16 LP_contiguous.
Proof.
  assert (O1 : is_order 2 [1; 0]%nat) by (apply perm_check_ok; reflexivity). assert (O2 : is_order 2 [0; 1]%nat) by (apply perm_check_ok; reflexivity).
  unfold writable. cbn. repeat (split; try reflexivity; try lia; try assumption); repeat constructor; lia.
Qed.
Print Assumptions C88_same_type.
Print Assumptions C88_mapping.
Print Assumptions C88_view_type.
Print Assumptions C88_derived_views.
Print Assumptions C88_regular_type.
Print Assumptions C88_weaker_stronger.
Print Assumptions C88_reshape.
Print Assumptions C88_other_rank.
Print Assumptions C88_lower_rank.
Print Assumptions C88_higher_rank_refuted.
Print Assumptions C88_strided_vector.
Print Assumptions C88_second_reshape_refuted.
