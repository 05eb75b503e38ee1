(** Lemmas for P_SymGrp: construction of the classes. *)
From Verif Require Import Base M_Perm M_IdxMap M_Loops M_Assign M_Expr M_Transform M_SymGrp S_Layout S_Assign S_SymGrp L_Perm L_IdxMap L_Layout L_Loops L_Assign L_Transform.

Lemma in_order_id' n (l : list Z) : length l = n -> in_order 0 (identity n) l = l.
Proof. intros <-. unfold in_order, identity. apply map_seq_nth. Qed.
Lemma nth_rep {T} (a d : T) n i : (i < n)%nat -> nth i (repeat a n) d = a.
Proof. revert i. induction n as [|n IH]; intros [|i] H; try lia; cbn [repeat nth]; auto. apply IH. lia. Qed.
Lemma zseq_nodup n : NoDup (zseq n).
Proof. unfold zseq. apply FinFun.Injective_map_NoDup; [intros a b; lia|apply seq_NoDup]. Qed.
Lemma op_mul_id o : op_mul o op_id = o.
Proof. destruct o as [[] []]; reflexivity. Qed.
Lemma op_mul_assoc a b c : op_mul a (op_mul b c) = op_mul (op_mul a b) c.
Proof. destruct a as [[] []], b as [[] []], c as [[] []]; reflexivity. Qed.
Lemma op_mul_self o : op_mul o o = op_id.
Proof. destruct o as [[] []]; reflexivity. Qed.

Lemma is_valid_iff shape idx : length idx = length shape -> is_valid shape idx = true <-> in_range idx shape.
Proof.
  intros L. unfold is_valid, in_range. rewrite forallb_forall. split.
  - intros H. assert (G : forall i, (i < length shape)%nat -> inr (nthZ idx i) (nthZ shape i)).
    { intros i Hi. specialize (H i). rewrite andb_true_iff, Z.leb_le, Z.ltb_lt in H. apply H. apply in_seq. lia. }
    clear H. revert shape L G. induction idx as [|x idx IH]; intros [|l sh] L G; try discriminate L; constructor.
    + apply (G 0%nat). cbn [length]; lia.
    + apply IH. { cbn [length] in L. lia. } intros i Hi. apply (G (S i)). cbn [length]; lia.
  - intros F i Hi. apply in_seq in Hi. apply andb_true_iff. rewrite Z.leb_le, Z.ltb_lt.
    assert (Q : inr (nthZ idx i) (nthZ shape i)); [|exact Q].
    revert i Hi. clear L. induction F as [|x l idx sh Hx F IH]; intros i Hi; cbn [length] in Hi; [lia|].
    destruct i as [|i]; [exact Hx|]. apply IH. lia.
Qed.

Section Build.
Variables (shape : list Z).
Hypothesis Hs : Forall (fun l => 0 <= l) shape.
Hypothesis HR : (0 < length shape < 16)%nat.
Notation N := (Z.to_nat (prodZ shape)).

Lemma lin_radix idx : in_range idx shape -> lin shape idx = radix shape idx.
Proof using Hs HR.
  intros Hi. unfold lin. pose proof (in_range_length _ _ Hi) as L.
  pose proof (new_array_usable (identity (length shape)) 0 shape ltac:(apply is_perm_identity) Hs HR) as U.
  pose proof (elem_cell_in (c_array 0 shape) idx (usable_truthful _ U) Hi) as E. unfold elem in E.
  replace (v_base (c_array 0 shape)) with 0 in E by reflexivity. rewrite Z.add_0_l in E. rewrite E.
  unfold c_array. rewrite new_array_cell; auto; [|apply is_perm_identity]. unfold seq_number.
  rewrite !in_order_id' by auto. reflexivity.
Qed.
Lemma size_c : size (v_lay (c_array 0 shape)) = prodZ shape.
Proof. rewrite size_prodZ. reflexivity. Qed.
Lemma radix_inj a b : in_range a shape -> in_range b shape -> radix shape a = radix shape b -> a = b.
Proof. intros Ha Hb E. rewrite <- (digits_radix shape a), <- (digits_radix shape b), E; auto. Qed.
Lemma prod_nonneg : 0 <= prodZ shape.
Proof using Hs. now apply prodZ_nonneg. Qed.
Lemma radix_nat_inj a b : in_range a shape -> in_range b shape -> Z.to_nat (radix shape a) = Z.to_nat (radix shape b) -> a = b.
Proof.
  intros Ha Hb E. apply radix_inj; auto. pose proof (radix_bound _ _ Ha). pose proof (radix_bound _ _ Hb). lia.
Qed.
Record ginv (g : grp) : Prop := {
  gi_len : length (g_checked g) = N;
  gi_nd : NoDup (map fst (g_data g));
  gi_rng : forall e, In e (g_data g) -> exists idx, in_range idx shape /\ fst e = radix shape idx;
  gi_ck : forall idx, in_range idx shape -> (is_checked shape g idx = true <-> In (radix shape idx) (map fst (g_data g))) }.

Lemma data_bound g : ginv g -> (length (g_data g) <= N)%nat.
Proof.
  intros [L ND Rg Ck]. rewrite <- (map_length fst). pose proof (NoDup_incl_length ND (l' := zseq (prodZ shape))) as H.
  rewrite zseq_length in H. apply H. intros p Hp. apply in_map_iff in Hp. destruct Hp as [e [<- He]].
  destruct (Rg e He) as [idx [Hi ->]]. apply zseq_In. now apply radix_bound.
Qed.

Lemma add_spec g idx op : ginv g -> in_range idx shape -> is_checked shape g idx = false ->
  exists g1, emplace shape (check shape g idx) idx op = Some g1 /\ ginv g1 /\ g_data g1 = g_data g ++ [(radix shape idx, op)] /\ g_classes g1 = g_classes g.
Proof using Hs HR.
  intros G Hi Hc. pose proof G as [L ND Rg Ck].
  assert (NI : ~ In (radix shape idx) (map fst (g_data g))). { intros F. apply Ck in F; [|auto]. congruence. }
  assert (B : (length (g_data g) < N)%nat).
  { assert (ND' : NoDup (radix shape idx :: map fst (g_data g))) by now constructor.
    pose proof (NoDup_incl_length ND' (l' := zseq (prodZ shape))) as H. cbn [length] in H. rewrite map_length, zseq_length in H.
    apply H. intros p [<-|Hp]; [apply zseq_In; now apply radix_bound|]. apply in_map_iff in Hp. destruct Hp as [e [<- He]].
    destruct (Rg e He) as [j [Hj ->]]. apply zseq_In. now apply radix_bound. }
  unfold emplace, check. cbn [g_data g_classes g_checked]. rewrite size_c.
  assert ((Z.of_nat (length (g_data g)) <? prodZ shape) = true) as -> by (apply Z.ltb_lt; lia).
  eexists. split; [reflexivity|]. rewrite lin_radix by auto. split; [|split; reflexivity].
  constructor; cbn [g_data g_classes g_checked].
  - now rewrite upd_length.
  - rewrite map_app. cbn [map fst]. apply NoDup_app_intro; auto; [repeat constructor; intros []|]. intros y Hy [<-|[]]. contradiction.
  - intros e He. apply in_app_iff in He. destruct He as [He|[<-|[]]]; [auto|]. exists idx. auto.
  - intros j Hj. rewrite map_app, in_app_iff. cbn [map fst In]. unfold is_checked in *. cbn [g_checked]. rewrite lin_radix by auto.
    specialize (Ck j Hj). rewrite lin_radix in Ck by auto. pose proof (radix_bound _ _ Hj). pose proof (radix_bound _ _ Hi).
    destruct (Nat.eq_dec (Z.to_nat (radix shape idx)) (Z.to_nat (radix shape j))) as [E|NE].
    + rewrite E, nth_upd_eq by (rewrite L; lia). apply radix_nat_inj in E; auto. subst j. tauto.
    + rewrite nth_upd_neq by auto. rewrite Ck. split; [tauto|]. intros [F|[F|[]]]; [auto|]. rewrite F in NE. congruence.
Qed.

Variables (syms : list symmetry) (max_length : Z).
Hypothesis Hk : keep_rank (length shape) syms.
Notation ML := (Z.to_nat max_length).
Definition meas (exc : Z) (g : grp) : nat := ((N - length (g_data g)) * (ML + 1) + (ML - Z.to_nat exc))%nat.
Definition reg (g : grp) (idx : list Z) : Prop := In (radix shape idx) (map fst (g_data g)).
Definition images_in (l : list symmetry) (idx : list Z) (g : grp) : Prop := forall s, In s l -> in_range (fst (s idx)) shape -> reg g (fst (s idx)).
Definition trail (rep idx : list Z) (op : operation) : Prop := path syms rep idx op /\ (max_length <= 0 -> reach shape syms rep idx).
Record grown (rep : list Z) (g g' : grp) (ext : list sym_idx) : Prop := {
  gr_inv : ginv g';
  gr_data : g_data g' = g_data g ++ ext;
  gr_cls : g_classes g' = g_classes g;
  gr_mem : forall e, In e ext -> exists idx, in_range idx shape /\ fst e = radix shape idx /\ trail rep idx (snd e) /\ images_in syms idx g' }.

Lemma grown_refl rep g : ginv g -> grown rep g g [].
Proof. intros G. constructor; auto; [now rewrite app_nil_r|intros e []]. Qed.
Lemma reg_mono g g' ext idx : g_data g' = g_data g ++ ext -> reg g idx -> reg g' idx.
Proof. unfold reg. intros -> H. rewrite map_app, in_app_iff. now left. Qed.
Lemma images_mono l g g' ext idx : g_data g' = g_data g ++ ext -> images_in l idx g -> images_in l idx g'.
Proof. intros E H s Hs' Hr. eapply reg_mono; eauto. Qed.
Lemma grown_trans rep g g1 g2 e1 e2 : grown rep g g1 e1 -> grown rep g1 g2 e2 -> grown rep g g2 (e1 ++ e2).
Proof.
  intros [I1 D1 C1 M1] [I2 D2 C2 M2]. constructor; auto; try congruence. { now rewrite D2, D1, app_assoc. }
  intros e He. apply in_app_iff in He. destruct He as [He|He]; [|auto]. destruct (M1 e He) as (idx & A & B & C & D).
  exists idx. repeat (split; auto). eapply images_mono; eauto.
Qed.
Lemma meas_mono exc exc' g g' ext : ginv g' -> g_data g' = g_data g ++ ext -> exc <= exc' -> (meas exc' g' <= meas exc g)%nat.
Proof using HR.
  intros G D He. pose proof (data_bound _ G) as B. unfold meas. rewrite D, app_length in *.
  assert ((N - (length (g_data g) + length ext)) * (ML + 1) <= (N - length (g_data g)) * (ML + 1))%nat by (apply Nat.mul_le_mono_r; lia). lia.
Qed.

Lemma sym_loop_spec fuel rep idx op : length idx = length shape -> trail rep idx op ->
  (forall idxp opp exc g, length idxp = length shape -> trail rep idxp opp -> ginv g -> 0 <= exc -> (meas exc g < fuel)%nat ->
     exists g' ext, iterate shape syms max_length fuel idxp opp exc g = Some (g', length ext) /\ grown rep g g' ext /\ images_in syms idxp g') ->
  forall l exc g seg, incl l syms -> ginv g -> 0 <= exc -> (meas exc g < S fuel)%nat ->
     exists g' ext, sym_loop shape max_length (iterate shape syms max_length fuel) idx op l exc g seg = Some (g', (seg + length ext)%nat)
       /\ grown rep g g' ext /\ images_in l idx g'.
Proof using Hs HR Hk.
  intros L P IH. induction l as [|s l IHl]; intros exc g seg Hl G He Hm; cbn [sym_loop].
  - exists g, []. cbn [length]. rewrite Nat.add_0_r. split; [reflexivity|]. split; [now apply grown_refl|intros s []].
  - destruct (s idx) as [idxp o] eqn:Es.
    assert (Hin : In s syms) by (apply Hl; now left). assert (Hl' : incl l syms) by (intros y Hy; apply Hl; now right).
    assert (Lp : length idxp = length shape). { pose proof (Hk s idx Hin L) as Q. now rewrite Es in Q. }
    destruct (is_valid shape idxp) eqn:Ev.
    + apply is_valid_iff in Ev; [|auto].
      assert (Pp : trail rep idxp (op_mul o op)).
      { destruct P as [P Q]. split; [eapply path_step; eauto|]. intros Hm0. pose proof (reach_step shape syms rep idx s (Q Hm0) Hin) as W. rewrite Es in W. auto. }
      destruct (is_checked shape g idxp) eqn:Ec.
      * destruct (IHl exc g seg Hl' G He Hm) as (g' & ext & E & Gr & Im). exists g', ext. split; [exact E|]. split; [exact Gr|].
        intros s' [<-|Hs'] Hr; [|auto]. eapply reg_mono; [exact (gr_data _ _ _ _ Gr)|]. rewrite Es in *. apply (gi_ck _ G); auto.
      * destruct (add_spec g idxp (op_mul o op) G Ev Ec) as (g1 & E1 & G1 & D1 & C1). rewrite E1.
        pose proof (data_bound _ G1) as B1. rewrite D1, app_length in B1. cbn [length] in B1.
        assert (M1 : (meas 0 g1 < fuel)%nat).
        { unfold meas in *. rewrite D1, app_length. cbn [length]. replace (Z.to_nat 0) with 0%nat by reflexivity.
          replace (N - length (g_data g))%nat with (S (N - (length (g_data g) + 1)))%nat in Hm by lia. cbn [Nat.mul] in Hm. lia. }
        destruct (IH idxp (op_mul o op) 0 g1 Lp Pp G1 ltac:(lia) M1) as (g2 & e2 & E2 & Gr2 & Im2). rewrite E2.
        pose proof (gr_inv _ _ _ _ Gr2) as G2. pose proof (gr_data _ _ _ _ Gr2) as D2.
        assert (Gr02 : grown rep g g2 ((radix shape idxp, op_mul o op) :: e2)).
        { constructor; auto; [rewrite D2, D1, <- app_assoc; reflexivity|rewrite (gr_cls _ _ _ _ Gr2); auto|].
          intros e [<-|He']; [|exact (gr_mem _ _ _ _ Gr2 e He')]. exists idxp. auto. }
        assert (M2 : (meas exc g2 < S fuel)%nat).
        { pose proof (meas_mono exc exc g g2 _ G2 (gr_data _ _ _ _ Gr02) ltac:(lia)). lia. }
        destruct (IHl exc g2 (seg + (length e2 + 1))%nat Hl' G2 He M2) as (g3 & e3 & E3 & Gr3 & Im3).
        exists g3, (((radix shape idxp, op_mul o op) :: e2) ++ e3). split.
        { rewrite E3. f_equal. f_equal. cbn [app length]. rewrite app_length. lia. }
        split; [eapply grown_trans; eauto|]. intros s' [<-|Hs'] Hr; [|auto]. eapply reg_mono; [exact (gr_data _ _ _ _ Gr3)|].
        rewrite Es. cbn [fst]. unfold reg. rewrite (gr_data _ _ _ _ Gr02), map_app, in_app_iff. right. now left.
    + assert (NV : ~ in_range idxp shape) by (rewrite <- is_valid_iff by auto; congruence).
      destruct (exc <? max_length) eqn:Ex.
      * apply Z.ltb_lt in Ex.
        assert (Pp : trail rep idxp (op_mul o op)). { destruct P as [P Q]. split; [eapply path_step; eauto|lia]. }
        assert (M1 : (meas (exc + 1) g < fuel)%nat) by (unfold meas in *; lia).
        destruct (IH idxp (op_mul o op) (exc + 1) g Lp Pp G ltac:(lia) M1) as (g2 & e2 & E2 & Gr2 & Im2). rewrite E2.
        pose proof (gr_inv _ _ _ _ Gr2) as G2.
        assert (M2 : (meas (exc + 1) g2 < S fuel)%nat).
        { pose proof (meas_mono (exc + 1) (exc + 1) g g2 _ G2 (gr_data _ _ _ _ Gr2) ltac:(lia)). lia. }
        destruct (IHl (exc + 1) g2 (seg + length e2)%nat Hl' G2 ltac:(lia) M2) as (g3 & e3 & E3 & Gr3 & Im3).
        exists g3, (e2 ++ e3). split. { rewrite E3, app_length. f_equal. f_equal. lia. }
        split; [eapply grown_trans; eauto|]. intros s' [<-|Hs'] Hr; [|auto]. rewrite Es in Hr. contradiction.
      * destruct (IHl exc g seg Hl' G He Hm) as (g' & ext & E & Gr & Im). exists g', ext. split; [exact E|]. split; [exact Gr|].
        intros s' [<-|Hs'] Hr; [|auto]. rewrite Es in Hr. contradiction.
Qed.

Lemma iterate_spec fuel : forall rep idx op exc g, length idx = length shape -> trail rep idx op -> ginv g -> 0 <= exc -> (meas exc g < fuel)%nat ->
  exists g' ext, iterate shape syms max_length fuel idx op exc g = Some (g', length ext) /\ grown rep g g' ext /\ images_in syms idx g'.
Proof using Hs HR Hk.
  induction fuel as [|fuel IH]; intros rep idx op exc g L P G He Hm; [lia|]. cbn [iterate].
  destruct (sym_loop_spec fuel rep idx op L P (IH rep) syms exc g 0%nat (incl_refl _) G He Hm) as (g' & ext & E & Gr & Im). eauto.
Qed.

(** ** the classes *)
Record cinv (g : grp) : Prop := {
  ci_inv : ginv g;
  ci_bound : Forall (fun c => (fst c + snd c <= length (g_data g))%nat) (g_classes g);
  ci_concat : concat (get_sym_classes g) = g_data g;
  ci_ne : Forall (fun c => c <> []) (get_sym_classes g);
  ci_gen : Forall (generated shape syms) (get_sym_classes g);
  ci_reach : max_length <= 0 -> Forall (fun c => exists rep, entry_of shape rep (hd (0, neutral) c) /\ forall e, In e c -> exists idx, entry_of shape idx e /\ reach shape syms rep idx) (get_sym_classes g);
  ci_order : forall k c e idx s, nth_error (get_sym_classes g) k = Some c -> In e c -> in_range idx shape -> fst e = radix shape idx ->
     In s syms -> in_range (fst (s idx)) shape -> In (radix shape (fst (s idx))) (map fst (concat (firstn (S k) (get_sym_classes g)))) }.

Lemma classes_stable (g g' : grp) ext : Forall (fun c => (fst c + snd c <= length (g_data g))%nat) (g_classes g) -> g_data g' = g_data g ++ ext ->
  map (class_of g') (g_classes g) = get_sym_classes g.
Proof.
  intros F D. unfold get_sym_classes. apply map_ext_in. intros c Hc. rewrite Forall_forall in F. specialize (F c Hc). unfold class_of. rewrite D.
  rewrite skipn_app, firstn_app. rewrite skipn_length. replace (snd c - (length (g_data g) - fst c))%nat with 0%nat by lia.
  cbn [firstn]. apply app_nil_r.
Qed.

Lemma new_class_spec fuel g idx : (N * (ML + 1) + ML < fuel)%nat -> in_range idx shape -> cinv g ->
  exists g', new_class shape syms max_length fuel idx (Some g) = Some g' /\ cinv g' /\ (exists ext, g_data g' = g_data g ++ ext) /\ reg g' idx.
Proof using Hs HR Hk.
  intros Hf Hi [G Bd Cc Ne Gn Rc Or]. unfold new_class. destruct (is_checked shape g idx) eqn:Ec.
  { exists g. split; [reflexivity|]. split; [constructor; auto|]. split; [exists []; now rewrite app_nil_r|]. now apply (gi_ck _ G). }
  destruct (add_spec g idx op_id G Hi Ec) as (g1 & E1 & G1 & D1 & C1). rewrite E1.
  assert (M1 : (meas 0 g1 < fuel)%nat).
  { unfold meas. assert ((N - length (g_data g1)) * (ML + 1) <= N * (ML + 1))%nat by (apply Nat.mul_le_mono_r; lia). lia. }
  destruct (iterate_spec fuel idx idx op_id 0 g1 (in_range_length _ _ Hi) (conj (path_start _ _) (fun _ => reach_start _ _ _ Hi)) G1 ltac:(lia) M1) as (g2 & ext & E2 & Gr & Im).
  rewrite E2. eexists. split; [reflexivity|].
  pose proof (gr_inv _ _ _ _ Gr) as G2. pose proof (gr_data _ _ _ _ Gr) as D2. pose proof (gr_cls _ _ _ _ Gr) as C2.
  set (g3 := Grp (g_checked g2) (g_data g2) (g_classes g2 ++ [(length (g_data g), (length ext + 1)%nat)])).
  assert (D3 : g_data g3 = g_data g ++ (radix shape idx, op_id) :: ext) by (cbn [g3 g_data]; rewrite D2, D1, <- app_assoc; reflexivity).
  assert (CL : get_sym_classes g3 = get_sym_classes g ++ [(radix shape idx, op_id) :: ext]).
  { unfold get_sym_classes at 1. cbn [g3 g_classes]. rewrite C2, C1, map_app. fold g3. f_equal; [eapply classes_stable; eauto|].
    cbn [map]. f_equal. unfold class_of. cbn [fst snd]. rewrite D3, skipn_app, skipn_all, Nat.sub_diag. cbn [skipn app].
    rewrite Nat.add_comm. cbn [Nat.add firstn]. f_equal. apply firstn_all. }
  split; [|split; [eauto|]].
  2:{ unfold reg. rewrite D3, map_app, in_app_iff. right. now left. }
  constructor.
  - destruct G2 as [a b c d]. constructor; auto.
  - cbn [g3 g_classes]. fold g3. rewrite C2, C1, Forall_app. rewrite D3, app_length. cbn [length]. split; [|repeat constructor; cbn [fst snd]; lia].
    eapply Forall_impl; [|exact Bd]. intros c Hc. cbv beta in *. lia.
  - rewrite CL, concat_app, Cc, D3. cbn [concat]. now rewrite app_nil_r.
  - rewrite CL, Forall_app. split; auto. repeat constructor. discriminate.
  - rewrite CL, Forall_app. split; auto. constructor; [|constructor]. exists idx. cbn [hd]. split; [split; auto|]. split; [reflexivity|].
    intros e [<-|He]; [exists idx; split; [split; auto|apply path_start]|]. destruct (gr_mem _ _ _ _ Gr e He) as (j & A & B & [C _] & _).
    exists j. split; [split; auto|auto].
  - intros Hm0. rewrite CL, Forall_app. split; auto. constructor; [|constructor]. exists idx. cbn [hd]. split; [split; auto|].
    intros e [<-|He]; [exists idx; split; [split; auto|now apply reach_start]|]. destruct (gr_mem _ _ _ _ Gr e He) as (j & A & B & [_ C] & _).
    exists j. split; [split; auto|auto].
  - intros k c e j s Ek He Hj Ej Hin Hr. rewrite CL in *. destruct (Nat.lt_ge_cases k (length (get_sym_classes g))) as [Hk'|Hk'].
    + rewrite nth_error_app1 in Ek by auto. rewrite firstn_app.
      replace (S k - length (get_sym_classes g))%nat with 0%nat by lia. cbn [firstn]. rewrite app_nil_r. eauto.
    + rewrite nth_error_app2 in Ek by auto. destruct (k - length (get_sym_classes g))%nat as [|q] eqn:Eq; [|destruct q; discriminate Ek].
      cbn [nth_error] in Ek. injection Ek as <-. rewrite firstn_all2 by (rewrite app_length; cbn [length]; lia).
      rewrite concat_app, Cc. cbn [concat]. rewrite app_nil_r, <- D3. cbn [g3 g_data]. destruct He as [<-|He].
      * cbn [fst] in Ej. apply radix_inj in Ej; auto. subst j. now apply Im.
      * destruct (gr_mem _ _ _ _ Gr e He) as (j' & A & B & C & D). assert (j' = j) as -> by (apply radix_inj; auto; congruence). now apply D.
Qed.

Lemma new_class_fold fuel l : (N * (ML + 1) + ML < fuel)%nat -> forall g, (forall idx, In idx l -> in_range idx shape) -> cinv g ->
  exists g', fold_left (fun s x => new_class shape syms max_length fuel x s) l (Some g) = Some g' /\ cinv g' /\ (exists ext, g_data g' = g_data g ++ ext)
    /\ forall idx, In idx l -> reg g' idx.
Proof using Hs HR Hk.
  intros Hf. induction l as [|idx l IH]; intros g Hl C; cbn [fold_left].
  - exists g. split; [reflexivity|]. split; auto. split; [exists []; now rewrite app_nil_r|intros i []].
  - destruct (new_class_spec fuel g idx Hf (Hl _ (or_introl eq_refl)) C) as (g1 & E1 & C1 & [e1 D1] & R1). rewrite E1.
    destruct (IH g1 (fun i Hi => Hl i (or_intror Hi)) C1) as (g2 & E2 & C2 & [e2 D2] & R2). exists g2. split; [exact E2|]. split; auto.
    split; [exists (e1 ++ e2); now rewrite D2, D1, app_assoc|]. intros i [<-|Hi]; [|auto]. eapply reg_mono; eauto.
Qed.

Lemma build_spec fuel : (N * (ML + 1) + ML < fuel)%nat -> exists g, build shape syms max_length fuel = Some g /\ cinv g /\ forall idx, in_range idx shape -> reg g idx.
Proof using Hs HR Hk.
  intros Hf. unfold build. rewrite for_each_fold. rewrite size_c.
  destruct (new_class_fold fuel (all_idx shape) Hf (Grp (repeat false N) [] [])) as (g & E & C & _ & R).
  - intros idx. apply all_idx_In.
  - constructor; cbn [g_classes get_sym_classes map g_data]; auto.
    + constructor; cbn [g_checked g_data map]; auto; [apply repeat_length|constructor|intros e []|].
      intros idx Hi. unfold is_checked. cbn [g_checked]. rewrite lin_radix by auto. split; [|intros []]. intros F.
      pose proof (radix_bound _ _ Hi). rewrite nth_rep in F by lia. discriminate.
    + intros k c e idx s Ek. destruct k; discriminate Ek.
  - exists g. split; [exact E|]. split; auto. intros idx Hi. apply R. now apply all_idx_In.
Qed.

Lemma build_perm g : cinv g -> (forall idx, in_range idx shape -> reg g idx) -> Permutation (map fst (concat (get_sym_classes g))) (zseq (prodZ shape)).
Proof using Hs HR.
  intros C R. rewrite (ci_concat _ C). apply NoDup_Permutation; [exact (gi_nd _ (ci_inv _ C))|apply zseq_nodup|].
  intros p. rewrite zseq_In. split.
  - intros Hp. apply in_map_iff in Hp. destruct Hp as [e [<- He]]. destruct (gi_rng _ (ci_inv _ C) e He) as [idx [Hi ->]]. now apply radix_bound.
  - intros Hp. assert (Hpos : Forall (fun l => 0 < l) shape).
    { apply prodZ_pos_Forall; auto. lia. }
    assert (Hd : in_range (digits shape p) shape) by (apply digits_in_range; auto). specialize (R _ Hd). unfold reg in R. now rewrite radix_digits in R.
Qed.
End Build.

(** ** more fuel does not change the result *)
Lemma sym_loop_mono shape ml (rec rec' : list Z -> operation -> Z -> grp -> option (grp * nat)) idx op :
  (forall a b c g r, rec a b c g = Some r -> rec' a b c g = Some r) ->
  forall l exc g seg r, sym_loop shape ml rec idx op l exc g seg = Some r -> sym_loop shape ml rec' idx op l exc g seg = Some r.
Proof.
  intros H. induction l as [|s l IH]; intros exc g seg r E; cbn [sym_loop] in *; [exact E|].
  destruct (s idx) as [idxp o]. destruct (is_valid shape idxp).
  - destruct (is_checked shape g idxp); [auto|]. destruct (emplace _ _ _ _) as [g1|]; [|discriminate].
    destruct (rec idxp (op_mul o op) 0 g1) as [[g2 n]|] eqn:Er; [|discriminate]. rewrite (H _ _ _ _ _ Er). auto.
  - destruct (exc <? ml); [|auto]. destruct (rec idxp (op_mul o op) (exc + 1) g) as [[g2 n]|] eqn:Er; [|discriminate]. rewrite (H _ _ _ _ _ Er). auto.
Qed.
Lemma iterate_mono shape syms ml fuel fuel' : (fuel <= fuel')%nat -> forall a b c g r, iterate shape syms ml fuel a b c g = Some r -> iterate shape syms ml fuel' a b c g = Some r.
Proof.
  revert fuel'. induction fuel as [|fuel IH]; intros fuel' Hf a b c g r E; [discriminate|]. destruct fuel' as [|fuel']; [lia|].
  cbn [iterate] in *. eapply sym_loop_mono; [|exact E]. apply IH. lia.
Qed.
Lemma build_mono shape syms ml fuel fuel' r : (fuel <= fuel')%nat -> build shape syms ml fuel = Some r -> build shape syms ml fuel' = Some r.
Proof.
  intros Hf. unfold build. rewrite !for_each_fold. generalize (Some (Grp (repeat false (Z.to_nat (size (v_lay (c_array 0 shape))))) [] [])).
  induction (all_idx shape) as [|idx l IH]; intros og E; cbn [fold_left] in *; [exact E|].
  destruct (new_class shape syms ml fuel idx og) as [g1|] eqn:En.
  2:{ exfalso. clear -E. induction l as [|i l IH]; cbn [fold_left new_class] in E; [discriminate|auto]. }
  assert (new_class shape syms ml fuel' idx og = Some g1) as ->; [|auto].
  unfold new_class in *. destruct og as [g|]; [|discriminate]. destruct (is_checked shape g idx); [auto|]. destruct (emplace _ _ _ _) as [g0|]; [|discriminate].
  destruct (iterate shape syms ml fuel idx op_id 0 g0) as [[g2 n]|] eqn:Er; [|discriminate]. rewrite (iterate_mono _ _ _ _ _ Hf _ _ _ _ _ Er). auto.
Qed.

(** ** consequences for classes *)
Section Classes.
Variables (shape : list Z) (classes : list (list sym_idx)).
Hypothesis HP : Permutation (map fst (concat classes)) (zseq (prodZ shape)).

Lemma class_ex idx : in_range idx shape -> exists k c, nth_error classes k = Some c /\ in_class shape idx c.
Proof.
  intros Hi. assert (Q : In (radix shape idx) (map fst (concat classes))).
  { eapply Permutation_in; [apply Permutation_sym, HP|]. apply zseq_In. now apply radix_bound. }
  apply in_map_iff in Q. destruct Q as [e [Ee Q]]. apply in_concat in Q. destruct Q as [c [Hc He]].
  apply In_nth_error in Hc. destruct Hc as [k Hk]. exists k, c. split; auto. exists e. split; auto. split; auto.
Qed.
Lemma class_un idx k1 c1 k2 c2 : nth_error classes k1 = Some c1 -> nth_error classes k2 = Some c2 -> in_class shape idx c1 -> in_class shape idx c2 -> k1 = k2.
Proof.
  intros E1 E2 (e1 & I1 & R1 & F1) (e2 & I2 & R2 & F2).
  assert (ND : NoDup (map fst (concat classes))). { eapply Permutation_NoDup; [apply Permutation_sym, HP|apply zseq_nodup]. }
  clear HP. revert k1 k2 E1 E2. induction classes as [|c cs IH]; intros k1 k2 E1 E2; [destruct k1; discriminate|].
  cbn [concat] in ND. rewrite map_app in ND.
  assert (X : forall k c', nth_error cs k = Some c' -> forall e, In e c' -> In (fst e) (map fst (concat cs))).
  { intros k c' Ek e He. apply in_map, in_concat. exists c'. split; auto. eapply nth_error_In; eauto. }
  destruct k1 as [|k1], k2 as [|k2]; cbn [nth_error] in *; auto.
  - injection E1 as <-. exfalso. eapply (NoDup_app_disjoint _ _ ND (fst e1)); [now apply in_map|]. rewrite F1, <- F2. eauto.
  - injection E2 as <-. exfalso. eapply (NoDup_app_disjoint _ _ ND (fst e2)); [now apply in_map|]. rewrite F2, <- F1. eauto.
  - f_equal. apply IH; auto. now apply NoDup_app_r in ND.
Qed.
End Classes.

Lemma reach_range shape syms a b : reach shape syms a b -> in_range a shape /\ in_range b shape.
Proof. induction 1 as [|b s H [A B] Hs Hr]; auto. Qed.
Lemma reach_trans shape syms a b c : reach shape syms a b -> reach shape syms b c -> reach shape syms a c.
Proof. intros H1. induction 1 as [|c s H IH Hs Hr]; auto. now apply reach_step. Qed.
