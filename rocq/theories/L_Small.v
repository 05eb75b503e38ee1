(** Lemmas on arrays with a small buffer. *)
From Verif Require Import Base M_Perm L_Perm M_IdxMap S_Layout L_IdxMap M_Slice L_Slice L_Layout M_Loops S_Loops L_Loops M_Handle S_Handle L_Handle M_Sso S_Sso L_Sso M_Array S_Array L_Array L_Stack M_Small S_Small.

Section Small.
Context {A : Type}.
Variable (t : traits) (dflt zero : A) (cap : nat) (so : list nat) (pr : layout_prop) (junk : list Z).
Hypothesis Hok : traits_ok t.
Hypothesis Hso : is_order (length so) so.
Hypothesis Hrank : (0 < length so < 16)%nat.
Hypothesis Hjunk : length junk = length so.
Notation lay := (layout so pr junk).
Notation dl := (layout_default so pr junk).
Notation lay_ok := (lay_ok so pr junk).
Notation avals := (list (option (aval A))).

Definition smatch (m : idx_map) (x : option (option (list (option A)))) (a : option (aval A)) : Prop :=
  match a with
  | None => x = Some None
  | Some a => lay_ok m (av_shape a) /\ x = Some (Some (cells a)) /\ match av_cells a with Some l => length l = volume (av_shape a) | None => True end
  end.
Record QRelI (w : qworld A) (s : avals) (sv : list (option (list (option A)))) : Prop := {
  qr_rel : Rel t cap (sw_heap (qw_w w)) (sw_v (qw_w w)) sv;
  qr_len : length sv = S (length s);
  qr_tmp : nth_error sv (length s) = Some None;
  qr_lay : length (qw_lay w) = length s;
  qr_var : forall v, (v < length s)%nat -> smatch (nth v (qw_lay w) dl) (nth_error sv v) (aval_of s v)
}.
Definition QRel w s := exists sv, QRelI w s sv.

Lemma sto_sim w sv ops sv' : Rel t cap (sw_heap (qw_w w)) (sw_v (qw_w w)) sv -> val_run t dflt zero cap sv ops = Some sv' ->
  exists w', q_sto t dflt zero cap w ops = Some w' /\ qw_lay w' = qw_lay w /\ Rel t cap (sw_heap (qw_w w')) (sw_v (qw_w w')) sv'.
Proof.
  intros R E. destruct w as [[H wv] L]. cbn [qw_w sw_heap sw_v] in R. destruct (run_rel t dflt zero cap Hok ops H wv sv sv' R E) as (H' & wv' & E' & R').
  unfold q_sto. cbn [qw_w qw_lay]. rewrite E'. eexists. split; [reflexivity|]. split; [reflexivity|exact R'].
Qed.
Lemma nth_nth_upd {T} (l : list T) v x u d : (v < length l)%nat -> nth u (upd l v x) d = if Nat.eqb v u then x else nth u l d.
Proof. intros. now apply nth_upd. Qed.
Lemma err_upd {T} (l : list T) v x u : (v < length l)%nat -> nth_error (upd l v x) u = if Nat.eqb v u then Some x else nth_error l u.
Proof. intros H. destruct (Nat.eqb_spec v u) as [->|N]; [now apply nth_error_upd_eq|now apply nth_error_upd_neq]. Qed.
Lemma aval_set (s : avals) v x u : (v < length s)%nat -> aval_of (upd s v x) u = if Nat.eqb v u then x else aval_of s u.
Proof. intros. unfold aval_of. rewrite err_upd by auto. destruct (Nat.eqb v u); auto. Qed.

(** the storage of one variable changes *)
Lemma qrel_one w s sv w' sv' v m x a : QRelI w s sv -> (v < length s)%nat -> Rel t cap (sw_heap (qw_w w')) (sw_v (qw_w w')) sv' ->
  (forall u, nth_error sv' u = if Nat.eqb v u then Some x else nth_error sv u) -> qw_lay w' = upd (qw_lay w) v m -> smatch m (Some x) a ->
  length sv' = length sv -> QRelI w' (upd s v a) sv'.
Proof.
  intros I Lv R Es El Hm Ln. constructor; rewrite ?upd_length; auto.
  - rewrite Ln. apply (qr_len _ _ _ I).
  - rewrite Es. destruct (Nat.eqb_spec v (length s)); [lia|]. apply (qr_tmp _ _ _ I).
  - rewrite El, upd_length. apply (qr_lay _ _ _ I).
  - intros u Lu. rewrite El, Es, aval_set, nth_nth_upd by (rewrite ?(qr_lay _ _ _ I); auto). destruct (Nat.eqb_spec v u) as [->|N]; auto.
    apply (qr_var _ _ _ I); auto.
Qed.
(** the storage of [x] goes to [v] *)
Lemma qrel_move w s sv w' sv' v x a : QRelI w s sv -> (v < length s)%nat -> aval_of s x = Some a ->
  Rel t cap (sw_heap (qw_w w')) (sw_v (qw_w w')) sv' -> sv' = upd (upd sv v (Some (cells a))) x (Some []) ->
  qw_lay w' = upd (qw_lay w) v (nth x (qw_lay w) dl) -> QRelI w' (upd (upd s v (Some a)) x (Some (moved a))) sv'.
Proof.
  intros I Lv Ex R -> El. pose proof (aval_lt _ _ _ Ex) as Lx. pose proof (qr_len _ _ _ I) as Ln. pose proof (qr_lay _ _ _ I) as Ll.
  pose proof (qr_var _ _ _ I x Lx) as Mx. rewrite Ex in Mx. destruct Mx as (M1 & M2 & M3).
  assert (Ec : cells (moved a) = []) by (unfold cells, moved; cbn [av_cells]; destruct (av_cells a) as [[|? ?]|]; auto).
  constructor; rewrite ?upd_length; auto.
  - rewrite !err_upd by (rewrite ?upd_length; lia). destruct (Nat.eqb_spec x (length s)); [lia|]. destruct (Nat.eqb_spec v (length s)); [lia|]. apply (qr_tmp _ _ _ I).
  - rewrite El, upd_length. exact Ll.
  - intros u Lu. rewrite El, !aval_set, !err_upd, nth_nth_upd by (rewrite ?upd_length; lia).
    destruct (Nat.eqb_spec x u) as [<-|Nx].
    + cbn [smatch]. rewrite Ec. split; [|split; [reflexivity|]].
      * destruct (Nat.eqb_spec v x) as [->|N]; exact M1.
      * unfold moved. cbn [av_cells av_shape]. destruct (av_cells a) as [[|? ?]|]; auto.
    + destruct (Nat.eqb_spec v u) as [->|Nv]; [|now apply (qr_var _ _ _ I)]. cbn [smatch]. auto.
Qed.

Lemma var_some w s sv v a : QRelI w s sv -> aval_of s v = Some a ->
  (v < length s)%nat /\ lay_ok (nth v (qw_lay w) dl) (av_shape a) /\ nth_error sv v = Some (Some (cells a)) /\ val sv v = Some (cells a)
  /\ match av_cells a with Some l => length l = volume (av_shape a) | None => True end.
Proof.
  intros I E. pose proof (aval_lt _ _ _ E) as Lv. pose proof (qr_var _ _ _ I v Lv) as M. rewrite E in M. destruct M as (M1 & M2 & M3).
  unfold val. rewrite M2. auto 6.
Qed.
Lemma var_fresh w s sv v : QRelI w s sv -> afresh s v = true -> (v < length s)%nat /\ nth_error sv v = Some None /\ fresh sv v = true.
Proof.
  intros I E. destruct (afresh_inv _ _ E) as [Lv En]. pose proof (qr_var _ _ _ I v Lv) as M. rewrite En in M. cbn [smatch] in M. unfold fresh. rewrite M. auto.
Qed.
Lemma lay_ok_lay sh : shape_ok so sh = true -> lay_ok (lay sh) sh. Proof. split; auto. Qed.
Lemma initial_start n i : i <> Raw -> initial (plain t) dflt zero n i = start_with t dflt zero n i.
Proof. destruct i; auto; try congruence; cbn [initial start_with plain t_complex t_trivial]; intros _; reflexivity. Qed.
Lemma initial_len u n i : length (initial (A := A) u dflt zero n i) = n.
Proof. destruct i; cbn [initial]; apply repeat_length. Qed.

(** statements that are one statement of the storage *)
Lemma one_sim w s v m o x a : QRel w s -> (v < length s)%nat ->
  (forall sv, QRelI w s sv -> careful t cap sv o = true /\ val_step t dflt zero sv o = Some (upd sv v x)) -> smatch m (Some x) a ->
  exists w', q_sto t dflt zero cap (q_set_lay w v m) [o] = Some w' /\ QRel w' (upd s v a).
Proof.
  intros (sv & I) Lv Ho Hm. destruct (Ho sv I) as [C E].
  destruct (sto_sim (q_set_lay w v m) sv [o] (upd sv v x) (qr_rel _ _ _ I)) as (w' & E' & El & R').
  { cbn [val_run]. now rewrite C, E. }
  exists w'. split; [exact E'|]. exists (upd sv v x). eapply (qrel_one w s sv w' _ v m x a); auto; [|now rewrite upd_length].
  intros u. apply err_upd. rewrite (qr_len _ _ _ I). lia.
Qed.

(** writing an element *)
Lemma write_sim w s v sh l idx a : QRel w s -> aval_of s v = Some (AVal sh (Some l)) -> in_range idx sh ->
  exists w', q_sto t dflt zero cap w [SWrite v (offset (q_lay_of so pr junk w v) idx) a] = Some w' /\ qw_lay w' = qw_lay w
    /\ QRel w' (upd s v (Some (AVal sh (Some (upd l (place_of so sh idx) (Some a)))))).
Proof.
  intros (sv & I) E Hi. destruct (var_some _ _ _ _ _ I E) as (Lv & [Hs Hm] & En & Ev & Hl). cbn [av_shape av_cells cells] in *.
  pose proof (place_bound so junk Hso Hrank Hjunk sh idx Hs Hi) as B.
  assert (Em : nth v (qw_lay w) dl = lay sh). { destruct Hm as [Hm|[Hm _]]; auto. unfold volume in B. rewrite Hm in B. simpl in B. lia. }
  unfold q_lay_of. rewrite Em, (offset_place so pr junk Hso Hrank Hjunk sh idx Hs Hi).
  destruct (sto_sim w sv [SWrite v (place_of so sh idx) a] (upd sv v (Some (upd l (place_of so sh idx) (Some a)))) (qr_rel _ _ _ I)) as (w' & E' & El & R').
  { cbn [val_run careful val_step]. rewrite Ev. destruct (Nat.ltb_spec (place_of so sh idx) (length l)); [reflexivity|lia]. }
  exists w'. split; [exact E'|]. split; [exact El|]. exists (upd sv v (Some (upd l (place_of so sh idx) (Some a)))).
  eapply qrel_one with (m := nth v (qw_lay w) dl); eauto.
  - intros u. apply err_upd. rewrite (qr_len _ _ _ I). lia.
  - rewrite El. symmetry. apply upd_same. apply nth_error_nth'. rewrite (qr_lay _ _ _ I). exact Lv.
  - cbn [smatch av_shape av_cells cells]. rewrite Em, upd_length. split; [now apply lay_ok_lay|auto].
  - now rewrite upd_length.
Qed.
Lemma loop_fold L f : forall w s v sh l, QRel w s -> aval_of s v = Some (AVal sh (Some l)) -> (forall idx, In idx L -> in_range idx sh) ->
  exists w', fold_left (fun o idx => match o with Some w => q_sto t dflt zero cap w [SWrite v (offset (q_lay_of so pr junk w v) idx) (f idx)] | None => None end) L (Some w) = Some w'
    /\ QRel w' (upd s v (Some (AVal sh (Some (scatter (place_of so sh) f L l))))).
Proof.
  induction L as [|idx L IH]; intros w s v sh l R E Hin; cbn [fold_left].
  - exists w. split; auto. cbn [scatter fold_left]. rewrite upd_same; auto. unfold aval_of in E. destruct (nth_error s v); congruence.
  - destruct (write_sim w s v sh l idx (f idx) R E) as (w1 & E1 & _ & R1); [apply Hin; now left|]. rewrite E1. pose proof (aval_lt _ _ _ E) as Lv.
    destruct (IH w1 _ v sh (upd l (place_of so sh idx) (Some (f idx))) R1) as (w2 & E2 & R2).
    + rewrite aval_set by auto. now rewrite Nat.eqb_refl.
    + intros; apply Hin; now right.
    + exists w2. split; auto. now rewrite upd_upd in R2.
Qed.

(** resize *)
Lemma resize_sim w s v a sh : QRel w s -> aval_of s v = Some a -> shape_ok so sh = true ->
  t_tcopy t || negb (in_buffer cap (volume sh)) || Nat.eqb (length (cells a)) (volume sh) = true ->
  exists w', q_resize t dflt zero cap so pr junk w v sh = Some w' /\ QRel w' (upd s v (Some (resized (plain t) dflt zero a sh))).
Proof.
  intros (sv & I) E Hs Hg. destruct (var_some _ _ _ _ _ I E) as (Lv & HL & En & Ev & Hl). pose proof (qr_len _ _ _ I) as Ln. pose proof (qr_lay _ _ _ I) as Ll.
  pose proof (rel_values t cap _ _ _ (qr_rel _ _ _ I) v) as RV. rewrite Ev in RV. destruct RV as (q & Eq & Sz & Nu & _). cbn [sw_v] in Eq.
  unfold q_resize. cbn [q_set_lay qw_w]. rewrite Eq, Sz, (layout_nelem so pr junk). rewrite Ll.
  destruct (match q_data q with None => true | Some _ => false end || negb (Nat.eqb (length (cells a)) (volume sh))) eqn:B.
  - set (n := volume sh) in *. set (k := length s) in *. set (d := start_with t dflt zero n Default).
    assert (Ld : length d = n) by apply repeat_length.
    set (sv' := upd (upd (upd (upd sv k (Some d)) v (Some d)) k (Some [])) k None).
    assert (Gn : t_tcopy t || negb (negb (Nat.eqb n 0) && Nat.leb n cap) = true).
    { destruct (t_tcopy t); auto. cbn [orb] in *. destruct (in_buffer cap n) eqn:Ib; unfold in_buffer in Ib; rewrite ?Ib; auto. cbn [negb orb] in Hg.
      rewrite Hg in B. cbn [negb] in B. rewrite orb_false_r in B. destruct (q_data q); [discriminate|]. apply Nat.eqb_eq in Hg.
      rewrite (proj2 Nu eq_refl) in Hg. cbn [length] in Hg. rewrite <- Hg in Ib. discriminate. }
    destruct (sto_sim (q_set_lay w v (lay sh)) sv [SNew k n Default; SAssignMove v k; SEnd k] sv' (qr_rel _ _ _ I)) as (w' & E' & El & R').
    { cbn [val_run careful val_step]. unfold fresh. rewrite (qr_tmp _ _ _ I : nth_error sv k = Some None). cbn [andb]. fold d.
      assert (V1 : val (upd sv k (Some d)) v = Some (cells a)) by (unfold val; rewrite err_upd by lia; destruct (Nat.eqb_spec k v); [lia|]; now rewrite En).
      assert (V2 : val (upd sv k (Some d)) k = Some d) by (unfold val; rewrite err_upd by lia; now rewrite Nat.eqb_refl).
      rewrite V1, V2, Ld, Gn.
      assert (V3 : val (upd (upd (upd sv k (Some d)) v (Some d)) k (Some [])) k = Some []) by (unfold val; rewrite err_upd by (rewrite !upd_length; lia); now rewrite Nat.eqb_refl).
      rewrite V3. reflexivity. }
    exists w'. split; [exact E'|]. exists sv'. eapply (qrel_one w s sv w' _ v (lay sh) (Some d)); auto.
    + intros u. unfold sv'. rewrite !err_upd by (rewrite ?upd_length; lia). destruct (Nat.eqb_spec k u) as [<-|Nk].
      * destruct (Nat.eqb_spec v k); [lia|]. symmetry. apply (qr_tmp _ _ _ I).
      * destruct (Nat.eqb_spec v u); reflexivity.
    + cbn [smatch resized av_shape av_cells cells]. split; [now apply lay_ok_lay|].
      assert (Er : match av_cells a with Some l => if Nat.eqb (length l) n then l else initial (plain t) dflt zero n Default | None => initial (plain t) dflt zero n Default end = d).
      { rewrite initial_start by discriminate. fold d. destruct (av_cells a) as [l|] eqn:Ea; auto. unfold cells in *. rewrite Ea in *.
        destruct (Nat.eqb_spec (length l) n) as [El'|]; auto. cbn [negb] in B. rewrite orb_false_r in B. destruct (q_data q); [discriminate|].
        rewrite (proj2 Nu eq_refl) in *. cbn [length] in El'. symmetry. apply length_zero_iff_nil. lia. }
      fold n. rewrite Er. auto.
    + unfold sv'. now rewrite !upd_length.
  - apply orb_false_iff in B. destruct B as [B1 B2]. apply negb_false_iff, Nat.eqb_eq in B2. eexists. split; [reflexivity|]. exists sv.
    eapply (qrel_one w s sv _ _ v (lay sh) (Some (cells a))); auto.
    + exact (qr_rel _ _ _ I).
    + intros u. destruct (Nat.eqb_spec v u) as [<-|]; auto.
    + cbn [smatch resized av_shape av_cells cells]. split; [now apply lay_ok_lay|].
      assert (Er : match av_cells a with Some l => if Nat.eqb (length l) (volume sh) then l else initial (plain t) dflt zero (volume sh) Default | None => initial (plain t) dflt zero (volume sh) Default end = cells a).
      { unfold cells in *. destruct (av_cells a) as [l|]; [rewrite B2, Nat.eqb_refl; reflexivity|]. destruct (q_data q) eqn:Eqd; [|discriminate].
        pose proof (proj1 Nu eq_refl). congruence. }
      rewrite Er. auto.
Qed.

(** construction of all elements *)
Lemma scatter_app (pos : list Z -> nat) (f : list Z -> A) L b : forall a, (forall i, In i L -> (pos i < length a)%nat) -> scatter pos f L (a ++ b) = scatter pos f L a ++ b.
Proof.
  induction L as [|i L IH]; intros a H; [reflexivity|]. unfold scatter in *. cbn [fold_left].
  rewrite upd_app_l by (apply H; now left). apply IH. intros j Hj. rewrite upd_length. apply H. now right.
Qed.
Lemma construct_fold (pos : list Z -> nat) (f : list Z -> A) v b m L : forall h wv buf n cs,
  getv wv v = Some (Sso buf (Some b) n) -> nth_error h b = Some (Block true cs) -> NoDup (map pos L) -> raw t cs ->
  (forall idx, In idx L -> (pos idx < length cs)%nat /\ offset m idx = pos idx) ->
  fold_left (fun o idx => match o with Some w => match getv (sw_v w) v with Some q => match q_data q with Some b => lift w (construct t b (offset m idx) (f idx)) | None => None end | None => None end | None => None end) L
    (Some (SWorld h wv)) = Some (SWorld (upd h b (Block true (scatter pos f L cs))) wv).
Proof.
  intros h wv buf n cs Eq Eb N Rw Hin.
  assert (G : forall L' h cs, nth_error h b = Some (Block true cs) -> NoDup (map pos L') ->
    (forall idx, In idx L' -> (pos idx < length cs)%nat /\ offset m idx = pos idx /\ (t_tcopy t = false -> nth_error cs (pos idx) = Some None)) ->
    fold_left (fun o idx => match o with Some w => match getv (sw_v w) v with Some q => match q_data q with Some b => lift w (construct t b (offset m idx) (f idx)) | None => None end | None => None end | None => None end) L'
      (Some (SWorld h wv)) = Some (SWorld (upd h b (Block true (scatter pos f L' cs))) wv)).
  { clear N Rw Hin Eb. clear cs h. induction L' as [|idx L' IH]; intros h cs Eb N Hin; cbn [fold_left].
    - cbn [scatter fold_left]. now rewrite upd_same.
    - destruct (Hin idx) as (H1 & H2 & H3); [now left|]. cbn [sw_v]. rewrite Eq. cbn [q_data]. unfold lift. cbn [sw_heap]. rewrite H2.
      destruct (nth_error cs (pos idx)) as [c|] eqn:Ec; [|apply nth_error_None in Ec; lia].
      cbn [map] in N. inversion N as [|? ? Nx N']; subst.
      rewrite (construct_live t h b cs (pos idx) (f idx) c Eb Ec) by (intros T; specialize (H3 T); congruence). pose proof (nth_error_lt _ _ _ Eb) as Lb. cbn [set_hp sw_v].
      unfold set_hp. cbn [sw_v]. rewrite (IH _ (upd cs (pos idx) (Some (f idx)))); auto.
      + now rewrite upd_upd.
      + now apply nth_error_upd_eq.
      + intros i Hi. destruct (Hin i) as (Q1 & Q2 & Q3); [now right|]. rewrite upd_length. split; [auto|]. split; [auto|]. intros T.
        rewrite nth_error_upd_neq; auto. intros Ei. apply Nx. rewrite Ei. now apply in_map. }
  apply G; auto. intros idx Hi. destruct (Hin idx Hi) as [Q1 Q2]. split; [auto|]. split; [auto|]. intros T.
  destruct (nth_error cs (pos idx)) as [c|] eqn:Ec; [|apply nth_error_None in Ec; lia]. now rewrite (raw_nth t _ _ _ Rw Ec T).
Qed.
Lemma from_sim w s v sh f : QRel w s -> afresh s v = true -> shape_ok so sh = true ->
  exists w', q_from t dflt zero cap so pr junk w v sh f = Some w' /\ QRel w' (upd s v (Some (AVal sh (Some (tabulate so sh f))))).
Proof.
  intros (sv & I) F Hs. destruct (var_fresh _ _ _ _ I F) as (Lv & En & _). pose proof (qr_len _ _ _ I) as Ln.
  destruct w as [[H wv] Ly]. pose proof (qr_rel _ _ _ I) as R. cbn [qw_w sw_heap sw_v] in R.
  destruct (declare_rel t cap H wv sv v R En) as [Ed Rd]. pose proof R as (Lw & _).
  set (buf := length H) in *. set (H1 := H ++ [Block true (repeat None cap)]) in *. set (wv1 := upd wv v (Some (Sso buf None 0))) in *.
  assert (Eq1 : nth_error wv1 v = Some (Some (Sso buf None 0))) by (apply nth_error_upd_eq; lia).
  assert (Es1 : nth_error (upd sv v (Some [])) v = Some (Some [])) by (apply nth_error_upd_eq; lia).
  set (n := volume sh). unfold q_from. rewrite (layout_nelem so pr junk). cbn [qw_w qw_lay]. rewrite Ed. fold n.
  assert (Lt : length (tabulate (A := A) so sh f) = n) by apply tabulate_length.
  destruct (Nat.eq_dec n 0) as [N0|Nn].
  - unfold sso_init. rewrite (proj2 (Nat.eqb_eq n 0) N0). unfold q_construct. rewrite for_each_fold. cbn [im_len layout idx_map_of_shape].
    assert (En0 : all_idx sh = []).
    { destruct (all_idx sh) as [|i L] eqn:Ea; auto. assert (Hi : in_range i sh) by (apply all_idx_In; rewrite Ea; now left).
      pose proof (place_bound so junk Hso Hrank Hjunk sh i Hs Hi) as B. fold n in B. lia. }
    rewrite En0. cbn [fold_left]. eexists. split; [reflexivity|]. exists (upd sv v (Some [])). eapply (qrel_one (QWorld (SWorld H wv) Ly) s sv _ _ v (lay sh) (Some [])); auto.
    + intros u. apply err_upd. lia.
    + cbn [smatch av_shape av_cells cells]. split; [now apply lay_ok_lay|]. split; [|exact Lt]. rewrite N0 in Lt. apply length_zero_iff_nil in Lt. now rewrite Lt.
    + now rewrite upd_length.
  - rewrite (init_raw t dflt zero cap H1 wv1 v n 0%nat buf Eq1 Nn).
    destruct (room_spec t cap H1 wv1 (upd sv v (Some [])) v buf n Rd Eq1 Es1) as (cs & Ec & Lc & Rc & _ & _ & K).
    unfold q_construct. rewrite for_each_fold. cbn [im_len layout idx_map_of_shape].
    rewrite (construct_fold (place_of so sh) f v (snd (room cap H1 buf n)) (lay sh) (all_idx sh) _ _ buf n cs); auto.
    + assert (Sc : scatter (place_of so sh) f (all_idx sh) cs = tabulate so sh f ++ skipn n cs).
      { rewrite <- (firstn_skipn n cs) at 1. rewrite scatter_app.
        - f_equal. apply (scatter_all so pr junk Hso Hrank Hjunk); auto. rewrite firstn_length. fold n. lia.
        - intros i Hi. rewrite firstn_length, Nat.min_l by lia. apply (place_bound so junk Hso Hrank Hjunk sh i Hs). now apply all_idx_In. }
      rewrite Sc. eexists. split; [reflexivity|]. exists (upd (upd sv v (Some [])) v (Some (tabulate so sh f))).
      eapply (qrel_one (QWorld (SWorld H wv) Ly) s sv _ _ v (lay sh) (Some (tabulate so sh f))); auto; cbn [qw_w qw_lay sw_heap sw_v].
      * apply K; auto; [apply covers_refl|apply good_tabulate].
      * intros u. rewrite !err_upd by (rewrite ?upd_length; lia). destruct (Nat.eqb v u); auto.
      * cbn [smatch av_shape av_cells cells]. split; [now apply lay_ok_lay|auto].
      * now rewrite !upd_length.
    + apply getv_upd. unfold wv1. rewrite upd_length. lia.
    + apply L_Array.NoDup_map_on; [apply all_idx_NoDup|]. intros x y Hx Hy. apply (place_inj so junk Hso Hrank Hjunk sh); auto; now apply all_idx_In.
    + intros idx Hi. apply all_idx_In in Hi. split; [|now apply (offset_place so pr junk Hso Hrank Hjunk)].
      pose proof (place_bound so junk Hso Hrank Hjunk sh idx Hs Hi) as B. fold n in B. lia.
Qed.

Lemma dl_ok : lay_ok dl (repeat 0 (length so)).
Proof. now apply start_lay_ok. Qed.
Lemma a_step_sim w s o s' : QRel w s -> gentle t cap s o = true -> a_step (plain t) dflt zero so s o = Some s' ->
  exists w', q_exec t dflt zero cap so pr junk w o = Some w' /\ QRel w' s'.
Proof.
  intros R G E. destruct o as [v|v sh|v sh|v sh f|v x|v x|v x|v x|v sh f|v sh|v idx a|v]; cbn [a_step] in E; cbn [q_exec]; cbn [gentle] in G.
  - destruct (afresh s v) eqn:F; [|discriminate]. injection E as <-. destruct (afresh_inv _ _ F) as [Lv _]. apply (one_sim w s v dl (SDeclare v) (Some [])); auto.
    + intros sv I. destruct (var_fresh _ _ _ _ I F) as (_ & _ & Fr). cbn [careful val_step]. now rewrite Fr.
    + cbn [smatch av_shape av_cells cells]. split; [apply dl_ok|]. split; auto. unfold volume. destruct (length so) as [|k] eqn:El; [lia|]. reflexivity.
  - destruct (afresh s v) eqn:F; cbn [andb] in E; [|discriminate]. destruct (shape_ok so sh) eqn:Hs; [|discriminate]. injection E as <-. destruct (afresh_inv _ _ F) as [Lv _].
    apply (one_sim w s v (lay sh) _ (Some (start_with t dflt zero (volume sh) Default))); auto.
    + intros sv I. destruct (var_fresh _ _ _ _ I F) as (_ & _ & Fr). cbn [careful val_step]. now rewrite Fr, (layout_nelem so pr junk).
    + cbn [smatch av_shape av_cells cells]. split; [now apply lay_ok_lay|]. split; auto. apply repeat_length.
  - destruct (afresh s v) eqn:F; cbn [andb] in E; [|discriminate]. destruct (shape_ok so sh) eqn:Hs; cbn [andb] in E; [|discriminate]. cbn [plain t_tcopy] in E.
    destruct (t_tcopy t) eqn:T; [|discriminate]. injection E as <-. destruct (afresh_inv _ _ F) as [Lv _].
    apply (one_sim w s v (lay sh) _ (Some (start_with t dflt zero (volume sh) Zero))); auto.
    + intros sv I. destruct (var_fresh _ _ _ _ I F) as (_ & _ & Fr). cbn [careful val_step]. now rewrite Fr, (layout_nelem so pr junk), T.
    + cbn [smatch av_shape av_cells cells]. split; [now apply lay_ok_lay|]. split; auto. apply repeat_length.
  - destruct (afresh s v) eqn:F; cbn [andb] in E; [|discriminate]. destruct (shape_ok so sh) eqn:Hs; [|discriminate]. injection E as <-. now apply from_sim.
  - destruct (afresh s v) eqn:F; [|discriminate]. destruct (aval_of s x) as [a|] eqn:Ex; [|discriminate]. injection E as <-. destruct (afresh_inv _ _ F) as [Lv _].
    apply (one_sim w s v _ _ (Some (cells a))); auto.
    + intros sv I. destruct (var_fresh _ _ _ _ I F) as (_ & _ & Fr). destruct (var_some _ _ _ _ _ I Ex) as (_ & _ & _ & Ev & _). cbn [careful val_step]. now rewrite Fr, Ev.
    + destruct R as (sv & I). destruct (var_some _ _ _ _ _ I Ex) as (_ & M1 & _ & _ & M3). cbn [smatch]. auto.
  - destruct (afresh s v) eqn:F; [|discriminate]. destruct (aval_of s x) as [a|] eqn:Ex; [|discriminate]. injection E as <-. destruct (afresh_inv _ _ F) as [Lv _].
    destruct R as (sv & I). destruct (var_fresh _ _ _ _ I F) as (_ & _ & Fr). destruct (var_some _ _ _ _ _ I Ex) as (_ & _ & _ & Ev & _). unfold n_cells, in_buffer in G. rewrite Ex in G.
    destruct (sto_sim (q_set_lay w v (q_lay_of so pr junk w x)) sv [SMove v x] (upd (upd sv v (Some (cells a))) x (Some [])) (qr_rel _ _ _ I)) as (w' & E' & El & R').
    { cbn [val_run careful val_step]. rewrite Fr, Ev, G. reflexivity. }
    exists w'. split; [exact E'|]. eexists. eapply qrel_move; eauto.
  - destruct (aval_of s v) as [a0|] eqn:Ev0; [|discriminate]. destruct (aval_of s x) as [a|] eqn:Ex; [|discriminate]. injection E as <-. pose proof (aval_lt _ _ _ Ev0) as Lv.
    apply (one_sim w s v _ _ (Some (cells a))); auto.
    + intros sv I. destruct (var_some _ _ _ _ _ I Ex) as (_ & _ & _ & Ev & _). destruct (var_some _ _ _ _ _ I Ev0) as (_ & _ & _ & Ev' & _).
      cbn [careful val_step]. now rewrite Ev', Ev, G.
    + destruct R as (sv & I). destruct (var_some _ _ _ _ _ I Ex) as (_ & M1 & _ & _ & M3). cbn [smatch]. auto.
  - destruct (aval_of s v) as [a0|] eqn:Ev0; [|discriminate]. destruct (aval_of s x) as [a|] eqn:Ex; [|discriminate]. injection E as <-. pose proof (aval_lt _ _ _ Ev0) as Lv.
    destruct R as (sv & I). destruct (var_some _ _ _ _ _ I Ex) as (_ & _ & _ & Ev & _). destruct (var_some _ _ _ _ _ I Ev0) as (_ & _ & _ & Ev' & _). unfold n_cells, in_buffer in G. rewrite Ex in G.
    destruct (sto_sim (q_set_lay w v (q_lay_of so pr junk w x)) sv [SAssignMove v x] (upd (upd sv v (Some (cells a))) x (Some [])) (qr_rel _ _ _ I)) as (w' & E' & El & R').
    { cbn [val_run careful val_step]. rewrite Ev', Ev, G. reflexivity. }
    exists w'. split; [exact E'|]. eexists. eapply qrel_move; eauto.
  - destruct (aval_of s v) as [a|] eqn:Ev; [|discriminate]. destruct (shape_ok so sh) eqn:Hs; [|discriminate]. injection E as <-. pose proof (aval_lt _ _ _ Ev) as Lv.
    unfold n_cells in G. rewrite Ev in G. destruct (resize_sim w s v a sh R Ev Hs G) as (w1 & E1 & R1). rewrite E1.
    assert (Hr : aval_of (upd s v (Some (resized (plain t) dflt zero a sh))) v = Some (resized (plain t) dflt zero a sh)) by (rewrite aval_set by auto; now rewrite Nat.eqb_refl).
    destruct (loop_fold (all_idx sh) f w1 _ v sh _ R1 Hr) as (w2 & E2 & R2); [intros; now apply all_idx_In|].
    exists w2. split.
    + unfold q_loop. rewrite for_each_fold. destruct R1 as (sv1 & I1). destruct (var_some _ _ _ _ _ I1 Hr) as (_ & [_ Hm] & _). unfold q_lay_of at 2.
      assert (El : im_len (nth v (qw_lay w1) dl) = sh) by (destruct Hm as [->|[_ Hm]]; auto). rewrite El. exact E2.
    + rewrite upd_upd in R2. rewrite (scatter_all so pr junk Hso Hrank Hjunk) in R2; auto.
      destruct R1 as (sv1 & I1). destruct (var_some _ _ _ _ _ I1 Hr) as (_ & _ & _ & _ & Hl). exact Hl.
  - destruct (aval_of s v) as [a|] eqn:Ev; [|discriminate]. destruct (shape_ok so sh) eqn:Hs; [|discriminate]. injection E as <-.
    unfold n_cells in G. rewrite Ev in G. now apply resize_sim.
  - destruct (aval_of s v) as [[sh [l|]]|] eqn:Ev; try discriminate. destruct (in_bounds idx sh) eqn:B; [|discriminate]. injection E as <-.
    apply (in_bounds_spec so junk Hrank Hjunk) in B. destruct (write_sim w s v sh l idx a R Ev B) as (w' & E' & _ & R'). eauto.
  - destruct (aval_of s v) as [a|] eqn:Ev; [|discriminate]. injection E as <-. destruct R as (sv & I). destruct (var_some _ _ _ _ _ I Ev) as (Lv & _ & _ & Ev' & _).
    destruct (sto_sim w sv [SEnd v] (upd sv v None) (qr_rel _ _ _ I)) as (w' & E' & El & R').
    { cbn [val_run careful val_step]. now rewrite Ev'. }
    exists w'. split; [exact E'|]. exists (upd sv v None). eapply qrel_one with (m := nth v (qw_lay w) dl); eauto.
    + intros u. apply err_upd. rewrite (qr_len _ _ _ I). lia.
    + rewrite El. symmetry. apply upd_same. apply nth_error_nth'. rewrite (qr_lay _ _ _ I). exact Lv.
    + reflexivity.
    + now rewrite upd_length.
Qed.
Lemma q_run_sim p : forall w s s', QRel w s -> small_history t dflt zero cap so s p = Some s' ->
  exists w', q_run t dflt zero cap so pr junk w p = Some w' /\ QRel w' s'.
Proof.
  induction p as [|o p IH]; intros w s s' R E; cbn [small_history] in E; cbn [q_run].
  - injection E as <-. eauto.
  - destruct (gentle t cap s o) eqn:G; [|discriminate]. destruct (a_step (plain t) dflt zero so s o) as [s1|] eqn:E1; [|discriminate].
    destruct (a_step_sim _ _ _ _ R G E1) as (w1 & Ew & R1). rewrite Ew. eauto.
Qed.
Lemma q_start_rel n : QRel (q_start so pr junk n) (repeat None n).
Proof.
  exists (repeat None (S n)). constructor; cbn [q_start qw_w qw_lay sso_start sw_heap sw_v]; rewrite ?repeat_length; auto.
  - apply rel_start.
  - rewrite nth_error_repeat; auto.
  - intros v Lv. unfold aval_of. rewrite !nth_error_repeat by lia. reflexivity.
Qed.
Lemma qrel_looks w s : QRel w s -> q_all_right so dl w s.
Proof.
  intros (sv & I) v Lv. destruct (aval_of s v) as [a|] eqn:Ev.
  - destruct (var_some _ _ _ _ _ I Ev) as (_ & [Hs Hm] & En & _ & Hl). destruct (Rel_get t cap _ _ _ _ _ (qr_rel _ _ _ I) En) as (q & Eq & Hq).
    exists q. split; [unfold getv; now rewrite Eq|]. cbn zeta.
    assert (Hlen : im_len (nth v (qw_lay w) dl) = av_shape a) by (destruct Hm as [->|[_ Hm]]; auto). split; [exact Hlen|].
    pose proof Hq as (bc & _ & _ & Sz & Hc). unfold cells in *. destruct (av_cells a) as [l|] eqn:Ea.
    + assert (L : Z.of_nat (length l) = prodZ (av_shape a)).
      { rewrite Hl. unfold volume. apply (shape_ok_spec so junk Hrank Hjunk) in Hs. destruct Hs as [_ Hs]. pose proof (prodZ_nonneg _ Hs). lia. }
      split; [exact L|]. split; [exact Sz|]. intros idx Hi. pose proof (place_bound so junk Hso Hrank Hjunk _ _ Hs Hi) as B.
      assert (Em : nth v (qw_lay w) dl = lay (av_shape a)). { destruct Hm as [Hm|[Hm _]]; auto. unfold volume in B. rewrite Hm in B. simpl in B. lia. }
      assert (Nl : l <> []) by (intros ->; cbn [length] in Hl; lia).
      destruct (src_block t cap _ _ _ Hq Nl) as (sb & l1 & rest & Ed & Esb & C & _). pose proof (covers_length _ _ C) as L1.
      rewrite Em. change (Z.to_nat (call_impl (lay (av_shape a)) (map CLong idx))) with (offset (lay (av_shape a)) idx).
      rewrite (offset_place so pr junk Hso Hrank Hjunk) by auto. 
      destruct (nth_error l (place_of so (av_shape a) idx)) as [e|] eqn:Ee; [|apply nth_error_None in Ee; lia].
      destruct (Forall2_nth_error_l _ _ _ _ _ C Ee) as (c & Ec & He). exists sb, c, e. rewrite (read_live _ _ _ _ Esb), nth_error_app1 by lia. split; [exact Ed|]. split; [exact Ec|]. split; [reflexivity|tauto].
    + destruct Hc as [(_ & Ed & _)|[(Nl & _)|(Ll & _)]]; [auto|congruence|cbn [length] in Ll; lia].
  - pose proof (qr_var _ _ _ I v Lv) as M. rewrite Ev in M. cbn [smatch] in M. unfold getv. now rewrite (Rel_none t cap _ _ _ _ (qr_rel _ _ _ I) M).
Qed.
Lemma qrel_memory w s : QRel w s -> right_memory (qw_w w) /\ disjoint (qw_w w).
Proof. intros (sv & I). destruct w as [[H wv] Ly]. pose proof (qr_rel _ _ _ I) as R. split; [eapply rel_memory; eauto|eapply rel_disjoint; eauto]. Qed.
End Small.
