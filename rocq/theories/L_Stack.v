(** Lemmas on arrays of fixed shape. *)
From Verif Require Import Base M_Perm L_Perm M_IdxMap S_Layout L_IdxMap M_Slice L_Slice L_Layout M_Loops S_Loops L_Loops M_Handle S_Handle L_Handle M_Sso L_Sso M_Array S_Array L_Array M_Stack S_Stack.

Section Stack.
Context {A : Type}.
Variable (t : traits) (dflt zero : A) (checks : bool) (so : list nat) (ext : list Z) (pr : layout_prop) (junk : list Z).
Hypothesis Hok : traits_ok t.
Hypothesis Hso : is_order (length ext) so.
Hypothesis Hrank : (0 < length ext < 16)%nat.
Hypothesis Hjunk : length junk = length ext.
Hypothesis Hpos : Forall (fun l => 0 < l) ext.
Notation cap := (volume ext).
Notation lay := (idx_map_of_shape so ext pr junk ext).

Lemma ext_len : length so = length ext.
Proof. pose proof (Permutation_length Hso) as L. now rewrite seq_length in L. Qed.
Lemma ext_nonneg : Forall (fun l => 0 <= l) ext.
Proof. eapply Forall_impl; [|exact Hpos]. intros; cbv beta in *; lia. Qed.
Lemma Hso' : is_order (length so) so. Proof. now rewrite ext_len. Qed.
Lemma Hrank' : (0 < length so < 16)%nat. Proof. now rewrite ext_len. Qed.
Lemma Hjunk' : length junk = length so. Proof. now rewrite ext_len. Qed.
Lemma ext_ok : shape_ok so ext = true.
Proof. apply (shape_ok_spec so junk Hrank' Hjunk'). split; [now rewrite ext_len|apply ext_nonneg]. Qed.
Lemma lay_offset idx : in_range idx ext -> offset lay idx = place_of so ext idx.
Proof.
  intros Hi. unfold offset, place_of. f_equal.
  pose proof (fresh_wf so ext pr junk ext Hso Hjunk eq_refl ext_nonneg Hrank) as W.
  pose proof (fresh_flags so ext pr junk ext Hso Hjunk eq_refl ext_nonneg Hrank) as F.
  rewrite call_impl_longs.
  - apply (fresh_contiguous_true so ext pr junk ext); auto.
  - destruct W as (W & _). rewrite W. now rewrite (in_range_length _ _ Hi).
  - intros Hs. now apply F.
Qed.
Lemma lay_nelem : nelem lay = cap.
Proof. unfold nelem. now rewrite size_prodZ. Qed.
Lemma lay_default : idx_map_default so ext pr junk = lay.
Proof.
  unfold idx_map_default, n_dynamic_extents. replace (filter (fun e => e =? 0) ext) with (@nil Z); [reflexivity|].
  clear -Hpos. induction Hpos as [|x l Hx H IH]; [reflexivity|]. cbn [filter]. destruct (Z.eqb_spec x 0); [lia|exact (IH H)].
Qed.
Lemma static_ok : static_extents_ok ext ext = true.
Proof. unfold static_extents_ok. apply forallb_forall. intros u _. rewrite Z.eqb_refl. apply orb_true_r. Qed.
Lemma with_layout_ext {T} (f : idx_map -> kres T) : with_layout checks so ext pr junk ext f = f lay.
Proof.
  unfold with_layout. rewrite static_ok. replace (forallb (fun l => 0 <=? l) ext) with true; [now destruct checks|].
  symmetry. apply forallb_forall. intros x Hx. pose proof ext_nonneg as N. rewrite Forall_forall in N. specialize (N x Hx). lia.
Qed.

(** ** relation *)
Record KRel (w : kworld A) (s : list (option (list (option A)))) : Prop := {
  kr_len : length (kw_v w) = length s;
  kr_none : forall v, nth_error s v = Some None -> nth_error (kw_v w) v = Some None;
  kr_some : forall v l, nth_error s v = Some (Some l) ->
    exists b, nth_error (kw_v w) v = Some (Some (b, lay)) /\ nth_error (kw_heap w) b = Some (Block true l) /\ length l = cap /\ good t l;
  kr_uniq : forall u v b m m', nth_error (kw_v w) u = Some (Some (b, m)) -> nth_error (kw_v w) v = Some (Some (b, m')) -> u = v;
  kr_live : forall b cs, nth_error (kw_heap w) b = Some (Block true cs) -> exists v m, nth_error (kw_v w) v = Some (Some (b, m))
}.
Lemma kr_back w s v b m : KRel w s -> nth_error (kw_v w) v = Some (Some (b, m)) ->
  exists l, nth_error s v = Some (Some l) /\ m = lay /\ nth_error (kw_heap w) b = Some (Block true l) /\ length l = cap /\ good t l.
Proof.
  intros R E. destruct (nth_error s v) as [[l|]|] eqn:Es.
  - destruct (kr_some _ _ R v l Es) as (b' & E1 & E2 & E3 & E4). rewrite E in E1. injection E1 as E1 E1'. subst b' m. eauto 6.
  - rewrite (kr_none _ _ R v Es) in E. discriminate.
  - apply nth_error_None in Es. rewrite <- (kr_len _ _ R) in Es. apply nth_error_None in Es. congruence.
Qed.
Lemma kr_block w s v b m : KRel w s -> nth_error (kw_v w) v = Some (Some (b, m)) -> (b < length (kw_heap w))%nat.
Proof. intros R E. destruct (kr_back _ _ _ _ _ R E) as (l & _ & _ & H & _). eapply nth_error_lt; eauto. Qed.
Lemma k_var_some w s v l : KRel w s -> kval s v = Some l ->
  exists b, k_var w v = Some (b, lay) /\ nth_error s v = Some (Some l) /\ nth_error (kw_v w) v = Some (Some (b, lay))
    /\ nth_error (kw_heap w) b = Some (Block true l) /\ length l = cap /\ good t l.
Proof.
  unfold kval. destruct (nth_error s v) as [x|] eqn:Es; [|discriminate]. intros R ->. destruct (kr_some _ _ R v l Es) as (b & E1 & E2 & E3 & E4).
  exists b. unfold k_var. rewrite E1. auto 7.
Qed.
Lemma kfresh_inv (s : list (option (list (option A)))) v : kfresh s v = true -> nth_error s v = Some None.
Proof. unfold kfresh. destruct (nth_error s v) as [[?|]|]; congruence. Qed.

(** a new variable with a new buffer; further temporary buffers are dead *)
Lemma kr_new w s v h l : KRel w s -> nth_error s v = Some None -> length l = cap -> good t l ->
  nth_error h (length (kw_heap w)) = Some (Block true l) ->
  (forall b, (b < length (kw_heap w))%nat -> nth_error h b = nth_error (kw_heap w) b) ->
  (forall b cs, (length (kw_heap w) < b)%nat -> nth_error h b <> Some (Block true cs)) ->
  KRel (k_put w v (Some (length (kw_heap w), lay)) h) (upd s v (Some l)).
Proof.
  intros R Ev Ll Gl Eb Old New. pose proof (nth_error_lt _ _ _ Ev) as Lv. pose proof (kr_len _ _ R) as Ln.
  set (n := length (kw_heap w)) in *.
  constructor; cbn [k_put kw_v kw_heap].
  - now rewrite !upd_length.
  - intros u Eu. apply nth_error_upd in Eu. destruct Eu as [[_ Q]|[N Eu]]; [discriminate|]. rewrite nth_error_upd_neq by auto. now apply (kr_none _ _ R).
  - intros u l' Eu. apply nth_error_upd in Eu. destruct Eu as [[<- Q]|[N Eu]].
    + injection Q as ->. exists n. rewrite nth_error_upd_eq by lia. auto.
    + destruct (kr_some _ _ R u l' Eu) as (b & E1 & E2 & E3). exists b. rewrite nth_error_upd_neq by auto. split; [exact E1|]. split; [|exact E3].
      rewrite Old; auto. eapply nth_error_lt; eauto.
  - intros u1 u2 b m m' E1 E2. apply nth_error_upd in E1, E2.
    destruct E1 as [[<- Q1]|[N1 E1]], E2 as [[<- Q2]|[N2 E2]]; auto.
    + injection Q1 as -> ->. pose proof (kr_block _ _ _ _ _ R E2) as Q. fold n in Q. lia.
    + injection Q2 as -> ->. pose proof (kr_block _ _ _ _ _ R E1) as Q. fold n in Q. lia.
    + eapply (kr_uniq _ _ R); eauto.
  - intros b cs Eb'. destruct (Nat.lt_trichotomy b n) as [Q|[->|Q]].
    + rewrite Old in Eb' by auto. destruct (kr_live _ _ R b cs Eb') as (u & m & Eu). exists u, m. rewrite nth_error_upd_neq; auto. intros <-.
      rewrite (kr_none _ _ R v Ev) in Eu. discriminate.
    + exists v, lay. rewrite nth_error_upd_eq; auto. lia.
    + exfalso. eapply New; eauto.
Qed.
(** new contents of the buffer of one variable *)
Lemma kr_set w s v b l0 l : KRel w s -> nth_error s v = Some (Some l0) -> nth_error (kw_v w) v = Some (Some (b, lay)) -> length l = cap -> good t l ->
  KRel (KWorld (upd (kw_heap w) b (Block true l)) (kw_v w)) (upd s v (Some l)).
Proof.
  intros R Es Ev Ll Gl. pose proof (nth_error_lt _ _ _ Es) as Lv. pose proof (kr_block _ _ _ _ _ R Ev) as Lb.
  constructor; cbn [kw_v kw_heap].
  - rewrite upd_length. apply (kr_len _ _ R).
  - intros u Eu. apply nth_error_upd in Eu. destruct Eu as [[_ Q]|[N Eu]]; [discriminate|]. now apply (kr_none _ _ R).
  - intros u l' Eu. apply nth_error_upd in Eu. destruct Eu as [[<- Q]|[N Eu]].
    + injection Q as ->. exists b. rewrite nth_error_upd_eq by auto. auto.
    + destruct (kr_some _ _ R u l' Eu) as (b' & E1 & E2 & E3). exists b'. split; [exact E1|]. split; [|exact E3].
      rewrite nth_error_upd_neq; auto. intros <-. apply N. eapply (kr_uniq _ _ R); eauto.
  - apply (kr_uniq _ _ R).
  - intros b' cs Eb. apply nth_error_upd in Eb. destruct Eb as [[<- Q]|[N Eb]]; [eauto|eapply (kr_live _ _ R); eauto].
Qed.
Lemma kr_same w v b m : nth_error (kw_v w) v = Some (Some (b, m)) -> forall h : heap A, k_put w v (Some (b, m)) h = KWorld h (kw_v w).
Proof. intros E h. unfold k_put. now rewrite upd_same. Qed.
Lemma kr_eta (w : kworld A) : KWorld (kw_heap w) (kw_v w) = w. Proof. now destruct w. Qed.
Lemma kr_drop w s v b l : KRel w s -> nth_error s v = Some (Some l) -> nth_error (kw_v w) v = Some (Some (b, lay)) ->
  KRel (k_put w v None (upd (kw_heap w) b (Block false []))) (upd s v None).
Proof.
  intros R Es Ev. pose proof (nth_error_lt _ _ _ Es) as Lv. pose proof (kr_block _ _ _ _ _ R Ev) as Lb. pose proof (kr_len _ _ R) as Ln.
  constructor; cbn [k_put kw_v kw_heap].
  - now rewrite !upd_length.
  - intros u Eu. apply nth_error_upd in Eu. destruct Eu as [[<- _]|[N Eu]]; [rewrite nth_error_upd_eq; auto; lia|].
    rewrite nth_error_upd_neq by auto. now apply (kr_none _ _ R).
  - intros u l' Eu. apply nth_error_upd in Eu. destruct Eu as [[_ Q]|[N Eu]]; [discriminate|].
    destruct (kr_some _ _ R u l' Eu) as (b' & E1 & E2 & E3). exists b'. rewrite nth_error_upd_neq by auto. split; [exact E1|]. split; [|exact E3].
    rewrite nth_error_upd_neq; auto. intros <-. apply N. eapply (kr_uniq _ _ R); eauto.
  - intros u1 u2 b' m m' E1 E2. apply nth_error_upd in E1, E2.
    destruct E1 as [[<- Q1]|[N1 E1]]; [discriminate|]. destruct E2 as [[<- Q2]|[N2 E2]]; [discriminate|]. eapply (kr_uniq _ _ R); eauto.
  - intros b' cs Eb. apply nth_error_upd in Eb. destruct Eb as [[<- Q]|[N Eb]]; [discriminate|].
    destruct (kr_live _ _ R b' cs Eb) as (u & m & Eu). exists u, m. rewrite nth_error_upd_neq; auto. intros <-. rewrite Ev in Eu. congruence.
Qed.

(** ** loops *)
Lemma k_write_ok (h : heap A) b cs i a : nth_error h b = Some (Block true cs) -> (i < length cs)%nat -> good t cs ->
  k_write t b i a h = Some (upd h b (Block true (upd cs i (Some a)))).
Proof.
  intros Eb Li G. unfold k_write. rewrite (read_live _ _ _ _ Eb). destruct (nth_error cs i) as [c|] eqn:Ec; [|apply nth_error_None in Ec; lia].
  destruct c as [x|]; [now apply write_live|]. destruct (t_tcopy t) eqn:T; [now apply write_live|].
  destruct (good_nth t _ _ _ G Ec T). discriminate.
Qed.
Lemma k_fill_ok (h : heap A) b cs a : nth_error h b = Some (Block true cs) -> length cs = cap -> good t cs ->
  for_upto cap (fun i h => k_write t b i a h) h = Some (upd h b (Block true (repeat (Some a) cap))).
Proof.
  intros Eb Lc G. rewrite (fill_prefix _ b cap (repeat (Some a) cap) h cs Eb); try lia; rewrite ?repeat_length; auto.
  - rewrite skipn_all2, app_nil_r by lia. reflexivity.
  - intros i h' c Ec Ho Eh Hi. rewrite nth_error_repeat in Ec by auto. injection Ec as <-. apply k_write_ok; auto.
    + rewrite mid_length; rewrite ?repeat_length; lia.
    + intros T. specialize (G T). unfold some_all in *. apply Forall_app. split.
      * apply Forall_forall. intros x Hx. rewrite <- (firstn_skipn i (repeat (Some a) cap)) in *.
        assert (Hx' : In x (repeat (Some a) cap)) by (rewrite <- (firstn_skipn i (repeat (Some a) cap)); apply in_or_app; left; exact Hx || (rewrite firstn_skipn in Hx; exact Hx)).
        apply repeat_spec in Hx'. congruence.
      * rewrite <- (firstn_skipn i cs) in G. apply Forall_app in G. tauto.
Qed.
Lemma write_fold (pos : list Z -> nat) (f : list Z -> A) b L : forall h cs, nth_error h b = Some (Block true cs) -> good t cs ->
  (forall idx, In idx L -> (pos idx < length cs)%nat) ->
  fold_left (fun o idx => match o with Some h => k_write t b (pos idx) (f idx) h | None => None end) L (Some h)
  = Some (upd h b (Block true (scatter pos f L cs))) /\ good t (scatter pos f L cs).
Proof.
  induction L as [|idx L IH]; intros h cs Eb G Hin; cbn [fold_left].
  - cbn [scatter fold_left]. split; [now rewrite upd_same|exact G].
  - rewrite (k_write_ok h b cs) by (auto; apply Hin; now left). pose proof (nth_error_lt _ _ _ Eb) as Lb.
    destruct (IH (upd h b (Block true (upd cs (pos idx) (Some (f idx))))) (upd cs (pos idx) (Some (f idx)))) as [E1 E2].
    + now apply nth_error_upd_eq.
    + now apply good_upd.
    + intros i Hi. rewrite upd_length. apply Hin. now right.
    + rewrite E1, upd_upd. auto.
Qed.
Lemma construct_fold (pos : list Z -> nat) (f : list Z -> A) b L : forall h cs, nth_error h b = Some (Block true cs) -> NoDup (map pos L) ->
  (forall idx, In idx L -> (pos idx < length cs)%nat /\ (t_tcopy t = false -> nth_error cs (pos idx) = Some None)) ->
  fold_left (fun o idx => match o with Some h => construct t b (pos idx) (f idx) h | None => None end) L (Some h)
  = Some (upd h b (Block true (scatter pos f L cs))).
Proof.
  induction L as [|idx L IH]; intros h cs Eb N Hin; cbn [fold_left].
  - cbn [scatter fold_left]. now rewrite upd_same.
  - destruct (Hin idx) as [H1 H2]; [now left|]. destruct (nth_error cs (pos idx)) as [c|] eqn:Ec; [|apply nth_error_None in Ec; lia].
    cbn [map] in N. inversion N as [|? ? Nx N']; subst.
    rewrite (construct_live t h b cs (pos idx) (f idx) c Eb Ec) by (intros T; specialize (H2 T); congruence). pose proof (nth_error_lt _ _ _ Eb) as Lb.
    rewrite (IH _ (upd cs (pos idx) (Some (f idx)))); auto.
    + now rewrite upd_upd.
    + now apply nth_error_upd_eq.
    + intros i Hi. destruct (Hin i) as [Q1 Q2]; [now right|]. rewrite upd_length. split; auto. intros T.
      rewrite nth_error_upd_neq; auto. intros E. apply Nx. rewrite E. now apply in_map.
Qed.
Lemma fold_ext {S} (f g : S -> list Z -> S) L : (forall s x, In x L -> f s x = g s x) -> forall s, fold_left f L s = fold_left g L s.
Proof. induction L as [|x L IH]; intros H s; cbn [fold_left]; auto. rewrite (H s x) by now left. apply IH. intros; apply H; now right. Qed.
Lemma good_tabulate f : good t (tabulate (A := A) so ext f).
Proof. intros _. unfold tabulate, some_all. apply Forall_forall. intros c Hc. apply in_map_iff in Hc. destruct Hc as (k & <- & _). discriminate. Qed.
Lemma assign_all (h : heap A) b cs f : nth_error h b = Some (Block true cs) -> length cs = cap -> good t cs ->
  for_each ext (fun idx o => do h <- o; k_write t b (offset lay idx) (f idx) h) (Some h) = Some (upd h b (Block true (tabulate so ext f))).
Proof.
  intros Eb Lc G. rewrite for_each_fold.
  rewrite (fold_ext _ (fun o idx => match o with Some h => k_write t b (place_of so ext idx) (f idx) h | None => None end)).
  - destruct (write_fold (place_of so ext) f b (all_idx ext) h cs Eb G) as [E _].
    + intros idx Hi. rewrite Lc. apply (place_bound so junk Hso' Hrank' Hjunk' ext idx ext_ok). now apply all_idx_In.
    + rewrite E. rewrite (scatter_all so pr junk Hso' Hrank' Hjunk' ext f cs ext_ok Lc). reflexivity.
  - intros s x Hx. rewrite lay_offset by now apply all_idx_In. reflexivity.
Qed.
Lemma construct_all (h : heap A) b cs f : nth_error h b = Some (Block true cs) -> cs = repeat None cap ->
  for_each ext (fun idx o => do h <- o; construct t b (offset lay idx) (f idx) h) (Some h) = Some (upd h b (Block true (tabulate so ext f))).
Proof.
  intros Eb Ec. assert (Lc : length cs = cap) by (rewrite Ec; apply repeat_length). rewrite for_each_fold.
  assert (B : forall idx, In idx (all_idx ext) -> (place_of so ext idx < cap)%nat).
  { intros idx Hi. apply (place_bound so junk Hso' Hrank' Hjunk' ext idx ext_ok). now apply all_idx_In. }
  rewrite (fold_ext _ (fun o idx => match o with Some h => construct t b (place_of so ext idx) (f idx) h | None => None end)).
  - rewrite (construct_fold (place_of so ext) f b (all_idx ext) h cs Eb).
    + rewrite (scatter_all so pr junk Hso' Hrank' Hjunk' ext f cs ext_ok Lc). reflexivity.
    + apply NoDup_map_on; [apply all_idx_NoDup|]. intros x y Hx Hy. apply (place_inj so junk Hso' Hrank' Hjunk' ext); auto using ext_ok; now apply all_idx_In.
    + intros idx Hi. specialize (B idx Hi). split; [lia|]. intros _. rewrite Ec. now rewrite nth_error_repeat.
  - intros s x Hx. rewrite lay_offset by now apply all_idx_In. reflexivity.
Qed.

(** ** storage *)
Lemma k_new_eq (h : heap A) : k_new t dflt cap h = Some (h ++ [Block true (default_elements t dflt ext)], length h)
  /\ length (default_elements t dflt ext) = cap /\ good t (default_elements t dflt ext).
Proof.
  destruct (k_new_ok t dflt cap Hok h) as (l & E & L & G & D). unfold default_elements.
  destruct (t_trivial t || t_complex t) eqn:T.
  - assert (E2 : k_new t dflt cap h = Some (h ++ [Block true (repeat None cap)], length h)).
    { unfold k_new, allocate. replace (negb (t_trivial t) && negb (t_complex t)) with false; [reflexivity|]. destruct (t_trivial t), (t_complex t); auto; discriminate. }
    split; [exact E2|]. rewrite repeat_length. split; auto. intros Q. destruct Hok as [H1 H2]. apply orb_true_iff in T. destruct T as [T|T]; [specialize (H1 T)|specialize (H2 T)]; congruence.
  - rewrite (D eq_refl) in *. auto.
Qed.
Lemma raw_repeat n : raw t (repeat (@None A) n). Proof. apply raw_none. Qed.
Lemma k_renew_new (h : heap A) : k_renew t dflt cap (h ++ [Block true (repeat None cap)]) (length h)
  = Some (h ++ [Block true (default_elements t dflt ext); Block false []]).
Proof.
  set (d := default_elements t dflt ext). unfold k_renew. destruct (k_new_eq (h ++ [Block true (repeat None cap)])) as (E & L & G). rewrite E. fold d in E, L, G |- *.
  rewrite app_length. cbn [length]. rewrite <- app_assoc. cbn [app].
  assert (E0 : forall x y z : block A, nth_error (h ++ [x; y]) (length h) = Some x).
  { intros. rewrite nth_error_app2, Nat.sub_diag by lia. reflexivity. }
  assert (E1 : forall x y : block A, nth_error (h ++ [x; y]) (length h + 1) = Some y).
  { intros. rewrite nth_error_app2 by lia. replace (length h + 1 - length h)%nat with 1%nat by lia. reflexivity. }
  assert (U0 : forall x y z : block A, upd (h ++ [x; y]) (length h) z = h ++ [z; y]).
  { intros. clear. induction h as [|a h IH]; cbn [app length upd]; auto. now rewrite IH. }
  assert (U1 : forall x y z : block A, upd (h ++ [x; y]) (length h + 1) z = h ++ [x; z]).
  { intros. clear. induction h as [|a h IH]; cbn [app length upd Nat.add]; auto. now rewrite IH. }
  rewrite (k_assign_other t cap _ (length h) (length h + 1) (repeat None cap) d); auto; try lia; try apply raw_repeat.
  - rewrite U0. rewrite (k_end_ok t cap Hok _ _ d); auto. now rewrite U1.
  - now apply E0.
  - apply repeat_length.
Qed.

(** ** one statement *)
Lemma is_ext_inv sh : is_ext ext sh = true -> sh = ext.
Proof. unfold is_ext. destruct (list_eq_dec Z.eq_dec sh ext); congruence. Qed.
Lemma nth_error_app_old {T} (h x : list T) b : (b < length h)%nat -> nth_error (h ++ x) b = nth_error h b.
Proof. intros. now apply nth_error_app1. Qed.
Lemma new_one w s v l : KRel w s -> nth_error s v = Some None -> length l = cap -> good t l ->
  KRel (k_put w v (Some (length (kw_heap w), lay)) (kw_heap w ++ [Block true l])) (upd s v (Some l)).
Proof.
  intros R Ev Ll G. apply kr_new; auto.
  - apply nth_error_new.
  - intros. now apply nth_error_app1.
  - intros b cs Hb E. apply nth_error_lt in E. rewrite app_length in E. cbn [length] in E. lia.
Qed.
Lemma resize_ext w s v l : KRel w s -> kval s v = Some l -> k_resize t dflt checks so ext pr cap junk w v ext = KOk w.
Proof.
  intros R Ev. destruct (k_var_some _ _ _ _ R Ev) as (b & E & Es & Ew & Eh & Ll & G). unfold k_resize. rewrite E, with_layout_ext, lay_nelem, Nat.eqb_refl.
  cbn [negb]. now rewrite (kr_same _ _ _ _ Ew), kr_eta.
Qed.
Lemma k_step_sim w s o s' : KRel w s -> k_step t dflt zero so ext s o = Some s' ->
  exists w', k_exec t dflt zero checks so ext pr cap junk w o = KOk w' /\ KRel w' s'.
Proof.
  intros R E.
  assert (COPY : forall v x, (if kfresh s v then match kval s x with Some l => Some (upd s v (Some l)) | None => None end else None) = Some s' ->
    exists w', k_copy t cap w v x = KOk w' /\ KRel w' s').
  { intros v x Q. destruct (kfresh s v) eqn:F; [|discriminate]. apply kfresh_inv in F. destruct (kval s x) as [l|] eqn:Ex; [|discriminate]. injection Q as <-.
    destruct (k_var_some _ _ _ _ R Ex) as (b & Ev & Es & Ew & Eh & Ll & G). unfold k_copy. rewrite Ev. unfold allocate.
    pose proof (nth_error_lt _ _ _ Eh) as Lb.
    rewrite (k_assign_other t cap _ (length (kw_heap w)) b (repeat None cap) l); auto using repeat_length, raw_repeat; try lia.
    - cbn [k_done]. eexists. split; [reflexivity|]. rewrite upd_app_r. now apply new_one.
    - apply nth_error_new.
    - now rewrite nth_error_app1.
    }
  assert (SET : forall v x, match kval s v, kval s x with Some _, Some l => if t_tcopy t then Some (upd s v (Some l)) else None | _, _ => None end = Some s' ->
    exists w', k_set t cap w v x = KOk w' /\ KRel w' s').
  { intros v x Q. destruct (kval s v) as [l0|] eqn:Ev; [|discriminate]. destruct (kval s x) as [l|] eqn:Ex; [|discriminate].
    destruct (t_tcopy t) eqn:T; [|discriminate]. injection Q as <-.
    destruct (k_var_some _ _ _ _ R Ev) as (b & Kv & Es & Ew & Eh & Ll & G). destruct (k_var_some _ _ _ _ R Ex) as (bx & Kx & Esx & Ewx & Ehx & Llx & Gx).
    unfold k_set. rewrite Kv, Kx. destruct (Nat.eq_dec b bx) as [<-|N].
    - unfold k_assign. rewrite (copy_self t b l0 cap) by (auto; lia). cbn [k_done]. eexists. split; [reflexivity|]. rewrite (kr_same _ _ _ _ Ew), kr_eta.
      rewrite upd_same; auto. rewrite Eh in Ehx. injection Ehx as <-. exact Es.
    - rewrite (k_assign_other t cap _ b bx l0 l); auto; [|intros Q; congruence]. cbn [k_done]. eexists. split; [reflexivity|]. rewrite (kr_same _ _ _ _ Ew).
      eapply kr_set; eauto. }
  destruct o as [v|v sh|v sh|v sh|v sh f|v x|v x|v x|v x|v sh f|v sh|v a|v idx a|v]; cbn [k_step] in E; cbn [k_exec];
    try (now apply COPY); try (now apply SET).
  - destruct (kfresh s v) eqn:F; cbn [andb] in E; [|discriminate]. apply kfresh_inv in F. destruct (t_tcopy t) eqn:T; [|discriminate]. injection E as <-.
    unfold allocate. rewrite lay_default. eexists. split; [reflexivity|]. apply new_one; auto; [apply repeat_length|intros Q; congruence].
  - destruct (kfresh s v) eqn:F; cbn [andb] in E; [|discriminate]. apply kfresh_inv in F. destruct (is_ext ext sh) eqn:X; [|discriminate]. injection E as <-.
    rewrite (is_ext_inv _ X), with_layout_ext. unfold allocate. rewrite k_renew_new. cbn [k_done]. eexists. split; [reflexivity|].
    destruct (k_new_eq []) as (_ & L & G). apply kr_new; auto.
    + rewrite nth_error_app2, Nat.sub_diag by lia. reflexivity.
    + intros. now apply nth_error_app1.
    + intros b cs Hb Q. rewrite nth_error_app2 in Q by lia. destruct (b - length (kw_heap w))%nat as [|[|k]] eqn:Eb; cbn [nth_error] in Q; try lia; try discriminate.
      destruct k; discriminate.
  - destruct (kfresh s v) eqn:F; cbn [andb] in E; [|discriminate]. apply kfresh_inv in F. destruct (is_ext ext sh) eqn:X; [|discriminate]. injection E as <-.
    rewrite (is_ext_inv _ X), with_layout_ext. destruct (k_new_eq (kw_heap w)) as (E & L & G). rewrite E. cbn [k_done]. eexists. split; [reflexivity|]. now apply new_one.
  - destruct (kfresh s v) eqn:F; cbn [andb] in E; [|discriminate]. apply kfresh_inv in F. destruct (is_ext ext sh) eqn:X; cbn [andb] in E; [|discriminate]. destruct (t_tcopy t) eqn:T; [|discriminate]. injection E as <-.
    rewrite (is_ext_inv _ X), with_layout_ext. unfold allocate.
    rewrite (k_fill_ok _ (length (kw_heap w)) (repeat None cap)); [|apply nth_error_new|apply repeat_length|intros Q; congruence].
    cbn [k_done]. eexists. split; [reflexivity|]. rewrite upd_app_r. apply new_one; auto; [apply repeat_length|apply good_some].
  - destruct (kfresh s v) eqn:F; cbn [andb] in E; [|discriminate]. apply kfresh_inv in F. destruct (is_ext ext sh) eqn:X; [|discriminate]. injection E as <-.
    rewrite (is_ext_inv _ X), with_layout_ext. unfold allocate.
    rewrite (construct_all _ (length (kw_heap w)) (repeat None cap)); [|apply nth_error_new|reflexivity].
    cbn [k_done]. eexists. split; [reflexivity|]. rewrite upd_app_r. apply new_one; auto; [apply tabulate_length|apply good_tabulate].
  - destruct (kval s v) as [l|] eqn:Ev; [|discriminate]. destruct (is_ext ext sh) eqn:X; [|discriminate]. injection E as <-.
    rewrite (is_ext_inv _ X), (resize_ext _ _ _ _ R Ev). destruct (k_var_some _ _ _ _ R Ev) as (b & Kv & Es & Ew & Eh & Ll & G).
    unfold k_loop. rewrite Kv. cbn [im_len idx_map_of_shape]. rewrite (assign_all _ b l f Eh Ll G). cbn [k_done]. eexists. split; [reflexivity|].
    eapply kr_set; eauto; [apply tabulate_length|apply good_tabulate].
  - destruct (kval s v) as [l|] eqn:Ev; [|discriminate]. destruct (is_ext ext sh) eqn:X; [|discriminate]. injection E as <-.
    rewrite (is_ext_inv _ X), (resize_ext _ _ _ _ R Ev). eauto.
  - destruct (kval s v) as [l|] eqn:Ev; [|discriminate]. injection E as <-. destruct (k_var_some _ _ _ _ R Ev) as (b & Kv & Es & Ew & Eh & Ll & G).
    rewrite Kv, lay_nelem, (k_fill_ok _ b l a Eh Ll G). cbn [k_done]. eexists. split; [reflexivity|]. eapply kr_set; eauto; [apply repeat_length|apply good_some].
  - destruct (kval s v) as [l|] eqn:Ev; [|discriminate]. destruct (in_bounds idx ext) eqn:B; [|discriminate]. injection E as <-.
    apply (in_bounds_spec so junk Hrank' Hjunk') in B. destruct (k_var_some _ _ _ _ R Ev) as (b & Kv & Es & Ew & Eh & Ll & G).
    rewrite Kv, (lay_offset idx B). rewrite (k_write_ok _ b l); auto.
    + cbn [k_done]. eexists. split; [reflexivity|]. eapply kr_set; eauto; [now rewrite upd_length|now apply good_upd].
    + rewrite Ll. apply (place_bound so junk Hso' Hrank' Hjunk' ext idx ext_ok B).
  - destruct (kval s v) as [l|] eqn:Ev; [|discriminate]. injection E as <-. destruct (k_var_some _ _ _ _ R Ev) as (b & Kv & Es & Ew & Eh & Ll & G).
    rewrite Kv, (k_end_ok t cap Hok _ _ l Eh Ll G). cbn [k_done]. eexists. split; [reflexivity|]. eapply kr_drop; eauto.
Qed.
Lemma k_run_sim p : forall w s s', KRel w s -> k_history t dflt zero so ext s p = Some s' ->
  exists w', k_run t dflt zero checks so ext pr cap junk w p = KOk w' /\ KRel w' s'.
Proof.
  induction p as [|o p IH]; intros w s s' R E; cbn [k_history] in E; cbn [k_run].
  - injection E as <-. eauto.
  - destruct (k_step t dflt zero so ext s o) as [s1|] eqn:E1; [|discriminate]. destruct (k_step_sim _ _ _ _ R E1) as (w1 & Ew & R1). rewrite Ew. eauto.
Qed.
Lemma k_start_rel n : KRel (k_start n) (repeat None n).
Proof.
  constructor; cbn [k_start kw_v kw_heap].
  - now rewrite !repeat_length.
  - intros v E. pose proof (nth_error_lt _ _ _ E) as L. rewrite repeat_length in L. now rewrite nth_error_repeat.
  - intros v l E. apply nth_error_In, repeat_spec in E. discriminate.
  - intros u v b m m' E. apply nth_error_In, repeat_spec in E. discriminate.
  - intros [|b] cs E; discriminate.
Qed.
Lemma krel_looks w s : KRel w s -> k_all_right so ext w s.
Proof.
  intros R v Hv. destruct (kval s v) as [l|] eqn:Ev.
  - destruct (k_var_some _ _ _ _ R Ev) as (b & _ & Es & Ew & Eh & Ll & G). exists b, lay. split; [exact Ew|]. split; [reflexivity|]. split.
    + rewrite Ll. unfold volume. apply Z2Nat.id. apply prodZ_nonneg, ext_nonneg.
    + intros idx Hi. pose proof (lay_offset idx Hi) as O. unfold offset in O. rewrite O, (read_live _ _ _ _ Eh).
      pose proof (place_bound so junk Hso' Hrank' Hjunk' ext idx ext_ok Hi) as B. destruct (nth_error l (place_of so ext idx)) as [c|] eqn:Ec; [eauto|].
      apply nth_error_None in Ec. lia.
  - apply (kr_none _ _ R). unfold kval in Ev. destruct (nth_error s v) as [x|] eqn:Es; [congruence|]. apply nth_error_None in Es. lia.
Qed.
Lemma krel_memory w s : KRel w s -> k_memory w.
Proof.
  intros R. split; [apply (kr_uniq _ _ R)|]. intros b. split.
  - intros (cs & E). eapply (kr_live _ _ R); eauto.
  - intros (v & m & E). destruct (kr_back _ _ _ _ _ R E) as (l & _ & _ & H & _). eauto.
Qed.
End Stack.
