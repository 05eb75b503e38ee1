(** Lemmas on array variables. *)
From Verif Require Import Base M_Perm L_Perm M_IdxMap S_Layout L_IdxMap M_Slice L_Slice L_Layout M_Loops S_Loops L_Loops M_Handle S_Handle L_Handle L_Own L_Run M_Array S_Array.

(** ** scattering values over all positions *)
Section Scatter.
Context {A : Type}.
Variable (pos : list Z -> nat) (f : list Z -> A).
Definition scatter (L : list (list Z)) (l : list (option A)) : list (option A) :=
  fold_left (fun l idx => upd l (pos idx) (Some (f idx))) L l.
Lemma scatter_length L l : length (scatter L l) = length l.
Proof. unfold scatter. revert l. induction L as [|x L IH]; intros l; cbn [fold_left]; auto. now rewrite IH, upd_length. Qed.
Lemma scatter_other L l k : ~ In k (map pos L) -> nth_error (scatter L l) k = nth_error l k.
Proof.
  unfold scatter. revert l. induction L as [|x L IH]; intros l H; cbn [fold_left]; auto. cbn [map In] in H.
  rewrite IH by tauto. apply nth_error_upd_neq. tauto.
Qed.
Lemma scatter_hit L l idx : NoDup (map pos L) -> In idx L -> (pos idx < length l)%nat ->
  nth_error (scatter L l) (pos idx) = Some (Some (f idx)).
Proof.
  unfold scatter. revert l. induction L as [|x L IH]; intros l N I H; cbn [fold_left]; [destruct I|].
  cbn [map] in N. inversion N as [|? ? Nx N']; subst. destruct I as [->|I].
  - fold (scatter L (upd l (pos idx) (Some (f idx)))). rewrite scatter_other by auto. now apply nth_error_upd_eq.
  - apply IH; auto. now rewrite upd_length.
Qed.
End Scatter.

Lemma scatter_ext {A} pos pos' (f : list Z -> A) L : (forall x, In x L -> pos x = pos' x) -> forall l, scatter pos f L l = scatter pos' f L l.
Proof.
  unfold scatter. induction L as [|x L IH]; intros K l; cbn [fold_left]; auto.
  rewrite K by now left. apply IH. intros; apply K; now right.
Qed.
Lemma nth_error_ext_len {T} (n : nat) (l l' : list T) : length l = n -> length l' = n ->
  (forall k, (k < n)%nat -> nth_error l k = nth_error l' k) -> l = l'.
Proof.
  revert l l'. induction n as [|n IH]; intros [|x l] [|y l'] H1 H2 E; try discriminate; auto.
  pose proof (E 0%nat ltac:(lia)) as E0. cbn in E0. injection E0 as ->. f_equal. apply IH; try (simpl in *; lia).
  intros k Hk. exact (E (S k) ltac:(lia)).
Qed.
Lemma NoDup_map_on {T U} (g : T -> U) (L : list T) : NoDup L -> (forall x y, In x L -> In y L -> g x = g y -> x = y) -> NoDup (map g L).
Proof.
  induction 1 as [|x L Hx N IH]; intros Inj; cbn [map]; constructor.
  - intros Hin. apply in_map_iff in Hin. destruct Hin as (y & E & Hy). apply Hx. rewrite (Inj x y); auto; [now left|now right].
  - apply IH. intros; apply Inj; auto; now right.
Qed.

Section Arr.
Context {A : Type}.
Variable (t : traits) (dflt zero : A) (so : list nat) (pr : layout_prop) (junk : list Z).
Hypothesis Hok : traits_ok t.
Hypothesis Hso : is_order (length so) so.
Hypothesis Hrank : (0 < length so < 16)%nat.
Hypothesis Hjunk : length junk = length so.
Notation lay := (layout so pr junk).
Notation dl := (layout_default so pr junk).

Lemma shape_ok_spec sh : shape_ok so sh = true <-> length sh = length so /\ Forall (fun l => 0 <= l) sh.
Proof.
  unfold shape_ok. rewrite andb_true_iff, Nat.eqb_eq, forallb_forall, Forall_forall. split; intros [H1 H2]; split; auto; intros x Hx; specialize (H2 x Hx); lia.
Qed.
Lemma in_bounds_spec idx sh : in_bounds idx sh = true <-> in_range idx sh.
Proof.
  unfold in_bounds, in_range. rewrite andb_true_iff, Nat.eqb_eq. revert sh. induction idx as [|i idx IH]; intros [|l sh]; cbn [length combine forallb].
  - split; auto.
  - split; [intros [H _]; discriminate|intros H; inversion H].
  - split; [intros [H _]; discriminate|intros H; inversion H].
  - rewrite andb_true_iff. cbn [fst snd]. split.
    + intros (H1 & H2 & H3). constructor; [unfold inr; lia|]. apply IH. split; auto.
    + intros H. inversion H as [|? ? ? ? Hi Hr]; subst. apply IH in Hr. destruct Hr as [Hr1 Hr2]. unfold inr in Hi. repeat split; auto; lia.
Qed.
Lemma layout_wf sh : shape_ok so sh = true -> wf (lay sh).
Proof.
  intros H. apply shape_ok_spec in H. destruct H as [L H]. apply fresh_wf; rewrite ?repeat_length, ?L; auto.
Qed.
Lemma layout_len sh : im_len (lay sh) = sh. Proof. reflexivity. Qed.
Lemma layout_size sh : size (lay sh) = prodZ sh. Proof. now rewrite size_prodZ. Qed.
Lemma layout_nelem sh : nelem (lay sh) = volume sh. Proof. unfold nelem. now rewrite layout_size. Qed.
Lemma offset_place sh idx : shape_ok so sh = true -> in_range idx sh -> offset (lay sh) idx = place_of so sh idx.
Proof.
  intros H Hi. pose proof (layout_wf _ H) as W. apply shape_ok_spec in H. destruct H as [L H]. unfold offset, place_of. f_equal.
  assert (F : flags_true (lay sh)) by (apply fresh_flags; rewrite ?repeat_length, ?L; auto).
  rewrite call_impl_longs.
  - apply (fresh_contiguous_true so (repeat 0 (length so)) pr junk sh); rewrite ?L; auto.
  - destruct W as (W & _). rewrite W. now rewrite (in_range_length _ _ Hi).
  - intros Hs. now apply F.
Qed.
Lemma place_bound sh idx : shape_ok so sh = true -> in_range idx sh -> (place_of so sh idx < volume sh)%nat.
Proof.
  intros H Hi. apply shape_ok_spec in H. destruct H as [L H]. unfold place_of, volume, seq_number. rewrite !in_order_apply.
  pose proof (apply_Permutation 0 (length so) so sh Hso L) as P. rewrite <- (prodZ_perm _ _ P).
  assert (B : 0 <= radix (apply 0 so sh) (apply 0 so idx) < prodZ (apply 0 so sh)) by (apply radix_bound, (in_range_apply (length sh)); auto; now rewrite L). lia.
Qed.
Lemma index_at_place sh idx : shape_ok so sh = true -> in_range idx sh -> index_at so sh (seq_number so sh idx) = idx.
Proof.
  intros H Hi. apply shape_ok_spec in H. destruct H as [L H]. unfold index_at, seq_number. rewrite !in_order_apply.
  rewrite digits_radix by (apply (in_range_apply (length sh)); auto; now rewrite L).
  apply (apply_inverse_apply 0 (length so)); auto. rewrite (in_range_length _ _ Hi). auto.
Qed.
Lemma place_inj sh idx idx' : shape_ok so sh = true -> in_range idx sh -> in_range idx' sh -> place_of so sh idx = place_of so sh idx' -> idx = idx'.
Proof.
  intros H Hi Hi' E. rewrite <- (index_at_place sh idx), <- (index_at_place sh idx') by auto. f_equal.
  assert (B : forall i, in_range i sh -> 0 <= seq_number so sh i).
  { intros i Hr. unfold seq_number. rewrite !in_order_apply. apply radix_bound. apply shape_ok_spec in H. destruct H as [L H].
    apply (in_range_apply (length sh)); auto. now rewrite L. }
  unfold place_of in E. specialize (B idx Hi) as B1. specialize (B idx' Hi') as B2. lia.
Qed.
Lemma index_at_spec sh k : shape_ok so sh = true -> 0 <= k < prodZ sh -> in_range (index_at so sh k) sh /\ seq_number so sh (index_at so sh k) = k.
Proof.
  intros H Hk. destruct (order_list_spec (lay sh) (layout_wf _ H)) as [HL HN].
  specialize (HN (Z.to_nat k)). unfold order_list in HN, HL. rewrite map_length, zseq_length in HN, HL. unfold layout, idx_map_of_shape in HN, HL. cbn [im_so im_len] in HN, HL.
  rewrite (nth_map_lt _ _ _ [] 0) in HN by (rewrite zseq_length; lia). rewrite nth_zseq in HN by lia. rewrite Z2Nat.id in HN by lia.
  destruct HN as [HN1 HN2]; [lia|]. unfold index_at. split; [exact HN1|exact HN2].
Qed.
Lemma tabulate_length sh f : length (tabulate (A := A) so sh f) = volume sh.
Proof. unfold tabulate. now rewrite map_length, zseq_length. Qed.
Lemma tabulate_nth sh f idx : shape_ok so sh = true -> in_range idx sh -> nth_error (tabulate (A := A) so sh f) (place_of so sh idx) = Some (Some (f idx)).
Proof.
  intros H Hi. pose proof (place_bound _ _ H Hi) as B. unfold tabulate. rewrite nth_error_map.
  rewrite (nth_error_nth' _ 0) by (rewrite zseq_length; exact B). cbn [option_map]. rewrite nth_zseq by exact B. do 3 f_equal.
  unfold place_of in *. rewrite <- (index_at_place sh idx) at 2 by auto. f_equal.
  assert (0 <= seq_number so sh idx); [|lia]. unfold seq_number. rewrite !in_order_apply. apply radix_bound. apply shape_ok_spec in H. destruct H as [L H].
  apply (in_range_apply (length sh)); auto. now rewrite L.
Qed.
Lemma scatter_all sh f (l : list (option A)) : shape_ok so sh = true -> length l = volume sh ->
  scatter (place_of so sh) f (all_idx sh) l = tabulate so sh f.
Proof.
  intros H L. pose proof H as H0. apply shape_ok_spec in H0. destruct H0 as [Ls Hs].
  apply nth_error_ext_len with (n := volume sh).
  - now rewrite scatter_length.
  - apply tabulate_length.
  - intros k Hk. unfold volume in Hk.
    destruct (index_at_spec sh (Z.of_nat k) H) as [I1 I2]; [lia|].
    assert (E : place_of so sh (index_at so sh (Z.of_nat k)) = k) by (unfold place_of; rewrite I2; lia).
    rewrite <- E. rewrite tabulate_nth by auto. apply scatter_hit.
    + apply NoDup_map_on; [apply all_idx_NoDup|]. intros x y Hx Hy. apply place_inj; auto; now apply all_idx_In.
    + now apply all_idx_In.
    + rewrite L, E. unfold volume. exact Hk.
Qed.

(** ** states *)
Lemma at_upd l v p u : (v < length l)%nat -> at_ (upd l v p) u = if Nat.eqb v u then p else at_ l u.
Proof. intros H. unfold at_. now apply nth_upd. Qed.
Lemma aval_upd (s : list (option (aval A))) v x u : (v < length s)%nat -> aval_of (upd s v x) u = if Nat.eqb v u then x else aval_of s u.
Proof.
  intros H. unfold aval_of. destruct (Nat.eqb_spec v u) as [->|Hn].
  - now rewrite nth_error_upd_eq.
  - now rewrite nth_error_upd_neq by auto.
Qed.
Lemma aval_lt (s : list (option (aval A))) v a : aval_of s v = Some a -> (v < length s)%nat.
Proof. unfold aval_of. destruct (nth_error s v) eqn:E; [|discriminate]. intros _. eapply nth_error_lt; eauto. Qed.
Lemma afresh_inv (s : list (option (aval A))) v : afresh s v = true -> (v < length s)%nat /\ aval_of s v = None.
Proof.
  unfold afresh, aval_of. destruct (nth_error s v) as [[x|]|] eqn:E; try discriminate. intros _. split; auto. eapply nth_error_lt; eauto.
Qed.

Definition lay_ok (m : idx_map) (sh : list Z) : Prop := shape_ok so sh = true /\ (m = lay sh \/ (prodZ sh = 0 /\ im_len m = sh)).
Definition vmatch (objs : list (list (option A))) (m : idx_map) (p : place) (x : option (aval A)) : Prop :=
  match x with
  | None => p = Dead
  | Some a => lay_ok m (av_shape a) /\ match av_cells a with
                                       | None => p = Null
                                       | Some l => contents objs p = Some l /\ length l = volume (av_shape a)
                                       end
  end.
Record ARelI (w : aworld A) (s : list (option (aval A))) (i : ideal A) : Prop := {
  ar_rel : RelW t (aw_w w) i;
  ar_uns : unshared (aw_w w);
  ar_lenh : length (i_h i) = S (length s);
  ar_tmp : at_ (i_h i) (length s) = Dead;
  ar_lens : i_s i = [];
  ar_lenl : length (aw_lay w) = length s;
  ar_var : forall v, (v < length s)%nat -> vmatch (i_objs i) (nth v (aw_lay w) dl) (at_ (i_h i) v) (aval_of s v)
}.
Definition ARel w s := exists i, ARelI w s i.

Lemma run_unshared p w w' : Forall (fun o => sharing o = false) p -> unshared w -> run t dflt zero w p = Some w' -> unshared w'.
Proof.
  revert w. induction p as [|o p IH]; intros w F U E; cbn [run] in E.
  - now injection E as <-.
  - inversion F; subst. destruct (exec t dflt zero w o) as [w1|] eqn:E1; [|discriminate]. apply (IH w1); auto. eapply exec_unshared; eauto.
Qed.
Lemma on_sto_sim w i ops i' : RelW t (aw_w w) i -> unshared (aw_w w) -> ideal_run t dflt zero i ops = Some i' ->
  Forall (fun o => sharing o = false) ops ->
  exists w', on_sto t dflt zero w ops = Some w' /\ aw_lay w' = aw_lay w /\ RelW t (aw_w w') i' /\ unshared (aw_w w').
Proof.
  intros R U E F. destruct (run_sim_unshared t dflt zero Hok ops _ _ _ R U E F) as (w1 & E1 & R1).
  unfold on_sto. rewrite E1. eexists. split; [reflexivity|]. split; [reflexivity|]. split; [exact R1|]. exact (run_unshared _ _ _ F U E1).
Qed.

Lemma at_nth_error l v p : at_ l v = p -> (v < length l)%nat -> nth_error l v = Some p.
Proof. intros <- H. now apply nth_error_nth'. Qed.
Lemma at_unused l v : at_ l v = Dead -> (v < length l)%nat -> unused l v = true.
Proof. intros E H. unfold unused. now rewrite (at_nth_error _ _ _ E H). Qed.
Lemma at_alive l v : at_ l v <> Dead -> alive l v = true.
Proof.
  intros E. unfold alive, at_ in *. destruct (nth_error l v) as [x|] eqn:Ev.
  - rewrite (nth_error_nth _ _ _ Ev) in E. destruct x; congruence.
  - apply nth_error_None in Ev. rewrite nth_overflow in E by lia. congruence.
Qed.
Lemma vmatch_alive objs m p a : vmatch objs m p (Some a) -> p <> Dead.
Proof. intros [_ H] ->. destruct (av_cells a); [destruct H as [H _]|]; discriminate. Qed.

Definition extends (objs objs' : list (list (option A))) := forall o l, nth_error objs o = Some l -> nth_error objs' o = Some l.
Lemma extends_refl objs : extends objs objs. Proof. red; auto. Qed.
Lemma extends_app objs x : extends objs (objs ++ x).
Proof. intros o l E. rewrite nth_error_app1; auto. eapply nth_error_lt; eauto. Qed.
Lemma vmatch_ext objs objs' m p x : extends objs objs' -> vmatch objs m p x -> vmatch objs' m p x.
Proof.
  intros Ex. destruct x as [a|]; auto. intros [H1 H2]. split; auto. destruct (av_cells a) as [l|]; auto. destruct H2 as [H2 H3]. split; auto.
  destruct p; cbn [contents] in *; auto.
Qed.
Lemma create_spec (l : list (option A)) objs : exists objs' p, create l objs = (objs', p) /\ extends objs objs' /\ contents objs' p = Some l /\ p <> Dead.
Proof.
  destruct l as [|x l]; cbn [create].
  - exists objs, Null. repeat split; try discriminate. apply extends_refl.
  - exists (objs ++ [x :: l]), (Ref (length objs)). split; auto. split; [apply extends_app|]. split; [|discriminate]. apply nth_error_new.
Qed.

(** one variable gets a new value, the others are untouched *)
Lemma arel_one w s i w' i' v m p x : ARelI w s i -> (v < length s)%nat -> RelW t (aw_w w') i' -> unshared (aw_w w') ->
  i_h i' = upd (i_h i) v p -> i_s i' = i_s i -> extends (i_objs i) (i_objs i') ->
  aw_lay w' = upd (aw_lay w) v m -> vmatch (i_objs i') m p x -> ARelI w' (upd s v x) i'.
Proof.
  intros I Hv R U Eh Es Ex El Hm. pose proof (ar_lenh _ _ _ I) as L1. pose proof (ar_lenl _ _ _ I) as L2.
  constructor; auto; rewrite ?upd_length.
  - now rewrite Eh, upd_length.
  - rewrite Eh, at_upd by lia. destruct (Nat.eqb_spec v (length s)); [lia|]. apply (ar_tmp _ _ _ I).
  - rewrite Es. apply (ar_lens _ _ _ I).
  - now rewrite El, upd_length.
  - intros u Hu. rewrite Eh, El, at_upd, aval_upd, nth_upd by lia. destruct (Nat.eqb_spec v u) as [->|Hn]; auto.
    eapply vmatch_ext; eauto. apply (ar_var _ _ _ I); auto.
Qed.
(** [v] takes the place of [x], [x] is left without storage *)
Lemma arel_move w s i w' i' v x a : ARelI w s i -> (v < length s)%nat -> aval_of s x = Some a -> RelW t (aw_w w') i' -> unshared (aw_w w') ->
  i_h i' = upd (upd (i_h i) v (at_ (i_h i) x)) x Null -> i_s i' = i_s i -> i_objs i' = i_objs i ->
  aw_lay w' = upd (aw_lay w) v (nth x (aw_lay w) dl) -> ARelI w' (upd (upd s v (Some a)) x (Some (moved a))) i'.
Proof.
  intros I Hv Hx R U Eh Es Eo El. pose proof (ar_lenh _ _ _ I) as L1. pose proof (ar_lenl _ _ _ I) as L2. pose proof (aval_lt _ _ _ Hx) as Lx.
  pose proof (ar_var _ _ _ I x Lx) as Mx. rewrite Hx in Mx.
  constructor; auto; rewrite ?upd_length.
  - now rewrite Eh, !upd_length.
  - rewrite Eh, !at_upd by (rewrite ?upd_length; lia). destruct (Nat.eqb_spec x (length s)); [lia|]. destruct (Nat.eqb_spec v (length s)); [lia|]. apply (ar_tmp _ _ _ I).
  - rewrite Es. apply (ar_lens _ _ _ I).
  - now rewrite El, upd_length.
  - intros u Hu. rewrite Eh, El, Eo, !at_upd, !aval_upd, nth_upd by (rewrite ?upd_length; lia).
    destruct (Nat.eqb_spec x u) as [<-|Hn].
    + replace (if Nat.eqb v x then nth x (aw_lay w) dl else nth x (aw_lay w) dl) with (nth x (aw_lay w) dl) by (destruct (Nat.eqb v x); auto).
      destruct Mx as [M1 M2]. split; [exact M1|]. cbn [moved av_cells av_shape]. destruct (av_cells a) as [[|y l]|]; auto. split; auto. apply M2.
    + destruct (Nat.eqb_spec v u) as [<-|Hn']; auto. apply (ar_var _ _ _ I); auto.
Qed.

(** distinct variables refer to distinct storages *)
Lemma countif_two {T} (g : T -> bool) (l : list T) u v x y : u <> v -> nth_error l u = Some x -> nth_error l v = Some y -> g x = true -> g y = true ->
  (2 <= countif g l)%nat.
Proof.
  assert (W : forall l u v x y, (u < v)%nat -> nth_error l u = Some x -> nth_error l v = Some y -> g x = true -> g y = true -> (2 <= countif g l)%nat).
  { clear. induction l as [|z l IH]; intros [|u] [|v] x y Hn Eu Ev Gx Gy; cbn [nth_error countif] in *; try discriminate; try lia.
    - injection Eu as ->. rewrite Gx. cbn [b2n]. pose proof (countif_pos g l v y Ev Gy). lia.
    - assert (2 <= countif g l)%nat by (eapply (IH u v); eauto; lia). lia. }
  intros Hn Eu Ev Gx Gy. destruct (Nat.lt_ge_cases u v); [eapply (W l u v)|eapply (W l v u)]; eauto. lia.
Qed.
Lemma place_uniq (w : world A) (i : ideal A) u v o : RelW t w i -> unshared w -> nth_error (i_h i) u = Some (Ref o) -> nth_error (i_h i) v = Some (Ref o) -> u = v.
Proof.
  intros R U Eu Ev. destruct (Nat.eq_dec u v) as [|Hn]; auto. exfalso.
  destruct (ref_h_live _ _ _ _ _ _ _ _ _ _ R Eu) as (l & sp & _ & _ & Hu & _).
  destruct (ref_h_live _ _ _ _ _ _ _ _ _ _ R Ev) as (l' & sp' & _ & _ & Hv & _).
  pose proof (unshared_get _ u _ U (getv_some _ _ _ Hu)) as S1. pose proof (unshared_get _ v _ U (getv_some _ _ _ Hv)) as S2.
  cbn [h_sptr] in S1, S2. subst sp sp'.
  assert (C : (2 <= countif (owns_h o) (w_h w))%nat) by (eapply (countif_two _ _ u v); eauto; cbn; apply Nat.eqb_refl).
  pose proof (r_own _ _ _ _ _ _ _ _ R o) as O. unfold live01 in O. destruct (nth_error _ o) as [[[] ?]|]; cbn in O; lia.
Qed.

(** writing an element *)
Lemma write_sim w s v sh l idx a : ARel w s -> aval_of s v = Some (AVal sh (Some l)) -> in_range idx sh ->
  exists w', on_sto t dflt zero w [WriteH v (offset (lay_of so pr junk w v) idx) a] = Some w'
    /\ aw_lay w' = aw_lay w /\ ARel w' (upd s v (Some (AVal sh (Some (upd l (place_of so sh idx) (Some a)))))).
Proof.
  intros (i & I) Hv Hi. pose proof (aval_lt _ _ _ Hv) as Lv. pose proof (ar_var _ _ _ I v Lv) as M. rewrite Hv in M.
  destruct M as [[Hs Hm] [M2 M3]]. cbn [av_shape av_cells] in *.
  pose proof (place_bound sh idx Hs Hi) as B.
  assert (Em : lay_of so pr junk w v = lay sh).
  { unfold lay_of. destruct Hm as [Hm|[Hm _]]; auto. unfold volume in B. rewrite Hm in B. simpl in B. lia. }
  rewrite Em, offset_place by auto. set (k := place_of so sh idx) in *.
  destruct (at_ (i_h i) v) as [| |o|] eqn:Ep; try discriminate; cbn [contents] in M2.
  { injection M2 as <-. cbn [length] in M3. lia. }
  destruct (on_sto_sim w i [WriteH v k a] (Ideal (upd (i_objs i) o (upd l k (Some a))) (i_h i) (i_s i)) (ar_rel _ _ _ I) (ar_uns _ _ _ I))
    as (w' & E & El & R' & U').
  - cbn [ideal_run ideal_step]. rewrite (at_alive _ v) by (rewrite Ep; discriminate). rewrite Ep. cbn [poke]. rewrite M2.
    destruct (Nat.ltb_spec k (length l)); [reflexivity|lia].
  - repeat constructor.
  - exists w'. split; [exact E|]. split; [exact El|]. eexists. constructor; eauto; rewrite ?upd_length; cbn [i_h i_s i_objs].
    + apply (ar_lenh _ _ _ I).
    + apply (ar_tmp _ _ _ I).
    + apply (ar_lens _ _ _ I).
    + rewrite El. apply (ar_lenl _ _ _ I).
    + intros u Hu. rewrite El, aval_upd by lia. destruct (Nat.eqb_spec v u) as [<-|Hn].
      * rewrite Ep. split; cbn [av_shape av_cells]; [split; auto|]. cbn [contents]. split; [|now rewrite upd_length].
        apply nth_error_upd_eq. eapply nth_error_lt; eauto.
      * pose proof (ar_var _ _ _ I u Hu) as Mu. destruct (aval_of s u) as [[sh' [l'|]]|]; cbn [vmatch av_shape av_cells] in *; auto.
        destruct Mu as (Mu1 & Mu2 & Mu3). split; auto. split; auto.
        destruct (at_ (i_h i) u) as [| |o'|] eqn:Eu; cbn [contents] in *; auto. rewrite nth_error_upd_neq; auto. intros <-.
        apply Hn. pose proof (ar_lenh _ _ _ I). eapply (place_uniq _ i _ _ o); eauto using (ar_rel _ _ _ I), (ar_uns _ _ _ I);
          apply at_nth_error; auto; lia.
Qed.

Lemma assign_fold L : forall w s v sh l f, ARel w s -> aval_of s v = Some (AVal sh (Some l)) -> (forall idx, In idx L -> in_range idx sh) ->
  exists w', fold_left (fun o idx => match o with Some w => on_sto t dflt zero w [WriteH v (offset (lay_of so pr junk w v) idx) (f idx)] | None => None end) L (Some w) = Some w'
    /\ ARel w' (upd s v (Some (AVal sh (Some (scatter (place_of so sh) f L l))))).
Proof.
  induction L as [|idx L IH]; intros w s v sh l f R Hv Hin; cbn [fold_left].
  - exists w. split; auto. unfold aval_of in Hv. destruct (nth_error s v) as [x|] eqn:E; [|discriminate]. subst x. cbn [scatter fold_left].
    now rewrite upd_same.
  - destruct (write_sim w s v sh l idx (f idx) R Hv) as (w1 & E1 & El & R1); [apply Hin; now left|]. rewrite E1.
    pose proof (aval_lt _ _ _ Hv) as Lv.
    destruct (IH w1 _ v sh (upd l (place_of so sh idx) (Some (f idx))) f R1) as (w2 & E2 & R2).
    + rewrite aval_upd by auto. now rewrite Nat.eqb_refl.
    + intros; apply Hin; now right.
    + exists w2. split; auto. now rewrite upd_upd in R2.
Qed.
Lemma assign_sim w s v sh l f : ARel w s -> aval_of s v = Some (AVal sh (Some l)) ->
  exists w', assign_loop t dflt zero so pr junk w v f = Some w' /\ ARel w' (upd s v (Some (AVal sh (Some (tabulate so sh f))))).
Proof.
  intros R Hv. pose proof R as (i & I). pose proof (aval_lt _ _ _ Hv) as Lv. pose proof (ar_var _ _ _ I v Lv) as M. rewrite Hv in M.
  destruct M as [[Hs Hm] [M2 M3]]. cbn [av_shape av_cells] in *.
  assert (El : im_len (lay_of so pr junk w v) = sh) by (unfold lay_of; destruct Hm as [->|[_ Hm]]; auto).
  unfold assign_loop. rewrite for_each_fold, El.
  destruct (assign_fold (all_idx sh) w s v sh l f R Hv) as (w' & E & R').
  - intros idx Hi. now apply all_idx_In.
  - exists w'. split; [exact E|]. now rewrite scatter_all in R'.
Qed.

Lemma initial_length n k : length (initial t dflt zero n k) = n.
Proof. destruct k; cbn [initial]; apply repeat_length. Qed.

(** creation of variable [v] with cells [l] *)
Lemma lay_set w v m : aw_lay (set_lay (A := A) w v m) = upd (aw_lay w) v m. Proof. reflexivity. Qed.
Lemma create_sim w s v ops l sh m : ARel w s -> afresh s v = true -> lay_ok m sh -> length l = volume sh ->
  (forall i, unused (i_h i) v = true -> ideal_run t dflt zero i ops = let '(objs', p) := create l (i_objs i) in Some (Ideal objs' (upd (i_h i) v p) (i_s i))) ->
  Forall (fun o => sharing o = false) ops ->
  exists w', on_sto t dflt zero (set_lay w v m) ops = Some w' /\ ARel w' (upd s v (Some (AVal sh (Some l)))).
Proof.
  intros (i & I) Hf Hl HL Hr F. apply afresh_inv in Hf. destruct Hf as [Lv Hv]. pose proof (ar_var _ _ _ I v Lv) as M. rewrite Hv in M. cbn in M.
  pose proof (ar_lenh _ _ _ I) as Lh. specialize (Hr i (at_unused _ _ M ltac:(lia))).
  destruct (create_spec l (i_objs i)) as (objs' & p & Ec & Ex & Hc & _). rewrite Ec in Hr.
  destruct (on_sto_sim (set_lay w v m) i ops _ (ar_rel _ _ _ I) (ar_uns _ _ _ I) Hr F) as (w' & E & El & R & U).
  exists w'. split; auto. exists (Ideal objs' (upd (i_h i) v p) (i_s i)). apply (arel_one w s i w' _ v m p); auto. split; [exact Hl|split; [exact Hc|exact HL]].
Qed.
Lemma resize_sim w s v a sh : ARel w s -> aval_of s v = Some a -> shape_ok so sh = true ->
  exists w', a_resize t dflt zero so pr junk w v sh = Some w' /\ ARel w' (upd s v (Some (resized t dflt zero a sh))).
Proof.
  intros (i & I) Hv Hs. pose proof (aval_lt _ _ _ Hv) as Lv. pose proof (ar_var _ _ _ I v Lv) as M. rewrite Hv in M.
  pose proof (vmatch_alive _ _ _ _ M) as Ha. pose proof (ar_lenh _ _ _ I) as Lh. pose proof (ar_lenl _ _ _ I) as Ll.
  unfold a_resize. cbn [set_lay aw_w]. set (w1 := set_lay w v (lay sh)).
  pose proof (at_nth_error (i_h i) v _ eq_refl ltac:(lia)) as Ev.
  destruct (Forall2_nth_error _ _ _ _ _ (r_h _ _ _ _ _ _ _ _ (ar_rel _ _ _ I)) Ev) as (x & Ex & Hx).
  rewrite layout_nelem.
  assert (Kh : exists h, x = Some h /\ (is_null h || negb (Nat.eqb (h_size h) (volume sh)) = false ->
                (exists l, av_cells a = Some l /\ length l = volume sh))).
  { destruct (at_ (i_h i) v) as [| |o|] eqn:Ep; cbn [okh] in Hx; try congruence; try contradiction.
    - exists h_null. split; auto. discriminate.
    - destruct Hx as (l & sp & Eo & Hn & -> & _). eexists. split; [reflexivity|]. cbn [is_null h_data h_size orb]. intros Hsz.
      apply negb_false_iff, Nat.eqb_eq in Hsz. destruct M as [_ M2]. destruct (av_cells a) as [l'|]; [|discriminate].
      destruct M2 as [M2 _]. cbn [contents] in M2. exists l. split; congruence. }
  destruct Kh as (h & -> & Kh). rewrite (getv_some _ _ _ Ex).
  destruct (is_null h || negb (Nat.eqb (h_size h) (volume sh))) eqn:Eb.
  - set (l := initial t dflt zero (volume sh) Default). set (k := length s).
    assert (Ek : tmp w1 = k) by (unfold tmp, w1; rewrite lay_set, upd_length; auto). rewrite Ek.
    destruct (create_spec l (i_objs i)) as (objs' & p & Ec & Exo & Hc & Hp).
    destruct (on_sto_sim w1 i [New k (volume sh) Default; AssignMove v k; End k] (Ideal objs' (upd (i_h i) v p) (i_s i)) (ar_rel _ _ _ I) (ar_uns _ _ _ I))
      as (w' & E & El & R & U).
    + cbn [ideal_run ideal_step]. rewrite (at_unused (i_h i) k (ar_tmp _ _ _ I)) by lia. cbn [andb]. fold l. rewrite Ec. cbn [i_h i_objs i_s].
      assert (A1 : alive (upd (i_h i) k p) v = true) by (apply at_alive; rewrite at_upd by lia; destruct (Nat.eqb_spec k v); [lia|auto]).
      assert (A2 : alive (upd (i_h i) k p) k = true) by (apply at_alive; rewrite at_upd by lia; rewrite Nat.eqb_refl; auto).
      rewrite A1, A2. cbn [andb i_h]. rewrite at_upd, Nat.eqb_refl by lia.
      assert (A3 : alive (upd (upd (upd (i_h i) k p) v p) k Null) k = true).
      { apply at_alive. rewrite at_upd by (rewrite !upd_length; lia). rewrite Nat.eqb_refl. discriminate. }
      rewrite A3. do 2 f_equal. rewrite upd_upd, (upd_comm _ k v), upd_upd by lia. rewrite upd_same; auto.
      rewrite nth_error_upd_neq by lia. apply at_nth_error; [apply (ar_tmp _ _ _ I)|lia].
    + repeat constructor.
    + exists w'. split; auto. exists (Ideal objs' (upd (i_h i) v p) (i_s i)). apply (arel_one w s i w' _ v (lay sh) p); auto.
      split; [split; [exact Hs|now left]|]. cbn [resized av_cells av_shape].
      split; [|destruct (av_cells a) as [l0|]; [destruct (Nat.eqb_spec (length l0) (volume sh)) as [Hl|Hl]; auto|]; apply initial_length].
      cbn [i_objs]. rewrite Hc. f_equal. destruct (av_cells a) as [l0|] eqn:Ea; auto.
      destruct (Nat.eqb_spec (length l0) (volume sh)) as [Hl|Hl]; auto. fold l.
      (* same size and yet a new storage: there is none *)
      destruct M as [_ M2]. rewrite Ea in M2. destruct M2 as [M2 _].
      destruct (at_ (i_h i) v) as [| |o|] eqn:Ep; cbn [okh contents] in Hx, M2; try discriminate.
      * injection M2 as <-. unfold l. rewrite <- Hl. reflexivity.
      * destruct Hx as (l1 & sp & Eo & Hn & Eh & _). injection Eh as ->. assert (l1 = l0) by congruence. subst l1. cbn [is_null h_data h_size orb] in Eb.
        rewrite Hl, Nat.eqb_refl in Eb. discriminate.
  - destruct (Kh eq_refl) as (l & Ea & Hl). exists w1. split; auto. exists i.
    apply (arel_one w s i w1 i v (lay sh) (at_ (i_h i) v)); auto using (ar_rel _ _ _ I), (ar_uns _ _ _ I), extends_refl.
    + now rewrite upd_same.
    + split; [split; [exact Hs|now left]|]. cbn [resized av_cells av_shape]. destruct M as [_ M2]. rewrite Ea in *. rewrite Hl, Nat.eqb_refl. split; auto. apply M2.
Qed.
Lemma construct_fold (m : idx_map) v b f L : forall (w : world A) h cs, getv (w_h w) v = Some h -> h_data h = Some b ->
  nth_error (m_heap (w_mem w)) b = Some (Block true cs) -> NoDup (map (offset m) L) ->
  (forall idx, In idx L -> nth_error cs (offset m idx) = Some None) ->
  fold_left (fun o idx => match o with Some w => match getv (w_h w) v with Some h => match h_data h with Some b =>
      match construct t b (offset m idx) (f idx) (m_heap (w_mem w)) with Some hp => Some (set_heap w hp) | None => None end
      | None => None end | None => None end | None => None end) L (Some w)
  = Some (set_heap w (upd (m_heap (w_mem w)) b (Block true (scatter (offset m) f L cs)))).
Proof.
  induction L as [|idx L IH]; intros w h cs Hg Hd Hb N Hin; cbn [fold_left scatter].
  - rewrite upd_same by auto. destruct w as [[hp ct] wh ws]; reflexivity.
  - rewrite Hg, Hd. rewrite (construct_live t _ _ _ _ _ None Hb) by (auto; apply Hin; now left).
    cbn [map] in N. inversion N as [|? ? Nx N']; subst.
    rewrite (IH _ h (upd cs (offset m idx) (Some (f idx)))); auto.
    + cbn [set_heap w_mem m_heap m_ctrl w_h w_s]. rewrite upd_upd. reflexivity.
    + cbn [set_heap w_mem m_heap]. apply nth_error_upd_eq. eapply nth_error_lt; eauto.
    + intros i Hi. rewrite nth_error_upd_neq; [apply Hin; now right|]. intros E. apply Nx. rewrite E. now apply in_map.
Qed.

Definition listed (sh : list Z) (f : list Z -> A) : list A := map (fun k => f (index_at so sh k)) (zseq (prodZ sh)).
Lemma listed_tab sh f : map Some (listed sh f) = tabulate so sh f.
Proof. unfold listed, tabulate. now rewrite map_map. Qed.

Lemma from_eq (w : aworld A) v sh f : shape_ok so sh = true -> (v < length (w_h (aw_w w)))%nat ->
  a_from t dflt zero so pr junk w v sh f = on_sto t dflt zero (set_lay w v (lay sh)) [From v (listed sh f)].
Proof.
  intros Hs Lv. unfold a_from, on_sto. cbn [set_lay aw_w run exec]. rewrite h_new_spec, h_from_spec, listed_tab, layout_nelem. cbn [initial].
  unfold new_var. destruct (volume sh) as [|n] eqn:En.
  - pose proof (tabulate_length sh f) as TL. rewrite En in TL. destruct (tabulate so sh f) as [|]; [|discriminate]. cbn [repeat alloc_result aw_w aw_lay].
    unfold construct_loop. rewrite for_each_fold, layout_len.
    pose proof Hs as Hs'. apply shape_ok_spec in Hs'. destruct Hs' as [_ Hs']. pose proof (all_idx_length sh Hs') as AL. unfold volume in En.
    assert (all_idx sh = []) as -> by (destruct (all_idx sh); [auto|cbn [length] in AL; lia]). reflexivity.
  - pose proof (tabulate_length sh f) as TL. rewrite En in TL.
    assert (Ea : forall l (H : heap A), length l = S n -> alloc_result l H = (H ++ [Block true l], HHeap (Some (length H)) (S n) None)).
    { intros [|x l] H HL; [discriminate|]. cbn [alloc_result]. now rewrite HL. }
    rewrite !Ea by (auto; apply repeat_length). cbn [aw_w aw_lay].
    unfold construct_loop. rewrite for_each_fold, layout_len.
    set (w1 := set_h _ v _).
    assert (Off : forall idx, In idx (all_idx sh) -> offset (lay sh) idx = place_of so sh idx) by (intros; apply offset_place; auto; now apply all_idx_In).
    rewrite (construct_fold (lay sh) v (length (m_heap (w_mem (aw_w w)))) f (all_idx sh) w1 (HHeap (Some (length (m_heap (w_mem (aw_w w))))) (S n) None) (repeat None (S n))).
    + rewrite (scatter_ext _ _ f (all_idx sh) Off), scatter_all by (auto; now rewrite repeat_length).
      unfold w1. cbn [set_h set_heap w_mem m_heap m_ctrl w_h w_s]. rewrite upd_app_r. reflexivity.
    + unfold w1, getv. cbn [set_h w_h set_heap]. now rewrite nth_error_upd_eq.
    + reflexivity.
    + unfold w1. cbn [set_h set_heap w_mem m_heap]. apply nth_error_new.
    + apply NoDup_map_on; [apply all_idx_NoDup|]. intros x y Hx Hy. rewrite !Off by auto. apply (place_inj); auto; now apply all_idx_In.
    + intros idx Hi. rewrite Off by auto. rewrite <- En. apply nth_error_repeat. apply place_bound; auto; now apply all_idx_In.
Qed.

Lemma resized_cells a sh : exists l, av_cells (resized t dflt zero a sh) = Some l.
Proof. cbn [resized av_cells]. eauto. Qed.

Lemma start_lay_ok : lay_ok dl (repeat 0 (length so)).
Proof.
  assert (Z : prodZ (repeat 0 (length so)) = 0) by (destruct (length so) as [|n]; [lia|]; cbn [repeat]; now rewrite prodZ_cons).
  split.
  - apply shape_ok_spec. rewrite repeat_length. split; auto. clear. induction (length so); cbn [repeat]; constructor; auto; lia.
  - right. split; auto. unfold layout_default, idx_map_default. destruct (Nat.eqb_spec (n_dynamic_extents (repeat 0 (length so))) 0); cbn [im_len]; auto.
    now rewrite repeat_length.
Qed.

Theorem a_step_sim w s o s' : ARel w s -> a_step t dflt zero so s o = Some s' ->
  exists w', a_exec t dflt zero so pr junk w o = Some w' /\ ARel w' s'.
Proof.
  intros R E. destruct o; cbn [a_step a_exec] in *.
  - (* AEmpty *) destruct (afresh s v) eqn:Hf; [|discriminate]. injection E as <-.
    apply create_sim; [exact R|exact Hf| | | |repeat constructor].
    + apply start_lay_ok.
    + unfold volume. pose proof start_lay_ok as [H _]. destruct (length so) as [|n]; [lia|]. cbn [repeat]. now rewrite prodZ_cons.
    + intros i Hu. cbn [ideal_run ideal_step]. now rewrite Hu.
  - (* AShape *) destruct (afresh s v && shape_ok so shape) eqn:Hf; [|discriminate]. apply andb_true_iff in Hf. destruct Hf as [Hf Hs]. injection E as <-.
    apply create_sim; [exact R|exact Hf| | | |repeat constructor].
    + split; [exact Hs|now left].
    + apply repeat_length.
    + intros i Hu. cbn [ideal_run ideal_step]. rewrite Hu, layout_nelem. cbn [andb]. now destruct (create _ _).
  - (* AZeros *) destruct (afresh s v && shape_ok so shape && t_tcopy t) eqn:Hf; [|discriminate]. apply andb_true_iff in Hf. destruct Hf as [Hf Ht].
    apply andb_true_iff in Hf. destruct Hf as [Hf Hs]. injection E as <-.
    apply create_sim; [exact R|exact Hf| | | |repeat constructor].
    + split; [exact Hs|now left].
    + apply repeat_length.
    + intros i Hu. cbn [ideal_run ideal_step]. rewrite Hu, Ht, layout_nelem. cbn [andb]. now destruct (create _ _).
  - (* AFrom *) destruct (afresh s v && shape_ok so shape) eqn:Hf; [|discriminate]. apply andb_true_iff in Hf. destruct Hf as [Hf Hs]. injection E as <-.
    rewrite from_eq; auto.
    + apply create_sim; [exact R|exact Hf| | | |repeat constructor].
      * split; [exact Hs|now left].
      * apply tabulate_length.
      * intros i Hu. cbn [ideal_run ideal_step]. rewrite Hu, listed_tab. now destruct (create _ _).
    + destruct R as (i & I). apply afresh_inv in Hf. pose proof (ar_lenh _ _ _ I). rewrite (rel_length _ _ _ (ar_rel _ _ _ I)). lia.
  - (* ACopy *) destruct (afresh s v) eqn:Hf; [|discriminate]. destruct (aval_of s x) as [a|] eqn:Hx; [|discriminate]. injection E as <-.
    destruct R as (i & I). pose proof (aval_lt _ _ _ Hx) as Lx. pose proof (ar_var _ _ _ I x Lx) as M. rewrite Hx in M.
    pose proof (vmatch_alive _ _ _ _ M) as Ha. apply afresh_inv in Hf. destruct Hf as [Lv Hv].
    pose proof (ar_var _ _ _ I v Lv) as Mv. rewrite Hv in Mv. cbn in Mv. pose proof (ar_lenh _ _ _ I) as Lh.
    assert (Hc : exists l, contents (i_objs i) (at_ (i_h i) x) = Some l /\ match av_cells a with Some l' => l' = l | None => l = [] end).
    { destruct M as [_ M]. destruct (av_cells a) as [l|].
      - exists l. split; [apply M|reflexivity].
      - rewrite M. now exists []. }
    destruct Hc as (l & Hc & Hcl).
    destruct (create_spec l (i_objs i)) as (objs' & p & Ec & Ex & Hp & _).
    destruct (on_sto_sim (set_lay w v (lay_of so pr junk w x)) i [CopyH v x] (Ideal objs' (upd (i_h i) v p) (i_s i)) (ar_rel _ _ _ I) (ar_uns _ _ _ I)) as (w' & E' & El & R' & U').
    { cbn [ideal_run ideal_step]. rewrite at_unused, at_alive, Hc, Ec by (auto; lia). reflexivity. }
    { repeat constructor. }
    exists w'. split; auto. exists (Ideal objs' (upd (i_h i) v p) (i_s i)). apply (arel_one w s i w' _ v (lay_of so pr junk w x) p); auto.
    destruct M as [M1 M2]. split; [exact M1|]. destruct (av_cells a) as [l'|]; [|subst l].
    + subst l'. split; [exact Hp|apply M2].
    + cbn [create] in Ec. injection Ec as _ <-. reflexivity.
  - (* AMove *) destruct (afresh s v) eqn:Hf; [|discriminate]. destruct (aval_of s x) as [a|] eqn:Hx; [|discriminate]. injection E as <-.
    destruct R as (i & I). pose proof (aval_lt _ _ _ Hx) as Lx. pose proof (ar_var _ _ _ I x Lx) as M. rewrite Hx in M.
    pose proof (vmatch_alive _ _ _ _ M) as Ha. apply afresh_inv in Hf. destruct Hf as [Lv Hv].
    pose proof (ar_var _ _ _ I v Lv) as Mv. rewrite Hv in Mv. cbn in Mv. pose proof (ar_lenh _ _ _ I) as Lh.
    destruct (on_sto_sim (set_lay w v (lay_of so pr junk w x)) i [MoveH v x] (Ideal (i_objs i) (upd (upd (i_h i) v (at_ (i_h i) x)) x Null) (i_s i)) (ar_rel _ _ _ I) (ar_uns _ _ _ I)) as (w' & E' & El & R' & U').
    { cbn [ideal_run ideal_step]. rewrite at_unused, at_alive by (auto; lia). reflexivity. }
    { repeat constructor. }
    exists w'. split; auto. eexists. apply (arel_move w s i w' _ v x a I Lv Hx R' U'); auto.
  - (* AAssignCopy *) destruct (aval_of s v) as [av|] eqn:Hv; [|discriminate]. destruct (aval_of s x) as [a|] eqn:Hx; [|discriminate]. injection E as <-.
    destruct R as (i & I). pose proof (aval_lt _ _ _ Hx) as Lx. pose proof (ar_var _ _ _ I x Lx) as M. rewrite Hx in M.
    pose proof (vmatch_alive _ _ _ _ M) as Ha. pose proof (aval_lt _ _ _ Hv) as Lv.
    pose proof (ar_var _ _ _ I v Lv) as Mv. rewrite Hv in Mv. pose proof (vmatch_alive _ _ _ _ Mv) as Hav.
    assert (Hc : exists l, contents (i_objs i) (at_ (i_h i) x) = Some l /\ match av_cells a with Some l' => l' = l | None => l = [] end).
    { destruct M as [_ M]. destruct (av_cells a) as [l|].
      - exists l. split; [apply M|reflexivity].
      - rewrite M. now exists []. }
    destruct Hc as (l & Hc & Hcl).
    destruct (create_spec l (i_objs i)) as (objs' & p & Ec & Ex & Hp & _).
    destruct (on_sto_sim (set_lay w v (lay_of so pr junk w x)) i [AssignCopy v x] (Ideal objs' (upd (i_h i) v p) (i_s i)) (ar_rel _ _ _ I) (ar_uns _ _ _ I)) as (w' & E' & El & R' & U').
    { cbn [ideal_run ideal_step]. rewrite !at_alive, Hc, Ec by auto. reflexivity. }
    { repeat constructor. }
    exists w'. split; auto. exists (Ideal objs' (upd (i_h i) v p) (i_s i)). apply (arel_one w s i w' _ v (lay_of so pr junk w x) p); auto.
    destruct M as [M1 M2]. split; [exact M1|]. destruct (av_cells a) as [l'|]; [|subst l].
    + subst l'. split; [exact Hp|apply M2].
    + cbn [create] in Ec. injection Ec as _ <-. reflexivity.
  - (* AAssignMove *) destruct (aval_of s v) as [av|] eqn:Hv; [|discriminate]. destruct (aval_of s x) as [a|] eqn:Hx; [|discriminate]. injection E as <-.
    destruct R as (i & I). pose proof (aval_lt _ _ _ Hx) as Lx. pose proof (ar_var _ _ _ I x Lx) as M. rewrite Hx in M.
    pose proof (vmatch_alive _ _ _ _ M) as Ha. pose proof (aval_lt _ _ _ Hv) as Lv.
    pose proof (ar_var _ _ _ I v Lv) as Mv. rewrite Hv in Mv. pose proof (vmatch_alive _ _ _ _ Mv) as Hav.
    destruct (on_sto_sim (set_lay w v (lay_of so pr junk w x)) i [AssignMove v x] (Ideal (i_objs i) (upd (upd (i_h i) v (at_ (i_h i) x)) x Null) (i_s i)) (ar_rel _ _ _ I) (ar_uns _ _ _ I)) as (w' & E' & El & R' & U').
    { cbn [ideal_run ideal_step]. rewrite !at_alive by auto. reflexivity. }
    { repeat constructor. }
    exists w'. split; auto. eexists. apply (arel_move w s i w' _ v x a I Lv Hx R' U'); auto.
  - (* AAssignExpr *) destruct (aval_of s v) as [a|] eqn:Hv; [|discriminate]. destruct (shape_ok so shape) eqn:Hs; [|discriminate]. injection E as <-.
    destruct (resize_sim w s v a shape R Hv Hs) as (w1 & E1 & R1). rewrite E1.
    pose proof (aval_lt _ _ _ Hv) as Lv.
    assert (Hr : aval_of (upd s v (Some (resized t dflt zero a shape))) v = Some (resized t dflt zero a shape)) by (rewrite aval_upd by auto; now rewrite Nat.eqb_refl).
    destruct (assign_sim w1 _ v shape _ f R1 Hr) as (w2 & E2 & R2).
    exists w2. split; auto. now rewrite upd_upd in R2.
  - (* AResize *) destruct (aval_of s v) as [a|] eqn:Hv; [|discriminate]. destruct (shape_ok so shape) eqn:Hs; [|discriminate]. injection E as <-.
    now apply resize_sim.
  - (* AWrite *) destruct (aval_of s v) as [[sh [l|]]|] eqn:Hv; try discriminate. destruct (in_bounds idx sh) eqn:Hi; [|discriminate]. injection E as <-.
    apply in_bounds_spec in Hi. destruct (write_sim w s v sh l idx a R Hv Hi) as (w' & E' & _ & R'). eauto.
  - (* AEnd *) destruct (aval_of s v) as [a|] eqn:Hv; [|discriminate]. injection E as <-.
    destruct R as (i & I). pose proof (aval_lt _ _ _ Hv) as Lv. pose proof (ar_var _ _ _ I v Lv) as M. rewrite Hv in M.
    pose proof (vmatch_alive _ _ _ _ M) as Ha.
    destruct (on_sto_sim w i [End v] (Ideal (i_objs i) (upd (i_h i) v Dead) (i_s i)) (ar_rel _ _ _ I) (ar_uns _ _ _ I)) as (w' & E' & El & R' & U').
    { cbn [ideal_run ideal_step]. rewrite at_alive by auto. reflexivity. }
    { repeat constructor. }
    exists w'. split; auto. eexists. apply (arel_one w s i w' _ v (nth v (aw_lay w) dl) Dead None I Lv R' U'); auto.
    + cbn [i_objs]. apply extends_refl.
    + rewrite El. symmetry. apply upd_same. apply nth_error_nth'. rewrite (ar_lenl _ _ _ I). auto.
    + reflexivity.
Qed.

Lemma a_run_sim p : forall w s s', ARel w s -> a_history t dflt zero so s p = Some s' ->
  exists w', a_run t dflt zero so pr junk w p = Some w' /\ ARel w' s'.
Proof.
  induction p as [|o p IH]; intros w s s' R E; cbn [a_history a_run] in *.
  - injection E as <-. eauto.
  - destruct (a_step t dflt zero so s o) as [s1|] eqn:E1; [|discriminate]. destruct (a_step_sim w s o s1 R E1) as (w1 & Ew & R1). rewrite Ew. eauto.
Qed.

Lemma a_start_rel n : ARel (a_start so pr junk n) (repeat None n).
Proof.
  exists (ideal_start (S n) 0). constructor; cbn [a_start aw_w aw_lay ideal_start i_h i_s i_objs].
  - apply start_rel.
  - unfold unshared. cbn [start w_h]. apply Forall_forall. intros x Hx. apply repeat_spec in Hx. now subst.
  - now rewrite !repeat_length.
  - rewrite repeat_length. unfold at_. apply nth_repeat.
  - reflexivity.
  - now rewrite !repeat_length.
  - intros v Hv. rewrite repeat_length in Hv. unfold aval_of. rewrite nth_error_repeat by auto. cbn [vmatch]. unfold at_. apply nth_repeat.
Qed.

(** ** observations *)
Lemma arel_looks w s : ARel w s -> all_look_right so dl w s.
Proof.
  intros (i & I) v Lv. pose proof (ar_var _ _ _ I v Lv) as M. pose proof (ar_lenh _ _ _ I) as Lh.
  pose proof (at_nth_error (i_h i) v _ eq_refl ltac:(lia)) as Ev.
  destruct (Forall2_nth_error _ _ _ _ _ (r_h _ _ _ _ _ _ _ _ (ar_rel _ _ _ I)) Ev) as (x & Ex & Hx).
  destruct (aval_of s v) as [a|].
  - destruct M as [[Hs Hm] M2].
    assert (Hlen : im_len (nth v (aw_lay w) dl) = av_shape a) by (destruct Hm as [->|[_ Hm]]; auto).
    assert (Hsz : size (nth v (aw_lay w) dl) = prodZ (av_shape a)) by (rewrite size_prodZ; now rewrite Hlen).
    destruct (av_cells a) as [l|] eqn:Ea.
    + destruct M2 as [M2 M3]. assert (L : Z.of_nat (length l) = prodZ (av_shape a)).
      { rewrite M3. unfold volume. apply shape_ok_spec in Hs. destruct Hs as [_ Hs]. pose proof (prodZ_nonneg _ Hs). lia. }
      destruct (shown_h t _ _ v l (ar_rel _ _ _ I)) as (h & Eh & [Sh1 Sh2] & _); auto.
      { apply at_alive. destruct (at_ (i_h i) v); cbn in *; congruence. }
      exists h. split; [now apply getv_some|]. cbn zeta. rewrite Ea. split; [auto|]. split; [auto|]. split; [lia|]. split; [auto|].
      intros idx Hi. pose proof (place_bound _ _ Hs Hi) as B.
      assert (Em : nth v (aw_lay w) dl = lay (av_shape a)).
      { destruct Hm as [Hm|[Hm _]]; auto. unfold volume in B. rewrite Hm in B. simpl in B. lia. }
      destruct (h_data h) as [b|] eqn:Ed; [|subst l; cbn [length] in M3; lia].
      exists b. rewrite (read_live _ _ _ _ Sh2), Em.
      change (Z.to_nat (call_impl (lay (av_shape a)) (map CLong idx))) with (offset (lay (av_shape a)) idx). rewrite offset_place by auto.
      destruct (nth_error l (place_of so (av_shape a) idx)) as [c|] eqn:En; [now exists c|]. apply nth_error_None in En. lia.
    + rewrite M2 in Hx. cbn [okh] in Hx. subst x. exists h_null. split; [now apply getv_some|]. cbn zeta. rewrite Ea. split; auto.
  - cbn [vmatch] in M. rewrite M in Hx. cbn [okh] in Hx. subst x. unfold getv. now rewrite Ex.
Qed.

Lemma arel_memory w s : ARel w s -> memory_exact w.
Proof.
  intros (i & I). pose proof (ar_rel _ _ _ I) as R.
  assert (HD : forall v h b, getv (w_h (aw_w w)) v = Some h -> h_data h = Some b -> nth_error (i_h i) v = Some (Ref b)).
  { intros v h b Hg Hd. unfold getv in Hg. destruct (nth_error (w_h (aw_w w)) v) as [[h'|]|] eqn:Ev; try discriminate. injection Hg as ->.
    destruct (Forall2_nth_error_l _ _ _ _ _ (r_h _ _ _ _ _ _ _ _ R) Ev) as (p & Ep & Hp).
    destruct p; cbn [okh] in Hp; try congruence; try contradiction.
    - injection Hp as ->. discriminate.
    - destruct Hp as (l & sp & _ & _ & Eh & _). injection Eh as ->. cbn in Hd. congruence. }
  split.
  - intros b. rewrite (rel_exactly t _ _ R b), (ar_lens _ _ _ I), app_nil_r. split.
    + intros Hin. apply In_nth_error in Hin. destruct Hin as (v & Ev).
      destruct (ref_h_live _ _ _ _ _ _ _ _ _ _ R Ev) as (l & sp & _ & _ & Eh & _). exists v. eexists. split; [apply getv_some; exact Eh|reflexivity].
    + intros (v & h & Hg & Hd). eapply nth_error_In. eauto.
  - intros u v g h b Hg Hh Hdg Hdh. eapply place_uniq; eauto using (ar_uns _ _ _ I).
Qed.

(** ** assignment from a view of another array *)
Lemma getv_upd_neq {T} (l : list (option T)) v x u : v <> u -> getv (upd l v x) u = getv l u.
Proof. intros H. unfold getv. now rewrite nth_error_upd_neq. Qed.
Lemma move_assign_frame (w w' : world A) v x u : u <> v -> u <> x -> move_assign t w v x = Some w' -> getv (w_h w') u = getv (w_h w) u.
Proof.
  intros Hv Hx E. unfold move_assign in E. destruct (getv (w_h w) v) as [hv|]; [|discriminate].
  destruct (if _ && _ then _ else _) as [h|]; [|discriminate]. destruct (getv (w_h (set_heap w h)) x) as [hx|]; [|discriminate].
  destruct (getv (w_h (set_h _ _ _)) x) as [hx2|]; [|discriminate]. destruct (Nat.eqb v x).
  - cbn [w_h set_h set_heap] in E. destruct (getv _ x); [|discriminate]. injection E as <-. cbn [w_h set_h set_heap set_mem]. now rewrite !getv_upd_neq by auto.
  - destruct (sptr_release _ _ _) as [m|]; [|discriminate]. cbn [w_h set_h set_heap set_mem] in E.
    destruct (getv _ x); [|discriminate]. injection E as <-. cbn [w_h set_h set_heap set_mem]. now rewrite !getv_upd_neq by auto.
Qed.
Lemma resize_frame (w w' : aworld A) v sh u : u <> v -> u <> tmp w -> a_resize t dflt zero so pr junk w v sh = Some w' -> getv (w_h (aw_w w')) u = getv (w_h (aw_w w)) u.
Proof.
  intros Hv Hx E. unfold a_resize in E. cbn [set_lay aw_w] in E. destruct (getv _ v) as [h|]; [|discriminate].
  destruct (_ || _); [|now injection E as <-]. unfold on_sto in E. unfold tmp in *. cbn [aw_w aw_lay set_lay] in E. rewrite upd_length in E. cbn [run exec] in E.
  unfold new_var in E. destruct (h_new _ _ _ _ _ _) as [[hp x]|]; [|discriminate].
  destruct (move_assign _ _ _ _) as [w2|] eqn:Em; [|discriminate]. apply move_assign_frame with (u := u) in Em; auto.
  destruct (getv (w_h w2) (length (aw_lay w))) as [hk|]; [|discriminate]. destruct (h_destroy _ _ _) as [mm|]; [|discriminate]. injection E as <-.
  cbn [aw_w w_h set_h set_mem]. rewrite getv_upd_neq by auto. rewrite Em. cbn [w_h set_h set_heap]. now rewrite getv_upd_neq by auto.
Qed.
Lemma write_frame (w w' : aworld A) v k a : on_sto t dflt zero w [WriteH v k a] = Some w' -> w_h (aw_w w') = w_h (aw_w w).
Proof.
  unfold on_sto. cbn [run exec]. destruct (getv _ v); [|discriminate]. unfold write_elem. destruct (h_data _); [|discriminate].
  destruct (read_cell _ _ _) as [c|]; [|discriminate]. destruct (match c with Some _ => true | None => _ end); [|discriminate].
  destruct (write_cell _ _ _ _); [|discriminate]. intros E. injection E as <-. reflexivity.
Qed.

Lemma view_fold L : forall w s v x sh l b lx hx base m f, ARel w s -> v <> x -> aval_of s v = Some (AVal sh (Some l)) ->
  (exists shx, aval_of s x = Some (AVal shx (Some lx))) -> getv (w_h (aw_w w)) x = Some hx -> h_data hx = Some b ->
  (forall idx, In idx L -> in_range idx sh) ->
  (forall idx, In idx L -> nth_error lx (Z.to_nat (base + call_impl m (map CLong idx))) = Some (Some (f idx))) ->
  exists w', fold_left (fun o idx => match o with Some w =>
        match read_cell (m_heap (w_mem (aw_w w))) b (Z.to_nat (base + call_impl m (map CLong idx))) with Some c =>
        match c with Some a => on_sto t dflt zero w [WriteH v (offset (lay_of so pr junk w v) idx) a] | None => None end | None => None end | None => None end) L (Some w) = Some w'
    /\ ARel w' (upd s v (Some (AVal sh (Some (scatter (place_of so sh) f L l))))).
Proof.
  induction L as [|idx L IH]; intros w s v x sh l b lx hx base m f R Hn Hv Hx Hg Hd Hin Hl; cbn [fold_left].
  - exists w. split; auto. unfold aval_of in Hv. destruct (nth_error s v) as [y|] eqn:E; [|discriminate]. subst y. cbn [scatter fold_left].
    now rewrite upd_same.
  - assert (Rd : read_cell (m_heap (w_mem (aw_w w))) b (Z.to_nat (base + call_impl m (map CLong idx))) = Some (Some (f idx))).
    { destruct R as (i & I). destruct Hx as (shx & Hx). pose proof (aval_lt _ _ _ Hx) as Lx. pose proof (ar_var _ _ _ I x Lx) as M. rewrite Hx in M.
      destruct M as [_ [M _]]. destruct (shown_h t _ _ x lx (ar_rel _ _ _ I)) as (h & Eh & [_ Sh] & _); auto.
      { apply at_alive. intros Ed. rewrite Ed in M. discriminate. }
      apply getv_some in Eh. assert (h = hx) by congruence. subst h. rewrite Hd in Sh. rewrite (read_live _ _ _ _ Sh). apply Hl. now left. }
    rewrite Rd.
    destruct (write_sim w s v sh l idx (f idx) R Hv) as (w1 & E1 & El & R1); [apply Hin; now left|]. rewrite E1.
    pose proof (aval_lt _ _ _ Hv) as Lv. pose proof (write_frame _ _ _ _ _ E1) as Fr.
    destruct (IH w1 _ v x sh (upd l (place_of so sh idx) (Some (f idx))) b lx hx base m f R1) as (w2 & E2 & R2); auto.
    + rewrite aval_upd by auto. now rewrite Nat.eqb_refl.
    + destruct Hx as (shx & Hx). exists shx. rewrite aval_upd by auto. destruct (Nat.eqb_spec v x); [congruence|auto].
    + now rewrite Fr.
    + intros; apply Hin; now right.
    + intros; apply Hl; now right.
    + exists w2. split; auto. now rewrite upd_upd in R2.
Qed.

Lemma view_sim w s v x a shx lx hx b base m f : ARel w s -> v <> x -> aval_of s v = Some a -> aval_of s x = Some (AVal shx (Some lx)) ->
  getv (w_h (aw_w w)) x = Some hx -> h_data hx = Some b -> shape_ok so (im_len m) = true ->
  (forall idx, in_range idx (im_len m) -> nth_error lx (Z.to_nat (base + call_impl m (map CLong idx))) = Some (Some (f idx))) ->
  exists w', a_assign_view t dflt zero so pr junk w v b base m = Some w'
    /\ ARel w' (upd s v (Some (AVal (im_len m) (Some (tabulate so (im_len m) f))))).
Proof.
  intros R Hn Hv Hx Hg Hd Hs Hl. unfold a_assign_view.
  destruct (resize_sim w s v a (im_len m) R Hv Hs) as (w1 & E1 & R1). rewrite E1. rewrite for_each_fold. pose proof (aval_lt _ _ _ Hv) as Lv.
  pose proof (aval_lt _ _ _ Hx) as Lx.
  assert (Ht : x <> tmp w) by (destruct R as (i & I); unfold tmp; rewrite (ar_lenl _ _ _ I); lia).
  assert (Hr : aval_of (upd s v (Some (resized t dflt zero a (im_len m)))) v = Some (resized t dflt zero a (im_len m))) by (rewrite aval_upd by auto; now rewrite Nat.eqb_refl).
  destruct (view_fold (all_idx (im_len m)) w1 _ v x (im_len m) _ b lx hx base m f R1 Hn Hr) as (w2 & E2 & R2); auto.
  - exists shx. rewrite aval_upd by auto. destruct (Nat.eqb_spec v x); [congruence|auto].
  - rewrite (resize_frame w w1 v (im_len m) x); auto.
  - intros idx Hi. now apply all_idx_In.
  - intros idx Hi. apply Hl. now apply all_idx_In.
  - exists w2. split; [exact E2|]. rewrite upd_upd in R2.
    destruct R1 as (i1 & I1). pose proof (ar_var _ _ _ I1 v) as M. rewrite upd_length, Hr in M. destruct (M Lv) as (_ & _ & Hlen).
    rewrite scatter_all in R2 by auto. exact R2.
Qed.
End Arr.
