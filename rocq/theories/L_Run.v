From Verif Require Import Base M_Handle S_Handle L_Handle L_Own.

Section Run.
Context {A : Type}.
Variable (t : traits) (dflt zero : A).
Hypothesis Hok : traits_ok t.

Definition RelW (w : world A) (s : ideal A) : Prop :=
  Rel t (m_heap (w_mem w)) (m_ctrl (w_mem w)) (w_h w) (w_s w) (i_objs s) (i_h s) (i_s s).

Lemma getv_some {T} (l : list (option T)) v x : nth_error l v = Some (Some x) -> getv l v = Some x.
Proof. unfold getv. now intros ->. Qed.

Lemma alive_lt l v : alive l v = true -> (v < length l)%nat.
Proof. unfold alive. destruct (nth_error l v) eqn:E; [|discriminate]. intros _. eapply nth_error_lt; eauto. Qed.

Lemma alive_at l v : alive l v = true -> nth_error l v = Some (at_ l v) /\ at_ l v <> Dead.
Proof.
  unfold alive. destruct (nth_error l v) as [p|] eqn:E; [|discriminate]. rewrite (at_nth _ _ _ E).
  destruct p; try discriminate; split; auto; discriminate.
Qed.

(** contents of a variable that is read *)
Lemma shown_h w s v l : RelW w s -> alive (i_h s) v = true -> contents (i_objs s) (at_ (i_h s) v) = Some l ->
  exists x, nth_error (w_h w) v = Some (Some x) /\ shows (m_heap (w_mem w)) (h_data x) (h_size x) l /\ good t l.
Proof.
  intros R Hv Hl. destruct (alive_h _ _ _ _ _ _ _ _ _ R Hv) as (x & Ex & [[Ei ->]|(o & Ei)]).
  - rewrite (at_nth _ _ _ Ei) in Hl. injection Hl as <-. exists h_null. split; auto. split; [split; reflexivity|].
    intros _. constructor.
  - destruct (ref_h_live _ _ _ _ _ _ _ _ _ _ R Ei) as (l' & sp & Eo & Hn & Ew & B & G & K).
    rewrite (at_nth _ _ _ Ei) in Hl. cbn in Hl. assert (l' = l) by congruence. subst l'.
    eexists. split; [exact Ew|]. repeat split; auto.
Qed.
Lemma shown_s w s v l : RelW w s -> contents (i_objs s) (at_ (i_s s) v) = Some l ->
  exists x, nth_error (w_s w) v = Some (Some x) /\ shows (m_heap (w_mem w)) (s_data x) (s_size x) l /\ good t l.
Proof.
  intros R Hl. assert (E : nth_error (i_s s) v = Some (at_ (i_s s) v)).
  { destruct (nth_error (i_s s) v) as [p|] eqn:E; [now rewrite (at_nth _ _ _ E)|]. exfalso.
    unfold at_ in Hl. rewrite nth_overflow in Hl; [discriminate|]. now apply nth_error_None. }
  destruct (at_ (i_s s) v) as [| |o|]; try discriminate.
  - injection Hl as <-. destruct (var_s _ _ _ _ _ _ _ _ _ _ R E) as (x & Ex & Hx & _). cbn in Hx. subst x.
    eexists. split; [exact Ex|]. split; [split; reflexivity|]. intros _. constructor.
  - destruct (ref_s_live _ _ _ _ _ _ _ _ _ _ R E) as (l' & c & k & Eo & Hn & Ew & B & G & _).
    cbn in Hl. assert (l' = l) by congruence. subst l'. eexists. split; [exact Ew|]. repeat split; auto.
Qed.

Lemma good_initial n i : match i with Default => true | _ => t_tcopy t end = true -> good t (initial t dflt zero n i).
Proof.
  intros H E. destruct i; cbn in H; try congruence. cbn [initial]. unfold some_all. destruct Hok as [H1 H2].
  destruct (t_complex t) eqn:Ec; [rewrite H2 in E; congruence|]. destruct (t_trivial t) eqn:Et; [rewrite H1 in E; congruence|].
  clear. induction n; simpl; constructor; auto; discriminate.
Qed.
Lemma good_values (l : list A) : good t (map Some l).
Proof. intros _. unfold some_all. induction l; simpl; constructor; auto. discriminate. Qed.

(** a declaration with initial contents [l] *)
Lemma declare_sim w s v l s' : RelW w s -> unused (i_h s) v = true -> good t l ->
  (let '(objs', p) := create l (i_objs s) in Some (Ideal objs' (upd (i_h s) v p) (i_s s))) = Some s' ->
  exists w', new_var w v (Some (alloc_result l (m_heap (w_mem w)))) = Some w' /\ RelW w' s'.
Proof.
  intros R Hv G E. destruct (unused_h _ _ _ _ _ _ _ _ _ R Hv) as [Ev Ei].
  pose proof (create_h _ _ _ _ _ _ _ _ _ _ _ l R Ev Ei (or_introl (conj eq_refl eq_refl)) G) as K.
  unfold new_var. destruct (alloc_result l (m_heap (w_mem w))) as [H' x]. destruct (create l (i_objs s)) as [objs' p].
  injection E as <-. eexists. split; [reflexivity|]. exact K.
Qed.

(** move assignment from another variable, and to itself *)
Lemma move_assign_eq (w : world A) v x hv hx : v <> x -> nth_error (w_h w) v = Some (Some hv) -> nth_error (w_h w) x = Some (Some hx) ->
  move_assign t w v x = do m <- h_destroy t hv (w_mem w); Some (World m (upd (upd (w_h w) v (Some hx)) x (Some h_null)) (w_s w)).
Proof.
  intros Hne Ev Ex. unfold move_assign. rewrite (getv_some _ _ _ Ev). unfold h_destroy.
  destruct (if match h_sptr hv with None => true | Some _ => false end && negb (is_null hv)
            then destruct_blk t (h_data hv, h_size hv) (m_heap (w_mem w)) else Some (m_heap (w_mem w))) as [h|]; auto.
  unfold set_heap, set_h, set_mem. cbn [w_h w_mem w_s m_heap m_ctrl].
  rewrite (getv_some _ _ _ Ex).
  assert (E1 : forall y, nth_error (upd (w_h w) v y) x = Some (Some hx)) by (intros y; now rewrite nth_error_upd_neq).
  rewrite (getv_some _ _ _ (E1 _)). destruct (Nat.eqb_spec v x); [congruence|]. cbn [w_h w_mem w_s m_heap m_ctrl].
  destruct (sptr_release t (h_sptr hv) (Mem h (m_ctrl (w_mem w)))) as [m|]; auto.
  cbn [w_h w_mem w_s]. rewrite upd_upd.
  erewrite (getv_some _ x) by (apply nth_error_upd_eq; rewrite upd_length; eapply nth_error_lt; eauto).
  cbn [h_sptr]. rewrite upd_upd. destruct hx; reflexivity.
Qed.
Lemma move_assign_self (w : world A) v hv : nth_error (w_h w) v = Some (Some hv) -> h_sptr hv = None ->
  move_assign t w v v = do m <- h_destroy t hv (w_mem w); Some (World m (upd (w_h w) v (Some h_null)) (w_s w)).
Proof.
  intros Ev Es. unfold move_assign. rewrite (getv_some _ _ _ Ev). unfold h_destroy. rewrite Es.
  destruct (if true && negb (is_null hv) then destruct_blk t (h_data hv, h_size hv) (m_heap (w_mem w)) else Some (m_heap (w_mem w))) as [h|]; auto.
  unfold set_heap, set_h, set_mem. cbn [w_h w_mem w_s m_heap m_ctrl sptr_release].
  rewrite (getv_some _ _ _ Ev).
  erewrite (getv_some _ v) by (apply nth_error_upd_eq; eapply nth_error_lt; eauto).
  rewrite Nat.eqb_refl. cbn [w_h w_mem w_s].
  erewrite (getv_some _ v) by (apply nth_error_upd_eq; eapply nth_error_lt; eauto).
  cbn [h_sptr]. now rewrite upd_upd.
Qed.

Lemma assign_move_sim w s v x : RelW w s -> v <> x -> alive (i_h s) v = true -> alive (i_h s) x = true ->
  exists w', move_assign t w v x = Some w' /\ RelW w' (Ideal (i_objs s) (upd (upd (i_h s) v (at_ (i_h s) x)) x Null) (i_s s))
             /\ length (w_h w') = length (w_h w).
Proof.
  intros R Hne Hv Hx. destruct (alive_h _ _ _ _ _ _ _ _ _ R Hv) as (hv & Ev & _). destruct (alive_h _ _ _ _ _ _ _ _ _ R Hx) as (hx & Ex & _).
  rewrite (move_assign_eq _ _ _ _ _ Hne Ev Ex).
  destruct (drop_h t Hok _ _ _ _ _ _ _ _ _ R Hv Ev) as (H' & C' & E & K).
  destruct (w_mem w) as [H0 C0] eqn:Em. cbn [m_heap m_ctrl] in E. rewrite E.
  eexists. split; [reflexivity|]. split; [|cbn [w_h]; now rewrite !upd_length].
  pose proof (alive_at _ _ Hx) as [Exi Hd].
  specialize (K (Some h_null) Null (or_intror (conj eq_refl eq_refl))).
  assert (Ev' : nth_error (upd (w_h w) v (Some h_null)) v = Some (Some h_null)) by (apply nth_error_upd_eq; eapply nth_error_lt; eauto).
  assert (Ei' : nth_error (upd (i_h s) v Null) v = Some Null) by (apply nth_error_upd_eq; now apply alive_lt).
  assert (Ex' : nth_error (upd (w_h w) v (Some h_null)) x = Some (Some hx)) by now rewrite nth_error_upd_neq.
  assert (Hx' : alive (upd (i_h s) v Null) x = true) by (unfold alive in *; now rewrite nth_error_upd_neq).
  pose proof (transfer_h _ _ _ _ _ _ _ _ _ x _ _ _ K Ev' Ei' (or_intror (conj eq_refl eq_refl)) Hne Ex' Hx') as T.
  rewrite !upd_upd in T. replace (at_ (upd (i_h s) v Null) x) with (at_ (i_h s) x) in T; [exact T|].
  symmetry. apply at_nth. now rewrite nth_error_upd_neq.
Qed.
Lemma self_move_sim w s v : RelW w s -> alive (i_h s) v = true ->
  (forall x, nth_error (w_h w) v = Some (Some x) -> h_sptr x = None) ->
  exists w', move_assign t w v v = Some w' /\ RelW w' (Ideal (i_objs s) (upd (i_h s) v Null) (i_s s)).
Proof.
  intros R Hv Hs. destruct (alive_h _ _ _ _ _ _ _ _ _ R Hv) as (hv & Ev & _). rewrite (move_assign_self _ _ _ Ev (Hs _ Ev)).
  destruct (drop_h t Hok _ _ _ _ _ _ _ _ _ R Hv Ev) as (H' & C' & E & K).
  destruct (w_mem w) as [H0 C0] eqn:Em. cbn [m_heap m_ctrl] in E. rewrite E.
  eexists. split; [reflexivity|]. apply (K (Some h_null) Null). right. auto.
Qed.

Lemma F2_length {T U} (P : T -> U -> Prop) l l' : Forall2 P l l' -> length l = length l'.
Proof. induction 1; simpl; auto. Qed.
Lemma rel_length w s : RelW w s -> length (w_h w) = length (i_h s).
Proof. intros R. pose proof (r_h _ _ _ _ _ _ _ _ R) as F. induction F; simpl; auto. Qed.

Lemma firstn_snoc {T} (l : list T) x n : n = length l -> firstn n (l ++ [x]) = l.
Proof. intros ->. rewrite firstn_app, firstn_all, Nat.sub_diag. cbn. apply app_nil_r. Qed.

Lemma snoc_split {T} (l : list T) n : length l = S n -> exists a x, l = a ++ [x] /\ length a = n.
Proof.
  intros H. destruct (exists_last (l := l)) as (a & x & ->); [intros ->; discriminate|].
  exists a, x. split; auto. rewrite app_length in H. simpl in H. lia.
Qed.

Lemma copy_assign_sim w s v x l s' : RelW w s -> alive (i_h s) v = true -> alive (i_h s) x = true ->
  contents (i_objs s) (at_ (i_h s) x) = Some l ->
  (let '(objs', p) := create l (i_objs s) in Some (Ideal objs' (upd (i_h s) v p) (i_s s))) = Some s' ->
  exists w', copy_assign t dflt zero w v x = Some w' /\ RelW w' s'.
Proof.
  intros R Hv Hx Hl E. destruct (shown_h _ _ _ _ R Hx Hl) as (hx & Ex & Sh & G).
  unfold copy_assign. rewrite (getv_some _ _ _ Ex), (h_copy_spec t dflt zero _ _ _ _ Sh G). cbv zeta.
  pose proof (rel_length _ _ R) as Ln. set (n := length (w_h w)) in *.
  pose proof (push_h _ _ _ _ _ _ _ _ R) as R1.
  assert (E1 : nth_error (w_h w ++ [None]) n = Some None) by apply nth_error_new.
  assert (E2 : nth_error (i_h s ++ [Dead]) n = Some Dead) by (rewrite Ln; apply nth_error_new).
  pose proof (create_h _ _ _ _ _ _ _ _ _ _ _ l R1 E1 E2 (or_introl (conj eq_refl eq_refl)) G) as R2.
  destruct (alloc_result l (m_heap (w_mem w))) as [h1 tmp]. destruct (create l (i_objs s)) as [objs1 p1] eqn:Ec.
  unfold n in R2 at 1. rewrite upd_app_r in R2. rewrite Ln, upd_app_r in R2.
  set (w1 := World (Mem h1 (m_ctrl (w_mem w))) (w_h w ++ [Some tmp]) (w_s w)).
  set (s1 := Ideal objs1 (i_h s ++ [p1]) (i_s s)).
  assert (R3 : RelW w1 s1) by exact R2.
  pose proof (alive_lt _ _ Hv) as Lv.
  assert (Hp1 : p1 <> Dead). { destruct l; cbn in Ec; injection Ec as <- <-; discriminate. }
  destruct (assign_move_sim w1 s1 v n R3) as (w2 & E3 & R4 & L4).
  { lia. }
  { unfold alive, s1. cbn [i_h]. now rewrite nth_error_app1. }
  { unfold alive, s1. cbn [i_h]. rewrite Ln, nth_error_new. destruct p1; auto. }
  rewrite E3. cbn [s1 i_h i_objs i_s] in R4.
  assert (Ea : at_ (i_h s ++ [p1]) n = p1). { apply at_nth. rewrite Ln. apply nth_error_new. }
  rewrite Ea, upd_app_l in R4 by lia.
  rewrite <- (upd_length (i_h s) v p1) in Ln. rewrite Ln, upd_app_r in R4.
  assert (L5 : length (w_h w2) = S n). { rewrite L4. cbn. rewrite app_length. cbn. lia. }
  destruct (snoc_split _ _ L5) as (a & y & Ea2 & La). rewrite Ea2.
  pose proof R4 as R5. unfold RelW in R5. rewrite Ea2 in R5. cbn [i_objs i_h i_s] in R5.
  assert (Hy : y = Some h_null).
  { destruct (Forall2_nth_error _ _ _ n Null (r_h _ _ _ _ _ _ _ _ R5)) as (y' & Ey & Hy).
    - rewrite Ln. apply nth_error_new.
    - rewrite <- La, nth_error_new in Ey. cbn in Hy. congruence. }
  subst y. assert (Eg : nth_error (a ++ [Some h_null]) n = Some (Some h_null)) by (rewrite <- La; apply nth_error_new).
  rewrite (getv_some _ _ _ Eg). cbn [h_destroy h_null h_sptr is_null h_data negb andb sptr_release].
  unfold h_destroy. cbn [h_null h_sptr is_null h_data negb andb sptr_release]. unfold is_null. cbn [h_data negb andb].
  rewrite firstn_snoc by auto. eexists. split; [reflexivity|]. injection E as <-.
  assert (V : vacant (Some h_null) Null) by (right; auto).
  assert (Lx : length a = length (upd (i_h s) v p1)) by congruence.
  unfold RelW. cbn [w_mem w_h w_s i_objs i_h i_s m_heap m_ctrl].
  exact (pop_h _ _ _ _ _ _ _ _ _ _ R5 V Lx).
Qed.

Lemma poke_sim w s p i a s' d n : RelW w s -> (forall o, p = Ref o -> exists l, d = Some o /\ nth_error (i_objs s) o = Some l /\ nth_error (m_heap (w_mem w)) o = Some (Block true l) /\ good t l) ->
  poke p i a s = Some s' -> n = 0%nat ->
  exists w', write_elem t d i a w = Some w' /\ RelW w' s'.
Proof.
  intros R Hd E _. destruct p; try discriminate. destruct (Hd _ eq_refl) as (l & -> & Eo & B & G). unfold poke in E. rewrite Eo in E.
  destruct (Nat.ltb_spec i (length l)) as [Hi|]; [|discriminate]. injection E as <-.
  unfold write_elem. rewrite (read_live _ _ _ _ B).
  destruct (nth_error l i) as [c|] eqn:Ei; [|apply nth_error_None in Ei; lia].
  assert (Hc : match c with Some _ => true | None => t_tcopy t end = true).
  { destruct c; auto. destruct (t_tcopy t) eqn:Et; auto. specialize (G Et). unfold some_all in G. rewrite Forall_forall in G.
    exfalso. apply (G None); auto. eapply nth_error_In; eauto. }
  rewrite Hc, (write_live _ _ _ _ _ B Hi). eexists. split; [reflexivity|].
  exact (write_rel _ _ _ _ _ _ _ _ _ _ i a R Eo B G).
Qed.

Lemma share_sim w s x v : RelW w s -> unused (i_s s) x = true -> alive (i_h s) v = true ->
  exists w', share w x v = Some w' /\ RelW w' (Ideal (i_objs s) (i_h s) (upd (i_s s) x (at_ (i_h s) v))).
Proof.
  intros R Hx Hv. destruct (unused_s _ _ _ _ _ _ _ _ _ R Hx) as [Ex Ei].
  assert (V : vacant_s None Dead) by (left; auto).
  unfold share. destruct (alive_h _ _ _ _ _ _ _ _ _ R Hv) as (hv & Ev & [[Eh ->]|(o & Eh)]).
  - rewrite (getv_some _ _ _ Ev). rewrite (at_nth _ _ _ Eh). cbn [is_null h_null h_data].
    destruct (acquire_s _ _ _ _ _ _ _ _ _ _ _ (HShared None 0 None) Null R Ex Ei V) as (C' & E & K); auto; [reflexivity|discriminate|].
    cbn [s_sptr sptr_copy] in E. injection E as <-. unfold is_null. cbn [h_data h_size].
    eexists. split; [reflexivity|]. exact K.
  - rewrite (at_nth _ _ _ Eh). destruct (ref_h_live _ _ _ _ _ _ _ _ _ _ R Eh) as (l & sp & Eo & Hn & Ew & B & G & K).
    assert (hv = HHeap (Some o) (length l) sp) by congruence. subst hv. rewrite (getv_some _ _ _ Ev). unfold is_null. cbn [h_data h_size].
    unfold get_sptr. rewrite (getv_some _ _ _ Ev). cbn [h_data h_size h_sptr]. destruct sp as [c|].
    + destruct (K c eq_refl) as (k & Ec & Ek & Hc).
      destruct (acquire_s _ _ _ _ _ _ _ _ _ _ _ (HShared (Some o) (length l) (Some c)) (Ref o) R Ex Ei V) as (C' & E & K'); auto.
      { cbn. exists l, c. repeat split; auto. exists k. auto. }
      { intros c' Hc'. cbn in Hc'. injection Hc' as <-. eauto. }
      destruct (w_mem w) as [H0 C0] eqn:Em. cbn [s_sptr m_heap m_ctrl] in E, K'. rewrite E.
      unfold set_s, set_mem. cbn [w_mem w_h w_s]. eexists. split; [reflexivity|]. exact K'.
    + unfold set_s, set_h, set_mem. cbn [w_mem w_h w_s m_heap m_ctrl].
      pose proof (make_ctrl _ _ _ _ _ _ _ _ _ _ _ R Ev Eh) as R1.
      destruct (acquire_s _ _ _ _ _ _ _ _ _ _ _ (HShared (Some o) (length l) (Some (length (m_ctrl (w_mem w))))) (Ref o) R1 Ex Ei V) as (C' & E & K'); auto.
      { cbn. exists l, (length (m_ctrl (w_mem w))). repeat split; auto. eexists. split; [apply nth_error_new|]. reflexivity. }
      { intros c' Hc'. cbn in Hc'. injection Hc' as <-. eexists. split; [apply nth_error_new|]. cbn. lia. }
      cbn [s_sptr] in E. rewrite E. cbn [w_mem w_h w_s]. eexists. split; [reflexivity|]. exact K'.
Qed.

(** a readable shared variable *)
Lemma readable_s w s x : RelW w s -> readable (at_ (i_s s) x) = true ->
  nth_error (i_s s) x = Some (at_ (i_s s) x) /\
  exists hx, nth_error (w_s w) x = Some (Some hx) /\ oks (m_ctrl (w_mem w)) (i_objs s) (Some hx) (at_ (i_s s) x)
    /\ (forall c, s_sptr hx = Some c -> exists k, nth_error (m_ctrl (w_mem w)) c = Some k /\ (0 < c_count k)%nat).
Proof.
  intros R Hx. assert (E : nth_error (i_s s) x = Some (at_ (i_s s) x)).
  { destruct (nth_error (i_s s) x) as [p|] eqn:E; [now rewrite (at_nth _ _ _ E)|]. exfalso.
    unfold at_ in Hx. rewrite nth_overflow in Hx; [discriminate|]. now apply nth_error_None. }
  split; auto. destruct (var_s _ _ _ _ _ _ _ _ _ _ R E) as (y & Ey & Hy & _).
  destruct (at_ (i_s s) x) as [| |o|] eqn:Ea; try discriminate.
  - cbn in Hy. subst y. eexists. split; [exact Ey|]. split; [reflexivity|]. discriminate.
  - destruct (ref_s_live _ _ _ _ _ _ _ _ _ _ R E) as (l & c & k & Eo & Hn & Ew & B & G & Ec & Ek & Hc).
    assert (y = Some (HShared (Some o) (length l) (Some c))) by congruence. subst y.
    eexists. split; [exact Ey|]. split; [exact Hy|]. intros c' E'. cbn in E'. injection E' as <-. eauto.
Qed.

Lemma alive_s w s x : RelW w s -> alive (i_s s) x = true -> exists hx, nth_error (w_s w) x = Some (Some hx).
Proof.
  intros R Hx. pose proof (alive_at _ _ Hx) as [E Hd]. destruct (var_s _ _ _ _ _ _ _ _ _ _ R E) as (y & Ey & Hy & _).
  destruct (at_ (i_s s) x); cbn in Hy; try congruence.
  - subst. eauto.
  - destruct Hy as (l & c & _ & _ & -> & _). eauto.
  - destruct Hy as (d & n & ->). eauto.
Qed.

(** copying over a shared variable takes the new owner first *)
Lemma s_copy_assign_sim w s x y : RelW w s -> alive (i_s s) x = true -> readable (at_ (i_s s) y) = true ->
  exists w', s_copy_assign t w x y = Some w' /\ RelW w' (Ideal (i_objs s) (i_h s) (upd (i_s s) x (at_ (i_s s) y))).
Proof.
  intros R Hx Hy. destruct (readable_s _ _ _ R Hy) as (Eiy & hy & Ey & Oy & Ky). destruct (alive_s _ _ _ R Hx) as (hx & Ex).
  unfold s_copy_assign. rewrite (getv_some _ _ _ Ex), (getv_some _ _ _ Ey).
  (* the old owner is kept in a spare variable *)
  set (n := length (w_s w)).
  assert (R1 : Rel t (m_heap (w_mem w)) (m_ctrl (w_mem w)) (w_h w) (w_s w ++ [None]) (i_objs s) (i_h s) (i_s s ++ [Dead])).
  { destruct R as [R1 R2 R3 R4 R5 R6 R7]. constructor; auto.
    - apply Forall2_app; auto. constructor; auto. reflexivity.
    - intros c k Ec. rewrite countif_app. cbn. rewrite (R5 c k Ec). lia. }
  assert (Ln : length (w_s w) = length (i_s s)). { eapply F2_length. apply (r_s _ _ _ _ _ _ _ _ R). }
  assert (E1 : nth_error (w_s w ++ [None]) n = Some None) by apply nth_error_new.
  assert (E2 : nth_error (i_s s ++ [Dead]) n = Some Dead) by (unfold n; rewrite Ln; apply nth_error_new).
  destruct (acquire_s _ _ _ _ _ _ _ _ _ _ _ hy (at_ (i_s s) y) R1 E1 E2 (or_introl (conj eq_refl eq_refl)) Oy Hy Ky) as (C1 & Ec & R2).
  unfold n in R2. rewrite upd_app_r, Ln, upd_app_r in R2.
  destruct (w_mem w) as [H0 C0] eqn:Em. cbn [m_heap m_ctrl] in *. rewrite Ec.
  unfold set_s, set_mem. cbn [w_mem w_h w_s].
  assert (Lx : (x < length (w_s w))%nat) by (eapply nth_error_lt; eauto).
  assert (Hx2 : alive (i_s s ++ [at_ (i_s s) y]) x = true). { unfold alive in *. rewrite nth_error_app1; auto. lia. }
  assert (Ex2 : nth_error (w_s w ++ [Some hy]) x = Some (Some hx)) by now rewrite nth_error_app1.
  destruct (drop_s t Hok _ _ _ _ _ _ _ _ _ R2 Hx2 Ex2) as (H2 & C2 & E3 & K). rewrite E3.
  eexists. split; [reflexivity|].
  specialize (K (Some (HShared None 0 None)) Null (or_intror (or_introl (conj eq_refl eq_refl)))).
  rewrite upd_app_l in K by auto. rewrite upd_app_l in K by lia.
  (* move the spare variable into place *)
  destruct K as [R1' R2' R3' R4' R5' R6' R7']. constructor; auto; cbn [w_mem m_heap m_ctrl w_h w_s i_objs i_h i_s].
  - apply Forall2_app_inv_l in R3'. destruct R3' as (a & b & Ha & Hb & Eab).
    inversion Hb as [|z1 z2 z3 z4 Hz Hz']; subst. inversion Hz'; subst. apply app_inj_tail in Eab. destruct Eab as [Ea Eb]. subst.
    pose proof (Forall2_upd _ _ _ x _ _ Ha Hz) as F. now rewrite !upd_upd in F.
  - intros c k E0. rewrite (R5' c k E0), countif_app. cbn [countif].
    pose proof (countif_upd (holds_s c) (w_s w) x (Some (HShared None 0 None)) _ Ex) as U1.
    pose proof (countif_upd (holds_s c) (w_s w) x (Some hy) _ Ex) as U2.
    replace (holds_s c (Some (HShared None 0 None))) with false in U1 by reflexivity. cbn [b2n] in U1. lia.
Qed.

Theorem step_sim w s o s' : RelW w s -> ideal_step t dflt zero s o = Some s' ->
  (forall v x, o = AssignMove v v -> nth_error (w_h w) v = Some (Some x) -> h_sptr x = None) ->
  exists w', exec t dflt zero w o = Some w' /\ RelW w' s'.
Proof.
  intros R E Hself. destruct o; cbn [ideal_step exec] in *.
  - (* Declare *) destruct (unused (i_h s) v) eqn:Hv; [|discriminate].
    destruct (declare_sim w s v [] s' R Hv) as (w' & E1 & R1); [intros _; constructor|exact E|].
    injection E1 as <-. eexists. split; [reflexivity|]. exact R1.
  - (* New *) destruct (unused (i_h s) v && _) eqn:Hv; [|discriminate]. apply andb_true_iff in Hv. destruct Hv as [Hv Hi].
    rewrite h_new_spec. eapply declare_sim; eauto. now apply good_initial.
  - (* From *) destruct (unused (i_h s) v) eqn:Hv; [|discriminate]. rewrite h_from_spec. eapply declare_sim; eauto. apply good_values.
  - (* CopyH *) destruct (unused (i_h s) v && alive (i_h s) x) eqn:Hv; [|discriminate]. apply andb_true_iff in Hv. destruct Hv as [Hv Hx].
    destruct (contents (i_objs s) (at_ (i_h s) x)) as [l|] eqn:El; [|discriminate].
    destruct (shown_h _ _ _ _ R Hx El) as (hx & Ex & Sh & G). rewrite (getv_some _ _ _ Ex), (h_copy_spec t dflt zero _ _ _ _ Sh G).
    eapply declare_sim; eauto.
  - (* CopyS *) destruct (unused (i_h s) v) eqn:Hv; [|discriminate].
    destruct (contents (i_objs s) (at_ (i_s s) s0)) as [l|] eqn:El; [|discriminate].
    destruct (shown_s _ _ _ _ R El) as (hx & Ex & Sh & G). rewrite (getv_some _ _ _ Ex), (h_copy_spec t dflt zero _ _ _ _ Sh G).
    eapply declare_sim; eauto.
  - (* MoveH *) destruct (unused (i_h s) v && alive (i_h s) x) eqn:Hv; [|discriminate]. apply andb_true_iff in Hv. destruct Hv as [Hv Hx].
    destruct (unused_h _ _ _ _ _ _ _ _ _ R Hv) as [Ev Ei]. destruct (alive_h _ _ _ _ _ _ _ _ _ R Hx) as (hx & Ex & _).
    injection E as <-. unfold move_ctor. rewrite (getv_some _ _ _ Ex). eexists. split; [reflexivity|].
    assert (Hne : v <> x). { intros <-. congruence. }
    exact (transfer_h _ _ _ _ _ _ _ _ _ _ _ _ _ R Ev Ei (or_introl (conj eq_refl eq_refl)) Hne Ex Hx).
  - (* AssignCopy *) destruct (alive (i_h s) v && alive (i_h s) x) eqn:Hv; [|discriminate]. apply andb_true_iff in Hv. destruct Hv as [Hv Hx].
    destruct (contents (i_objs s) (at_ (i_h s) x)) as [l|] eqn:El; [|discriminate]. eapply copy_assign_sim; eauto.
  - (* AssignMove *) destruct (alive (i_h s) v && alive (i_h s) x) eqn:Hv; [|discriminate]. apply andb_true_iff in Hv. destruct Hv as [Hv Hx].
    injection E as <-. destruct (Nat.eq_dec v x) as [<-|Hne].
    + rewrite upd_upd. apply self_move_sim; auto. intros y Ey. eapply Hself; eauto.
    + destruct (assign_move_sim _ _ _ _ R Hne Hv Hx) as (w' & E & R' & _). eauto.
  - (* WriteH *) destruct (alive (i_h s) v) eqn:Hv; [|discriminate]. destruct (alive_h _ _ _ _ _ _ _ _ _ R Hv) as (hx & Ex & _).
    rewrite (getv_some _ _ _ Ex). eapply poke_sim; eauto. intros o Ho. pose proof (alive_at _ _ Hv) as [Ei _]. rewrite Ho in Ei.
    destruct (ref_h_live _ _ _ _ _ _ _ _ _ _ R Ei) as (l & sp & Eo & Hn & Ew & B & G & K). exists l.
    assert (hx = HHeap (Some o) (length l) sp) by congruence. subst hx. auto.
  - (* End *) destruct (alive (i_h s) v) eqn:Hv; [|discriminate]. destruct (alive_h _ _ _ _ _ _ _ _ _ R Hv) as (hx & Ex & _).
    rewrite (getv_some _ _ _ Ex). destruct (drop_h t Hok _ _ _ _ _ _ _ _ _ R Hv Ex) as (H' & C' & Ed & K).
    destruct (w_mem w) as [H0 C0] eqn:Em. cbn [m_heap m_ctrl] in Ed. rewrite Ed. injection E as <-. eexists. split; [reflexivity|].
    apply (K None Dead). left. auto.
  - (* Share *) destruct (unused (i_s s) s0 && alive (i_h s) v) eqn:Hv; [|discriminate]. apply andb_true_iff in Hv. destruct Hv as [Hx Hv].
    injection E as <-. now apply share_sim.
  - (* CopySS *) destruct (unused (i_s s) s0 && readable (at_ (i_s s) x)) eqn:Hv; [|discriminate]. apply andb_true_iff in Hv. destruct Hv as [Hv Hx].
    injection E as <-. destruct (unused_s _ _ _ _ _ _ _ _ _ R Hv) as [Ev Ei].
    destruct (readable_s _ _ _ R Hx) as (Eiy & hy & Ey & Oy & Ky). unfold s_copy. rewrite (getv_some _ _ _ Ey).
    destruct (acquire_s _ _ _ _ _ _ _ _ _ _ _ hy _ R Ev Ei (or_introl (conj eq_refl eq_refl)) Oy Hx Ky) as (C1 & Ec & R2).
    destruct (w_mem w) as [H0 C0] eqn:Em. cbn [m_heap m_ctrl] in Ec, R2. rewrite Ec. eexists. split; [reflexivity|]. exact R2.
  - (* MoveSS *) destruct (unused (i_s s) s0 && readable (at_ (i_s s) x)) eqn:Hv; [|discriminate]. apply andb_true_iff in Hv. destruct Hv as [Hv Hx].
    injection E as <-. destruct (unused_s _ _ _ _ _ _ _ _ _ R Hv) as [Ev Ei].
    destruct (readable_s _ _ _ R Hx) as (Eiy & hy & Ey & Oy & Ky). unfold s_move. rewrite (getv_some _ _ _ Ey).
    eexists. split; [reflexivity|]. assert (Hne : s0 <> x) by (intros <-; congruence).
    exact (transfer_s _ _ _ _ _ _ _ _ _ _ _ _ _ _ R Ev Ei (or_introl (conj eq_refl eq_refl)) Hne Ey Eiy).
  - (* AssignCopySS *) destruct (alive (i_s s) s0 && readable (at_ (i_s s) x)) eqn:Hv; [|discriminate]. apply andb_true_iff in Hv. destruct Hv as [Hv Hx].
    injection E as <-. now apply s_copy_assign_sim.
  - (* AssignMoveSS *) destruct (alive (i_s s) s0 && readable (at_ (i_s s) x)) eqn:Hv; [|discriminate]. apply andb_true_iff in Hv. destruct Hv as [Hv Hx].
    injection E as <-. destruct (alive_s _ _ _ R Hv) as (hv & Ev).
    destruct (readable_s _ _ _ R Hx) as (Eiy & hy & Ey & Oy & Ky). unfold s_move_assign. rewrite (getv_some _ _ _ Ev), (getv_some _ _ _ Ey).
    destruct (Nat.eqb_spec s0 x) as [->|Hne]; [eauto|].
    unfold set_s, set_mem. cbn [w_mem w_h w_s].
    destruct (drop_s t Hok _ _ _ _ _ _ _ _ _ R Hv Ev) as (H2 & C2 & E3 & K).
    destruct (w_mem w) as [H0 C0] eqn:Em. cbn [m_heap m_ctrl] in E3. rewrite E3. eexists. split; [reflexivity|].
    assert (Vn : vacant_s (Some (HShared None 0 None)) Null) by (right; left; auto). specialize (K _ _ Vn).
    assert (Ev' : nth_error (upd (w_s w) s0 (Some (HShared None 0 None))) s0 = Some (Some (HShared None 0 None))) by (apply nth_error_upd_eq; eapply nth_error_lt; eauto).
    assert (Ei' : nth_error (upd (i_s s) s0 Null) s0 = Some Null) by (apply nth_error_upd_eq; now apply alive_lt).
    assert (Ey' : nth_error (upd (w_s w) s0 (Some (HShared None 0 None))) x = Some (Some hy)) by now rewrite nth_error_upd_neq.
    assert (Eiy' : nth_error (upd (i_s s) s0 Null) x = Some (at_ (i_s s) x)) by now rewrite nth_error_upd_neq.
    pose proof (transfer_s _ _ _ _ _ _ _ _ _ _ _ _ _ _ K Ev' Ei' Vn Hne Ey' Eiy') as T. rewrite !upd_upd in T. exact T.
  - (* WriteS *) destruct (alive (i_s s) s0) eqn:Hv; [|discriminate]. destruct (alive_s _ _ _ R Hv) as (hx & Ex).
    rewrite (getv_some _ _ _ Ex). eapply poke_sim; eauto. intros o Ho. pose proof (alive_at _ _ Hv) as [Ei _]. rewrite Ho in Ei.
    destruct (ref_s_live _ _ _ _ _ _ _ _ _ _ R Ei) as (l & c & k & Eo & Hn & Ew & B & G & _). exists l.
    assert (hx = HShared (Some o) (length l) (Some c)) by congruence. subst hx. auto.
  - (* EndS *) destruct (alive (i_s s) s0) eqn:Hv; [|discriminate]. destruct (alive_s _ _ _ R Hv) as (hx & Ex).
    rewrite (getv_some _ _ _ Ex). destruct (drop_s t Hok _ _ _ _ _ _ _ _ _ R Hv Ex) as (H' & C' & Ed & K).
    destruct (w_mem w) as [H0 C0] eqn:Em. cbn [m_heap m_ctrl] in Ed. rewrite Ed. injection E as <-. eexists. split; [reflexivity|].
    apply (K None Dead). left. auto.
Qed.

Lemma start_rel nh ns : RelW (start nh ns) (ideal_start nh ns).
Proof.
  unfold RelW, start, ideal_start. cbn [w_mem m_heap m_ctrl w_h w_s i_objs i_h i_s].
  assert (F : forall T (P : option T -> place -> Prop) n, P None Dead -> Forall2 P (repeat None n) (repeat Dead n)).
  { intros T P n H. induction n; simpl; constructor; auto. }
  assert (Z : forall T (f : option T -> bool) n, f None = false -> countif f (repeat None n) = 0%nat).
  { intros T f n H. induction n; simpl; auto. now rewrite H, IHn. }
  constructor; cbn [length].
  - reflexivity.
  - apply F. reflexivity.
  - apply F. reflexivity.
  - intros [|o] l; discriminate.
  - intros [|c] k; discriminate.
  - intros [|c] k; discriminate.
  - intros b. rewrite Z by reflexivity. unfold live01. destruct b; reflexivity.
Qed.

(** observable consequences *)
Lemma rel_same w s : RelW w s -> same_contents w s.
Proof.
  intros R. split; [|split].
  - intros v l Hv Hl. destruct (shown_h _ _ _ _ R Hv Hl) as (x & Ex & Sh & _). eauto.
  - intros v Hv. pose proof (alive_at _ _ Hv) as [E Hd]. destruct (Forall2_nth_error _ _ _ _ _ (r_h _ _ _ _ _ _ _ _ R) E) as (x & Ex & Hx).
    destruct (at_ (i_h s) v); cbn in *; try congruence; try contradiction. destruct Hx as (l & _ & Eo & _). congruence.
  - intros v l Hl. destruct (shown_s _ _ _ _ R Hl) as (x & Ex & Sh & _). eauto.
Qed.

Lemma rel_exactly w s : RelW w s -> exactly_live w s.
Proof.
  intros R b. split.
  - intros (cs & Eb).
    assert (L : (0 < live01 (m_heap (w_mem w)) b)%nat) by (unfold live01; rewrite Eb; cbn; lia).
    rewrite <- (r_own _ _ _ _ _ _ _ _ R b) in L.
    assert (HH : forall v x, nth_error (w_h w) v = Some (Some x) -> h_data x = Some b -> In (Ref b) (i_h s)).
    { intros v x Ex Ed. destruct (Forall2_nth_error_l _ _ _ _ _ (r_h _ _ _ _ _ _ _ _ R) Ex) as (p & Ep & Hp).
      destruct p; cbn in Hp; try congruence; try contradiction.
      - injection Hp as ->. discriminate.
      - destruct Hp as (l & sp & _ & _ & Exx & _). injection Exx as ->. cbn in Ed. injection Ed as ->. eapply nth_error_In; eauto. }
    destruct (countif (owns_h b) (w_h w)) as [|n] eqn:E1.
    + destruct (countif_ex (owns_c b) (m_ctrl (w_mem w))) as (c & k & Ec & Hk); [lia|].
      unfold owns_c in Hk. apply andb_true_iff in Hk. destruct Hk as [Hk1 Hk2]. apply Nat.ltb_lt in Hk1. apply Nat.eqb_eq in Hk2.
      rewrite (r_cnt _ _ _ _ _ _ _ _ R c k Ec) in Hk1.
      destruct (countif (holds_h c) (w_h w)) as [|n] eqn:E2.
      * destruct (countif_ex (holds_s c) (w_s w)) as (v & x & Ex & Hx); [lia|].
        destruct (Forall2_nth_error_l _ _ _ _ _ (r_s _ _ _ _ _ _ _ _ R) Ex) as (p & Ep & Hp).
        apply in_or_app. right. destruct x as [x|]; [|discriminate]. cbn in Hx. destruct (s_sptr x) as [c'|] eqn:Es; [|discriminate].
        apply Nat.eqb_eq in Hx. subst c'. destruct p; cbn in Hp.
        -- discriminate.
        -- injection Hp as ->. discriminate.
        -- destruct Hp as (l & c' & _ & _ & Exx & k' & Ek' & Eb'). injection Exx as ->. cbn in Es. injection Es as ->.
           assert (k' = k) by congruence. subst k'. rewrite Eb' in Hk2. cbn in Hk2. subst o. eapply nth_error_In; eauto.
        -- destruct Hp as (d & n & Exx). injection Exx as ->. discriminate.
      * destruct (countif_ex (holds_h c) (w_h w)) as (v & x & Ex & Hx); [lia|].
        apply in_or_app. left. destruct x as [x|]; [|discriminate]. cbn in Hx. destruct (h_sptr x) as [c'|] eqn:Es; [|discriminate].
        apply Nat.eqb_eq in Hx. subst c'. apply (HH v x Ex).
        destruct (Forall2_nth_error_l _ _ _ _ _ (r_h _ _ _ _ _ _ _ _ R) Ex) as (p & Ep & Hp).
        destruct p; cbn in Hp; try contradiction; try discriminate.
        -- injection Hp as ->. discriminate.
        -- destruct Hp as (l & sp & _ & _ & Exx & K). injection Exx as ->. cbn in Es. subst sp.
           destruct (K c eq_refl) as (k' & Ek' & Eb'). assert (k' = k) by congruence. subst k'. rewrite Eb' in Hk2. cbn in *. congruence.
    + destruct (countif_ex (owns_h b) (w_h w)) as (v & x & Ex & Hx); [lia|]. apply in_or_app. left.
      destruct x as [x|]; [|discriminate]. cbn in Hx. apply (HH v x Ex).
      destruct (h_sptr x); [discriminate|]. destruct (h_data x); [|discriminate]. apply Nat.eqb_eq in Hx. congruence.
  - intros Hin. apply in_app_or in Hin. destruct Hin as [Hin|Hin]; apply In_nth_error in Hin; destruct Hin as (v & Ev).
    + destruct (ref_h_live _ _ _ _ _ _ _ _ _ _ R Ev) as (l & sp & _ & _ & _ & B & _). eauto.
    + destruct (ref_s_live _ _ _ _ _ _ _ _ _ _ R Ev) as (l & c & k & _ & _ & _ & B & _). eauto.
Qed.

(** whole programs *)
Lemma run_sim p w s s' : RelW w s -> ideal_run t dflt zero s p = Some s' ->
  Forall (fun o => self_move o = false) p -> exists w', run t dflt zero w p = Some w' /\ RelW w' s'.
Proof.
  revert w s. induction p as [|o p IH]; intros w s R E F; cbn [ideal_run run] in *.
  - injection E as <-. eauto.
  - inversion F as [|? ? Ho Fp]; subst. destruct (ideal_step t dflt zero s o) as [s1|] eqn:E1; [|discriminate].
    destruct (step_sim w s o s1 R E1) as (w1 & Ew & R1).
    { intros v x -> _. cbn in Ho. rewrite Nat.eqb_refl in Ho. discriminate. }
    rewrite Ew. eapply IH; eauto.
Qed.

(** without shared handles no control block is ever created *)
Definition unshared (w : world A) : Prop := Forall (fun x => match x with Some h => h_sptr h = None | None => True end) (w_h w).
Lemma unshared_upd (l : list (option hheap)) v y : Forall (fun x => match x with Some h => h_sptr h = None | None => True end) l ->
  match y with Some h => h_sptr h = None | None => True end ->
  Forall (fun x => match x with Some h => h_sptr h = None | None => True end) (upd l v y).
Proof. intros F. revert v. induction F as [|z l Hz Hl IH]; intros [|v] Hy; simpl; constructor; auto. Qed.
Lemma unshared_get l v h : Forall (fun x => match x with Some h => h_sptr h = None | None => True end) l -> getv l v = Some h -> h_sptr h = None.
Proof.
  intros F E. unfold getv in E. destruct (nth_error l v) as [[x|]|] eqn:En; try discriminate. injection E as ->.
  apply nth_error_In in En. rewrite Forall_forall in F. exact (F _ En).
Qed.
Lemma unshared_alloc l (H : heap A) : h_sptr (snd (alloc_result l H)) = None.
Proof. destruct l; reflexivity. Qed.
Lemma h_copy_unshared d n H H' x : h_copy t dflt zero d n H = Some (H', x) -> h_sptr x = None.
Proof.
  unfold h_copy. rewrite h_new_spec. pose proof (unshared_alloc (initial t dflt zero n Raw) H) as U.
  destruct (alloc_result (initial t dflt zero n Raw) H) as [h1 y]. cbn [snd] in U.
  destruct (h_data y); [|intros E; injection E as <- <-; auto]. destruct d; [|discriminate].
  destruct (if t_tcopy t then _ else _); [|discriminate]. intros E; injection E as <- <-; auto.
Qed.
Lemma move_assign_unshared w v x w' : unshared w -> move_assign t w v x = Some w' -> unshared w' /\ length (w_h w') = length (w_h w).
Proof.
  intros U E. unfold move_assign in E. destruct (getv (w_h w) v) as [hv|] eqn:Ev; [|discriminate].
  destruct (if _ && _ then _ else _) as [h|]; [|discriminate].
  unfold set_heap, set_h, set_mem in E. cbn [w_h w_mem w_s m_heap m_ctrl] in E.
  destruct (getv (w_h w) x) as [hx|] eqn:Ex; [|discriminate].
  pose proof (unshared_get _ _ _ U Ev) as Sv. rewrite Sv in E.
  set (l1 := upd (w_h w) v (Some (HHeap (h_data hx) (h_size hx) None))) in *.
  assert (U1 : Forall (fun x => match x with Some h => h_sptr h = None | None => True end) l1) by (apply unshared_upd; auto).
  destruct (getv l1 x) as [hx2|] eqn:Ex2; [|discriminate]. pose proof (unshared_get _ _ _ U1 Ex2) as S2.
  destruct (Nat.eqb v x).
  - cbn [w_h w_mem w_s] in E. rewrite Ex2 in E. injection E as <-. unfold unshared. cbn [w_h]. split; [apply unshared_upd; auto|].
    unfold l1. now rewrite !upd_length.
  - cbn [sptr_release w_h w_mem w_s] in E.
    match type of E with (do _ <- getv ?l x; _) = _ => assert (U3 : Forall (fun x => match x with Some h => h_sptr h = None | None => True end) l) end.
    { apply unshared_upd; [|reflexivity]. apply unshared_upd; auto. }
    match type of E with (do _ <- ?g; _) = _ => destruct g as [hx3|] eqn:Ex3; [|discriminate] end. pose proof (unshared_get _ _ _ U3 Ex3) as S3.
    injection E as <-. unfold unshared. cbn [w_h]. split; [apply unshared_upd; auto|]. unfold l1. now rewrite !upd_length.
Qed.
Lemma In_firstn_in {T} n (l : list T) x : In x (firstn n l) -> In x l.
Proof. intros H. rewrite <- (firstn_skipn n l). apply in_or_app. now left. Qed.
Lemma exec_unshared w o w' : sharing o = false -> unshared w -> exec t dflt zero w o = Some w' -> unshared w'.
Proof.
  intros Ho U E. destruct o; try discriminate; cbn [exec] in E.
  - injection E as <-. now apply unshared_upd.
  - rewrite h_new_spec in E. unfold new_var in E. pose proof (unshared_alloc (initial t dflt zero n i) (m_heap (w_mem w))) as UA.
    destruct (alloc_result _ _) as [h1 y]. injection E as <-. now apply unshared_upd.
  - rewrite h_from_spec in E. unfold new_var in E. pose proof (unshared_alloc (map Some l) (m_heap (w_mem w))) as UA.
    destruct (alloc_result _ _) as [h1 y]. injection E as <-. now apply unshared_upd.
  - destruct (getv (w_h w) x) as [hx|]; [|discriminate]. unfold new_var in E. destruct (h_copy _ _ _ _ _ _) as [[h1 y]|] eqn:Ec; [|discriminate].
    apply h_copy_unshared in Ec. injection E as <-. now apply unshared_upd.
  - unfold move_ctor in E. destruct (getv (w_h w) x) as [hx|] eqn:Ex; [|discriminate]. injection E as <-.
    apply unshared_upd; [|reflexivity]. apply unshared_upd; auto. eapply unshared_get; eauto.
  - unfold copy_assign in E. destruct (getv (w_h w) x) as [hx|] eqn:Ex; [|discriminate].
    destruct (h_copy _ _ _ _ _ _) as [[h1 y]|] eqn:Ec; [|discriminate]. apply h_copy_unshared in Ec.
    destruct (move_assign _ _ _ _) as [w1|] eqn:Em; [|discriminate]. apply move_assign_unshared in Em.
    + destruct Em as [U1 L1]. destruct (getv (w_h w1) (length (w_h w))) as [ht|]; [|discriminate].
      destruct (h_destroy t ht (w_mem w1)) as [m|]; [|discriminate]. injection E as <-.
      unfold unshared in *. cbn [w_h]. rewrite Forall_forall in *. intros z Hz. apply U1. eapply In_firstn_in; eauto.
    + unfold unshared in *. cbn [w_h]. apply Forall_app. split; auto.
  - now apply move_assign_unshared in E.
  - destruct (getv (w_h w) v) as [hv|]; [|discriminate]. unfold write_elem in E. destruct (h_data hv); [|discriminate].
    destruct (read_cell _ _ _); [|discriminate]. destruct (match o with Some _ => _ | None => _ end); [|discriminate].
    destruct (write_cell _ _ _ _); [|discriminate]. injection E as <-. exact U.
  - destruct (getv (w_h w) v) as [hv|]; [|discriminate]. destruct (h_destroy t hv (w_mem w)) as [m|]; [|discriminate]. injection E as <-.
    apply unshared_upd; auto.
Qed.
Lemma run_sim_unshared p w s s' : RelW w s -> unshared w -> ideal_run t dflt zero s p = Some s' ->
  Forall (fun o => sharing o = false) p -> exists w', run t dflt zero w p = Some w' /\ RelW w' s'.
Proof.
  revert w s. induction p as [|o p IH]; intros w s R U E F; cbn [ideal_run run] in *.
  - injection E as <-. eauto.
  - inversion F as [|? ? Ho Fp]; subst. destruct (ideal_step t dflt zero s o) as [s1|] eqn:E1; [|discriminate].
    destruct (step_sim w s o s1 R E1) as (w1 & Ew & R1).
    { intros v x -> Ex. apply (unshared_get _ v x U). now apply getv_some. }
    rewrite Ew. eapply IH; eauto. eapply exec_unshared; eauto.
Qed.
End Run.
