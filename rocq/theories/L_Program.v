(** Lemmas: the machine of M_Program implements the meaning of S_Program. *)
From Verif Require Import Base M_Perm L_Perm M_IdxMap M_Slice M_Loops M_Assign M_Expr M_Transform M_Program S_Layout S_Loops S_Assign S_Expr S_Program
  L_IdxMap L_Slice L_Layout L_Loops L_Assign L_Expr L_Transform P_Slice P_Layout P_Assign P_Expr L_H53.

(** ** small facts *)
Lemma tuples_all shape : Forall (fun l => 0 <= l) shape -> tuples shape = all_idx shape.
Proof.
  induction 1 as [|l shape Hl Hs IH]; [reflexivity|]. cbn [tuples all_idx]. rewrite IH. unfold zseq. rewrite flat_map_concat_map, flat_map_concat_map. now rewrite map_map.
Qed.
Lemma tuples_In shape i : In i (tuples shape) <-> in_range i shape.
Proof.
  revert i; induction shape as [|l shape IH]; intros i; cbn [tuples].
  - split; [intros [<-|[]]; constructor|]. intros H. inversion H. now left.
  - rewrite in_flat_map. split.
    + intros (k & Hk & Hi). apply in_seq in Hk. apply in_map_iff in Hi. destruct Hi as (j & <- & Hj). constructor; [unfold inr; lia|now apply IH].
    + intros H. inversion H as [|x l' i' s' Hx Hr]; subst. unfold inr in Hx. exists (Z.to_nat x). split; [apply in_seq; lia|]. rewrite Z2Nat.id by lia. apply in_map. now apply IH.
Qed.
Lemma same_tuple_spec i j : same_tuple i j = true <-> i = j.
Proof. unfold same_tuple. destruct (list_eq_dec Z.eq_dec i j); split; congruence. Qed.

Lemma nth_error_upd_eq {X} (l : list X) k x : (k < length l)%nat -> nth_error (upd l k x) k = Some x.
Proof. revert k; induction l as [|y l IH]; intros [|k] H; cbn [upd nth_error length] in *; try lia; auto. apply IH; lia. Qed.
Lemma nth_error_upd_neq {X} (l : list X) k j x : k <> j -> nth_error (upd l k x) j = nth_error l j.
Proof. revert k j; induction l as [|y l IH]; intros [|k] [|j] H; cbn [upd nth_error]; auto; try congruence. Qed.
Lemma upd_length {X} (l : list X) k x : length (upd l k x) = length l.
Proof. revert k; induction l as [|y l IH]; intros [|k]; cbn [upd length]; auto. Qed.
Lemma nth_error_last {X} (l : list X) x k : nth_error (l ++ [x]) k = if Nat.eqb k (length l) then Some x else nth_error l k.
Proof.
  destruct (Nat.eqb_spec k (length l)) as [->|H]; [rewrite nth_error_app2 by lia; now rewrite Nat.sub_diag|].
  destruct (Nat.lt_ge_cases k (length l)); [now apply nth_error_app1|]. rewrite (proj2 (nth_error_None _ _)) by (rewrite app_length; cbn [length]; lia). symmetry. apply nth_error_None. lia.
Qed.
Lemma nth_last {X} (l : list X) x d k : nth k (l ++ [x]) d = if Nat.eqb k (length l) then x else nth k l d.
Proof.
  destruct (Nat.eqb_spec k (length l)) as [->|H]; [rewrite app_nth2, Nat.sub_diag by lia; reflexivity|].
  destruct (Nat.lt_ge_cases k (length l)); [now apply app_nth1|]. rewrite !nth_overflow; auto. rewrite app_length; cbn [length]; lia.
Qed.

(** ** the relation between meaning and machine *)
Definition var_ok {V} (arrs : list (aarray V)) (blocks : list cblock) (v : avar) (c : algebra * view) : Prop :=
  fst c = av_alg v /\ im_len (v_lay (snd c)) = av_shape v /\ usable (v_lay (snd c)) /\ (im_so (v_lay (snd c)) = av_order v /\ im_str (v_lay (snd c)) = av_gap v) /\
  exists a b, nth_error arrs (av_arr v) = Some a /\ nth_error blocks (av_arr v) = Some b /\
    (forall i, in_range i (av_shape v) -> in_range (av_at v i) (aa_shape a) /\ cell (snd c) i = cb_base b + addr (cb_lay b) (av_at v i)) /\
    (av_whole v = true -> snd c = View (cb_lay b) (cb_base b) /\ av_shape v = aa_shape a /\ forall i, av_at v i = i) /\
    (exists n off, view_of (fun s => av_forward v = true -> 0 < s) n off (v_lay (snd c))).
Definition arr_ok {V} (m : mem V) (a : aarray V) (b : cblock) : Prop :=
  possible_shape (aa_shape a) /\ is_order (length (aa_shape a)) (aa_order a) /\ cb_lay b = v_lay (new_array (aa_order a) (cb_base b) (aa_shape a)) /\
  cb_alive b = aa_alive a /\ (aa_alive a = true -> forall i, in_range i (aa_shape a) -> m (cb_base b + addr (cb_lay b) i) = aa_val a i).
Definition apart (blocks : list cblock) : Prop :=
  forall k k' b b' a, nth_error blocks k = Some b -> nth_error blocks k' = Some b' -> k <> k' -> cb_alive b = true -> cb_alive b' = true -> in_block b a -> in_block b' a -> False.
Record rel {V} (s : astate V) (w : cworld V) : Prop := Rel {
  rel_len : length (as_arr s) = length (cw_blocks w);
  rel_vlen : length (as_var s) = length (cw_vars w);
  rel_arr : forall k a b, nth_error (as_arr s) k = Some a -> nth_error (cw_blocks w) k = Some b -> arr_ok (cw_mem w) a b;
  rel_apart : apart (cw_blocks w);
  rel_var : forall x, (x < length (as_var s))%nat -> var_ok (as_arr s) (cw_blocks w) (var s x) (cvar w x) }.

Lemma var_ok_mono {V} (arrs arrs' : list (aarray V)) blocks blocks' v c :
  (forall k a b, nth_error arrs k = Some a -> nth_error blocks k = Some b ->
     exists a' b', nth_error arrs' k = Some a' /\ nth_error blocks' k = Some b' /\ aa_shape a' = aa_shape a /\ cb_lay b' = cb_lay b /\ cb_base b' = cb_base b) ->
  var_ok arrs blocks v c -> var_ok arrs' blocks' v c.
Proof.
  intros H (E1 & E2 & U & Q & a & b & Ha & Hb & Hc & Hw & Hf). split; [exact E1|]. split; [exact E2|]. split; [exact U|]. split; [exact Q|].
  destruct (H _ a b Ha Hb) as (a' & b' & Ha' & Hb' & Es & El & Eb). exists a', b'. rewrite Es, El, Eb. auto.
Qed.

(** facts about an array's block *)
Lemma arr_block {V} (m : mem V) a b i : arr_ok m a b -> in_range i (aa_shape a) -> in_block b (cb_base b + addr (cb_lay b) i).
Proof.
  intros ([Hs Hr] & Ho & El & _) Hi. unfold in_block. rewrite El. cbn [new_array v_lay]. cbn [im_len idx_map_of_shape].
  assert (Hv : view_of (fun _ => True) (prodZ (aa_shape a)) 0 (v_lay (new_array (aa_order a) (cb_base b) (aa_shape a)))) by (apply vo_fresh; auto using repeat_length).
  pose proof (view_in_block (fun _ => True) _ _ _ i Hv Hi). cbn [new_array v_lay] in *. lia.
Qed.
Lemma arr_inj {V} (m : mem V) a b i j : arr_ok m a b -> in_range i (aa_shape a) -> in_range j (aa_shape a) -> addr (cb_lay b) i = addr (cb_lay b) j -> i = j.
Proof.
  intros ([Hs Hr] & Ho & El & _) Hi Hj E. rewrite El in E. eapply usable_inj; [exact (new_array_usable _ (cb_base b) _ Ho Hs Hr)| | |exact E]; assumption.
Qed.
Lemma rel_block {V} (s : astate V) w k a : rel s w -> nth_error (as_arr s) k = Some a -> exists b, nth_error (cw_blocks w) k = Some b.
Proof.
  intros R H. assert (k < length (cw_blocks w))%nat by (rewrite <- (rel_len _ _ R); apply nth_error_Some; congruence).
  destruct (nth_error (cw_blocks w) k) as [b|] eqn:E; [eauto|]. apply nth_error_None in E. lia.
Qed.

(** element [i] of array [k] is an element of the live variable [x], or it is none of its cells *)
Lemma hit {V} (A : arith V) (s : astate V) w x k a b i : rel s w -> live s x -> nth_error (as_arr s) k = Some a -> nth_error (cw_blocks w) k = Some b -> aa_alive a = true -> in_range i (aa_shape a) ->
  (k = av_arr (var s x) /\ exists j, find (fun idx => same_tuple (av_at (var s x) idx) i) (tuples (av_shape (var s x))) = Some j /\
     in_range j (av_shape (var s x)) /\ av_at (var s x) j = i /\ cell (snd (cvar w x)) j = cb_base b + addr (cb_lay b) i) \/
  ((k = av_arr (var s x) -> find (fun idx => same_tuple (av_at (var s x) idx) i) (tuples (av_shape (var s x))) = None) /\
   ~ is_cell_of (snd (cvar w x)) (cb_base b + addr (cb_lay b) i)).
Proof.
  intros R [Hx (a0 & Ha0 & Hl0)] Ha Hb Hal Hi. destruct (rel_var _ _ R x Hx) as (E1 & E2 & U & _ & a' & b' & Ha' & Hb' & Hc & _ & _).
  rewrite Ha0 in Ha'. injection Ha' as <-. destruct (Nat.eq_dec k (av_arr (var s x))) as [->|Hk].
  - rewrite Ha0 in Ha. injection Ha as <-. rewrite Hb' in Hb. injection Hb as ->.
    destruct (find _ (tuples (av_shape (var s x)))) as [j|] eqn:F.
    + left. split; auto. exists j. split; auto. apply find_some in F. destruct F as [F1 F2]. apply tuples_In in F1. apply same_tuple_spec in F2. split; auto. split; auto.
      destruct (Hc j F1) as [_ ->]. now rewrite F2.
    + right. split; [auto|]. intros (j & Hj & E). unfold in_view, valid_idx in Hj. rewrite E2 in Hj. destruct (Hc j Hj) as [Hr Ec]. rewrite Ec in E.
      assert (E' : i = av_at (var s x) j) by (eapply arr_inj; [exact (rel_arr _ _ R _ _ _ Ha0 Hb')|exact Hi|exact Hr|lia]).
      pose proof (find_none _ _ F j (proj2 (tuples_In _ _) Hj)) as N. cbn beta in N. rewrite (proj2 (same_tuple_spec _ _) (eq_sym E')) in N. discriminate.
  - right. split; [congruence|]. intros (j & Hj & E). unfold in_view, valid_idx in Hj. rewrite E2 in Hj. destruct (Hc j Hj) as [Hr Ec].
    pose proof (rel_arr _ _ R _ _ _ Ha Hb) as O. pose proof (rel_arr _ _ R _ _ _ Ha0 Hb') as O'.
    eapply (rel_apart _ _ R k (av_arr (var s x)) b b'); [exact Hb|exact Hb'|exact Hk| | |eapply arr_block; [exact O|exact Hi]|].
    + destruct O as (_ & _ & _ & -> & _). exact Hal.
    + destruct O' as (_ & _ & _ & -> & _). exact Hl0.
    + rewrite E, Ec. eapply arr_block; [exact O'|exact Hr].
Qed.

(** two different live variables' cells *)
Lemma same_cell {V} (s : astate V) w x y i j : rel s w -> live s x -> live s y -> in_range i (av_shape (var s x)) -> in_range j (av_shape (var s y)) ->
  cell (snd (cvar w x)) i = cell (snd (cvar w y)) j -> av_arr (var s x) = av_arr (var s y) /\ av_at (var s x) i = av_at (var s y) j.
Proof.
  intros R [Hx (a & Ha & La)] [Hy (c & Hc & Lc)] Hi Hj E.
  destruct (rel_var _ _ R x Hx) as (_ & _ & _ & _ & a' & b & Ha' & Hb & Cx & _ & _). rewrite Ha in Ha'. injection Ha' as <-.
  destruct (rel_var _ _ R y Hy) as (_ & _ & _ & _ & c' & d & Hc' & Hd & Cy & _ & _). rewrite Hc in Hc'. injection Hc' as <-.
  destruct (Cx i Hi) as [Ri Ei]. destruct (Cy j Hj) as [Rj Ej].
  pose proof (rel_arr _ _ R _ _ _ Ha Hb) as O. pose proof (rel_arr _ _ R _ _ _ Hc Hd) as O'.
  destruct (Nat.eq_dec (av_arr (var s x)) (av_arr (var s y))) as [Ek|Nk].
  - split; auto. rewrite Ek in Ha, Hb. rewrite Hc in Ha. injection Ha as <-. rewrite Hd in Hb. injection Hb as <-. eapply arr_inj; [exact O|exact Ri|exact Rj|]. lia.
  - exfalso. eapply (rel_apart _ _ R _ _ b d); [exact Hb|exact Hd|exact Nk| | |eapply arr_block; [exact O|exact Ri]|].
    + destruct O as (_ & _ & _ & -> & _). exact La.
    + destruct O' as (_ & _ & _ & -> & _). exact Lc.
    + rewrite <- Ei, E, Ej. eapply arr_block; [exact O'|exact Rj].
Qed.
Lemma live_read {V} (A : arith V) (s : astate V) w x i : rel s w -> live s x -> in_range i (av_shape (var s x)) -> cw_mem w (cell (snd (cvar w x)) i) = read A s x i.
Proof.
  intros R [Hx (a & Ha & La)] Hi. destruct (rel_var _ _ R x Hx) as (_ & _ & _ & _ & a' & b & Ha' & Hb & Cx & _ & _). rewrite Ha in Ha'. injection Ha' as <-.
  destruct (Cx i Hi) as [Ri ->]. destruct (rel_arr _ _ R _ _ _ Ha Hb) as (_ & _ & _ & _ & M). rewrite (M La _ Ri). unfold read. now rewrite (nth_error_nth _ _ _ Ha).
Qed.
Lemma live_usable {V} (s : astate V) w x : rel s w -> live s x -> usable (v_lay (snd (cvar w x))) /\ im_len (v_lay (snd (cvar w x))) = av_shape (var s x).
Proof. intros R [Hx _]. destruct (rel_var _ _ R x Hx) as (_ & E & U & _). auto. Qed.

(** ** a new memory in which the elements of [x] have the values [g] *)
Definition only_mem {V} (s : astate V) (w : cworld V) (m : mem V) : Prop :=
  forall k a b, nth_error (as_arr s) k = Some a -> nth_error (cw_blocks w) k = Some b -> arr_ok m a b.
Lemma overwrite_var {V} (A : arith V) (s : astate V) x g y : var (overwrite A s x g) y = var s y.
Proof. reflexivity. Qed.
Lemma overwrite_arr {V} (A : arith V) (s : astate V) x g k a' : nth_error (as_arr (overwrite A s x g)) k = Some a' ->
  exists a, nth_error (as_arr s) k = Some a /\ aa_shape a' = aa_shape a /\ aa_order a' = aa_order a /\ aa_alive a' = aa_alive a /\
    forall i, aa_val a' i = if Nat.eqb k (av_arr (var s x)) then match find (fun idx => same_tuple (av_at (var s x) idx) i) (tuples (av_shape (var s x))) with Some idx => g idx | None => aa_val a i end else aa_val a i.
Proof.
  unfold overwrite. cbn [as_arr]. destruct (Nat.eqb_spec k (av_arr (var s x))) as [->|Hk].
  - intros H. assert (L : (av_arr (var s x) < length (as_arr s))%nat). { erewrite <- upd_length. apply nth_error_Some. rewrite H. discriminate. }
    rewrite nth_error_upd_eq in H by auto. injection H as <-. destruct (nth_error (as_arr s) (av_arr (var s x))) as [a|] eqn:E; [|apply nth_error_None in E; lia].
    rewrite (nth_error_nth _ _ _ E). exists a. cbn. auto.
  - rewrite nth_error_upd_neq by auto. intros H. exists a'. auto.
Qed.
Lemma overwrite_mono {V} (A : arith V) (s : astate V) x g k a : nth_error (as_arr s) k = Some a -> exists a', nth_error (as_arr (overwrite A s x g)) k = Some a' /\ aa_shape a' = aa_shape a.
Proof.
  intros H. assert (L : (k < length (as_arr (overwrite A s x g)))%nat) by (unfold overwrite; cbn [as_arr]; rewrite upd_length; apply nth_error_Some; congruence).
  destruct (nth_error (as_arr (overwrite A s x g)) k) as [a'|] eqn:E; [|apply nth_error_None in E; lia]. exists a'. split; auto.
  destruct (overwrite_arr _ _ _ _ _ _ E) as (a0 & Ha0 & -> & _). congruence.
Qed.
Lemma overwrite_live {V} (A : arith V) (s : astate V) x g y : live s y -> live (overwrite A s x g) y.
Proof.
  intros [Hy (a & Ha & La)]. split; [exact Hy|]. rewrite overwrite_var. destruct (overwrite_mono A s x g _ _ Ha) as (a' & Ha' & _). exists a'. split; auto.
  destruct (overwrite_arr _ _ _ _ _ _ Ha') as (a0 & Ha0 & _ & _ & E & _). congruence.
Qed.
(** changing only the memory and only values *)
Lemma rel_mem {V} (s s' : astate V) w m temps : rel s w -> as_var s' = as_var s ->
  (forall k a, nth_error (as_arr s) k = Some a -> exists a', nth_error (as_arr s') k = Some a' /\ aa_shape a' = aa_shape a) ->
  length (as_arr s') = length (as_arr s) ->
  (forall k a' b, nth_error (as_arr s') k = Some a' -> nth_error (cw_blocks w) k = Some b -> arr_ok m a' b) ->
  rel s' (CWorld m (cw_blocks w) temps (cw_vars w)).
Proof.
  intros R Ev Hm HL Ha. split; cbn [cw_mem cw_blocks cw_vars].
  - rewrite HL. apply R.
  - rewrite Ev. apply R.
  - exact Ha.
  - apply R.
  - intros x Hx. rewrite Ev in Hx. unfold var. rewrite Ev. apply (var_ok_mono (as_arr s) _ (cw_blocks w) _); [|exact (rel_var _ _ R x Hx)].
    intros k a b Hk Hb. destruct (Hm k a Hk) as (a' & Ha' & E). exists a', b. auto.
Qed.
Lemma overwrite_rel {V} (A : arith V) (s : astate V) w x g m : rel s w -> live s x -> holds (snd (cvar w x)) m g -> unchanged_outside (snd (cvar w x)) (cw_mem w) m ->
  rel (overwrite A s x g) (with_mem w m).
Proof.
  intros R L Hh Hu. apply (rel_mem s); auto.
  - intros k a Ha. eapply overwrite_mono; eauto.
  - unfold overwrite. cbn [as_arr]. apply upd_length.
  - intros k a' b Ha' Hb. destruct (overwrite_arr _ _ _ _ _ _ Ha') as (a & Ha & E1 & E2 & E3 & E4).
    destruct (rel_arr _ _ R _ _ _ Ha Hb) as (O1 & O2 & O3 & O4 & O5). unfold arr_ok. rewrite E1, E2, E3. do 4 (split; [assumption|]).
    intros Al i Hi. rewrite E4. destruct (hit A s w x k a b i R L Ha Hb Al Hi) as [(-> & j & F & Hj & Ej & Ec)|[F N]].
    + rewrite Nat.eqb_refl, F, <- Ec. apply Hh. unfold in_view, valid_idx. now rewrite (proj2 (live_usable s w x R L)).
    + rewrite (Hu _ N), (O5 Al i Hi). destruct (Nat.eqb_spec k (av_arr (var s x))) as [E|_]; [now rewrite (F E)|reflexivity].
Qed.

(** ** expressions *)
Lemma build_leaves {V} (w : cworld V) zero e v : In v (leaves (build w zero e)) <-> exists x, In x (vars_of e) /\ v = snd (cvar w x).
Proof.
  induction e as [x|a IH|op l IHl r IHr|op c r IHr|op l IHl c|f a IH|f a IHa b IHb]; cbn [build leaves leaves_list vars_of]; auto.
  - split; [intros [<-|[]]; exists x; cbn; auto|]. intros (y & [<-|[]] & ->). now left.
  - rewrite in_app_iff, IHl, IHr. split.
    + intros [(x & Hx & E)|(x & Hx & E)]; exists x; rewrite in_app_iff; auto.
    + intros (x & Hx & E). apply in_app_iff in Hx. destruct Hx; [left|right]; eauto.
  - rewrite in_app_iff, IHa, IHb. split.
    + intros [(x & Hx & E)|(x & Hx & E)]; exists x; rewrite in_app_iff; auto.
    + intros (x & Hx & E). apply in_app_iff in Hx. destruct Hx; [left|right]; eauto.
Qed.
Lemma build_algebra {V} (s : astate V) (w : cworld V) zero e : rel s w -> (forall x, In x (vars_of e) -> (x < length (as_var s))%nat) -> get_algebra (build w zero e) = algebra_of s e.
Proof.
  intros R. induction e as [x|a IH|op l IHl r IHr|op c r IHr|op l IHl c|f a IH|f a IHa b IHb]; cbn [build get_algebra all_algebra algebra_of vars_of]; intros H; auto.
  - apply (rel_var _ _ R x). apply H. now left.
  - apply IHl. intros x Hx. apply H, in_app_iff. now left.
  - rewrite IHa, IHb; auto; intros x Hx; apply H, in_app_iff; auto.
Qed.
Lemma build_denote {V} (A : arith V) (s : astate V) (w : cworld V) e shape i : rel s w -> well_shaped s e shape -> in_range i shape ->
  denote A (cw_mem w) (build w (v_zero A) e) i = value A s e i.
Proof.
  intros R. induction e as [x|a IH|op l IHl r IHr|op c r IHr|op l IHl c|f a IH|f a IHa b IHb]; cbn [build denote denotes value]; intros H Hi.
  - destruct (H x) as [L E]; [now left|]. apply live_read; auto. now rewrite E.
  - now rewrite IH.
  - rewrite IHl, IHr; auto; intros x Hx; apply H; cbn [vars_of]; apply in_app_iff; auto.
  - rewrite IHr by auto. rewrite (build_algebra s w _ r R); auto. intros x Hx. apply (H x Hx).
  - rewrite IHl by auto. rewrite (build_algebra s w _ l R); auto. intros x Hx. apply (H x Hx).
  - now rewrite IH.
  - rewrite IHa, IHb; auto; intros x Hx; apply H; cbn [vars_of]; apply in_app_iff; auto.
Qed.
Lemma build_common {V} (s : astate V) (w : cworld V) zero e shape : rel s w -> well_shaped s e shape -> common_shape (build w zero e) shape /\ leaves_truthful (build w zero e).
Proof.
  intros R H. split; intros v Hv; apply build_leaves in Hv; destruct Hv as (x & Hx & ->); destruct (H x Hx) as [L E]; destruct (live_usable s w x R L) as [U El]; [congruence|apply U].
Qed.
Lemma vars_of_nonempty {V} (e : pexpr V) : In (hd 0%nat (vars_of e)) (vars_of e).
Proof.
  induction e as [x|a IH|op l IHl r IHr|op c r IHr|op l IHl c|f a IH|f a IHa b IHb]; cbn [vars_of]; auto; [now left| |].
  - destruct (vars_of l); [destruct IHl|]. now left.
  - destruct (vars_of a); [destruct IHa|]. now left.
Qed.
(** the right hand side has, at [i], the value of the expression, and depends only on the cells of its arrays there *)
Lemma rhs_of_value {V} (A : arith V) (s : astate V) (w : cworld V) e shape i : zero_neutral A -> rel s w -> well_shaped s e shape -> in_range i shape ->
  rhs_value (rhs_of A (build w (v_zero A) e)) (cw_mem w) i = value A s e i.
Proof.
  intros HZ R H Hi. destruct (build_common s w (v_zero A) e shape R H) as [Hc Ht]. rewrite <- (build_denote A s w e shape i R H Hi).
  pose proof (proj2 (C23_value A (cw_mem w) _ shape i HZ Hc Ht Hi)) as E. destruct (build w (v_zero A) e); cbn [rhs_of rhs_value denote]; auto.
Qed.
Lemma rhs_of_local {V} (A : arith V) (s : astate V) (w : cworld V) e shape i m1 m2 : zero_neutral A -> rel s w -> well_shaped s e shape -> in_range i shape ->
  (forall x, In x (vars_of e) -> m1 (cell (snd (cvar w x)) i) = m2 (cell (snd (cvar w x)) i)) ->
  rhs_value (rhs_of A (build w (v_zero A) e)) m1 i = rhs_value (rhs_of A (build w (v_zero A) e)) m2 i.
Proof.
  intros HZ R H Hi Hm. destruct (build_common s w (v_zero A) e shape R H) as [Hc Ht].
  assert (Hl : forall v, In v (leaves (build w (v_zero A) e)) -> m1 (cell v i) = m2 (cell v i)) by (intros v Hv; apply build_leaves in Hv; destruct Hv as (x & Hx & ->); auto).
  pose proof (C23_local A _ shape i m1 m2 HZ Hc Ht Hi Hl) as E. destruct (build w (v_zero A) e); cbn [rhs_of rhs_value]; auto. apply Hl. now left.
Qed.
Lemma rhs_of_mem {V} (A : arith V) (s : astate V) (w : cworld V) e shape src : rel s w -> well_shaped s e shape -> rhs_of A (build w (v_zero A) e) = RMem src ->
  truthful (v_lay src) /\ im_len (v_lay src) = shape.
Proof.
  intros R H E. destruct (build_common s w (v_zero A) e shape R H) as [Hc Ht]. destruct (build w (v_zero A) e) as [alg v| | | | |]; try discriminate. injection E as <-.
  split; [apply Ht|apply Hc]; now left.
Qed.
Lemma build_shape {V} (s : astate V) (w : cworld V) zero e shape : rel s w -> well_shaped s e shape -> expr_shape (build w zero e) = shape.
Proof. intros R H. destruct (build_common s w zero e shape R H) as [Hc _]. now apply (proj1 shapes_of_common). Qed.
