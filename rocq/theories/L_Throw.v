(** Lemmas: statements do not depend on memory that belongs to nobody; what a failed resize leaves. *)
From Verif Require Import Base M_Perm M_IdxMap S_Layout M_Loops L_Loops M_Handle S_Handle M_Array S_Array L_Handle L_Own L_Run L_Array M_Throw S_Throw.

Section Frame.
Context {A : Type}.
Variable (t : traits) (dflt zero : A) (so : list nat) (pr : layout_prop) (junk : list Z) (L : list nat).

(** [h] is [h0] with the blocks [L], which are dead in [h0], alive *)
Definition hle (h0 h : heap A) : Prop :=
  length h0 = length h /\ forall b, if in_dec Nat.eq_dec b L then nth_error h0 b = Some (Block false []) /\ exists cs, nth_error h b = Some (Block true cs)
                                    else nth_error h b = nth_error h0 b.
Definition mle (m0 m : mem A) : Prop := hle (m_heap m0) (m_heap m) /\ m_ctrl m = m_ctrl m0.
Definition wle (w0 w : world A) : Prop := mle (w_mem w0) (w_mem w) /\ w_h w = w_h w0 /\ w_s w = w_s w0.
Definition om {T U} (R : T -> U -> Prop) (x0 : option T) (x : option U) : Prop := forall y0, x0 = Some y0 -> exists y, x = Some y /\ R y0 y.

Lemma om_some {T U} (R : T -> U -> Prop) y0 y : R y0 y -> om R (Some y0) (Some y).
Proof. intros H z E. injection E as <-. eauto. Qed.
Lemma om_none {T U} (R : T -> U -> Prop) x : om R None x. Proof. intros z E. discriminate. Qed.
Lemma om_bind {T U T' U'} (R : T -> U -> Prop) (R' : T' -> U' -> Prop) x0 x (f0 : T -> option T') (f : U -> option U') :
  om R x0 x -> (forall y0 y, R y0 y -> om R' (f0 y0) (f y)) -> om R' (match x0 with Some y => f0 y | None => None end) (match x with Some y => f y | None => None end).
Proof. intros H F. destruct x0 as [y0|]; [|apply om_none]. destruct (H y0 eq_refl) as (y & -> & Hy). now apply F. Qed.
Lemma om_refl {T} (x : option T) : om eq x x. Proof. intros y ->. eauto. Qed.

Lemma hle_live h0 h b cs : hle h0 h -> nth_error h0 b = Some (Block true cs) -> ~ In b L /\ nth_error h b = Some (Block true cs).
Proof. intros [_ H] E. specialize (H b). destruct (in_dec Nat.eq_dec b L) as [i|n]; [destruct H as [H _]; congruence|]. split; auto. congruence. Qed.
Lemma hle_upd h0 h b x : hle h0 h -> ~ In b L -> hle (upd h0 b x) (upd h b x).
Proof.
  intros [HL H] N. split; [now rewrite !upd_length|]. intros c. specialize (H c). destruct (in_dec Nat.eq_dec c L) as [i|n].
  - rewrite !nth_error_upd_neq by congruence. exact H.
  - destruct (Nat.eq_dec b c) as [<-|Nb]; [|now rewrite !nth_error_upd_neq by auto].
    destruct (Nat.lt_ge_cases b (length h0)) as [l|l].
    + rewrite !nth_error_upd_eq by congruence. reflexivity.
    + assert (E0 : nth_error (upd h0 b x) b = None) by (apply nth_error_None; rewrite upd_length; lia). assert (E1 : nth_error (upd h b x) b = None) by (apply nth_error_None; rewrite upd_length; lia). congruence.
Qed.
Lemma hle_app h0 h x : hle h0 h -> hle (h0 ++ [x]) (h ++ [x]).
Proof.
  intros [HL H]. split; [rewrite !app_length; lia|]. intros c. specialize (H c). destruct (in_dec Nat.eq_dec c L) as [i|n].
  - destruct H as (H1 & cs & H2). rewrite !nth_error_app1 by (eapply nth_error_lt; eauto). eauto.
  - destruct (Nat.lt_ge_cases c (length h0)); [rewrite !nth_error_app1 by lia; exact H|rewrite !nth_error_app2 by lia; now rewrite HL].
Qed.

Lemma get_block_om h0 h b : hle h0 h -> om (fun c0 c => c = c0 /\ ~ In b L) (get_block h0 b) (get_block h b).
Proof.
  intros H cs E. unfold get_block in *. destruct (nth_error h0 b) as [[l c]|] eqn:Eb; [|discriminate]. cbn [b_live b_cells] in E. destruct l; [|discriminate]. injection E as ->.
  destruct (hle_live _ _ _ _ H Eb) as [N ->]. cbn [b_live b_cells]. exists cs. auto.
Qed.
Lemma read_cell_om h0 h b i : hle h0 h -> om eq (read_cell h0 b i) (read_cell h b i).
Proof. intros H. unfold read_cell. eapply om_bind; [now apply get_block_om|]. intros c0 c [-> _]. apply om_refl. Qed.
Lemma write_cell_om h0 h b i c : hle h0 h -> om hle (write_cell h0 b i c) (write_cell h b i c).
Proof. intros H. unfold write_cell. eapply om_bind; [now apply get_block_om|]. intros c0 c1 [-> N]. destruct (Nat.ltb i (length c0)); [|apply om_none]. apply om_some. now apply hle_upd. Qed.
Lemma for_upto_om {T U} (R : T -> U -> Prop) n f0 f s0 s : (forall i s0 s, R s0 s -> om R (f0 i s0) (f i s)) -> R s0 s -> om R (for_upto n f0 s0) (for_upto n f s).
Proof. intros F HR. induction n as [|n IH]; cbn [for_upto]; [now apply om_some|]. eapply om_bind; [exact IH|]. intros. now apply F. Qed.
Lemma construct_om b i v h0 h : hle h0 h -> om hle (construct t b i v h0) (construct t b i v h).
Proof. intros H. unfold construct. eapply om_bind; [now apply read_cell_om|]. intros c0 c <-. destruct c0; [destruct (t_tcopy t); [|apply om_none]|]; now apply write_cell_om. Qed.
Lemma destroy_om b i h0 h : hle h0 h -> om hle (destroy t b i h0) (destroy t b i h).
Proof. intros H. unfold destroy. eapply om_bind; [now apply read_cell_om|]. intros c0 c <-. destruct c0; [now apply write_cell_om|]. destruct (t_tcopy t); [now apply om_some|apply om_none]. Qed.
Lemma deallocate_om b n h0 h : hle h0 h -> om hle (deallocate t b n h0) (deallocate t b n h).
Proof. intros H. unfold deallocate. eapply om_bind; [now apply get_block_om|]. intros c0 c [-> N]. match goal with |- om _ (if ?x then _ else _) _ => destruct x end; [|apply om_none]. apply om_some. now apply hle_upd. Qed.
Lemma memcpy_om d s n h0 h : hle h0 h -> om hle (memcpy d s n h0) (memcpy d s n h).
Proof. intros H. unfold memcpy. apply for_upto_om; auto. intros i g0 g G. eapply om_bind; [now apply read_cell_om|]. intros c0 c <-. now apply write_cell_om. Qed.
Lemma destruct_blk_om p h0 h : hle h0 h -> om hle (destruct_blk t p h0) (destruct_blk t p h).
Proof.
  intros H. unfold destruct_blk. destruct (fst p) as [b|]; [|now apply om_some]. apply om_bind with (R := hle); [|intros; now apply deallocate_om].
  destruct (negb (t_trivial t || t_complex t)); [|now apply om_some]. apply for_upto_om; auto. intros. now apply destroy_om.
Qed.
Lemma sptr_release_om s m0 m : mle m0 m -> om mle (sptr_release t s m0) (sptr_release t s m).
Proof.
  intros [H C]. unfold sptr_release. destruct s as [c|]; [|apply om_some; now split]. rewrite C. destruct (nth_error (m_ctrl m0) c) as [k|]; [|apply om_none].
  destruct (c_count k) as [|[|n]]; [apply om_none| |apply om_some; split; cbn [m_heap m_ctrl]; auto].
  apply om_bind with (R := hle); [now apply destruct_blk_om|]. intros g0 g G. apply om_some. split; auto.
Qed.
Definition hh (r0 r : heap A * hheap) : Prop := hle (fst r0) (fst r) /\ snd r = snd r0.
Lemma hle_len h0 h : hle h0 h -> length h = length h0. Proof. intros [E _]. auto. Qed.
Lemma h_new_om n i h0 h : hle h0 h -> om hh (h_new t dflt zero n i h0) (h_new t dflt zero n i h).
Proof.
  intros H. unfold h_new, allocate, allocate_zero. rewrite (hle_len _ _ H). destruct (Nat.eqb n 0); [apply om_some; now split|]. destruct i; try (apply om_some; split; [now apply hle_app|reflexivity]).
  destruct (t_complex t); (apply om_bind with (R := hle); [|intros g0 g G; apply om_some; split; [exact G|reflexivity]]);
    match goal with |- om _ (if ?x then _ else _) _ => destruct x end; try (apply om_some; now apply hle_app); (apply for_upto_om; [intros; now apply construct_om|now apply hle_app]).
Qed.
Lemma h_copy_om d n h0 h : hle h0 h -> om hh (h_copy t dflt zero d n h0) (h_copy t dflt zero d n h).
Proof.
  intros H. unfold h_copy. apply om_bind with (R := hh); [now apply h_new_om|]. intros [g0 x0] [g x] [G E]. cbn [fst snd] in G, E. subst x. destruct (h_data x0) as [b|]; [|apply om_some; now split].
  destruct d as [s|]; [|apply om_none]. apply om_bind with (R := hle).
  - destruct (t_tcopy t); [now apply memcpy_om|]. apply for_upto_om; auto. intros i k0 k K. eapply om_bind; [now apply read_cell_om|]. intros c0 c <-. destruct c0; [|apply om_none]. now apply construct_om.
  - intros k0 k K. apply om_some. now split.
Qed.
Lemma h_destroy_om x m0 m : mle m0 m -> om mle (h_destroy t x m0) (h_destroy t x m).
Proof.
  intros [H C]. unfold h_destroy. apply om_bind with (R := hle).
  - match goal with |- om _ (if ?x then _ else _) _ => destruct x end; [now apply destruct_blk_om|now apply om_some].
  - intros g0 g G. rewrite C. apply sptr_release_om. now split.
Qed.
Lemma wle_set_h w0 w v x : wle w0 w -> wle (set_h w0 v x) (set_h w v x).
Proof. intros (H1 & H2 & H3). split; [exact H1|]. cbn [set_h w_h w_s]. now rewrite H2, H3. Qed.
Lemma wle_set_mem w0 w m0 m : wle w0 w -> mle m0 m -> wle (set_mem w0 m0) (set_mem w m).
Proof. intros (H1 & H2 & H3) H. split; [exact H|]. cbn [set_mem w_h w_s]. now rewrite H2, H3. Qed.
Lemma wle_set_heap w0 w h0 h : wle w0 w -> hle h0 h -> wle (set_heap w0 h0) (set_heap w h).
Proof. intros ([H0 H1] & H2 & H3) H. split; [split; [exact H|exact H1]|]. cbn [set_heap w_h w_s]. now rewrite H2, H3. Qed.
Lemma wle_heap w0 w : wle w0 w -> hle (m_heap (w_mem w0)) (m_heap (w_mem w)). Proof. intros ([H _] & _). exact H. Qed.
Lemma getv_om w0 w v : wle w0 w -> om eq (getv (w_h w0) v) (getv (w_h w) v).
Proof. intros (_ & E & _). rewrite E. apply om_refl. Qed.
Lemma move_assign_om w0 w v x : wle w0 w -> om wle (move_assign t w0 v x) (move_assign t w v x).
Proof.
  intros H. unfold move_assign. eapply om_bind; [now apply getv_om|]. intros hv0 hv <-. apply om_bind with (R := hle).
  - match goal with |- om _ (if ?x then _ else _) _ => destruct x end; [apply destruct_blk_om|apply om_some]; now apply wle_heap.
  - intros g0 g G. pose proof (wle_set_heap _ _ _ _ H G) as W1. eapply om_bind; [now apply getv_om|]. intros hx0 hx <-.
    match goal with |- om _ (match getv (w_h (set_h _ _ ?z)) _ with _ => _ end) _ => pose proof (wle_set_h _ _ v z W1) as W2 end.
    eapply om_bind; [now apply getv_om|]. intros hx0' hx <-. apply om_bind with (R := wle).
    + destruct (Nat.eqb v x); [now apply om_some|].
      match goal with |- om _ (match sptr_release _ _ (w_mem (set_h (set_h _ _ ?y) _ ?z)) with _ => _ end) _ => pose proof (wle_set_h _ _ x z (wle_set_h _ _ v y W2)) as W3 end.
      apply om_bind with (R := mle); [apply sptr_release_om; apply W3|]. intros m0 m M. apply om_some. now apply wle_set_mem.
    + intros w3 w3' W3. eapply om_bind; [now apply getv_om|]. intros hx3 hx <-. apply om_some. now apply wle_set_h.
Qed.
Lemma copy_assign_om w0 w v x : wle w0 w -> om wle (copy_assign t dflt zero w0 v x) (copy_assign t dflt zero w v x).
Proof.
  intros H. unfold copy_assign. eapply om_bind; [now apply getv_om|]. intros hx0 hx <-. apply om_bind with (R := hh); [apply h_copy_om; now apply wle_heap|].
  intros [g0 y0] [g y] [G E]. cbn [fst snd] in G, E. subst y. pose proof H as ([_ C] & Eh & Es). rewrite Eh, Es, C. apply om_bind with (R := wle).
  - apply move_assign_om. split; [split; [exact G|reflexivity]|]. now split.
  - intros w1 w1' W1. eapply om_bind; [now apply getv_om|]. intros ht0 ht <-. apply om_bind with (R := mle); [apply h_destroy_om; apply W1|].
    intros m0 m M. apply om_some. destruct W1 as (_ & E1 & E2). split; [exact M|]. cbn [w_h w_s]. now rewrite E1, E2.
Qed.
Lemma new_var_om w0 w v r0 r : wle w0 w -> om hh r0 r -> om wle (new_var w0 v r0) (new_var w v r).
Proof.
  intros H Hr. unfold new_var. apply om_bind with (R := hh); [exact Hr|]. intros [g0 y0] [g y] [G E]. cbn [fst snd] in G, E. subst y. apply om_some. apply wle_set_h. now apply wle_set_heap.
Qed.
Lemma exec_om w0 w o : wle w0 w -> sharing o = false -> match o with From _ _ => False | _ => True end -> om wle (exec t dflt zero w0 o) (exec t dflt zero w o).
Proof.
  intros H S F. destruct o; try discriminate S; try contradiction; cbn [exec].
  - apply om_some. now apply wle_set_h.
  - apply new_var_om; auto. apply h_new_om. now apply wle_heap.
  - eapply om_bind; [now apply getv_om|]. intros hx0 hx <-. apply new_var_om; auto. apply h_copy_om. now apply wle_heap.
  - unfold move_ctor. eapply om_bind; [now apply getv_om|]. intros hx0 hx <-. apply om_some. now apply wle_set_h, wle_set_h.
  - now apply copy_assign_om.
  - now apply move_assign_om.
  - eapply om_bind; [now apply getv_om|]. intros hx0 hx <-. unfold write_elem. eapply om_bind; [apply om_refl|]. intros b ? <-. eapply om_bind; [apply read_cell_om; now apply wle_heap|].
    intros c ? <-. match goal with |- om _ (if ?x then _ else _) _ => destruct x end; [|apply om_none]. apply om_bind with (R := hle); [apply write_cell_om; now apply wle_heap|]. intros g0 g G. apply om_some. now apply wle_set_heap.
  - eapply om_bind; [now apply getv_om|]. intros hx0 hx <-. apply om_bind with (R := mle); [apply h_destroy_om; apply H|]. intros m0 m M. apply om_some. apply wle_set_h. now apply wle_set_mem.
Qed.
Lemma run_om ops : forall w0 w, wle w0 w -> Forall (fun o => sharing o = false /\ match o with From _ _ => False | _ => True end) ops ->
  om wle (run t dflt zero w0 ops) (run t dflt zero w ops).
Proof.
  induction ops as [|o ops IH]; intros w0 w H F; cbn [run]; [now apply om_some|]. inversion F as [|? ? [F1 F2] F3]; subst. apply om_bind with (R := wle); [now apply exec_om|]. auto.
Qed.

(** array variables; [ok u]: the layout of [u] is the same *)
Definition ale (ok : nat -> Prop) (w0 w : aworld A) : Prop :=
  wle (aw_w w0) (aw_w w) /\ length (aw_lay w) = length (aw_lay w0) /\ forall u, ok u -> nth u (aw_lay w) (layout_default so pr junk) = nth u (aw_lay w0) (layout_default so pr junk).
Lemma ale_mono (ok ok' : nat -> Prop) w0 w : (forall u, ok' u -> ok u) -> ale ok w0 w -> ale ok' w0 w.
Proof. intros H (H1 & H2 & H3). split; auto. Qed.
Lemma ale_set ok w0 w v m : ale ok w0 w -> ale (fun u => ok u \/ u = v) (set_lay w0 v m) (set_lay w v m).
Proof.
  intros (H1 & H2 & H3). split; [exact H1|]. cbn [set_lay aw_lay]. rewrite !upd_length. split; [exact H2|]. intros u Hu.
  destruct (Nat.lt_ge_cases v (length (aw_lay w0))) as [l|l].
  - rewrite !nth_upd by lia. destruct (Nat.eqb_spec v u) as [E|E]; auto. apply H3. destruct Hu; [auto|congruence].
  - assert (U : forall T (l : list T) x, (length l <= v)%nat -> upd l v x = l).
    { clear. intros T l x. revert v. induction l as [|y l IH]; intros v H; [reflexivity|]. destruct v as [|v]; cbn [length upd] in *; [lia|]. now rewrite IH by lia. }
    rewrite !U by lia. destruct (Nat.eq_dec u v) as [->|N]; [|apply H3; destruct Hu; congruence]. rewrite !nth_overflow by lia. reflexivity.
Qed.
Definition plain_op (o : op (A := A)) : Prop := sharing o = false /\ match o with From _ _ => False | _ => True end.
Lemma on_sto_om ok w0 w ops : ale ok w0 w -> Forall plain_op ops -> om (ale ok) (on_sto t dflt zero w0 ops) (on_sto t dflt zero w ops).
Proof. intros (H1 & H2 & H3) F. unfold on_sto. apply om_bind with (R := wle); [now apply run_om|]. intros y0 y Y. apply om_some. split; auto. Qed.
Lemma fold_om {T U I} (R : T -> U -> Prop) (f0 : T -> I -> option T) (f : U -> I -> option U) l : (forall i s0 s, R s0 s -> om R (f0 s0 i) (f s i)) ->
  forall x0 x, om R x0 x -> om R (fold_left (fun o i => match o with Some s => f0 s i | None => None end) l x0) (fold_left (fun o i => match o with Some s => f s i | None => None end) l x).
Proof. intros F. induction l as [|i l IH]; intros x0 x H; cbn [fold_left]; [exact H|]. apply IH. eapply om_bind; [exact H|]. auto. Qed.
Lemma resize_om ok w0 w v sh : ale ok w0 w -> om (ale (fun u => ok u \/ u = v)) (a_resize t dflt zero so pr junk w0 v sh) (a_resize t dflt zero so pr junk w v sh).
Proof.
  intros H. unfold a_resize. pose proof (ale_set ok w0 w v (layout so pr junk sh) H) as H1. eapply om_bind; [apply getv_om; apply H1|]. intros h0 h <-.
  match goal with |- om _ (if ?x then _ else _) _ => destruct x end; [|now apply om_some].
  replace (tmp (set_lay w v (layout so pr junk sh))) with (tmp (set_lay w0 v (layout so pr junk sh))) by (unfold tmp; symmetry; apply H1).
  apply on_sto_om; auto. repeat constructor.
Qed.
Lemma assign_loop_om (ok : nat -> Prop) w0 w v f : ok v -> ale ok w0 w -> om (ale ok) (assign_loop t dflt zero so pr junk w0 v f) (assign_loop t dflt zero so pr junk w v f).
Proof.
  intros Ov H. unfold assign_loop. rewrite !for_each_fold. unfold lay_of. rewrite (proj2 (proj2 H) v Ov). apply fold_om; [|now apply om_some]. intros i s0 s Hs. cbv beta. rewrite (proj2 (proj2 Hs) v Ov). apply on_sto_om; auto. repeat constructor.
Qed.
Lemma from_om ok w0 w v sh f : ale ok w0 w -> om (ale (fun u => ok u \/ u = v)) (a_from t dflt zero so pr junk w0 v sh f) (a_from t dflt zero so pr junk w v sh f).
Proof.
  intros H. unfold a_from. apply om_bind with (R := ale (fun u => ok u \/ u = v)); [apply on_sto_om; [now apply ale_set|repeat constructor]|]. intros y0 y Y. apply om_bind with (R := wle).
  - unfold construct_loop. rewrite !for_each_fold. apply fold_om; [|apply om_some; apply Y]. intros i s0 s Hs. eapply om_bind; [now apply getv_om|]. intros h0 h <-. eapply om_bind; [apply om_refl|]. intros b ? <-.
    apply om_bind with (R := hle); [apply construct_om; now apply wle_heap|]. intros g0 g G. apply om_some. now apply wle_set_heap.
  - intros z0 z Z. apply om_some. destruct Y as (_ & Y2 & Y3). split; auto.
Qed.
Lemma a_exec_om (ok : nat -> Prop) w0 w o : ale ok w0 w -> (forall u, In u (uses o) -> ok u) ->
  om (ale (fun u => ok u \/ target o = Some u /\ match o with AEnd _ => False | _ => True end)) (a_exec t dflt zero so pr junk w0 o) (a_exec t dflt zero so pr junk w o).
Proof.
  intros H U.
  assert (W : forall v (x0 x : option (aworld A)), target o = Some v -> match o with AEnd _ => False | _ => True end -> om (ale (fun u => ok u \/ u = v)) x0 x ->
    om (ale (fun u => ok u \/ target o = Some u /\ match o with AEnd _ => False | _ => True end)) x0 x).
  { intros v x0 x T E Hx y0 Ey. destruct (Hx y0 Ey) as (y & -> & Y). exists y. split; auto. revert Y. apply ale_mono. rewrite T. intros u [Hu|[Hu _]]; [now left|right; congruence]. }
  assert (W' : forall x0 x, om (ale ok) x0 x -> match target o with None => True | Some _ => match o with AEnd _ => True | _ => False end end ->
    om (ale (fun u => ok u \/ target o = Some u /\ match o with AEnd _ => False | _ => True end)) x0 x).
  { intros x0 x Hx E y0 Ey. destruct (Hx y0 Ey) as (y & -> & Y). exists y. split; auto. revert Y. apply ale_mono. intros u [Hu|[Hu Hu2]]; [exact Hu|]. destruct o; try contradiction; discriminate. }
  destruct o; cbn [a_exec uses] in *; try (eapply W; [reflexivity|exact I|]).
  - apply on_sto_om; [now apply ale_set|repeat constructor].
  - apply on_sto_om; [now apply ale_set|repeat constructor].
  - apply on_sto_om; [now apply ale_set|repeat constructor].
  - now apply from_om.
  - unfold lay_of. rewrite (proj2 (proj2 H) x) by (apply U; now left). apply on_sto_om; [now apply ale_set|repeat constructor].
  - unfold lay_of. rewrite (proj2 (proj2 H) x) by (apply U; now left). apply on_sto_om; [now apply ale_set|repeat constructor].
  - unfold lay_of. rewrite (proj2 (proj2 H) x) by (apply U; now left). apply on_sto_om; [now apply ale_set|repeat constructor].
  - unfold lay_of. rewrite (proj2 (proj2 H) x) by (apply U; now left). apply on_sto_om; [now apply ale_set|repeat constructor].
  - apply om_bind with (R := ale (fun u => ok u \/ u = v)); [now apply resize_om|]. intros y0 y Y. apply assign_loop_om; auto.
  - now apply resize_om.
  - apply W'; [|exact I]. unfold lay_of. rewrite (proj2 (proj2 H) v) by (apply U; now left). apply on_sto_om; auto. repeat constructor.
  - apply W'; [|exact I]. apply on_sto_om; auto. repeat constructor.
Qed.
End Frame.

Section Sim.
Context {A : Type}.
Variable (t : traits) (dflt zero : A) (so : list nat) (pr : layout_prop) (junk : list Z).
Hypothesis Hok : traits_ok t.
Hypothesis Hso : is_order (length so) so.
Hypothesis Hrank : (0 < length so < 16)%nat.
Hypothesis Hjunk : length junk = length so.
Notation ARel := (ARel t so pr junk).
Notation ale := (ale so pr junk).

Lemma arel_handle (w : aworld A) s v a : ARel w s -> aval_of s v = Some a ->
  exists h, getv (w_h (aw_w w)) v = Some h /\ h_size h = count_of (Some a) /\ is_null h = Nat.eqb (h_size h) 0.
Proof.
  intros (i & I) Hv. pose proof (aval_lt _ _ _ Hv) as Lv. pose proof (ar_var _ _ _ _ _ _ _ I v Lv) as M. rewrite Hv in M. pose proof (ar_lenh _ _ _ _ _ _ _ I) as Lh.
  pose proof (at_nth_error (i_h i) v _ eq_refl ltac:(lia)) as Ev.
  destruct (Forall2_nth_error _ _ _ _ _ (r_h _ _ _ _ _ _ _ _ (ar_rel _ _ _ _ _ _ _ I)) Ev) as (x & Ex & Hx). destruct M as [_ M].
  destruct (at_ (i_h i) v) as [| |o|] eqn:Ep; cbn [okh] in Hx.
  - destruct (av_cells a); [destruct M as [M _]|]; discriminate.
  - subst x. exists h_null. split; [now apply getv_some|]. cbn [h_null h_size is_null h_data Nat.eqb]. split; [|reflexivity]. destruct a as [sh [l|]]; cbn [av_cells count_of] in *; [|reflexivity]. destruct M as [M _]. cbn in M. injection M as <-. reflexivity.
  - destruct Hx as (l & sp & Eo & Hn & -> & _). eexists. split; [apply getv_some; exact Ex|]. cbn [h_size is_null h_data]. destruct a as [sh [l'|]]; cbn [av_cells] in M; [|discriminate]. destruct M as [M _]. cbn [contents] in M. assert (l' = l) by congruence. subst l'.
    split; [reflexivity|]. symmetry. apply Nat.eqb_neq. destruct l; [congruence|discriminate].
  - contradiction.
Qed.

Definition XRel (L : list nat) (br : list nat) (w : aworld A) (s : list (option (aval A))) : Prop :=
  exists w0, ARel w0 s /\ ale L (fun u => ~ In u br /\ aval_of s u <> None) w0 w.
Lemma xrel_handle L br w s v a : XRel L br w s -> aval_of s v = Some a ->
  exists h, getv (w_h (aw_w w)) v = Some h /\ h_size h = count_of (Some a) /\ is_null h = Nat.eqb (h_size h) 0.
Proof. intros (w0 & R & (H & _)) Hv. destruct (arel_handle w0 s v a R Hv) as (h & Eh & E). exists h. split; auto. destruct H as (_ & -> & _). exact Eh. Qed.
Lemma resize_counts h (a : aval A) sh k : h_size h = count_of (Some a) -> is_null h = Nat.eqb (h_size h) 0 ->
  new_storage so pr junk h sh && constructed t && Nat.ltb k (nelem (layout so pr junk sh)) = Nat.ltb k (resize_constructs t a sh).
Proof.
  intros E1 E2. unfold new_storage, resize_constructs, constructed, default_runs. rewrite E2, E1, layout_nelem, negb_orb. destruct (negb (t_trivial t) && negb (t_complex t)); [|now rewrite andb_false_r].
  rewrite andb_true_r. destruct a as [sh' [l|]]; cbn [av_cells count_of].
  - destruct (Nat.eqb_spec (length l) (volume sh)) as [E|E]; cbn [negb]; [|now rewrite orb_true_r]. rewrite orb_false_r. destruct (Nat.eqb_spec (length l) 0) as [E0|E0]; [|reflexivity]. rewrite <- E, E0. reflexivity.
  - destruct (volume sh); reflexivity.
Qed.

Lemma option_nat_dec (x : option nat) u : x = Some u \/ x <> Some u.
Proof. destruct x as [v|]; [destruct (Nat.eq_dec v u) as [->|]; [now left|right; congruence]|right; discriminate]. Qed.
Lemma upd_none (s : list (option (aval A))) v x u : v <> u -> aval_of s u = None -> aval_of (upd s v x) u = None.
Proof. intros N E. unfold aval_of in *. now rewrite nth_error_upd_neq. Qed.
Lemma a_step_keeps s o s' u : a_step t dflt zero so s o = Some s' -> target o <> Some u -> aval_of s u = None -> aval_of s' u = None.
Proof.
  intros E T Eu. destruct o; cbn [a_step target] in *.
  - destruct (afresh s v); [|discriminate]. injection E as <-. apply upd_none; congruence.
  - destruct (_ && _); [|discriminate]. injection E as <-. apply upd_none; congruence.
  - destruct (_ && _); [|discriminate]. injection E as <-. apply upd_none; congruence.
  - destruct (_ && _); [|discriminate]. injection E as <-. apply upd_none; congruence.
  - destruct (afresh s v); [|discriminate]. destruct (aval_of s x); [|discriminate]. injection E as <-. apply upd_none; congruence.
  - destruct (afresh s v); [|discriminate]. destruct (aval_of s x) eqn:Ex; [|discriminate]. injection E as <-. apply upd_none; [congruence|]. apply upd_none; congruence.
  - destruct (aval_of s v); [|discriminate]. destruct (aval_of s x); [|discriminate]. injection E as <-. apply upd_none; congruence.
  - destruct (aval_of s v); [|discriminate]. destruct (aval_of s x) eqn:Ex; [|discriminate]. injection E as <-. apply upd_none; [congruence|]. apply upd_none; congruence.
  - destruct (aval_of s v); [|discriminate]. destruct (shape_ok so shape); [|discriminate]. injection E as <-. apply upd_none; congruence.
  - destruct (aval_of s v); [|discriminate]. destruct (shape_ok so shape); [|discriminate]. injection E as <-. apply upd_none; congruence.
  - destruct (aval_of s v) as [[sh [l|]]|] eqn:Ev; try discriminate. destruct (in_bounds idx sh); [|discriminate]. injection E as <-. apply upd_none; congruence.
  - destruct (aval_of s v); [|discriminate]. injection E as <-. apply upd_none; congruence.
Qed.
Lemma x_frame L br w s o s' : XRel L br w s -> a_step t dflt zero so s o = Some s' -> existsb (fun x => existsb (Nat.eqb x) br) (uses o) = false ->
  exists w', a_exec t dflt zero so pr junk w o = Some w' /\ XRel L (mended o br) w' s'.
Proof.
  intros (w0 & R & H) E U. destruct (a_step_sim t dflt zero so pr junk Hok Hso Hrank Hjunk w0 s o s' R E) as (w0' & E0 & R0).
  assert (Hn : forall u, In u (uses o) -> ~ In u br).
  { intros u Hu C. assert (existsb (fun x => existsb (Nat.eqb x) br) (uses o) = true); [|congruence]. apply existsb_exists. exists u. split; auto. apply existsb_exists. exists u. split; auto. apply Nat.eqb_refl. }
  assert (Ha : forall u, In u (uses o) -> aval_of s u <> None).
  { intros u Hu C. destruct o; cbn [uses In] in Hu; try contradiction; destruct Hu as [<-|[]]; cbn [a_step] in E; rewrite C in E; try (destruct (afresh s v)); try (destruct (aval_of s v)); discriminate. }
  destruct (a_exec_om t dflt zero so pr junk L _ w0 w o H ltac:(intros u Hu; split; auto) w0' E0) as (w' & Ew & H').
  exists w'. split; [exact Ew|]. exists w0'. split; [exact R0|]. revert H'. apply ale_mono. intros u [Hu1 Hu2].
  assert (Hs : target o = Some u \/ (target o <> Some u /\ aval_of s u <> None)).
  { destruct (option_nat_dec (target o) u) as [T|T]; [now left|right; split; [exact T|]]. intros Eu. apply Hu2. eapply a_step_keeps; eauto. }
  destruct Hs as [T|[T Hs]].
  - destruct o; try (right; now split). exfalso. apply Hu2. cbn [target] in T. injection T as ->. cbn [a_step] in E. destruct (aval_of s u) eqn:Eu; [|discriminate]. injection E as <-. rewrite aval_upd by (eapply aval_lt; eauto). now rewrite Nat.eqb_refl.
  - left. split; [|exact Hs]. intros C. apply Hu1. unfold mended. destruct (target o) as [v|]; [|exact C]. apply in_in_remove; [congruence|exact C].
Qed.

Lemma repeat_S_app {T} (x : T) n : repeat x (S n) = repeat x n ++ [x].
Proof. induction n; cbn [repeat app] in *; [reflexivity|]. now rewrite <- IHn. Qed.
Lemma construct_some (H : heap A) n k b : nth_error H b = Some (Block true (repeat None n)) -> (k <= n)%nat ->
  for_upto k (fun i h => construct t b i dflt h) H = Some (upd H b (Block true (repeat (Some dflt) k ++ repeat None (n - k)))).
Proof.
  intros Hb. induction k as [|k IH]; intros Hk; cbn [for_upto].
  - cbn [repeat app]. rewrite Nat.sub_0_r. now rewrite upd_same.
  - rewrite IH by lia. assert (Lb : (b < length H)%nat) by (eapply nth_error_lt; eauto). assert (Ed : (n - k = S (n - S k))%nat) by lia.
    assert (E : nth_error (upd H b (Block true (repeat (Some dflt) k ++ repeat None (n - k)))) b = Some (Block true (repeat (Some dflt) k ++ repeat None (n - k)))) by now apply nth_error_upd_eq.
    rewrite (construct_live t _ _ _ k dflt None E).
    + rewrite upd_upd. do 3 f_equal. rewrite Ed. cbn [repeat]. rewrite (upd_mid (repeat (Some dflt) k)) by now rewrite repeat_length. f_equal. change ((fix rp (n0 : nat) : list (option A) := match n0 with O => [] | S m => Some dflt :: rp m end) k) with (repeat (Some dflt) k). now rewrite <- repeat_S_app.
    + rewrite nth_error_app2 by (rewrite repeat_length; lia). rewrite repeat_length, Nat.sub_diag, Ed. reflexivity.
    + auto.
Qed.

Lemma ghost_block (w : aworld A) s n : ARel w s -> (0 < n)%nat -> exists w', ARel w' s /\ w_h (aw_w w') = w_h (aw_w w) /\ w_s (aw_w w') = w_s (aw_w w) /\ aw_lay w' = aw_lay w /\
  m_ctrl (w_mem (aw_w w')) = m_ctrl (w_mem (aw_w w)) /\ m_heap (w_mem (aw_w w')) = m_heap (w_mem (aw_w w)) ++ [Block false []].
Proof.
  intros (i & I) Hn. set (k := length s). set (l := initial t dflt zero n Default). pose proof (ar_lenh _ _ _ _ _ _ _ I) as Lh. pose proof (ar_tmp _ _ _ _ _ _ _ I) as T.
  destruct (create_spec l (i_objs i)) as (objs' & p & Ec & Exo & Hc & Hp).
  destruct (on_sto_sim t dflt zero Hok w i [New k n Default; End k] (Ideal objs' (i_h i) (i_s i)) (ar_rel _ _ _ _ _ _ _ I) (ar_uns _ _ _ _ _ _ _ I)) as (w' & E & El & R & U).
  - cbn [ideal_run ideal_step]. rewrite (at_unused (i_h i) k T) by lia. cbn [andb]. fold l. rewrite Ec. cbn [i_h i_objs i_s].
    rewrite (at_alive so junk Hrank Hjunk) by (rewrite at_upd by lia; rewrite Nat.eqb_refl; auto). do 2 f_equal. rewrite upd_upd. apply upd_same. apply at_nth_error; [exact T|lia].
  - repeat constructor.
  - exists w'. split.
    + exists (Ideal objs' (i_h i) (i_s i)). constructor; cbn [i_h i_s i_objs]; auto.
      * apply (ar_lens _ _ _ _ _ _ _ I).
      * rewrite El. apply (ar_lenl _ _ _ _ _ _ _ I).
      * intros v Hv. rewrite El. eapply vmatch_ext; [exact Exo|]. now apply (ar_var _ _ _ _ _ _ _ I).
    + rewrite El. unfold on_sto in E. cbn [run exec] in E. rewrite h_new_spec in E. fold l in E.
      assert (Hl : exists y l', l = y :: l') by (unfold l; cbn [initial]; destruct n; [lia|]; cbn [repeat]; eauto). destruct Hl as (y & l' & Hl).
      assert (Ka : (k < length (w_h (aw_w w)))%nat) by (rewrite (rel_length t _ _ (ar_rel _ _ _ _ _ _ _ I)); lia).
      assert (G : good t l) by (apply good_initial; auto).
      unfold new_var in E. rewrite Hl in E. cbn [alloc_result] in E. rewrite <- Hl in E.
      unfold getv in E. cbn [set_h w_h set_heap] in E. rewrite nth_error_upd_eq in E by auto.
      unfold h_destroy in E. cbn [h_sptr h_data h_size is_null negb andb] in E. cbn [set_h set_heap w_mem m_heap m_ctrl] in E.
      pose proof (nth_error_new (m_heap (w_mem (aw_w w))) (Block true l)) as Eb.
      rewrite (destruct_live t Hok l _ _ Eb G) in E. cbn [sptr_release] in E. injection E as <-. cbn [aw_w set_h set_mem set_heap w_h w_s w_mem m_ctrl m_heap].
      rewrite upd_upd, upd_app_r. split; [apply upd_same|auto].
      pose proof (Forall2_nth_error _ _ _ _ _ (r_h _ _ _ _ _ _ _ _ (ar_rel _ _ _ _ _ _ _ I)) (at_nth_error (i_h i) k _ T ltac:(lia))) as (x & Ex & Hx). cbn [okh] in Hx. now subst x.
Qed.

Lemma x_resize L br w s v a sh k : XRel L br w s -> aval_of s v = Some a -> shape_ok so sh = true -> (k < resize_constructs t a sh)%nat ->
  exists w', a_exec_x t dflt zero so pr junk w (AResize v sh) k = Thrown w' /\ XRel (length (m_heap (w_mem (aw_w w))) :: L) (v :: br) w' s /\
    w_h (aw_w w') = w_h (aw_w w) /\ m_heap (w_mem (aw_w w')) = m_heap (w_mem (aw_w w)) ++ [Block true (repeat (Some dflt) k ++ repeat None (volume sh - k))].
Proof.
  intros X Hv Hs Hk. destruct (xrel_handle _ _ _ _ _ _ X Hv) as (h & Eh & E1 & E2). cbn [a_exec_x]. rewrite Eh, (resize_counts h a sh k E1 E2). apply Nat.ltb_lt in Hk as Hk'. rewrite Hk'.
  assert (Hk2 : (k < volume sh)%nat) by (unfold resize_constructs in Hk; destruct (default_runs t); [|lia]; destruct (av_cells a) as [l|]; [destruct (Nat.eqb _ _)|]; lia).
  unfold new_thrown, allocate. rewrite layout_nelem. set (hp := m_heap (w_mem (aw_w w))) in *.
  rewrite (construct_some _ (volume sh)) by (auto using nth_error_new; lia). rewrite upd_app_r. eexists. split; [reflexivity|]. split; [|split; reflexivity].
  destruct X as (w0 & R & (([H C] & Ew & Es) & Hl & Hu)). destruct (ghost_block w0 s (volume sh) R ltac:(lia)) as (w0' & R0 & F1 & F2 & F3 & F4 & F5).
  exists w0'. split; [exact R0|]. split; [|split].
  - unfold with_heap, set_heap, set_lay, set_mem. cbn [aw_w w_mem m_heap m_ctrl w_h w_s]. split; [|split; cbn [w_h w_s]; congruence]. split; cbn [m_heap m_ctrl]; [|rewrite F4; exact C]. rewrite F5.
    pose proof (hle_len _ _ _ H) as HL. fold hp in HL, H. split; [cbn [w_mem m_heap]; rewrite !app_length; cbn [length]; lia|]; cbn [w_mem m_heap]. intros b. destruct H as [_ H]. specialize (H b).
    destruct (in_dec Nat.eq_dec b (length hp :: L)) as [i|n].
    + destruct (Nat.eq_dec b (length hp)) as [->|N].
      * split; [rewrite HL; apply nth_error_new|]. eexists. apply nth_error_new.
      * destruct (in_dec Nat.eq_dec b L) as [i'|n']; [|destruct i; congruence]. destruct H as (H1 & cs & H2). rewrite !nth_error_app1 by (eapply nth_error_lt; eauto). eauto.
    + destruct (in_dec Nat.eq_dec b L) as [i'|n']; [exfalso; apply n; now right|]. assert (Nb : b <> length hp) by (intros ->; apply n; now left).
      destruct (Nat.lt_ge_cases b (length hp)); [rewrite !nth_error_app1 by lia; exact H|].
      transitivity (@None (block A)); [|symmetry]; apply nth_error_None; rewrite app_length; cbn [length]; lia.
  - cbn [with_heap set_lay aw_lay]. rewrite upd_length. congruence.
  - cbn [with_heap set_lay aw_lay]. intros u [Hu1 Hu2]. rewrite nth_upd by (rewrite Hl; destruct R as (i & I); rewrite (ar_lenl _ _ _ _ _ _ _ I); eapply aval_lt; eauto).
    destruct (Nat.eqb_spec v u) as [->|N]; [exfalso; apply Hu1; now left|]. rewrite F3. apply Hu. split; [|exact Hu2]. intros Hc. apply Hu1. now right.
Qed.

Definition throws_at (s : list (option (aval A))) (o : aop (A := A)) (k : option nat) : bool := match k with Some k => Nat.ltb k (constructs t s o) | None => false end.
Definition exec_k (w : aworld A) (o : aop (A := A)) (k : option nat) : outcome (aworld A) :=
  match k with Some k => a_exec_x t dflt zero so pr junk w o k | None => lift (a_exec t dflt zero so pr junk w o) end.
Lemma ltb_if (b : bool) k n : b && Nat.ltb k n = Nat.ltb k (if b then n else 0%nat).
Proof. destruct b; [reflexivity|]. now destruct k. Qed.
Lemma constructed_runs : constructed t = default_runs t.
Proof. unfold constructed, default_runs. now rewrite negb_orb. Qed.
Lemma x_exec_done L br w s o s' k : XRel L br w s -> a_step t dflt zero so s o = Some s' -> throws_at s o k = false -> exec_k w o k = lift (a_exec t dflt zero so pr junk w o).
Proof.
  intros X E T. destruct k as [k|]; [|reflexivity]. cbn [throws_at exec_k] in *. destruct o; cbn [a_exec_x constructs] in *; try reflexivity.
  - now rewrite ltb_if, constructed_runs, layout_nelem, T.
  - now rewrite ltb_if, constructed_runs, layout_nelem, T.
  - cbn [a_step] in E. destruct (afresh s v); [|discriminate]. destruct (aval_of s x) as [a|] eqn:Ex; [|discriminate].
    destruct (xrel_handle _ _ _ _ _ _ X Ex) as (h & -> & -> & _). unfold copy_runs in T. now rewrite ltb_if, T.
  - cbn [a_step] in E. destruct (aval_of s v) as [av|]; [|discriminate]. destruct (aval_of s x) as [a|] eqn:Ex; [|discriminate].
    destruct (xrel_handle _ _ _ _ _ _ X Ex) as (h & -> & -> & _). unfold copy_runs in T. now rewrite ltb_if, T.
  - cbn [a_step] in E. destruct (aval_of s v) as [a|] eqn:Ev; [|discriminate].
    destruct (xrel_handle _ _ _ _ _ _ X Ev) as (h & -> & E1 & E2). now rewrite (resize_counts h a _ k E1 E2), T.
  - cbn [a_step] in E. destruct (aval_of s v) as [a|] eqn:Ev; [|discriminate].
    destruct (xrel_handle _ _ _ _ _ _ X Ev) as (h & -> & E1 & E2). now rewrite (resize_counts h a _ k E1 E2), T.
Qed.
Lemma x_exec_ends L br w s o s' k : XRel L br w s -> a_step t dflt zero so s o = Some s' -> throws_at s o k = true ->
  (forall v sh, o <> AResize v sh) -> (forall v x, o <> AAssignCopy v x) -> exec_k w o k = Terminated.
Proof.
  intros X E T N1 N2. destruct k as [k|]; [|discriminate]. cbn [throws_at exec_k] in *. destruct o; cbn [a_exec_x constructs] in *; try (destruct k; discriminate).
  - now rewrite ltb_if, constructed_runs, layout_nelem, T.
  - now rewrite ltb_if, constructed_runs, layout_nelem, T.
  - cbn [a_step] in E. destruct (afresh s v); [|discriminate]. destruct (aval_of s x) as [a|] eqn:Ex; [|discriminate].
    destruct (xrel_handle _ _ _ _ _ _ X Ex) as (h & -> & -> & _). unfold copy_runs in T. now rewrite ltb_if, T.
  - now destruct (N2 v x).
  - cbn [a_step] in E. destruct (aval_of s v) as [a|] eqn:Ev; [|discriminate].
    destruct (xrel_handle _ _ _ _ _ _ X Ev) as (h & -> & E1 & E2). now rewrite (resize_counts h a _ k E1 E2), T.
  - now destruct (N1 v shape).
Qed.
Lemma x_fresh L br w s : XRel L br w s -> ~ In (length (m_heap (w_mem (aw_w w)))) L.
Proof.
  intros (w0 & _ & (([[HL H] _] & _) & _)) C. specialize (H (length (m_heap (w_mem (aw_w w))))). destruct (in_dec Nat.eq_dec _ L); [|contradiction].
  destruct H as [_ [cs H]]. apply nth_error_lt in H. lia.
Qed.

Lemma x_step_sim L br w s o k s' br' : XRel L br w s -> x_step t dflt zero so s br o k = Goes s' br' ->
  exists w' L', exec_k w o k = (if throws_at s o k then Thrown w' else Done w') /\ XRel L' br' w' s' /\ L' = (if throws_at s o k then length (m_heap (w_mem (aw_w w))) :: L else L).
Proof.
  intros X E. unfold x_step in E. destruct (a_step t dflt zero so s o) as [s1|] eqn:Es; [|discriminate]. destruct (existsb _ (uses o)) eqn:Eu; [discriminate|].
  fold (throws_at s o k) in E. destruct (throws_at s o k) eqn:T.
  - destruct o; try discriminate. injection E as <- <-. cbn [a_step] in Es. destruct (aval_of s v) as [a|] eqn:Ev; [|discriminate]. destruct (shape_ok so shape) eqn:Eo; [|discriminate].
    destruct k as [k|]; [|discriminate]. cbn [throws_at constructs] in T. rewrite Ev in T. apply Nat.ltb_lt in T. destruct (x_resize L br w s v a shape k X Ev Eo T) as (w' & E' & X' & _). eauto.
  - injection E as <- <-. destruct (x_frame L br w s o s1 X Es Eu) as (w' & E' & X'). exists w', L. split; [|auto]. rewrite (x_exec_done L br w s o s1 k X Es T), E'. reflexivity.
Qed.
Lemma x_step_ends L br w s o k : XRel L br w s -> x_step t dflt zero so s br o k = Ends -> exec_k w o k = Terminated.
Proof.
  intros X E. unfold x_step in E. destruct (a_step t dflt zero so s o) as [s1|] eqn:Es; [|discriminate]. destruct (existsb _ (uses o)) eqn:Eu; [discriminate|].
  fold (throws_at s o k) in E. destruct (throws_at s o k) eqn:T; [|discriminate]. eapply x_exec_ends; eauto; intros ? ? ->; discriminate.
Qed.
Lemma run_x_cons w o k p : a_run_x t dflt zero so pr junk w ((o, k) :: p) =
  match exec_k w o k with Done w1 | Thrown w1 => a_run_x t dflt zero so pr junk w1 p | Terminated => Terminated | Undefined => Undefined end.
Proof. reflexivity. Qed.
Lemma x_run_sim p : forall L br w s s' br', XRel L br w s -> NoDup L -> x_history t dflt zero so s br p = Goes s' br' ->
  exists w' L', a_run_x t dflt zero so pr junk w p = Done w' /\ XRel L' br' w' s' /\ NoDup L' /\ length L' = (failed_resizes t dflt zero so s br p + length L)%nat.
Proof.
  induction p as [|[o k] p IH]; intros L br w s s' br' X ND E; cbn [x_history failed_resizes] in *.
  - injection E as <- <-. exists w, L. auto.
  - destruct (x_step t dflt zero so s br o k) as [s1 br1| |] eqn:Es; try discriminate. destruct (x_step_sim L br w s o k s1 br1 X Es) as (w1 & L1 & E1 & X1 & EL).
    assert (ND1 : NoDup L1) by (subst L1; destruct (throws_at s o k); auto; constructor; auto; eapply x_fresh; eauto).
    destruct (IH L1 br1 w1 s1 s' br' X1 ND1 E) as (w' & L' & E' & X' & ND' & Len). exists w', L'. rewrite run_x_cons, E1. split; [destruct (throws_at s o k); exact E'|]. split; [exact X'|]. split; [exact ND'|].
    rewrite Len, EL. fold (throws_at s o k). destruct (throws_at s o k); cbn [length]; lia.
Qed.
Lemma x_run_ends p : forall L br w s, XRel L br w s -> x_history t dflt zero so s br p = Ends -> a_run_x t dflt zero so pr junk w p = Terminated.
Proof.
  induction p as [|[o k] p IH]; intros L br w s X E; cbn [x_history] in *; [discriminate|]. rewrite run_x_cons.
  destruct (x_step t dflt zero so s br o k) as [s1 br1| |] eqn:Es; try discriminate.
  - destruct (x_step_sim L br w s o k s1 br1 X Es) as (w1 & L1 & E1 & X1 & _). rewrite E1. destruct (throws_at s o k); eapply IH; eauto.
  - now rewrite (x_step_ends L br w s o k X Es).
Qed.
Lemma x_start n : XRel [] [] (a_start so pr junk n) (repeat None n).
Proof.
  exists (a_start so pr junk n). split; [apply a_start_rel|]. split; [|split; auto]. split; [|split; reflexivity]. split; [|reflexivity]. split; [reflexivity|]. intros b. destruct (in_dec Nat.eq_dec b []) as [[]|]. reflexivity.
Qed.
Lemma x_looks L br w s : XRel L br w s ->
  forall v, (v < length s)%nat -> match aval_of s v with
                                  | Some a => (~ In v br -> looks_like so (layout_default so pr junk) w v a) /\ exists h, getv (w_h (aw_w w)) v = Some h
                                  | None => getv (w_h (aw_w w)) v = None
                                  end.
Proof.
  intros (w0 & R & (([H _] & Eh & _) & Hl & Hu)) v Lv. pose proof (arel_looks t so pr junk Hso Hrank Hjunk w0 s R v Lv) as G. destruct (aval_of s v) as [a|] eqn:Ev; [|now rewrite Eh].
  destruct G as (h & Gh & G). rewrite <- Eh in Gh. split; [|now exists h]. intros Nv. exists h. split; [exact Gh|]. cbv zeta in *.
  replace (nth v (aw_lay w) (layout_default so pr junk)) with (nth v (aw_lay w0) (layout_default so pr junk)).
  - destruct G as [G1 G2]. split; [exact G1|]. destruct (av_cells a) as [l|]; [|exact G2]. destruct G2 as (G2 & G3 & G4 & G5). split; [exact G2|]. split; [exact G3|]. split; [exact G4|].
    intros idx Hi. destruct (G5 idx Hi) as (b & c & K1 & K2 & K3). exists b, c. split; [exact K1|]. split; [|exact K3]. destruct (read_cell_om L _ _ b (Z.to_nat (call_impl (nth v (aw_lay w0) (layout_default so pr junk)) (map CLong idx))) H c K2) as (c' & K & <-). exact K.
  - symmetry. unfold lay_of in Hu. apply Hu. split; [exact Nv|congruence].
Qed.
Lemma x_memory L br w s : XRel L br w s -> memory_but L w.
Proof.
  intros (w0 & R & (([H _] & Eh & _) & _)). destruct (arel_memory t so pr junk Hrank Hjunk w0 s R) as [M1 M2]. destruct H as [HL H]. unfold memory_but. rewrite Eh. split; [|split; [|exact M2]].
  - intros b. specialize (H b). destruct (in_dec Nat.eq_dec b L) as [i|n].
    + destruct H as [_ H]. tauto.
    + rewrite H, M1. tauto.
  - intros v h b Hg Hd. specialize (H b). destruct (in_dec Nat.eq_dec b L) as [i|n]; [|exact n]. exfalso. destruct H as [H _].
    assert (exists cells, nth_error (m_heap (w_mem (aw_w w0))) b = Some (Block true cells)) as (cs & C) by (apply M1; eauto). congruence.
Qed.
End Sim.

(** ** destroying elements that were never constructed *)
Section Never.
Context {A : Type}.
Variable (t : traits).
Hypothesis Hcopy : t_tcopy t = false.
Definition raw_at (b k : nat) (h : heap A) : Prop := read_cell h b k = Some None.
Lemma write_cell_other (h h' : heap A) b i c k : write_cell h b i c = Some h' -> i <> k -> read_cell h' b k = read_cell h b k.
Proof.
  unfold write_cell, read_cell, get_block. intros E N. destruct (nth_error h b) as [blk|] eqn:Eb; [|discriminate]. destruct (b_live blk) eqn:El; [|discriminate].
  destruct (Nat.ltb i (length (b_cells blk))); [|discriminate]. injection E as <-. rewrite nth_error_upd_eq by (eapply nth_error_lt; eauto). cbn [b_live b_cells]. now rewrite nth_error_upd_neq.
Qed.
Lemma for_upto_keeps {T} (P : T -> Prop) n (f : nat -> T -> option T) s s' : (forall i x y, (i < n)%nat -> P x -> f i x = Some y -> P y) -> P s -> for_upto n f s = Some s' -> P s'.
Proof.
  revert s'. induction n as [|n IH]; intros s' F Hs E; cbn [for_upto] in E; [congruence|]. destruct (for_upto n f s) as [s1|] eqn:E1; [|discriminate].
  eapply F; [|eapply IH|exact E]; eauto.
Qed.
Lemma for_upto_fails {T} n m (f : nat -> T -> option T) s : for_upto n f s = None -> (n <= m)%nat -> for_upto m f s = None.
Proof. intros E H. induction H as [|m H IH]; [exact E|]. cbn [for_upto]. now rewrite IH. Qed.
Lemma construct_other (h h' : heap A) b i v k : construct t b i v h = Some h' -> i <> k -> raw_at b k h -> raw_at b k h'.
Proof.
  unfold construct, raw_at. intros E N R. destruct (read_cell h b i) as [c|]; [|discriminate]. rewrite <- R. destruct c; [rewrite Hcopy in E; discriminate|]. eapply write_cell_other; eauto.
Qed.
Lemma destroy_other (h h' : heap A) b i k : destroy t b i h = Some h' -> i <> k -> raw_at b k h -> raw_at b k h'.
Proof.
  unfold destroy, raw_at. intros E N R. destruct (read_cell h b i) as [c|]; [|discriminate]. rewrite <- R. destruct c; [|rewrite Hcopy in E; discriminate]. eapply write_cell_other; eauto.
Qed.
Lemma destroy_all_fails (h : heap A) b n k : raw_at b k h -> (k < n)%nat -> for_upto n (fun i h => destroy t b i h) h = None.
Proof.
  intros R H. apply (for_upto_fails (S k)); [|lia]. cbn [for_upto]. destruct (for_upto k _ h) as [h1|] eqn:E; [|reflexivity].
  assert (R1 : raw_at b k h1). { revert E. apply for_upto_keeps; [|exact R]. intros i x y Hi Hx Hy. eapply destroy_other; eauto. lia. }
  unfold destroy. unfold raw_at in R1. now rewrite R1, Hcopy.
Qed.
Lemma copy_thrown_none src n k (h : heap A) : traits_ok t -> (k < n)%nat -> copy_thrown t src n k h = None.
Proof.
  intros Hok Hk. unfold copy_thrown, allocate. destruct src as [s|]; [|reflexivity].
  match goal with |- match ?e with _ => _ end = _ => destruct e as [h2|] eqn:E end; [|reflexivity].
  assert (R : raw_at (length h) k h2).
  { revert E. apply for_upto_keeps.
    - intros i x y Hi Hx Hy. destruct (read_cell x s i) as [[a|]|]; try discriminate. eapply construct_other; eauto. lia.
    - unfold raw_at, read_cell, get_block. rewrite nth_error_new. cbn [b_live b_cells]. apply nth_error_repeat. lia. }
  unfold destruct_blk. cbn [fst snd]. destruct (negb (t_trivial t || t_complex t)) eqn:Et.
  - now rewrite (destroy_all_fails h2 (length h) n k R Hk).
  - exfalso. apply negb_false_iff, orb_true_iff in Et. destruct Hok as [H1 H2]. destruct Et as [Et|Et]; [apply H1 in Et|apply H2 in Et]; congruence.
Qed.
End Never.
