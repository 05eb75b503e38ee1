(** Rounding errors of chains of additions and products. *)
From Coq Require Import ZArith Reals List Lra Lia Psatz.
From Flocq Require Import Core BinarySingleNaN Relative Plus_error.
From Verif Require Import S_Float M_Expr M_Float.
Import ListNotations.
Local Open Scope R_scope.

Lemma Rsum_app l1 l2 : Rsum (l1 ++ l2) = Rsum l1 + Rsum l2.
Proof. induction l1 as [|x l IH]; cbn [app Rsum]; [ring|rewrite IH; ring]. Qed.
Lemma Rsum_abs_nonneg l : 0 <= Rsum (map Rabs l).
Proof. induction l as [|x l IH]; cbn [map Rsum]; [lra|pose proof (Rabs_pos x); lra]. Qed.
Lemma Rsum_abs_le l : Rabs (Rsum l) <= Rsum (map Rabs l).
Proof. induction l as [|x l IH]; cbn [map Rsum]; [rewrite Rabs_R0; lra|]. eapply Rle_trans; [apply Rabs_triang|lra]. Qed.
Lemma Rsum_le {T} (f g : T -> R) l : (forall x, In x l -> f x <= g x) -> Rsum (map f l) <= Rsum (map g l).
Proof.
  induction l as [|x l IH]; intros H; cbn [map Rsum]; [lra|]. pose proof (H x ltac:(now left)). assert (Rsum (map f l) <= Rsum (map g l)) by (apply IH; intros y Hy; apply H; now right). lra.
Qed.
Lemma Rsum_diff {T} (f g h : T -> R) l : (forall x, In x l -> Rabs (f x - g x) <= h x) -> Rabs (Rsum (map f l) - Rsum (map g l)) <= Rsum (map h l).
Proof.
  induction l as [|x l IH]; intros H; cbn [map Rsum]; [rewrite Rminus_0_r, Rabs_R0; lra|].
  pose proof (H x ltac:(now left)). assert (IH' : Rabs (Rsum (map f l) - Rsum (map g l)) <= Rsum (map h l)) by (apply IH; intros y Hy; apply H; now right).
  replace (f x + Rsum (map f l) - (g x + Rsum (map g l))) with ((f x - g x) + (Rsum (map f l) - Rsum (map g l))) by ring. eapply Rle_trans; [apply Rabs_triang|]. lra.
Qed.
Lemma Rsum_scale {T} c (f : T -> R) l : Rsum (map (fun x => c * f x) l) = c * Rsum (map f l).
Proof. induction l as [|x l IH]; cbn [map Rsum]; [ring|rewrite IH; ring]. Qed.
Lemma Rsum_plus {T} (f g : T -> R) l : Rsum (map (fun x => f x + g x) l) = Rsum (map f l) + Rsum (map g l).
Proof. induction l as [|x l IH]; cbn [map Rsum]; [ring|rewrite IH; ring]. Qed.
Lemma Rsum_const {T} c (l : list T) : Rsum (map (fun _ => c) l) = INR (length l) * c.
Proof. induction l as [|x l IH]; cbn [map Rsum]; [cbn; ring|]. rewrite IH. cbn [length]. rewrite S_INR. ring. Qed.
Lemma Rsum_nonneg {T} (f : T -> R) l : (forall x, In x l -> 0 <= f x) -> 0 <= Rsum (map f l).
Proof. induction l as [|x l IH]; intros H; cbn [map Rsum]; [lra|]. pose proof (H x ltac:(now left)). assert (0 <= Rsum (map f l)) by (apply IH; intros y Hy; apply H; now right). lra. Qed.
Lemma Rsum_abs_in x l : In x l -> Rabs x <= Rsum (map Rabs l).
Proof.
  induction l as [|y l IH]; [contradiction|]. cbn [map Rsum]. pose proof (Rsum_abs_nonneg l). pose proof (Rabs_pos y). intros [->|H']; [lra|]. pose proof (IH H'). lra.
Qed.
Lemma pow1u u n : 0 <= u -> 1 <= (1 + u) ^ n.
Proof. intros H. apply pow_R1_Rle. lra. Qed.

Section Float.
Context (prec emax : Z) {Hp : Prec_gt_0 prec} {Hm : Prec_lt_emax prec emax}.
Notation F := (fl prec emax).
Notation u := (unit_roundoff prec).
Notation eta := (half_smallest prec emax).
Notation big := (two_to emax).
Notation rnd := (round radix2 (SpecFloat.fexp prec emax) (round_mode mode_NE)).

Lemma two_bpow e : two_to e = bpow radix2 e.
Proof. unfold two_to. now rewrite bpow_powerRZ. Qed.
Lemma u_pos : 0 < u.
Proof. unfold unit_roundoff. rewrite two_bpow. apply bpow_gt_0. Qed.
Lemma eta_pos : 0 < eta.
Proof. unfold half_smallest. rewrite two_bpow. apply bpow_gt_0. Qed.
Lemma half_bpow e : / 2 * bpow radix2 e = two_to (e - 1).
Proof. rewrite two_bpow. unfold Zminus. rewrite bpow_plus. change (bpow radix2 (-(1))) with (/ 2). ring. Qed.
Lemma u_ro_u : u_ro radix2 prec = u.
Proof. unfold u_ro. rewrite half_bpow. unfold unit_roundoff. f_equal. lia. Qed.
Lemma half_eta : / 2 * bpow radix2 (SpecFloat.emin prec emax) = eta.
Proof. rewrite half_bpow. unfold half_smallest, SpecFloat.emin. f_equal. Qed.

Lemma plus_step (x y : F) : is_finite x = true -> is_finite y = true -> (1 + u) * (Rabs (B2R x) + Rabs (B2R y)) < big ->
  is_finite (Bplus mode_NE x y) = true /\ B2R (Bplus mode_NE x y) = rnd (B2R x + B2R y) /\
  Rabs (B2R (Bplus mode_NE x y) - (B2R x + B2R y)) <= u * Rabs (B2R x + B2R y).
Proof.
  intros Fx Fy Hb. pose proof u_pos as Hu. pose proof (Bplus_correct prec emax Hp Hm mode_NE x y Fx Fy) as H.
  destruct (FLT_plus_error_N_ex radix2 (SpecFloat.emin prec emax) prec (fun z => negb (Z.even z)) (B2R x) (B2R y) (generic_format_B2R prec emax x) (generic_format_B2R prec emax y)) as (eps & He & E).
  change (FLT_exp (SpecFloat.emin prec emax) prec) with (SpecFloat.fexp prec emax) in E. change (Znearest (fun z => negb (Z.even z))) with (round_mode mode_NE) in E.
  assert (Ha : Rabs eps <= u).
  { eapply Rle_trans; [exact He|]. rewrite u_ro_u. apply (Rmult_le_reg_r (1 + u)); [lra|]. unfold Rdiv. rewrite Rmult_assoc, Rinv_l by lra. nra. }
  assert (Hr : Rabs (rnd (B2R x + B2R y)) < bpow radix2 emax).
  { rewrite E, Rabs_mult, <- two_bpow. eapply Rle_lt_trans; [|exact Hb]. rewrite Rmult_comm. pose proof (Rabs_triang (B2R x) (B2R y)). pose proof (Rabs_triang 1 eps). rewrite Rabs_R1 in *. pose proof (Rabs_pos (1 + eps)). pose proof (Rabs_pos (B2R x + B2R y)).
    apply Rmult_le_compat; lra. }
  rewrite (Rlt_bool_true _ _ Hr) in H. destruct H as (H1 & H2 & _). split; [exact H2|]. split; [exact H1|]. rewrite H1, E.
  replace ((B2R x + B2R y) * (1 + eps) - (B2R x + B2R y)) with (eps * (B2R x + B2R y)) by ring. rewrite Rabs_mult. apply Rmult_le_compat_r; [apply Rabs_pos|exact Ha].
Qed.

Lemma mult_step (x y : F) : is_finite x = true -> is_finite y = true -> (1 + u) * Rabs (B2R x * B2R y) + eta < big ->
  is_finite (Bmult mode_NE x y) = true /\ B2R (Bmult mode_NE x y) = rnd (B2R x * B2R y) /\
  Rabs (B2R (Bmult mode_NE x y) - B2R x * B2R y) <= u * Rabs (B2R x * B2R y) + eta.
Proof.
  intros Fx Fy Hb. pose proof u_pos as Hu. pose proof (Bmult_correct prec emax Hp Hm mode_NE x y) as H.
  destruct (error_N_FLT radix2 (SpecFloat.emin prec emax) prec Hp (fun z => negb (Z.even z)) (B2R x * B2R y)) as (eps & et & He & Het & _ & E).
  change (FLT_exp (SpecFloat.emin prec emax) prec) with (SpecFloat.fexp prec emax) in E. change (Znearest (fun z => negb (Z.even z))) with (round_mode mode_NE) in E.
  rewrite half_eta in Het. rewrite half_bpow in He. replace (- prec + 1 - 1)%Z with (- prec)%Z in He by lia. fold (unit_roundoff prec) in He.
  assert (Hd : Rabs (rnd (B2R x * B2R y) - B2R x * B2R y) <= u * Rabs (B2R x * B2R y) + eta).
  { rewrite E. replace (B2R x * B2R y * (1 + eps) + et - B2R x * B2R y) with (eps * (B2R x * B2R y) + et) by ring. eapply Rle_trans; [apply Rabs_triang|]. rewrite Rabs_mult. pose proof (Rmult_le_compat_r _ _ _ (Rabs_pos (B2R x * B2R y)) He). lra. }
  assert (Hr : Rabs (rnd (B2R x * B2R y)) < bpow radix2 emax).
  { rewrite <- two_bpow. replace (rnd (B2R x * B2R y)) with ((rnd (B2R x * B2R y) - B2R x * B2R y) + B2R x * B2R y) by ring. eapply Rle_lt_trans; [apply Rabs_triang|]. lra. }
  rewrite (Rlt_bool_true _ _ Hr) in H. destruct H as (H1 & H2 & _). rewrite Fx, Fy in H2. split; [exact H2|]. split; [exact H1|]. now rewrite H1.
Qed.

(** a chain of additions *)
Lemma chain l : forall acc : F, is_finite acc = true -> Forall (fun x : F => is_finite x = true) l -> (1 + u) ^ length l * (Rabs (B2R acc) + Rsum (map (fun x => Rabs (B2R x)) l)) < big ->
  is_finite (fold_left (Bplus mode_NE) l acc) = true /\
  Rabs (B2R (fold_left (Bplus mode_NE) l acc) - (B2R acc + Rsum (map B2R l))) <= ((1 + u) ^ length l - 1) * (Rabs (B2R acc) + Rsum (map (fun x => Rabs (B2R x)) l)).
Proof.
  pose proof u_pos as Hu. induction l as [|x l IH]; intros acc Fa Fl Hb; cbn [fold_left map Rsum length pow] in *.
  - split; [exact Fa|]. rewrite !Rplus_0_r, Rminus_diag_eq, Rabs_R0 by reflexivity. pose proof (Rabs_pos (B2R acc)). lra.
  - pose proof (Forall_inv Fl) as Fx. pose proof (Forall_inv_tail Fl) as Fl'. cbv beta in Fx.
    set (S := Rsum (map (fun x => Rabs (B2R x)) l)) in *. assert (HS : 0 <= S) by (apply Rsum_nonneg; intros; apply Rabs_pos). set (P := (1 + u) ^ length l) in *. assert (HP : 1 <= P) by (apply pow1u; lra).
    pose proof (Rabs_pos (B2R acc)) as Ha. pose proof (Rabs_pos (B2R x)) as Hx. set (a := Rabs (B2R acc)) in *. set (b := Rabs (B2R x)) in *.
    assert (Hb1 : (1 + u) * (a + b) < big).
    { eapply Rle_lt_trans; [|exact Hb]. replace ((1 + u) * P * (a + (b + S))) with (P * ((1 + u) * (a + b)) + P * ((1 + u) * S)) by ring. assert (0 <= (1 + u) * (a + b)) by (apply Rmult_le_pos; lra). assert (0 <= P * ((1 + u) * S)) by (repeat apply Rmult_le_pos; lra). nra. }
    destruct (plus_step acc x Fa Fx Hb1) as (F1 & _ & E1). set (s := Bplus mode_NE acc x) in *.
    assert (T : Rabs (B2R acc + B2R x) <= a + b) by apply Rabs_triang.
    assert (E1' : Rabs (B2R s - (B2R acc + B2R x)) <= u * (a + b)) by (eapply Rle_trans; [exact E1|]; apply Rmult_le_compat_l; lra).
    assert (As : Rabs (B2R s) <= (1 + u) * (a + b)).
    { replace (B2R s) with ((B2R s - (B2R acc + B2R x)) + (B2R acc + B2R x)) by ring. eapply Rle_trans; [apply Rabs_triang|]. lra. }
    assert (Hle : P * (Rabs (B2R s) + S) <= (1 + u) * P * (a + (b + S))).
    { replace ((1 + u) * P * (a + (b + S))) with (P * ((1 + u) * (a + b) + S + u * S)) by ring. apply Rmult_le_compat_l; [lra|]. assert (0 <= u * S) by (apply Rmult_le_pos; lra). lra. }
    destruct (IH s F1 Fl') as (F2 & E2); [lra|]. split; [exact F2|].
    replace (B2R (fold_left (Bplus mode_NE) l s) - (B2R acc + (B2R x + Rsum (map B2R l)))) with ((B2R (fold_left (Bplus mode_NE) l s) - (B2R s + Rsum (map B2R l))) + (B2R s - (B2R acc + B2R x))) by ring.
    eapply Rle_trans; [apply Rabs_triang|]. eapply Rle_trans; [apply Rplus_le_compat; [exact E2|exact E1']|].
    replace (((1 + u) * P - 1) * (a + (b + S))) with (((P * ((1 + u) * (a + b) + S + u * S)) - (1 + u) * (a + b) - S) + u * (a + b)) by ring. apply Rplus_le_compat_r.
    assert (0 <= u * S) by (apply Rmult_le_pos; lra). assert ((P - 1) * (Rabs (B2R s) + S) <= (P - 1) * ((1 + u) * (a + b) + S)) by (apply Rmult_le_compat_l; lra).
    assert (0 <= P * (u * S)) by (apply Rmult_le_pos; lra). lra.
Qed.

(** the first addition, to zero, is exact *)
Lemma zero_plus (z x : F) : is_finite z = true -> B2R z = 0 -> is_finite x = true -> is_finite (Bplus mode_NE z x) = true /\ B2R (Bplus mode_NE z x) = B2R x.
Proof.
  intros Fz Ez Fx. pose proof (Bplus_correct prec emax Hp Hm mode_NE z x Fz Fx) as H. rewrite Ez, Rplus_0_l, round_generic in H; [|apply valid_rnd_round_mode|apply generic_format_B2R].
  rewrite (Rlt_bool_true _ _ (abs_B2R_lt_emax prec emax x)) in H. tauto.
Qed.
Lemma plus_zero (x z : F) : is_finite z = true -> B2R z = 0 -> is_finite x = true -> is_finite (Bplus mode_NE x z) = true /\ B2R (Bplus mode_NE x z) = B2R x.
Proof.
  intros Fz Ez Fx. pose proof (Bplus_correct prec emax Hp Hm mode_NE x z Fx Fz) as H. rewrite Ez, Rplus_0_r, round_generic in H; [|apply valid_rnd_round_mode|apply generic_format_B2R].
  rewrite (Rlt_bool_true _ _ (abs_B2R_lt_emax prec emax x)) in H. tauto.
Qed.
Lemma one_mult (x : F) : is_finite x = true -> is_finite (Bmult mode_NE Bone x) = true /\ B2R (Bmult mode_NE Bone x) = B2R x.
Proof.
  intros Fx. pose proof (Bmult_correct prec emax Hp Hm mode_NE Bone x) as H. rewrite Bone_correct, Rmult_1_l, round_generic in H; [|apply valid_rnd_round_mode|apply generic_format_B2R].
  rewrite (Rlt_bool_true _ _ (abs_B2R_lt_emax prec emax x)) in H. rewrite is_finite_Bone, Fx in H. tauto.
Qed.
Lemma chain0 (z : F) l : is_finite z = true -> B2R z = 0 -> Forall (fun x : F => is_finite x = true) l -> (1 + u) ^ (length l - 1) * Rsum (map (fun x => Rabs (B2R x)) l) < big ->
  is_finite (fold_left (Bplus mode_NE) l z) = true /\
  Rabs (B2R (fold_left (Bplus mode_NE) l z) - Rsum (map B2R l)) <= ((1 + u) ^ (length l - 1) - 1) * Rsum (map (fun x => Rabs (B2R x)) l).
Proof.
  intros Fz Ez Fl Hb. destruct l as [|x l]; cbn [fold_left map Rsum].
  - split; [exact Fz|]. rewrite Ez, Rminus_0_r, Rabs_R0, Rmult_0_r. lra.
  - destruct (zero_plus z x Fz Ez (Forall_inv Fl)) as (F1 & E1). cbn [length] in *. replace (S (length l) - 1)%nat with (length l) in * by lia. cbn [map Rsum] in Hb. rewrite <- E1 in *. now apply chain; [|apply (Forall_inv_tail Fl)|].
Qed.

(** products of pairs *)
Lemma prods {T} (x y : T -> F) l : (forall i, In i l -> is_finite (x i) = true /\ is_finite (y i) = true) ->
  let t := Rsum (map (fun i => Rabs (B2R (x i) * B2R (y i))) l) in (1 + u) * t + INR (length l) * eta < big ->
  (forall i, In i l -> is_finite (Bmult mode_NE (x i) (y i)) = true) /\
  Rabs (Rsum (map (fun i => B2R (Bmult mode_NE (x i) (y i))) l) - Rsum (map (fun i => B2R (x i) * B2R (y i)) l)) <= u * t + INR (length l) * eta /\
  Rsum (map (fun i => Rabs (B2R (Bmult mode_NE (x i) (y i)))) l) <= (1 + u) * t + INR (length l) * eta.
Proof.
  intros Hf t Hb. pose proof u_pos as Hu. pose proof eta_pos as He.
  assert (G : forall i, In i l -> is_finite (Bmult mode_NE (x i) (y i)) = true /\ Rabs (B2R (Bmult mode_NE (x i) (y i)) - B2R (x i) * B2R (y i)) <= u * Rabs (B2R (x i) * B2R (y i)) + eta).
  { intros i Hi. destruct (Hf i Hi) as [Fx Fy]. assert (Ht : Rabs (B2R (x i) * B2R (y i)) <= t).
    { unfold t. rewrite <- (map_map (fun i => B2R (x i) * B2R (y i)) Rabs). apply Rsum_abs_in. now apply in_map with (f := fun i => B2R (x i) * B2R (y i)). }
    assert (1 <= INR (length l)) by (change 1 with (INR 1); apply le_INR; destruct l; [contradiction|cbn [length]; lia]).
    destruct (mult_step (x i) (y i) Fx Fy) as (H1 & _ & H2); [nra|]. split; assumption. }
  split; [intros i Hi; now apply G|].
  assert (E : Rsum (map (fun i => u * Rabs (B2R (x i) * B2R (y i)) + eta) l) = u * t + INR (length l) * eta).
  { rewrite (Rsum_plus (fun i => u * Rabs (B2R (x i) * B2R (y i))) (fun _ => eta)), Rsum_const, Rsum_scale. reflexivity. }
  split; [rewrite <- E; apply Rsum_diff; intros i Hi; now apply G|].
  replace ((1 + u) * t + INR (length l) * eta) with (Rsum (map (fun i => (u * Rabs (B2R (x i) * B2R (y i)) + eta) + Rabs (B2R (x i) * B2R (y i))) l)).
  - apply Rsum_le. intros i Hi. destruct (G i Hi) as [_ H]. replace (B2R (Bmult mode_NE (x i) (y i))) with ((B2R (Bmult mode_NE (x i) (y i)) - B2R (x i) * B2R (y i)) + B2R (x i) * B2R (y i)) by ring. eapply Rle_trans; [apply Rabs_triang|lra].
  - rewrite (Rsum_plus (fun i => u * Rabs (B2R (x i) * B2R (y i)) + eta)), E. unfold t. ring.
Qed.
(** sums of products *)
Lemma dot_any {T} (r : F) (x y : T -> F) l : l <> [] -> (forall i, In i l -> is_finite (x i) = true /\ is_finite (y i) = true) ->
  let t := Rsum (map (fun i => Rabs (B2R (x i) * B2R (y i))) l) in (1 + u) ^ length l * (t + INR (length l) * eta) < big ->
  (forall p : T -> F, p = (fun i => Bmult mode_NE (x i) (y i)) -> (forall i, In i l -> is_finite (p i) = true) -> (1 + u) ^ (length l - 1) * Rsum (map (fun i => Rabs (B2R (p i))) l) < big ->
     is_finite r = true /\ Rabs (B2R r - Rsum (map (fun i => B2R (p i)) l)) <= ((1 + u) ^ (length l - 1) - 1) * Rsum (map (fun i => Rabs (B2R (p i))) l)) ->
  is_finite r = true /\ Rabs (B2R r - Rsum (map (fun i => B2R (x i) * B2R (y i)) l)) <= ((1 + u) ^ length l - 1) * t + (1 + u) ^ length l * (INR (length l) * eta).
Proof.
  intros Nl Hf t Hb HC. pose proof u_pos as Hu. pose proof eta_pos as He. assert (Ht : 0 <= t) by (apply Rsum_nonneg; intros; apply Rabs_pos).
  assert (Hn : length l = S (length l - 1)) by (destruct l; [congruence|cbn [length]; lia]).
  set (n1 := (length l - 1)%nat) in *. set (N := INR (length l) * eta) in *. assert (HN : 0 <= N) by (unfold N; apply Rmult_le_pos; [apply pos_INR|lra]).
  assert (EP : (1 + u) ^ length l = (1 + u) * (1 + u) ^ n1) by (rewrite Hn at 1; reflexivity). rewrite EP in *. set (P := (1 + u) ^ n1) in *. assert (HP : 1 <= P) by (apply pow1u; lra).
  assert (H0 : 0 <= (P - 1) * ((1 + u) * t)) by (repeat apply Rmult_le_pos; lra). assert (H1 : 0 <= (P - 1) * N) by (apply Rmult_le_pos; lra). assert (H2 : 0 <= u * P * N) by (apply Rmult_le_pos; [apply Rmult_le_pos; lra|exact HN]).
  destruct (prods x y l Hf) as (Fp & Ep & Ap); [fold t N; lra|]. fold t N in Ep, Ap.
  destruct (HC _ eq_refl Fp) as (Fr & Er).
  { eapply Rle_lt_trans; [apply Rmult_le_compat_l; [lra|exact Ap]|]. lra. }
  split; [exact Fr|].
  replace (B2R r - Rsum (map (fun i => B2R (x i) * B2R (y i)) l)) with
    ((B2R r - Rsum (map (fun i => B2R (Bmult mode_NE (x i) (y i))) l)) + (Rsum (map (fun i => B2R (Bmult mode_NE (x i) (y i))) l) - Rsum (map (fun i => B2R (x i) * B2R (y i)) l))) by ring.
  eapply Rle_trans; [apply Rabs_triang|]. pose proof (Rmult_le_compat_l (P - 1) _ _ ltac:(lra) Ap). lra.
Qed.
(** ... from zero *)
Lemma dot_chain {T} (z : F) (x y : T -> F) l : is_finite z = true -> B2R z = 0 -> (forall i, In i l -> is_finite (x i) = true /\ is_finite (y i) = true) ->
  let t := Rsum (map (fun i => Rabs (B2R (x i) * B2R (y i))) l) in (1 + u) ^ length l * (t + INR (length l) * eta) < big ->
  let r := fold_left (Bplus mode_NE) (map (fun i => Bmult mode_NE (x i) (y i)) l) z in
  is_finite r = true /\ Rabs (B2R r - Rsum (map (fun i => B2R (x i) * B2R (y i)) l)) <= ((1 + u) ^ length l - 1) * t + (1 + u) ^ length l * (INR (length l) * eta).
Proof.
  intros Fz Ez Hf t Hb r. assert (Hl : l = [] \/ l <> []) by (destruct l; [now left|right; discriminate]). destruct Hl as [El|Nl].
  { subst r t. rewrite El. cbn [map fold_left Rsum length INR pow]. split; [exact Fz|]. rewrite Ez, Rminus_0_r, Rabs_R0. lra. }
  apply dot_any; auto. intros p Ep Fp Hb'. unfold r. rewrite <- Ep.
  destruct (chain0 z (map p l) Fz Ez) as (Fr & Er).
  - apply Forall_forall. intros q Hq. apply in_map_iff in Hq. destruct Hq as (i & <- & Hi). now apply Fp.
  - rewrite map_length, map_map. exact Hb'.
  - rewrite map_length, !map_map in Er. split; assumption.
Qed.
(** ... from the first product *)
Lemma dot_first {T} (x y : T -> F) i0 l : (forall i, In i (i0 :: l) -> is_finite (x i) = true /\ is_finite (y i) = true) ->
  let t := Rsum (map (fun i => Rabs (B2R (x i) * B2R (y i))) (i0 :: l)) in (1 + u) ^ length (i0 :: l) * (t + INR (length (i0 :: l)) * eta) < big ->
  let r := fold_left (fun r i => Bplus mode_NE r (Bmult mode_NE (x i) (y i))) l (Bmult mode_NE (x i0) (y i0)) in
  is_finite r = true /\ Rabs (B2R r - Rsum (map (fun i => B2R (x i) * B2R (y i)) (i0 :: l))) <= ((1 + u) ^ length (i0 :: l) - 1) * t + (1 + u) ^ length (i0 :: l) * (INR (length (i0 :: l)) * eta).
Proof.
  intros Hf t Hb r. apply dot_any; [discriminate|auto|exact Hb|]. intros p Ep Fp Hb'.
  assert (Er : r = fold_left (Bplus mode_NE) (map p l) (p i0)).
  { unfold r. subst p. generalize (Bmult mode_NE (x i0) (y i0)) as s. clear. induction l as [|i l IH]; intros s; cbn [map fold_left]; [reflexivity|apply IH]. }
  rewrite Er. cbn [length] in *. replace (S (length l) - 1)%nat with (length l) in * by lia. cbn [map Rsum] in *.
  destruct (chain (map p l) (p i0) (Fp i0 (or_introl eq_refl))) as (F1 & E1).
  - apply Forall_forall. intros q Hq. apply in_map_iff in Hq. destruct Hq as (i & <- & Hi). apply Fp. now right.
  - rewrite map_length, map_map. exact Hb'.
  - rewrite map_length, !map_map in E1. split; assumption.
Qed.

(** a chain of products *)
Lemma u_half : u <= / 2.
Proof. unfold unit_roundoff. rewrite two_bpow. change (/ 2) with (bpow radix2 (-1)). apply bpow_le. pose proof Hp. unfold Prec_gt_0 in *. lia. Qed.
Lemma mult_rel (x y : F) : is_finite x = true -> is_finite y = true -> smallest_normal prec emax <= Rabs (B2R x * B2R y) -> (1 + u) * Rabs (B2R x * B2R y) < big ->
  is_finite (Bmult mode_NE x y) = true /\ exists t, 1 - u <= t <= 1 + u /\ B2R (Bmult mode_NE x y) = B2R x * B2R y * t.
Proof.
  intros Fx Fy Hs Hb. pose proof (Bmult_correct prec emax Hp Hm mode_NE x y) as H.
  destruct (relative_error_N_FLT_ex radix2 (SpecFloat.emin prec emax) prec Hp (fun z => negb (Z.even z)) (B2R x * B2R y)) as (eps & He & E).
  { rewrite <- two_bpow. unfold smallest_normal in Hs. unfold SpecFloat.emin. replace (3 - emax - prec + prec - 1)%Z with (2 - emax)%Z by lia. exact Hs. }
  change (FLT_exp (SpecFloat.emin prec emax) prec) with (SpecFloat.fexp prec emax) in E. change (Znearest (fun z => negb (Z.even z))) with (round_mode mode_NE) in E.
  rewrite half_bpow in He. replace (- prec + 1 - 1)%Z with (- prec)%Z in He by lia. fold (unit_roundoff prec) in He. apply Rabs_le_inv in He.
  assert (Hr : Rabs (rnd (B2R x * B2R y)) < bpow radix2 emax).
  { rewrite E, Rabs_mult, <- two_bpow. eapply Rle_lt_trans; [|exact Hb]. rewrite Rmult_comm. apply Rmult_le_compat_r; [apply Rabs_pos|]. apply Rabs_le. pose proof u_half. lra. }
  rewrite (Rlt_bool_true _ _ Hr) in H. destruct H as (H1 & H2 & _). rewrite Fx, Fy in H2. split; [exact H2|]. exists (1 + eps). split; [lra|]. now rewrite H1.
Qed.
Lemma pow_low n : 0 < (1 - u) ^ n <= 1.
Proof. pose proof u_pos. pose proof u_half. split; [apply pow_lt; lra|]. rewrite <- (pow1 n) at 2. apply pow_incr. lra. Qed.
Lemma chain_mult l : forall acc : F, is_finite acc = true -> Forall (fun x : F => is_finite x = true) l ->
  (forall k, (1 <= k <= length l)%nat -> smallest_normal prec emax <= (1 - u) ^ length l * Rabs (B2R acc * Rprod (firstn k (map B2R l))) /\ (1 + u) ^ length l * Rabs (B2R acc * Rprod (firstn k (map B2R l))) < big) ->
  is_finite (fold_left (Bmult mode_NE) l acc) = true /\
  exists t, (1 - u) ^ length l <= t <= (1 + u) ^ length l /\ B2R (fold_left (Bmult mode_NE) l acc) = B2R acc * Rprod (map B2R l) * t.
Proof.
  pose proof u_pos as Hu. pose proof u_half as Hh. induction l as [|x l IH]; intros acc Fa Fl Hk.
  - cbn [fold_left map Rprod length pow]. split; [exact Fa|]. exists 1. split; [lra|ring].
  - pose proof (Forall_inv Fl) as Fx. pose proof (Forall_inv_tail Fl) as Fl'. cbv beta in Fx. cbn [map length] in Hk. destruct (pow_low (length l)) as [L1 L2]. pose proof (pow1u u (length l) ltac:(lra)) as L3.
    destruct (Hk 1%nat ltac:(cbn [length]; lia)) as [K1 K2]. cbn [firstn Rprod pow] in K1, K2. rewrite Rmult_1_r in K1, K2. set (p := Rabs (B2R acc * B2R x)) in *. assert (Hp0 : 0 <= p) by apply Rabs_pos.
    destruct (mult_rel acc x Fa Fx) as (F1 & t1 & T1 & E1); fold p.
    { eapply Rle_trans; [exact K1|]. rewrite <- (Rmult_1_l p) at 2. apply Rmult_le_compat_r; [exact Hp0|]. nra. }
    { eapply Rle_lt_trans; [|exact K2]. apply Rmult_le_compat_r; [exact Hp0|]. nra. }
    cbn [fold_left]. set (s := Bmult mode_NE acc x) in *.
    destruct (IH s F1 Fl') as (F2 & t2 & T2 & E2).
    { intros k Hk'. destruct (Hk (S k) ltac:(lia)) as [J1 J2]. cbn [firstn Rprod pow] in J1, J2. set (q := Rprod (firstn k (map B2R l))) in *.
      assert (Eq : Rabs (B2R s * q) = t1 * Rabs (B2R acc * (B2R x * q))) by (rewrite E1; replace (B2R acc * B2R x * t1 * q) with (t1 * (B2R acc * (B2R x * q))) by ring; rewrite Rabs_mult, (Rabs_pos_eq t1) by lra; reflexivity).
      rewrite Eq. set (w := Rabs (B2R acc * (B2R x * q))) in *. assert (0 <= w) by apply Rabs_pos. split.
      - eapply Rle_trans; [exact J1|]. replace ((1 - u) * (1 - u) ^ length l * w) with ((1 - u) ^ length l * w * (1 - u)) by ring. replace ((1 - u) ^ length l * (t1 * w)) with ((1 - u) ^ length l * w * t1) by ring. apply Rmult_le_compat_l; [apply Rmult_le_pos; lra|lra].
      - eapply Rle_lt_trans; [|exact J2]. replace ((1 + u) * (1 + u) ^ length l * w) with ((1 + u) ^ length l * w * (1 + u)) by ring. replace ((1 + u) ^ length l * (t1 * w)) with ((1 + u) ^ length l * w * t1) by ring. apply Rmult_le_compat_l; [apply Rmult_le_pos; lra|lra]. }
    split; [exact F2|]. exists (t1 * t2). split.
    + cbn [length pow]. split; apply Rmult_le_compat; lra.
    + rewrite E2, E1. cbn [map Rprod]. ring.
Qed.
Lemma pow_both n : 2 <= (1 + u) ^ n + (1 - u) ^ n.
Proof.
  pose proof u_pos as Hu. pose proof u_half as Hh. enough (H : 2 <= (1 + u) ^ n + (1 - u) ^ n /\ (1 - u) ^ n <= (1 + u) ^ n) by tauto.
  induction n as [|n [I1 I2]]; cbn [pow]; [lra|]. pose proof (pow_low n). split; nra.
Qed.

(** square roots *)
Lemma sqrt_step (x : F) : is_finite x = true -> 0 <= B2R x -> is_finite (Bsqrt mode_NE x) = true /\ exists t, 1 - u <= t <= 1 + u /\ B2R (Bsqrt mode_NE x) = sqrt (B2R x) * t.
Proof.
  intros Fx Hx. pose proof u_pos as Hu. destruct (Bsqrt_correct prec emax Hp Hm mode_NE x) as (H1 & H2 & _). split.
  - rewrite H2. destruct x as [| | |[] m e]; try discriminate; try reflexivity. exfalso. revert Hx. cbn [B2R]. apply Rlt_not_le. now apply F2R_lt_0.
  - rewrite H1. destruct (Rle_lt_or_eq_dec _ _ Hx) as [Hlt|<-].
    + destruct (relative_error_N_FLT_ex radix2 (SpecFloat.emin prec emax) prec Hp (fun z => negb (Z.even z)) (sqrt (B2R x))) as (eps & He & E).
      { assert (Hs : bpow radix2 (SpecFloat.emin prec emax) <= B2R x).
        { destruct x as [| | |[] m e Hb]; cbn [B2R] in *; try lra; try discriminate.
          - exfalso. apply (Rlt_irrefl 0). eapply Rlt_trans; [exact Hlt|]. now apply F2R_lt_0.
          - assert (Hb' := Hb). unfold SpecFloat.bounded in Hb'. apply andb_prop in Hb'. destruct Hb' as [Hc _]. unfold SpecFloat.canonical_mantissa in Hc. apply Zeq_bool_eq in Hc.
            unfold SpecFloat.fexp in Hc. assert (He : (SpecFloat.emin prec emax <= e)%Z) by lia. eapply Rle_trans; [apply bpow_le, He|]. unfold F2R. cbn [Fnum Fexp cond_Zopp]. rewrite <- (Rmult_1_l (bpow radix2 e)) at 1. apply Rmult_le_compat_r; [apply bpow_ge_0|]. apply IZR_le. lia. }
        rewrite Rabs_pos_eq by apply sqrt_pos. pose proof Hm as Hm'. unfold Prec_lt_emax in Hm'. pose proof Hp as Hp'. unfold Prec_gt_0 in Hp'.
        rewrite <- (sqrt_square (bpow radix2 (SpecFloat.emin prec emax + prec - 1))) by apply bpow_ge_0. apply sqrt_le_1_alt. eapply Rle_trans; [|exact Hs]. rewrite <- bpow_plus. apply bpow_le. unfold SpecFloat.emin in *. lia. }
      change (FLT_exp (SpecFloat.emin prec emax) prec) with (SpecFloat.fexp prec emax) in E. change (Znearest (fun z => negb (Z.even z))) with (round_mode mode_NE) in E.
      rewrite half_bpow in He. replace (- prec + 1 - 1)%Z with (- prec)%Z in He by lia. fold (unit_roundoff prec) in He. apply Rabs_le_inv in He. exists (1 + eps). split; [lra|exact E].
    + rewrite sqrt_0, round_0 by apply valid_rnd_round_mode. exists 1. split; lra.
Qed.
(** exact sums *)
Lemma exact_format k e : (SpecFloat.emin prec emax <= e)%Z -> (Z.abs k <= 2 ^ prec)%Z -> generic_format radix2 (SpecFloat.fexp prec emax) (IZR k * two_to e).
Proof.
  intros He Hk. change (SpecFloat.fexp prec emax) with (FLT_exp (SpecFloat.emin prec emax) prec). rewrite two_bpow. pose proof Hp as Hp'. unfold Prec_gt_0 in Hp'.
  destruct (Z.eq_dec (Z.abs k) (2 ^ prec)) as [E|E].
  - apply generic_format_abs_inv. rewrite Rabs_mult, <- abs_IZR, E, (Rabs_pos_eq (bpow radix2 e)) by apply bpow_ge_0. change 2%Z with (radix_val radix2) at 1. rewrite IZR_Zpower by lia. rewrite <- bpow_plus.
    apply generic_format_bpow. unfold FLT_exp. lia.
  - apply generic_format_FLT. exists (Float radix2 k e); cbn [Fnum Fexp]; [reflexivity| |exact He]. change (radix_val radix2) with 2%Z. lia.
Qed.
Lemma chain_exact e l : (SpecFloat.emin prec emax <= e)%Z -> (prec + e < emax)%Z -> forall acc : F, is_finite acc = true -> Forall (fun x : F => is_finite x = true) l ->
  (exists k, B2R acc = IZR k * two_to e) -> Forall (fun x : F => exists k, B2R x = IZR k * two_to e) l -> Rabs (B2R acc) + Rsum (map (fun x => Rabs (B2R x)) l) <= two_to (prec + e) ->
  is_finite (fold_left (Bplus mode_NE) l acc) = true /\ B2R (fold_left (Bplus mode_NE) l acc) = B2R acc + Rsum (map B2R l).
Proof.
  intros He Hx. pose proof Hp as Hp'. unfold Prec_gt_0 in Hp'. induction l as [|x l IH]; intros acc Fa Fl [ka Ea] Hl Hs; cbn [fold_left map Rsum] in *; [split; [exact Fa|ring]|].
  pose proof (Forall_inv Fl) as Fx. cbv beta in Fx. destruct (Forall_inv Hl) as [kx Ex]. assert (HS : 0 <= Rsum (map (fun x => Rabs (B2R x)) l)) by (apply Rsum_nonneg; intros; apply Rabs_pos).
  assert (Hsum : Rabs (B2R acc + B2R x) <= two_to (prec + e)) by (eapply Rle_trans; [apply Rabs_triang|lra]).
  assert (Es : B2R acc + B2R x = IZR (ka + kx) * two_to e) by (rewrite Ea, Ex, plus_IZR; ring).
  assert (Hk : (Z.abs (ka + kx) <= 2 ^ prec)%Z).
  { apply le_IZR. rewrite abs_IZR. change 2%Z with (radix_val radix2). rewrite IZR_Zpower by lia. apply (Rmult_le_reg_r (bpow radix2 e)); [apply bpow_gt_0|]. rewrite <- bpow_plus.
    replace (Rabs (IZR (ka + kx)) * bpow radix2 e) with (Rabs (B2R acc + B2R x)); [rewrite <- two_bpow; exact Hsum|]. rewrite Es, Rabs_mult, two_bpow, (Rabs_pos_eq (bpow radix2 e)) by apply bpow_ge_0. reflexivity. }
  pose proof (Bplus_correct prec emax Hp Hm mode_NE acc x Fa Fx) as H. rewrite round_generic in H; [|apply valid_rnd_round_mode|rewrite Es; now apply exact_format].
  rewrite Rlt_bool_true in H by (eapply Rle_lt_trans; [exact Hsum|]; rewrite two_bpow; now apply bpow_lt). destruct H as (H1 & H2 & _).
  destruct (IH _ H2 (Forall_inv_tail Fl)) as (F3 & E3).
  - exists (ka + kx)%Z. now rewrite H1.
  - exact (Forall_inv_tail Hl).
  - rewrite H1. pose proof (Rabs_triang (B2R acc) (B2R x)). lra.
  - split; [exact F3|]. rewrite E3, H1. ring.
Qed.

(** what is not a number, or not finite, stays so *)
Lemma plus_nan (x y : F) : orb (is_nan x) (is_nan y) = true -> is_nan (Bplus mode_NE x y) = true.
Proof. destruct x as [[]|[]| |[]], y as [[]|[]| |[]]; cbn; congruence. Qed.
Lemma mult_nan (x y : F) : orb (is_nan x) (is_nan y) = true -> is_nan (Bmult mode_NE x y) = true.
Proof. destruct x as [[]|[]| |[]], y as [[]|[]| |[]]; cbn; congruence. Qed.
Lemma plus_inf (x y : F) : andb (is_finite x) (is_finite y) = false -> is_finite (Bplus mode_NE x y) = false.
Proof. destruct x as [[]|[]| |[]], y as [[]|[]| |[]]; cbn; congruence. Qed.
Lemma mult_inf (x y : F) : andb (is_finite x) (is_finite y) = false -> is_finite (Bmult mode_NE x y) = false.
Proof. destruct x as [[]|[]| |[]], y as [[]|[]| |[]]; cbn; congruence. Qed.
Lemma fold_nan {T} (f : F -> T -> F) (bad : T -> bool) l : (forall x y, orb (is_nan x) (bad y) = true -> is_nan (f x y) = true) ->
  forall acc, is_nan acc = true \/ (exists y, In y l /\ bad y = true) -> is_nan (fold_left f l acc) = true.
Proof.
  intros H. induction l as [|y l IH]; intros acc Ha; cbn [fold_left]; [destruct Ha as [Ha|(y & [] & _)]; exact Ha|].
  destruct Ha as [Ha|(z & [<-|Hz] & Hb)].
  - apply IH. left. apply H. now rewrite Ha.
  - apply IH. left. apply H. rewrite Hb. apply Bool.orb_true_r.
  - apply IH. right. now exists z.
Qed.
Lemma fold_inf {T} (f : F -> T -> F) (good : T -> bool) l : (forall x y, andb (is_finite x) (good y) = false -> is_finite (f x y) = false) ->
  forall acc, is_finite (fold_left f l acc) = true -> is_finite acc = true /\ forall y, In y l -> good y = true.
Proof.
  intros H. induction l as [|y l IH]; intros acc Ha; cbn [fold_left] in Ha; [split; [exact Ha|intros y []]|].
  destruct (IH _ Ha) as [H1 H2]. destruct (andb (is_finite acc) (good y)) eqn:E; [|now rewrite (H _ _ E) in H1]. apply andb_prop in E. destruct E as [E1 E2]. split; [exact E1|]. intros z [<-|Hz]; auto.
Qed.
Lemma rnd_nonneg r : 0 <= r -> 0 <= rnd r.
Proof. intros H. apply round_ge_generic; [apply fexp_correct, Hp|apply valid_rnd_round_mode|apply generic_format_0|exact H]. Qed.
Lemma overflow_not_finite (x : F) s : B2SF x = binary_overflow prec emax mode_NE s -> is_finite x = false.
Proof. destruct x; cbn; congruence. Qed.
Definition nonneg (x : F) : Prop := is_finite x = true -> 0 <= B2R x.
Lemma plus_nonneg x y : nonneg x -> nonneg y -> nonneg (Bplus mode_NE x y).
Proof.
  intros Hx Hy Hf. destruct (is_finite x) eqn:Fx; [destruct (is_finite y) eqn:Fy|]; try (rewrite plus_inf in Hf by (rewrite ?Fx, ?Fy; reflexivity); discriminate).
  pose proof (Bplus_correct prec emax Hp Hm mode_NE x y Fx Fy) as H. destruct (Rlt_bool _ _).
  - destruct H as (-> & _). apply rnd_nonneg. specialize (Hx Fx). specialize (Hy Fy). lra.
  - destruct H as (H & _). apply overflow_not_finite in H. congruence.
Qed.
Lemma mult_nonneg x y : nonneg x -> nonneg y -> nonneg (Bmult mode_NE x y).
Proof.
  intros Hx Hy Hf. destruct (is_finite x) eqn:Fx; [destruct (is_finite y) eqn:Fy|]; try (rewrite mult_inf in Hf by (rewrite ?Fx, ?Fy; reflexivity); discriminate).
  pose proof (Bmult_correct prec emax Hp Hm mode_NE x y) as H. destruct (Rlt_bool _ _).
  - destruct H as (-> & _). apply rnd_nonneg. apply Rmult_le_pos; auto.
  - apply overflow_not_finite in H. congruence.
Qed.
Lemma abs_nonneg (x : F) : nonneg (Babs x).
Proof. intros _. rewrite B2R_Babs. apply Rabs_pos. Qed.
Lemma fold_nonneg {T} (f : T -> F) l : (forall i, In i l -> nonneg (f i)) -> forall acc, nonneg acc -> nonneg (fold_left (Bplus mode_NE) (map f l) acc).
Proof.
  induction l as [|i l IH]; intros Hf acc Ha; cbn [map fold_left]; [exact Ha|]. apply IH; [intros j Hj; apply Hf; now right|]. apply plus_nonneg; [exact Ha|]. apply Hf. now left.
Qed.
End Float.
