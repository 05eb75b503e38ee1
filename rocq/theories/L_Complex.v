(** Lemmas on conversions and complex arithmetic. *)
From Coq Require Import ZArith Reals Lra Lia Psatz Bool.
From Flocq Require Import Core BinarySingleNaN.
From Verif Require Import Base M_IdxMap M_Slice M_Loops M_Assign M_Expr M_Float M_Complex S_Float S_Complex L_Float.
Local Open Scope R_scope.

Section Conv.
Context (prec emax : Z) {Hp : Prec_gt_0 prec} {Hm : Prec_lt_emax prec emax}.
Notation F := (fl prec emax).
Notation u := (unit_roundoff prec).
Notation eta := (half_smallest prec emax).
Notation big := (two_to emax).
Notation rnd := (round radix2 (SpecFloat.fexp prec emax) (round_mode mode_NE)).

Notation close_sum := (close_sum prec).
Notation close_product := (close_product prec emax).
Notation in_reach := (in_reach prec emax).

Lemma normalize_exact n e s : generic_format radix2 (SpecFloat.fexp prec emax) (F2R (Float radix2 n e)) -> Rabs (F2R (Float radix2 n e)) < bpow radix2 emax ->
  is_finite (binary_normalize prec emax Hp Hm mode_NE n e s) = true /\ B2R (binary_normalize prec emax Hp Hm mode_NE n e s) = F2R (Float radix2 n e).
Proof.
  intros Hf Hb. pose proof (binary_normalize_correct prec emax Hp Hm mode_NE n e s) as H. cbv zeta in H. rewrite round_generic in H; [|apply valid_rnd_round_mode|exact Hf].
  rewrite (Rlt_bool_true _ _ Hb) in H. tauto.
Qed.
Lemma of_int_exact n : (SpecFloat.emin prec emax <= 0)%Z -> (prec < emax)%Z -> (Z.abs n <= 2 ^ prec)%Z -> is_finite (of_int (prec := prec) (emax := emax) n) = true /\ B2R (of_int (prec := prec) (emax := emax) n) = IZR n.
Proof.
  intros He Hlt Hn. pose proof Hp as Hp'. unfold Prec_gt_0 in Hp'. assert (E : F2R (Float radix2 n 0) = IZR n) by (unfold F2R; cbn [Fnum Fexp]; change (bpow radix2 0) with 1; ring).
  destruct (normalize_exact n 0 false) as [H1 H2].
  - rewrite E. pose proof (exact_format prec emax n 0 He Hn) as H. rewrite two_bpow in H. change (bpow radix2 0) with 1 in H. now rewrite Rmult_1_r in H.
  - rewrite E, <- abs_IZR. apply Rle_lt_trans with (bpow radix2 prec); [|now apply bpow_lt]. rewrite <- IZR_Zpower by lia. now apply IZR_le.
  - split; [exact H1|]. unfold of_int. now rewrite H2.
Qed.
Lemma of_float_exact p e {Hp' : Prec_gt_0 p} {Hm' : Prec_lt_emax p e} (x : fl p e) : (p <= prec)%Z -> (e <= emax)%Z -> (SpecFloat.emin prec emax <= SpecFloat.emin p e)%Z ->
  is_finite (of_float x : F) = is_finite x /\ B2R (of_float x : F) = B2R x /\ is_nan (of_float x : F) = is_nan x.
Proof.
  intros H1 H2 H3. destruct x as [s|s| |s m ex Hb]; [repeat split..|]. cbn [of_float is_finite is_nan].
  destruct (normalize_exact (cond_Zopp s (Zpos m)) ex s) as [G1 G2].
  - pose proof (FLT_format_B2R p e _ (B754_finite s m ex Hb)) as [f Ef Em Ee]. cbn [B2R] in Ef. rewrite Ef.
    change (SpecFloat.fexp prec emax) with (FLT_exp (SpecFloat.emin prec emax) prec). apply generic_format_FLT. exists f; [reflexivity| |].
    + eapply Z.lt_le_trans; [exact Em|]. apply Z.pow_le_mono_r; [reflexivity|exact H1].
    + eapply Z.le_trans; [exact H3|exact Ee].
  - pose proof (abs_B2R_lt_emax p e (B754_finite s m ex Hb)) as H. cbn [B2R] in H. eapply Rlt_le_trans; [exact H|]. now apply bpow_le.
  - repeat split; [exact G1|exact G2|]. destruct (binary_normalize _ _ _ _ _ _ _ _); cbn in G1 |- *; congruence.
Qed.
Lemma minus_step (x y : F) : is_finite x = true -> is_finite y = true -> (1 + u) * (Rabs (B2R x) + Rabs (B2R y)) < big ->
  is_finite (Bminus mode_NE x y) = true /\ B2R (Bminus mode_NE x y) = rnd (B2R x - B2R y) /\
  Rabs (B2R (Bminus mode_NE x y) - (B2R x - B2R y)) <= u * Rabs (B2R x - B2R y).
Proof.
  intros Fx Fy Hb. destruct (plus_step prec emax x (Bopp y)) as (H1 & H2 & H3); [exact Fx|now rewrite is_finite_Bopp|now rewrite B2R_Bopp, Rabs_Ropp|].
  rewrite B2R_Bopp in H2, H3. change (B2R x + - B2R y) with (B2R x - B2R y) in H2, H3.
  pose proof (Bminus_correct prec emax Hp Hm mode_NE x y Fx Fy) as H. rewrite <- H2 in H. rewrite (Rlt_bool_true _ _ (abs_B2R_lt_emax prec emax _)) in H. destruct H as (E & Ff & _).
  rewrite E, <- H2. auto.
Qed.
Lemma minus_zero (x z : F) : is_finite z = true -> B2R z = 0 -> is_finite x = true -> is_finite (Bminus mode_NE x z) = true /\ B2R (Bminus mode_NE x z) = B2R x.
Proof.
  intros Fz Ez Fx. pose proof (Bminus_correct prec emax Hp Hm mode_NE x z Fx Fz) as H. rewrite Ez, Rminus_0_r, round_generic in H; [|apply valid_rnd_round_mode|apply generic_format_B2R].
  rewrite (Rlt_bool_true _ _ (abs_B2R_lt_emax prec emax x)) in H. tauto.
Qed.
Lemma zero_minus (z x : F) : is_finite z = true -> B2R z = 0 -> is_finite x = true -> is_finite (Bminus mode_NE z x) = true /\ B2R (Bminus mode_NE z x) = - B2R x.
Proof.
  intros Fz Ez Fx. pose proof (Bminus_correct prec emax Hp Hm mode_NE z x Fz Fx) as H. rewrite Ez, Rminus_0_l, <- B2R_Bopp, round_generic in H; [|apply valid_rnd_round_mode|apply generic_format_B2R].
  rewrite (Rlt_bool_true _ _ (abs_B2R_lt_emax prec emax (Bopp x))) in H. rewrite B2R_Bopp in H. tauto.
Qed.
Lemma mult_zero (x z : F) : is_finite x = true -> is_finite z = true -> B2R x * B2R z = 0 -> is_finite (Bmult mode_NE x z) = true /\ B2R (Bmult mode_NE x z) = 0.
Proof.
  intros Fx Fz E. pose proof (Bmult_correct prec emax Hp Hm mode_NE x z) as H. rewrite E, round_0, Rabs_R0, (Rlt_bool_true _ _ (bpow_gt_0 radix2 emax)), Fx, Fz in H; [tauto|]. apply valid_rnd_round_mode.
Qed.
Lemma finite_not_nan (x : F) : is_finite x = true -> is_nan x = false.
Proof. destruct x; cbn; congruence. Qed.

(** each part of a sum *)
Lemma sum_part (x y : F) : is_finite x = true -> is_finite y = true -> (1 + u) * (Rabs (B2R x) + Rabs (B2R y)) < big ->
  is_finite (Bplus mode_NE x y) = true /\ close_sum (B2R (Bplus mode_NE x y)) (B2R x) (B2R y).
Proof.
  intros Fx Fy Hb. destruct (plus_step prec emax x y Fx Fy Hb) as (H1 & _ & H2). split; [exact H1|]. split; [exact H2|]. intros [E|E]; rewrite E.
  - destruct (zero_plus prec emax x y Fx E Fy) as (_ & ->). ring.
  - destruct (plus_zero prec emax x y Fy E Fx) as (_ & ->). ring.
Qed.
Lemma diff_part (x y : F) : is_finite x = true -> is_finite y = true -> (1 + u) * (Rabs (B2R x) + Rabs (B2R y)) < big ->
  is_finite (Bminus mode_NE x y) = true /\ close_sum (B2R (Bminus mode_NE x y)) (B2R x) (- B2R y).
Proof.
  intros Fx Fy Hb. destruct (minus_step x y Fx Fy Hb) as (H1 & _ & H2). split; [exact H1|]. split; [exact H2|]. intros [E|E].
  - destruct (zero_minus x y Fx E Fy) as (_ & ->). rewrite E. ring.
  - assert (E' : B2R y = 0) by lra. destruct (minus_zero x y Fy E' Fx) as (_ & ->). rewrite E'. ring.
Qed.
(** each part of a product: two products and a sum *)
Lemma product_err (r p q x y : R) : 0 <= u -> Rabs (p - x) <= u * Rabs x + eta -> Rabs (q - y) <= u * Rabs y + eta -> Rabs (r - (p + q)) <= u * Rabs (p + q) -> close_product r x y.
Proof.
  intros Hu H1 H2 H3. unfold S_Complex.close_product. pose proof (Rabs_triang (p - x) (q - y)) as T. pose proof (Rabs_triang x y) as T2. replace (p - x + (q - y)) with (p + q - (x + y)) in T by ring.
  pose proof (Rabs_triang (r - (p + q)) (p + q - (x + y))) as T3. replace (r - (p + q) + (p + q - (x + y))) with (r - (x + y)) in T3 by ring.
  pose proof (Rabs_triang (p + q - (x + y)) (x + y)) as T4. replace (p + q - (x + y) + (x + y)) with (p + q) in T4 by ring.
  assert (u * Rabs (p + q) <= u * ((1 + u) * (Rabs x + Rabs y) + 2 * eta)) by (apply Rmult_le_compat_l; lra). cbn [pow]. lra.
Qed.
Lemma two_products (a b c d : F) : is_finite a = true -> is_finite b = true -> is_finite c = true -> is_finite d = true -> in_reach (B2R a * B2R b) (B2R c * B2R d) ->
  let p := Bmult mode_NE a b in let q := Bmult mode_NE c d in
  is_finite p = true /\ is_finite q = true /\ Rabs (B2R p - B2R a * B2R b) <= u * Rabs (B2R a * B2R b) + eta /\ Rabs (B2R q - B2R c * B2R d) <= u * Rabs (B2R c * B2R d) + eta /\
  (1 + u) * (Rabs (B2R p) + Rabs (B2R q)) < big.
Proof.
  intros Fa Fb Fc Fd Hb p q. unfold S_Complex.in_reach in Hb. pose proof (u_pos prec) as Hu. pose proof (eta_pos prec emax) as He.
  set (x := B2R a * B2R b) in *. set (y := B2R c * B2R d) in *. pose proof (Rabs_pos x) as Hx. pose proof (Rabs_pos y) as Hy.
  assert (Hs : (1 + u) * (Rabs x + Rabs y) + 2 * eta < big).
  { eapply Rle_lt_trans; [|exact Hb]. assert (0 <= (1 + u) * (Rabs x + Rabs y)) by (apply Rmult_le_pos; lra). nra. }
  assert (Hxy : 0 <= u * Rabs x /\ 0 <= u * Rabs y) by (split; apply Rmult_le_pos; lra).
  destruct (mult_step prec emax a b Fa Fb) as (F1 & _ & E1); [fold x; lra|]. destruct (mult_step prec emax c d Fc Fd) as (F2 & _ & E2); [fold y; lra|]. fold x in E1. fold y in E2. fold p in F1, E1. fold q in F2, E2.
  repeat split; try assumption. eapply Rle_lt_trans; [|exact Hb]. apply Rmult_le_compat_l; [lra|].
  assert (Rabs (B2R p) <= (1 + u) * Rabs x + eta) by (replace (B2R p) with ((B2R p - x) + x) by ring; eapply Rle_trans; [apply Rabs_triang|lra]).
  assert (Rabs (B2R q) <= (1 + u) * Rabs y + eta) by (replace (B2R q) with ((B2R q - y) + y) by ring; eapply Rle_trans; [apply Rabs_triang|lra]). lra.
Qed.
Lemma product_plus (a b c d : F) : is_finite a = true -> is_finite b = true -> is_finite c = true -> is_finite d = true -> in_reach (B2R a * B2R b) (B2R c * B2R d) ->
  let r := Bplus mode_NE (Bmult mode_NE a b) (Bmult mode_NE c d) in is_finite r = true /\ close_product (B2R r) (B2R a * B2R b) (B2R c * B2R d).
Proof.
  intros Fa Fb Fc Fd Hb r. destruct (two_products a b c d Fa Fb Fc Fd Hb) as (F1 & F2 & E1 & E2 & Hs). destruct (plus_step prec emax _ _ F1 F2 Hs) as (F3 & _ & E3).
  split; [exact F3|]. apply (product_err _ (B2R (Bmult mode_NE a b)) (B2R (Bmult mode_NE c d))); [pose proof (u_pos prec); lra|exact E1|exact E2|exact E3].
Qed.
Lemma product_minus (a b c d : F) : is_finite a = true -> is_finite b = true -> is_finite c = true -> is_finite d = true -> in_reach (B2R a * B2R b) (B2R c * B2R d) ->
  let r := Bminus mode_NE (Bmult mode_NE a b) (Bmult mode_NE c d) in is_finite r = true /\ close_product (B2R r) (B2R a * B2R b) (- (B2R c * B2R d)).
Proof.
  intros Fa Fb Fc Fd Hb r. destruct (two_products a b c d Fa Fb Fc Fd Hb) as (F1 & F2 & E1 & E2 & Hs). destruct (minus_step _ _ F1 F2 Hs) as (F3 & _ & E3).
  split; [exact F3|]. apply (product_err _ (B2R (Bmult mode_NE a b)) (- B2R (Bmult mode_NE c d)) ); [pose proof (u_pos prec); lra|exact E1| |exact E3].
  rewrite Rabs_Ropp. match goal with |- Rabs ?t <= _ => replace t with (- (B2R (Bmult mode_NE c d) - B2R c * B2R d)) by ring end. now rewrite Rabs_Ropp.
Qed.
(** a product by a real number scales both parts *)
Lemma scale_minus (a b c d : F) : is_finite a = true -> is_finite b = true -> is_finite c = true -> is_finite d = true -> B2R c * B2R d = 0 -> (1 + u) * Rabs (B2R a * B2R b) + eta < big ->
  let r := Bminus mode_NE (Bmult mode_NE a b) (Bmult mode_NE c d) in is_finite r = true /\ Rabs (B2R r - B2R a * B2R b) <= u * Rabs (B2R a * B2R b) + eta.
Proof.
  intros Fa Fb Fc Fd E Hb r. destruct (mult_step prec emax a b Fa Fb Hb) as (F1 & _ & E1). destruct (mult_zero c d Fc Fd E) as (F2 & E2). destruct (minus_zero _ _ F2 E2 F1) as (F3 & E3).
  split; [exact F3|]. unfold r. now rewrite E3.
Qed.
Lemma scale_plus (a b c d : F) : is_finite a = true -> is_finite b = true -> is_finite c = true -> is_finite d = true -> B2R c * B2R d = 0 -> (1 + u) * Rabs (B2R a * B2R b) + eta < big ->
  let r := Bplus mode_NE (Bmult mode_NE a b) (Bmult mode_NE c d) in is_finite r = true /\ Rabs (B2R r - B2R a * B2R b) <= u * Rabs (B2R a * B2R b) + eta.
Proof.
  intros Fa Fb Fc Fd E Hb r. destruct (mult_step prec emax a b Fa Fb Hb) as (F1 & _ & E1). destruct (mult_zero c d Fc Fd E) as (F2 & E2). destruct (plus_zero prec emax _ _ F2 E2 F1) as (F3 & E3).
  split; [exact F3|]. unfold r. now rewrite E3.
Qed.
Lemma plus_scale (a b c d : F) : is_finite a = true -> is_finite b = true -> is_finite c = true -> is_finite d = true -> B2R a * B2R b = 0 -> (1 + u) * Rabs (B2R c * B2R d) + eta < big ->
  let r := Bplus mode_NE (Bmult mode_NE a b) (Bmult mode_NE c d) in is_finite r = true /\ Rabs (B2R r - B2R c * B2R d) <= u * Rabs (B2R c * B2R d) + eta.
Proof.
  intros Fa Fb Fc Fd E Hb r. destruct (mult_step prec emax c d Fc Fd Hb) as (F1 & _ & E1). destruct (mult_zero a b Fa Fb E) as (F2 & E2). destruct (zero_plus prec emax _ _ F2 E2 F1) as (F3 & E3).
  split; [exact F3|]. unfold r. now rewrite E3.
Qed.

(** signs and NaN of squares *)
Lemma square_sign (x y : F) : is_nan x = false -> Bsign y = Bsign x -> is_nan y = false -> is_finite y = is_finite x -> B2R y = B2R x ->
  is_nan (Bmult mode_NE x y) = false /\ Bsign (Bmult mode_NE x y) = false.
Proof.
  intros Nx Es Ny Ef Ev. destruct (is_finite x) eqn:Fx.
  - pose proof (Bmult_correct prec emax Hp Hm mode_NE x y) as H. destruct (Rlt_bool _ _).
    + destruct H as (_ & Hf & Hs). rewrite Ef, Fx in Hf. cbn in Hf. pose proof (finite_not_nan _ Hf) as Hn. split; [exact Hn|]. rewrite (Hs Hn), Es. apply xorb_nilpotent.
    + rewrite Es, xorb_nilpotent in H. destruct (Bmult mode_NE x y); cbn in H |- *; try discriminate; now inversion H.
  - destruct x as [s|s| |s m e Hb]; cbn in Fx, Nx; try discriminate. destruct y as [s'|s'| |s' m' e' Hb']; cbn in Ef, Ny; try discriminate. cbn in Es. subst s'. cbn. now rewrite xorb_nilpotent.
Qed.
Lemma opp_square_sign (x : F) : is_nan x = false -> is_nan (Bmult mode_NE (Bopp x) x) = false /\ Bsign (Bmult mode_NE (Bopp x) x) = true.
Proof.
  intros Nx. destruct (is_finite x) eqn:Fx.
  - pose proof (Bmult_correct prec emax Hp Hm mode_NE (Bopp x) x) as H. rewrite Bsign_Bopp in H by exact Nx. assert (Ex : xorb (negb (Bsign x)) (Bsign x) = true) by (now destruct (Bsign x)). rewrite Ex, is_finite_Bopp, Fx in H. destruct (Rlt_bool _ _).
    + destruct H as (_ & Hf & Hs). cbn in Hf. pose proof (finite_not_nan _ Hf) as Hn. split; [exact Hn|]. now rewrite (Hs Hn).
    + destruct (Bmult mode_NE (Bopp x) x); cbn in H |- *; try discriminate; now inversion H.
  - destruct x as [s|s| |s m e Hb]; cbn in Fx, Nx; try discriminate. cbn. now destruct s.
Qed.
Lemma minus_signs (x y : F) : is_nan x = false -> is_nan y = false -> Bsign x = false -> Bsign y = true ->
  is_nan (Bminus mode_NE x y) = false /\ Bsign (Bminus mode_NE x y) = false.
Proof.
  intros Nx Ny Sx Sy. destruct (is_finite x) eqn:Fx; [destruct (is_finite y) eqn:Fy|].
  - pose proof (Bminus_correct prec emax Hp Hm mode_NE x y Fx Fy) as H. destruct (Rlt_bool _ _).
    + destruct H as (_ & Hf & Hs). split; [now apply finite_not_nan|]. rewrite Hs, Sx, Sy. cbn [negb andb]. destruct (Rcompare_spec (B2R x - B2R y) 0) as [Hl| |]; try reflexivity.
      exfalso. assert (0 <= B2R x) by (destruct x; cbn in Sx |- *; try (subst; apply F2R_ge_0; cbn; lia); lra). assert (B2R y <= 0) by (destruct y; cbn in Sy |- *; try (subst; apply F2R_le_0; cbn; lia); lra). lra.
    + destruct H as (H & _). rewrite Sx in H. destruct (Bminus mode_NE x y); cbn in H |- *; try discriminate; now inversion H.
  - destruct x as [s|s| |s m e Hb], y as [s'|s'| |s' m' e' Hb']; cbn in *; try discriminate; subst; cbn; auto.
  - destruct x as [s|s| |s m e Hb], y as [s'|s'| |s' m' e' Hb']; cbn in *; try discriminate; subst; cbn; auto.
Qed.
End Conv.
