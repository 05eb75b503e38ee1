(** C82: numbers of different types, and functions of the elements of an array. *)
From Coq Require Import ZArith Reals Lra Lia Psatz Bool.
From Flocq Require Import Core Operations BinarySingleNaN.
From Verif Require Import Base M_IdxMap M_Slice M_Loops M_Assign M_Expr M_Float M_Complex S_Loops S_Assign S_Layout S_Expr S_Float S_Complex L_Loops L_Assign L_Expr L_Float L_Complex P_Expr P_Float.
Local Open Scope R_scope.

(** ** conversions *)
Lemma as_cdouble_finite x : finite_number x -> fits 53 x ->
  is_finite (re (as_cdouble x)) = true /\ is_finite (im (as_cdouble x)) = true /\ B2R (re (as_cdouble x)) = re_value x /\ B2R (im (as_cdouble x)) = im_value x.
Proof.
  destruct x as [n|y|y|z|z]; cbn [finite_number fits as_cdouble re im of_real re_value im_value]; intros Hf Hn.
  - destruct (of_int_exact 53 1024 n) as [H1 H2]; [vm_compute; discriminate|reflexivity|exact Hn|]. repeat split; assumption.
  - destruct (of_float_exact 53 1024 24 128 y) as (H1 & H2 & _); [lia|lia|vm_compute; discriminate|]. rewrite H1. repeat split; assumption.
  - repeat split; assumption.
  - destruct (of_float_exact 53 1024 24 128 (re z)) as (H1 & H2 & _); [lia|lia|vm_compute; discriminate|]. destruct (of_float_exact 53 1024 24 128 (im z)) as (H3 & H4 & _); [lia|lia|vm_compute; discriminate|].
    rewrite H1, H3. destruct Hf. repeat split; assumption.
  - destruct Hf. repeat split; assumption.
Qed.
Lemma as_cfloat_finite x : finite_number x -> fits 24 x -> has_double x = false ->
  is_finite (re (as_cfloat x)) = true /\ is_finite (im (as_cfloat x)) = true /\ B2R (re (as_cfloat x)) = re_value x /\ B2R (im (as_cfloat x)) = im_value x.
Proof.
  destruct x as [n|y|y|z|z]; cbn [finite_number fits has_double as_cfloat re im of_real re_value im_value]; intros Hf Hn Hd; try discriminate.
  - destruct (of_int_exact 24 128 n) as [H1 H2]; [vm_compute; discriminate|reflexivity|exact Hn|]. repeat split; assumption.
  - repeat split; assumption.
  - destruct Hf. repeat split; assumption.
Qed.

Section Library.
Context (recover32 quotient32 : cplx32 -> cplx32 -> cplx32) (recover64 quotient64 : cplx64 -> cplx64 -> cplx64).
Notation mixed := (M_Complex.mixed recover32 quotient32 recover64 quotient64).
Notation abs2 := (M_Complex.abs2 recover64).

(** The operators are there exactly for a complex number and a number of another real type, and the result has the larger of the two. *)
Theorem C82_result_type : forall op x y,
  match mixed op x y with
  | Some r => kind_of r = (match kind_of x, kind_of y with (KDouble | KCDouble), _ | _, (KDouble | KCDouble) => KCDouble | _, _ => KCFloat end)
  | None => True
  end /\
  (mixed op x y <> None <->
   match kind_of x, kind_of y with
   | KCFloat, (KInt | KDouble | KCDouble) | KCDouble, (KInt | KFloat | KCFloat) | (KInt | KDouble), KCFloat | (KInt | KFloat), KCDouble => True
   | _, _ => False
   end).
Proof. intros op [] []; cbn; (split; [auto|split; [intros H; now try apply H|intros H; try contradiction; discriminate]]). Qed.

(** The sum and the difference of two finite numbers of different types: each part is the sum of the parts with one rounding, and exact if one of the
    parts is zero. *)
Theorem C82_sum : forall x y r, mixed OpPlus x y = Some r -> finite_number x -> finite_number y ->
  let p := digits_of x y in let e := exponents_of x y in fits p x -> fits p y ->
  (1 + unit_roundoff p) * (Rabs (re_value x) + Rabs (re_value y)) < two_to e -> (1 + unit_roundoff p) * (Rabs (im_value x) + Rabs (im_value y)) < two_to e ->
  finite_number r /\ close_sum p (re_value r) (re_value x) (re_value y) /\ close_sum p (im_value r) (im_value x) (im_value y).
Proof.
  intros x y r H Hx Hy p e Nx Ny B1 B2. unfold M_Complex.mixed in H. destruct (_ && _) eqn:E; [|discriminate]. injection H as <-.
  destruct (has_double x || has_double y) eqn:Hd.
  - assert (Ep : p = 53%Z /\ e = 1024%Z) by (subst p e; destruct x, y; cbn in Hd |- *; try discriminate; auto). destruct Ep as [-> ->]. cbn [cplx_op finite_number re_value im_value re im].
    destruct (as_cdouble_finite x Hx Nx) as (F1 & F2 & E1 & E2). destruct (as_cdouble_finite y Hy Ny) as (F3 & F4 & E3 & E4). rewrite <- E1, <- E2, <- E3, <- E4 in *.
    destruct (sum_part 53 1024 _ _ F1 F3 B1) as (G1 & G2). destruct (sum_part 53 1024 _ _ F2 F4 B2) as (G3 & G4). auto.
  - apply orb_false_elim in Hd. destruct Hd as [D1 D2]. assert (Ep : p = 24%Z /\ e = 128%Z) by (subst p e; destruct x, y; cbn in D1, D2 |- *; try discriminate; auto). destruct Ep as [-> ->]. cbn [cplx_op finite_number re_value im_value re im].
    destruct (as_cfloat_finite x Hx Nx D1) as (F1 & F2 & E1 & E2). destruct (as_cfloat_finite y Hy Ny D2) as (F3 & F4 & E3 & E4). rewrite <- E1, <- E2, <- E3, <- E4 in *.
    destruct (sum_part 24 128 _ _ F1 F3 B1) as (G1 & G2). destruct (sum_part 24 128 _ _ F2 F4 B2) as (G3 & G4). auto.
Qed.
Theorem C82_difference : forall x y r, mixed OpMinus x y = Some r -> finite_number x -> finite_number y ->
  let p := digits_of x y in let e := exponents_of x y in fits p x -> fits p y ->
  (1 + unit_roundoff p) * (Rabs (re_value x) + Rabs (re_value y)) < two_to e -> (1 + unit_roundoff p) * (Rabs (im_value x) + Rabs (im_value y)) < two_to e ->
  finite_number r /\ close_sum p (re_value r) (re_value x) (- re_value y) /\ close_sum p (im_value r) (im_value x) (- im_value y).
Proof.
  intros x y r H Hx Hy p e Nx Ny B1 B2. unfold M_Complex.mixed in H. destruct (_ && _) eqn:E; [|discriminate]. injection H as <-.
  destruct (has_double x || has_double y) eqn:Hd.
  - assert (Ep : p = 53%Z /\ e = 1024%Z) by (subst p e; destruct x, y; cbn in Hd |- *; try discriminate; auto). destruct Ep as [-> ->]. cbn [cplx_op finite_number re_value im_value re im].
    destruct (as_cdouble_finite x Hx Nx) as (F1 & F2 & E1 & E2). destruct (as_cdouble_finite y Hy Ny) as (F3 & F4 & E3 & E4). rewrite <- E1, <- E2, <- E3, <- E4 in *.
    destruct (diff_part 53 1024 _ _ F1 F3 B1) as (G1 & G2). destruct (diff_part 53 1024 _ _ F2 F4 B2) as (G3 & G4). auto.
  - apply orb_false_elim in Hd. destruct Hd as [D1 D2]. assert (Ep : p = 24%Z /\ e = 128%Z) by (subst p e; destruct x, y; cbn in D1, D2 |- *; try discriminate; auto). destruct Ep as [-> ->]. cbn [cplx_op finite_number re_value im_value re im].
    destruct (as_cfloat_finite x Hx Nx D1) as (F1 & F2 & E1 & E2). destruct (as_cfloat_finite y Hy Ny D2) as (F3 & F4 & E3 & E4). rewrite <- E1, <- E2, <- E3, <- E4 in *.
    destruct (diff_part 24 128 _ _ F1 F3 B1) as (G1 & G2). destruct (diff_part 24 128 _ _ F2 F4 B2) as (G3 & G4). auto.
Qed.

Lemma mult_parts {prec emax} {Hp : Prec_gt_0 prec} {Hm : Prec_lt_emax prec emax} recover (z w : cplx prec emax) :
  is_finite (Bminus mode_NE (Bmult mode_NE (re z) (re w)) (Bmult mode_NE (im z) (im w))) = true ->
  cplx_mult prec emax recover z w = Cplx (Bminus mode_NE (Bmult mode_NE (re z) (re w)) (Bmult mode_NE (im z) (im w))) (Bplus mode_NE (Bmult mode_NE (re z) (im w)) (Bmult mode_NE (im z) (re w))).
Proof. intros H. unfold cplx_mult. rewrite finite_not_nan by exact H. reflexivity. Qed.

(** The product: (a + ib)(c + id) = (ac - bd) + i(ad + bc) with the rounding errors of two products and a sum in each part. *)
Theorem C82_product : forall x y r, mixed OpTimes x y = Some r -> finite_number x -> finite_number y ->
  let p := digits_of x y in let e := exponents_of x y in fits p x -> fits p y ->
  in_reach p e (re_value x * re_value y) (im_value x * im_value y) -> in_reach p e (re_value x * im_value y) (im_value x * re_value y) ->
  finite_number r /\ close_product p e (re_value r) (re_value x * re_value y) (- (im_value x * im_value y)) /\
  close_product p e (im_value r) (re_value x * im_value y) (im_value x * re_value y).
Proof.
  intros x y r H Hx Hy p e Nx Ny B1 B2. unfold M_Complex.mixed in H. destruct (_ && _) eqn:E; [|discriminate]. injection H as <-.
  destruct (has_double x || has_double y) eqn:Hd.
  - assert (Ep : p = 53%Z /\ e = 1024%Z) by (subst p e; destruct x, y; cbn in Hd |- *; try discriminate; auto). destruct Ep as [-> ->]. cbn [cplx_op].
    destruct (as_cdouble_finite x Hx Nx) as (F1 & F2 & E1 & E2). destruct (as_cdouble_finite y Hy Ny) as (F3 & F4 & E3 & E4). rewrite <- E1, <- E2, <- E3, <- E4 in *.
    destruct (product_minus 53 1024 _ _ _ _ F1 F3 F2 F4 B1) as (G1 & G2). destruct (product_plus 53 1024 _ _ _ _ F1 F4 F2 F3 B2) as (G3 & G4). rewrite mult_parts by exact G1. cbn [finite_number re_value im_value re im]. auto.
  - apply orb_false_elim in Hd. destruct Hd as [D1 D2]. assert (Ep : p = 24%Z /\ e = 128%Z) by (subst p e; destruct x, y; cbn in D1, D2 |- *; try discriminate; auto). destruct Ep as [-> ->]. cbn [cplx_op].
    destruct (as_cfloat_finite x Hx Nx D1) as (F1 & F2 & E1 & E2). destruct (as_cfloat_finite y Hy Ny D2) as (F3 & F4 & E3 & E4). rewrite <- E1, <- E2, <- E3, <- E4 in *.
    destruct (product_minus 24 128 _ _ _ _ F1 F3 F2 F4 B1) as (G1 & G2). destruct (product_plus 24 128 _ _ _ _ F1 F4 F2 F3 B2) as (G3 & G4). rewrite mult_parts by exact G1. cbn [finite_number re_value im_value re im]. auto.
Qed.
(** If one factor is a real number, each part of the other one is multiplied by it, with one rounding. *)
Theorem C82_scale : forall x y r, mixed OpTimes x y = Some r -> finite_number x -> finite_number y ->
  let p := digits_of x y in let e := exponents_of x y in let u := unit_roundoff p in let eta := half_smallest p e in fits p x -> fits p y ->
  match kind_of y with KCFloat | KCDouble => False | _ => True end ->
  (1 + u) * Rabs (re_value x * re_value y) + eta < two_to e -> (1 + u) * Rabs (im_value x * re_value y) + eta < two_to e ->
  finite_number r /\ Rabs (re_value r - re_value x * re_value y) <= u * Rabs (re_value x * re_value y) + eta /\
  Rabs (im_value r - im_value x * re_value y) <= u * Rabs (im_value x * re_value y) + eta.
Proof.
  intros x y r H Hx Hy p e u eta Nx Ny Ky B1 B2. unfold M_Complex.mixed in H. destruct (_ && _) eqn:E; [|discriminate]. injection H as <-. assert (Iy : im_value y = 0) by (destruct y; cbn in Ky |- *; tauto).
  destruct (has_double x || has_double y) eqn:Hd.
  - assert (Ep : p = 53%Z /\ e = 1024%Z) by (subst p e; destruct x, y; cbn in Hd |- *; try discriminate; auto). destruct Ep as [-> ->]. cbn [cplx_op].
    destruct (as_cdouble_finite x Hx Nx) as (F1 & F2 & E1 & E2). destruct (as_cdouble_finite y Hy Ny) as (F3 & F4 & E3 & E4). rewrite <- E1, <- E2, <- E3 in *. rewrite Iy in E4.
    destruct (scale_minus 53 1024 _ _ _ _ F1 F3 F2 F4) as (G1 & G2); [rewrite E4; ring|exact B1|]. destruct (plus_scale 53 1024 _ _ _ _ F1 F4 F2 F3) as (G3 & G4); [rewrite E4; ring|exact B2|].
    rewrite mult_parts by exact G1. cbn [finite_number re_value im_value re im]. auto.
  - apply orb_false_elim in Hd. destruct Hd as [D1 D2]. assert (Ep : p = 24%Z /\ e = 128%Z) by (subst p e; destruct x, y; cbn in D1, D2 |- *; try discriminate; auto). destruct Ep as [-> ->]. cbn [cplx_op].
    destruct (as_cfloat_finite x Hx Nx D1) as (F1 & F2 & E1 & E2). destruct (as_cfloat_finite y Hy Ny D2) as (F3 & F4 & E3 & E4). rewrite <- E1, <- E2, <- E3 in *. rewrite Iy in E4.
    destruct (scale_minus 24 128 _ _ _ _ F1 F3 F2 F4) as (G1 & G2); [rewrite E4; ring|exact B1|]. destruct (plus_scale 24 128 _ _ _ _ F1 F4 F2 F3) as (G3 & G4); [rewrite E4; ring|exact B2|].
    rewrite mult_parts by exact G1. cbn [finite_number re_value im_value re im]. auto.
Qed.
Theorem C82_scale_left : forall x y r, mixed OpTimes x y = Some r -> finite_number x -> finite_number y ->
  let p := digits_of x y in let e := exponents_of x y in let u := unit_roundoff p in let eta := half_smallest p e in fits p x -> fits p y ->
  match kind_of x with KCFloat | KCDouble => False | _ => True end ->
  (1 + u) * Rabs (re_value x * re_value y) + eta < two_to e -> (1 + u) * Rabs (re_value x * im_value y) + eta < two_to e ->
  finite_number r /\ Rabs (re_value r - re_value x * re_value y) <= u * Rabs (re_value x * re_value y) + eta /\
  Rabs (im_value r - re_value x * im_value y) <= u * Rabs (re_value x * im_value y) + eta.
Proof.
  intros x y r H Hx Hy p e u eta Nx Ny Kx B1 B2. unfold M_Complex.mixed in H. destruct (_ && _) eqn:E; [|discriminate]. injection H as <-. assert (Ix : im_value x = 0) by (destruct x; cbn in Kx |- *; tauto).
  destruct (has_double x || has_double y) eqn:Hd.
  - assert (Ep : p = 53%Z /\ e = 1024%Z) by (subst p e; destruct x, y; cbn in Hd |- *; try discriminate; auto). destruct Ep as [-> ->]. cbn [cplx_op].
    destruct (as_cdouble_finite x Hx Nx) as (F1 & F2 & E1 & E2). destruct (as_cdouble_finite y Hy Ny) as (F3 & F4 & E3 & E4). rewrite <- E1, <- E3, <- E4 in *. rewrite Ix in E2.
    destruct (scale_minus 53 1024 _ _ _ _ F1 F3 F2 F4) as (G1 & G2); [rewrite E2; ring|exact B1|]. destruct (scale_plus 53 1024 _ _ _ _ F1 F4 F2 F3) as (G3 & G4); [rewrite E2; ring|exact B2|].
    rewrite mult_parts by exact G1. cbn [finite_number re_value im_value re im]. auto.
  - apply orb_false_elim in Hd. destruct Hd as [D1 D2]. assert (Ep : p = 24%Z /\ e = 128%Z) by (subst p e; destruct x, y; cbn in D1, D2 |- *; try discriminate; auto). destruct Ep as [-> ->]. cbn [cplx_op].
    destruct (as_cfloat_finite x Hx Nx D1) as (F1 & F2 & E1 & E2). destruct (as_cfloat_finite y Hy Ny D2) as (F3 & F4 & E3 & E4). rewrite <- E1, <- E3, <- E4 in *. rewrite Ix in E2.
    destruct (scale_minus 24 128 _ _ _ _ F1 F3 F2 F4) as (G1 & G2); [rewrite E2; ring|exact B1|]. destruct (scale_plus 24 128 _ _ _ _ F1 F4 F2 F3) as (G3 & G4); [rewrite E2; ring|exact B2|].
    rewrite mult_parts by exact G1. cbn [finite_number re_value im_value re im]. auto.
Qed.
(** The quotient is the one of the C++ library, of the same two numbers in the larger type. *)
Theorem C82_quotient : forall x y r, mixed OpDiv x y = Some r -> finite_number x -> finite_number y -> fits (digits_of x y) x -> fits (digits_of x y) y ->
  (digits_of x y = 53%Z /\ exists z w, r = NCDouble (quotient64 z w) /\ finite_number (NCDouble z) /\ finite_number (NCDouble w) /\
     re_value (NCDouble z) = re_value x /\ im_value (NCDouble z) = im_value x /\ re_value (NCDouble w) = re_value y /\ im_value (NCDouble w) = im_value y) \/
  (digits_of x y = 24%Z /\ exists z w, r = NCFloat (quotient32 z w) /\ finite_number (NCFloat z) /\ finite_number (NCFloat w) /\
     re_value (NCFloat z) = re_value x /\ im_value (NCFloat z) = im_value x /\ re_value (NCFloat w) = re_value y /\ im_value (NCFloat w) = im_value y).
Proof.
  intros x y r H Hx Hy Nx Ny. unfold M_Complex.mixed in H. destruct (_ && _) eqn:E; [|discriminate]. injection H as <-. destruct (has_double x || has_double y) eqn:Hd.
  - assert (Ep : digits_of x y = 53%Z) by (destruct x, y; cbn in Hd |- *; try discriminate; auto). rewrite Ep in *. left. split; [reflexivity|]. exists (as_cdouble x), (as_cdouble y). split; [reflexivity|].
    destruct (as_cdouble_finite x Hx Nx) as (F1 & F2 & E1 & E2). destruct (as_cdouble_finite y Hy Ny) as (F3 & F4 & E3 & E4). cbn [finite_number re_value im_value]. auto 10.
  - apply orb_false_elim in Hd. destruct Hd as [D1 D2]. assert (Ep : digits_of x y = 24%Z) by (destruct x, y; cbn in D1, D2 |- *; try discriminate; auto). rewrite Ep in *. right. split; [reflexivity|]. exists (as_cfloat x), (as_cfloat y). split; [reflexivity|].
    destruct (as_cfloat_finite x Hx Nx D1) as (F1 & F2 & E1 & E2). destruct (as_cfloat_finite y Hy Ny D2) as (F3 & F4 & E3 & E4). cbn [finite_number re_value im_value]. auto 10.
Qed.

(** ** functions of one number *)
(** real, imag and conj: the parts, whatever they are (NaN and infinities too); conj is its own inverse and does nothing to real numbers. *)
Theorem C82_parts : forall x,
  (match x with NCFloat z => real x = NFloat (re z) /\ imag x = NFloat (im z) | NCDouble z => real x = NDouble (re z) /\ imag x = NDouble (im z) | NFloat _ => real x = x /\ conj x = x /\ imag x = NFloat (B754_zero false) | _ => real x = x /\ conj x = x /\ imag x = NDouble (B754_zero false) end) /\
  re_value (real x) = re_value x /\ im_value (real x) = 0 /\ re_value (imag x) = im_value x /\ im_value (imag x) = 0 /\
  re_value (conj x) = re_value x /\ im_value (conj x) = - im_value x /\ kind_of (conj x) = kind_of x /\ conj (conj x) = x.
Proof.
  intros [n|y|y|z|z]; cbn; rewrite ?B2R_Bopp; repeat split; try lra; unfold conjugate; cbn [re im]; rewrite Bopp_involutive; now destruct z.
Qed.

(** isnan says whether a part of the number is not a number *)
Theorem C82_isnan : forall x, isnan x = true <-> not_a_number x.
Proof.
  intros [n|y|y|z|z]; unfold isnan; cbn [as_cdouble re im of_real not_a_number].
  - split; [|tauto]. unfold of_int. rewrite is_nan_binary_normalize. cbn. discriminate.
  - destruct (of_float_exact 53 1024 24 128 y) as (_ & _ & ->); [lia|lia|vm_compute; discriminate|]. cbn. rewrite orb_false_r. tauto.
  - cbn. rewrite orb_false_r. tauto.
  - destruct (of_float_exact 53 1024 24 128 (re z)) as (_ & _ & ->); [lia|lia|vm_compute; discriminate|]. destruct (of_float_exact 53 1024 24 128 (im z)) as (_ & _ & ->); [lia|lia|vm_compute; discriminate|]. apply orb_true_iff.
  - apply orb_true_iff.
Qed.
(** any(isnan(A)): some element is not a number; all(isnan(A)): all are. *)
Theorem C82_any_nan : forall (shape : list Z) (a : list Z -> number),
  (any shape (mapped isnan a) = true <-> exists idx, in_range idx shape /\ not_a_number (a idx)) /\
  (all shape (mapped isnan a) = true <-> forall idx, in_range idx shape -> not_a_number (a idx)).
Proof.
  intros shape a. split.
  - rewrite C22_any. split; intros (idx & H1 & H2); exists idx; (split; [exact H1|]); now apply C82_isnan.
  - rewrite C22_all. split; intros H idx Hi; apply C82_isnan; now apply H.
Qed.

(** abs2 of a number without NaN is not NaN and not negative (its sign bit is 0), also for infinities *)
Theorem C82_abs2_sign : forall x, ~ not_a_number x -> is_nan (abs2 x) = false /\ Bsign (abs2 x) = false.
Proof.
  intros x Hx. rewrite <- C82_isnan in Hx. apply not_true_is_false in Hx. unfold isnan in Hx. apply orb_false_elim in Hx. destruct Hx as [H1 H2].
  unfold M_Complex.abs2. destruct (is_complex x); [|now apply (square_sign 53 1024)]. set (z := as_cdouble x) in *.
  destruct (square_sign 53 1024 (re z) (re z) H1 eq_refl H1 eq_refl eq_refl) as (A1 & A2). destruct (opp_square_sign 53 1024 (im z) H2) as (A3 & A4).
  destruct (minus_signs 53 1024 _ _ A1 A3 A2 A4) as (A5 & A6). unfold cplx_mult, conjugate. cbn [re im]. rewrite A5. cbn [andb re]. auto.
Qed.
(** it is the square of the absolute value, with rounding errors *)
Theorem C82_abs2 : forall x, finite_number x -> fits 53 x -> in_reach 53 1024 (re_value x * re_value x) (im_value x * im_value x) ->
  is_finite (abs2 x) = true /\ 0 <= B2R (abs2 x) /\
  Rabs (B2R (abs2 x) - square_value x) <= ((1 + unit_roundoff 53) ^ 2 - 1) * square_value x + 2 * (1 + unit_roundoff 53) * half_smallest 53 1024.
Proof.
  intros x Hf Hn Hb. destruct (as_cdouble_finite x Hf Hn) as (F1 & F2 & E1 & E2). unfold M_Complex.abs2, square_value. rewrite <- E1, <- E2 in *. set (z := as_cdouble x) in *. clearbody z.
  pose proof (u_pos 53) as Hu. pose proof (eta_pos 53 1024) as He. assert (S1 : 0 <= B2R (re z) * B2R (re z)) by nra. assert (S2 : 0 <= B2R (im z) * B2R (im z)) by nra.
  destruct (is_complex x) eqn:Ec.
  - assert (N : B2R (Bopp (im z)) * B2R (im z) = - (B2R (im z) * B2R (im z))) by (rewrite B2R_Bopp; ring).
    destruct (product_minus 53 1024 (re z) (re z) (Bopp (im z)) (im z) F1 F1) as (G1 & G2); [now rewrite is_finite_Bopp|exact F2| |].
    + unfold in_reach. rewrite N, Rabs_Ropp. exact Hb.
    + rewrite mult_parts by exact G1. unfold conjugate. cbn [re im]. split; [exact G1|]. rewrite N, Ropp_involutive in G2. unfold close_product in G2. rewrite (Rabs_pos_eq _ S1), (Rabs_pos_eq _ S2) in G2. split; [|exact G2].
      destruct (square_sign 53 1024 (re z) (re z) (finite_not_nan _ _ _ F1) eq_refl (finite_not_nan _ _ _ F1) eq_refl eq_refl) as (A1 & A2). destruct (opp_square_sign 53 1024 (im z) (finite_not_nan _ _ _ F2)) as (A3 & A4).
      destruct (minus_signs 53 1024 _ _ A1 A3 A2 A4) as (_ & A6). destruct (Bminus mode_NE _ _) as [s|s| |s m ex Hm]; cbn in A6 |- *; try lra. subst s. apply F2R_ge_0. cbn. lia.
  - assert (Ei : B2R (im z) = 0) by (rewrite E2; destruct x; cbn in Ec |- *; try discriminate; reflexivity). rewrite Ei in *.
    assert (P1 : (1 + unit_roundoff 53) * Rabs (B2R (re z) * B2R (re z)) + half_smallest 53 1024 < two_to 1024).
    { unfold in_reach in Hb. rewrite Rmult_0_l, Rabs_R0, Rplus_0_r in Hb. eapply Rle_lt_trans; [|exact Hb]. rewrite (Rabs_pos_eq _ S1). assert (0 <= (1 + unit_roundoff 53) * (B2R (re z) * B2R (re z))) by (apply Rmult_le_pos; lra). nra. }
    destruct (mult_step 53 1024 (re z) (re z) F1 F1 P1) as (G1 & G2 & G3). split; [exact G1|]. split; [eapply Rle_trans; [|apply Req_le; symmetry; exact G2]; now apply rnd_nonneg|].
    rewrite (Rabs_pos_eq _ S1) in G3. rewrite Rmult_0_l, Rplus_0_r. eapply Rle_trans; [exact G3|]. set (s := B2R (re z) * B2R (re z)) in *.
    assert (0 <= unit_roundoff 53 * s) by (apply Rmult_le_pos; lra). assert (0 <= unit_roundoff 53 * (unit_roundoff 53 * s)) by (apply Rmult_le_pos; lra). assert (0 <= unit_roundoff 53 * half_smallest 53 1024) by (apply Rmult_le_pos; lra). cbn [pow]. lra.
Qed.

(** It is exact for float and for integers whose square is at most 2^53. *)
Theorem C82_abs2_exact : (forall x : binary32, is_finite x = true -> is_finite (abs2 (NFloat x)) = true /\ B2R (abs2 (NFloat x)) = B2R x * B2R x) /\
  (forall n, (n * n <= 2 ^ 53)%Z -> is_finite (abs2 (NInt n)) = true /\ B2R (abs2 (NInt n)) = IZR (n * n)).
Proof.
  split.
  - intros x Fx. unfold M_Complex.abs2. cbn [is_complex as_cdouble of_real re]. destruct (of_float_exact 53 1024 24 128 x) as (F1 & E1 & _); [lia|lia|vm_compute; discriminate|]. rewrite Fx in F1.
    set (y := of_float x : binary64) in *. clearbody y. pose proof (Bmult_correct 53 1024 _ _ mode_NE y y) as H. rewrite E1 in H.
    assert (G : generic_format radix2 (SpecFloat.fexp 53 1024) (B2R x * B2R x)).
    { pose proof (FLT_format_B2R 24 128 _ x) as [f Ef Em Ee]. rewrite Ef, <- F2R_mult. change (SpecFloat.fexp 53 1024) with (FLT_exp (SpecFloat.emin 53 1024) 53). apply generic_format_FLT.
      eexists; [reflexivity| |].
      - unfold Fmult. destruct f as [fm fe]. cbn [Fnum Fexp] in *. change (Zpower radix2 24) with 16777216%Z in Em. change (Zpower radix2 53) with 9007199254740992%Z. rewrite Z.abs_mul. nia.
      - unfold Fmult. destruct f as [fm fe]. cbn [Fnum Fexp] in *. change (SpecFloat.emin 24 128) with (-149)%Z in Ee. change (SpecFloat.emin 53 1024) with (-1074)%Z. lia. }
    rewrite round_generic in H; [|apply valid_rnd_round_mode|exact G]. rewrite Rlt_bool_true in H.
    + destruct H as (H1 & H2 & _). rewrite F1 in H2. split; [exact H2|exact H1].
    + pose proof (abs_B2R_lt_emax 24 128 x) as Hx. rewrite Rabs_mult. pose proof (Rabs_pos (B2R x)) as Hpos. apply Rlt_trans with (bpow radix2 128 * bpow radix2 128); [apply Rmult_le_0_lt_compat; assumption|].
      rewrite <- bpow_plus. apply bpow_lt. lia.
  - intros n Hn. unfold M_Complex.abs2. cbn [is_complex as_cdouble of_real re]. assert (Hn1 : (Z.abs n <= 2 ^ 53)%Z) by nia.
    destruct (of_int_exact 53 1024 n) as [F1 E1]; [vm_compute; discriminate|reflexivity|exact Hn1|]. set (y := of_int n : binary64) in *. clearbody y.
    pose proof (Bmult_correct 53 1024 _ _ mode_NE y y) as H. rewrite E1, <- mult_IZR in H.
    assert (G : generic_format radix2 (SpecFloat.fexp 53 1024) (IZR (n * n))).
    { pose proof (exact_format 53 1024 (n * n) 0) as G. rewrite two_bpow in G. change (bpow radix2 0) with 1 in G. rewrite Rmult_1_r in G. apply G; [vm_compute; discriminate|]. rewrite Z.abs_eq; nia. }
    rewrite round_generic in H; [|apply valid_rnd_round_mode|exact G]. rewrite Rlt_bool_true in H.
    + destruct H as (H1 & H2 & _). rewrite F1 in H2. split; [exact H2|exact H1].
    + rewrite <- abs_IZR. apply Rle_lt_trans with (bpow radix2 53); [|apply bpow_lt; lia]. rewrite <- (IZR_Zpower radix2 53) by lia. apply IZR_le. change (Zpower radix2 53) with (2 ^ 53)%Z. rewrite Z.abs_eq; nia.
Qed.

(** sum(abs2(A)), for an array of any of the types: the sum of the squares of the absolute values, never negative, with the rounding errors of N sums. *)
Theorem C82_sum_abs2 : forall (shape : list Z) (a : list Z -> number) (L : list (list Z)), enumerates shape L ->
  (forall idx, in_range idx shape -> finite_number (a idx) /\ fits 53 (a idx)) ->
  let t := Rsum (map (fun idx => square_value (a idx)) L) in let u := unit_roundoff 53 in let small := 2 * INR (length L) * half_smallest 53 1024 in
  (1 + u) ^ S (length L) * (t + small) < two_to 1024 ->
  let s := sum (float_arith 53 1024) shape (mapped abs2 a) in
  is_finite s = true /\ 0 <= B2R s /\ Rabs (B2R s - t) <= ((1 + u) ^ S (length L) - 1) * t + (1 + u) ^ length L * small.
Proof.
  intros shape a L HL Hf t u small Hb s. assert (P : Permutation (all_idx shape) L) by (symmetry; now apply enumerates_perm). unfold small, t in *. clear small t.
  rewrite <- (Permutation_length P), <- (Rsum_perm _ _ (Permutation_map (fun idx => square_value (a idx)) P)) in *. clear P HL L.
  assert (Hf' : forall idx, In idx (all_idx shape) -> finite_number (a idx) /\ fits 53 (a idx)) by (intros idx Hi; apply Hf; now apply all_idx_In). clear Hf.
  assert (Es : s = fold_left (Bplus mode_NE) (map (fun idx => abs2 (a idx)) (all_idx shape)) (B754_zero false)) by (unfold s, sum; rewrite fold_list; reflexivity).
  clearbody s. subst s. set (l := all_idx shape) in *. clearbody l. pose proof (u_pos 53) as Hu. fold u in Hu. pose proof (eta_pos 53 1024) as He. set (eta := half_smallest 53 1024) in *.
  destruct l as [|i0 l']; [cbn; rewrite Rminus_0_r, Rabs_R0; split; [reflexivity|]; split; lra|]. set (l := i0 :: l') in *. set (N := length l) in *. assert (HN : (1 <= N)%nat) by (unfold N, l; cbn; lia).
  assert (HN' : 1 <= INR N) by (change 1 with (INR 1); now apply le_INR).
  set (t := Rsum (map (fun idx => square_value (a idx)) l)) in *. assert (Sq : forall x, 0 <= square_value x) by (intros x; unfold square_value; nra). assert (Ht : 0 <= t) by (apply Rsum_nonneg; intros; apply Sq).
  assert (HP : forall n, 1 <= (1 + u) ^ n) by (intros n; apply pow1u; lra).
  assert (G : forall i, In i l -> is_finite (abs2 (a i)) = true /\ 0 <= B2R (abs2 (a i)) /\ Rabs (B2R (abs2 (a i)) - square_value (a i)) <= ((1 + u) ^ 2 - 1) * square_value (a i) + 2 * (1 + u) * eta).
  { intros i Hi. destruct (Hf' i Hi) as [H1 H2]. apply C82_abs2; [exact H1|exact H2|]. unfold in_reach. fold u. fold eta.
    assert (Hi' : square_value (a i) <= t).
    { unfold t. pose proof (Rsum_abs_in (square_value (a i)) (map (fun idx => square_value (a idx)) l)) as R1. rewrite map_map in R1. rewrite (Rabs_pos_eq _ (Sq _)) in R1.
      rewrite (map_ext (fun x => Rabs (square_value (a x))) (fun x => square_value (a x))) in R1 by (intros x; apply Rabs_pos_eq, Sq). apply R1. now apply in_map with (f := fun idx => square_value (a idx)). }
    rewrite !Rabs_pos_eq by nra. fold (square_value (a i)). eapply Rle_lt_trans; [|exact Hb].
    apply Rle_trans with ((1 + u) * ((1 + u) * (t + 2 * INR N * eta))).
    - apply Rmult_le_compat_l; [lra|]. assert (eta <= INR N * eta) by nra. assert (0 <= u * (2 * INR N * eta)) by (repeat apply Rmult_le_pos; lra). assert ((1 + u) * square_value (a i) <= (1 + u) * t) by (apply Rmult_le_compat_l; lra). lra.
    - rewrite <- Rmult_assoc. apply Rmult_le_compat_r; [assert (0 <= INR N * eta) by (apply Rmult_le_pos; lra); lra|]. replace ((1 + u) * (1 + u)) with ((1 + u) ^ 2) by ring. apply Rle_pow; [lra|lia]. }
  assert (Ssum : Rabs (Rsum (map (fun i => B2R (abs2 (a i))) l) - t) <= ((1 + u) ^ 2 - 1) * t + INR N * (2 * (1 + u) * eta)).
  { eapply Rle_trans; [apply (Rsum_diff _ _ (fun i => ((1 + u) ^ 2 - 1) * square_value (a i) + 2 * (1 + u) * eta)); intros i Hi; now apply G|]. rewrite Rsum_plus, Rsum_const, Rsum_scale. fold t. fold N. lra. }
  set (q := Rsum (map (fun i => B2R (abs2 (a i))) l)) in *.
  assert (Eq : Rsum (map (fun x => Rabs (B2R x)) (map (fun idx => abs2 (a idx)) l)) = q).
  { rewrite map_map. unfold q. f_equal. apply map_ext_in. intros i Hi. apply Rabs_pos_eq. now apply G. }
  assert (Hq : 0 <= q <= (1 + u) ^ 2 * t + INR N * (2 * (1 + u) * eta)).
  { split; [apply Rsum_nonneg; intros i Hi; now apply G|]. apply Rabs_le_inv in Ssum. lra. }
  destruct (chain0 53 1024 (B754_zero false) (map (fun idx => abs2 (a idx)) l) eq_refl eq_refl) as (F1 & E1).
  - apply fin_list. intros i Hi. now apply G.
  - rewrite map_length, Eq. fold N. fold u. eapply Rle_lt_trans; [apply Rmult_le_compat_l; [pose proof (HP (N - 1)%nat); lra|apply Hq]|]. eapply Rle_lt_trans; [|exact Hb].
    replace (S N) with (N - 1 + 2)%nat by lia. rewrite pow_add, (Rmult_assoc ((1 + u) ^ (N - 1)) ((1 + u) ^ 2)). apply Rmult_le_compat_l; [pose proof (HP (N - 1)%nat); lra|]. cbn [pow].
    assert (0 <= INR N * eta) by (apply Rmult_le_pos; lra). assert (0 <= u * (INR N * eta)) by (apply Rmult_le_pos; lra). assert (0 <= u * (u * (INR N * eta))) by (apply Rmult_le_pos; lra). lra.
  - rewrite map_length, Eq, map_map in E1. fold N in E1. fold u in E1. fold q in E1. split; [exact F1|]. split.
    + apply (fold_nonneg 53 1024 (fun idx => abs2 (a idx)) l); [intros i Hi _; now apply G|intros _; cbn; lra|exact F1].
    + set (w := B2R (fold_left (Bplus mode_NE) (map (fun idx => abs2 (a idx)) l) (B754_zero false))) in *. replace (w - t) with ((w - q) + (q - t)) by ring. eapply Rle_trans; [apply Rabs_triang|].
      eapply Rle_trans; [apply Rplus_le_compat; [exact E1|exact Ssum]|].
      assert (M : ((1 + u) ^ (N - 1) - 1) * q <= ((1 + u) ^ (N - 1) - 1) * ((1 + u) ^ 2 * t + INR N * (2 * (1 + u) * eta))) by (apply Rmult_le_compat_l; [pose proof (HP (N - 1)%nat); lra|apply Hq]).
      eapply Rle_trans; [apply Rplus_le_compat_r; exact M|]. replace (S N) with (N - 1 + 2)%nat by lia. replace ((1 + u) ^ N) with ((1 + u) ^ (N - 1) * (1 + u)) by (rewrite Rmult_comm, tech_pow_Rmult; f_equal; lia). rewrite pow_add. lra.
Qed.
End Library.

(** The Frobenius norm of a matrix of float: every square has a rounding error of float, the sum and the root those of double. *)
Theorem C82_frobenius_float : forall (shape : list Z) (a : list Z -> binary32) (L : list (list Z)), enumerates shape L ->
  let u := unit_roundoff 24 in let eta := half_smallest 24 128 in let w := unit_roundoff 53 in
  (forall idx, in_range idx shape -> is_finite (a idx) = true /\ (1 + u) * (B2R (a idx) * B2R (a idx)) + eta < two_to 128) ->
  let N := length L in let t := Rsum (map (fun idx => B2R (a idx) * B2R (a idx)) L) in (1 + w) ^ (N - 1) * ((1 + u) * t + INR N * eta) < two_to 1024 ->
  is_finite (frobenius_norm_float shape a) = true /\
  exists s r, 0 <= s /\ Rabs (s - t) <= u * t + INR N * eta + ((1 + w) ^ (N - 1) - 1) * ((1 + u) * t + INR N * eta) /\
    1 - w <= r <= 1 + w /\ B2R (frobenius_norm_float shape a) = sqrt s * r.
Proof.
  intros shape a L HL u eta w Hf N t Hb. assert (P : Permutation (all_idx shape) L) by (symmetry; now apply enumerates_perm). unfold N, t in *. clear N t.
  rewrite <- (Permutation_length P), <- (Rsum_perm _ _ (Permutation_map (fun idx => B2R (a idx) * B2R (a idx)) P)) in *. clear P HL L.
  pose proof (u_pos 24) as Hu. fold u in Hu. pose proof (u_pos 53) as Hw. fold w in Hw. pose proof (eta_pos 24 128) as He. fold eta in He.
  set (sq := fun idx => of_float (Bmult mode_NE (Babs (a idx)) (Babs (a idx))) : binary64).
  set (s := fold_left (Bplus mode_NE) (map sq (all_idx shape)) (B754_zero false)).
  assert (Es : frobenius_norm_float shape a = Bsqrt mode_NE s) by (unfold frobenius_norm_float, s; rewrite fold_list, !fold_left_map; reflexivity). rewrite Es. clear Es.
  assert (G : forall i, In i (all_idx shape) -> is_finite (sq i) = true /\ 0 <= B2R (sq i) /\ Rabs (B2R (sq i) - B2R (a i) * B2R (a i)) <= u * (B2R (a i) * B2R (a i)) + eta).
  { intros i Hi. apply all_idx_In in Hi. destruct (Hf i Hi) as [F1 B1]. unfold sq. set (p := Bmult mode_NE (Babs (a i)) (Babs (a i))). destruct (of_float_exact 53 1024 24 128 p) as (-> & -> & _); [lia|lia|vm_compute; discriminate|].
    assert (Ev : B2R (Babs (a i)) * B2R (Babs (a i)) = B2R (a i) * B2R (a i)) by (rewrite B2R_Babs, <- Rabs_mult, Rabs_pos_eq; nra).
    destruct (mult_step 24 128 (Babs (a i)) (Babs (a i))) as (H1 & H2 & H3); [now rewrite is_finite_Babs..| |].
    - rewrite Ev, Rabs_pos_eq by nra. exact B1.
    - fold p in H1, H2, H3. rewrite Ev, (Rabs_pos_eq (B2R (a i) * B2R (a i))) in H3 by nra. split; [exact H1|]. split; [|exact H3]. eapply Rle_trans; [|apply Req_le; symmetry; exact H2]. apply rnd_nonneg; [exact _|]. rewrite Ev. nra. }
  set (l := all_idx shape) in *. clearbody l. clearbody sq. set (N := length l) in *. set (t := Rsum (map (fun idx => B2R (a idx) * B2R (a idx)) l)) in *.
  assert (Ssum : Rabs (Rsum (map (fun i => B2R (sq i)) l) - t) <= u * t + INR N * eta).
  { eapply Rle_trans; [apply (Rsum_diff _ _ (fun i => u * (B2R (a i) * B2R (a i)) + eta)); intros i Hi; now apply G|]. rewrite Rsum_plus, Rsum_const, Rsum_scale. fold t. fold N. lra. }
  set (q := Rsum (map (fun i => B2R (sq i)) l)) in *.
  assert (Eq : Rsum (map (fun x => Rabs (B2R x)) (map sq l)) = q).
  { rewrite map_map. unfold q. f_equal. apply map_ext_in. intros i Hi. apply Rabs_pos_eq. now apply G. }
  assert (Hq : 0 <= q <= (1 + u) * t + INR N * eta).
  { split; [apply Rsum_nonneg; intros i Hi; now apply G|]. apply Rabs_le_inv in Ssum. lra. }
  assert (HP : 1 <= (1 + w) ^ (N - 1)) by (apply pow1u; lra).
  destruct (chain0 53 1024 (B754_zero false) (map sq l) eq_refl eq_refl) as (F1 & E1).
  - apply fin_list. intros i Hi. now apply G.
  - rewrite map_length, Eq. fold N. fold w. eapply Rle_lt_trans; [apply Rmult_le_compat_l; [lra|apply Hq]|exact Hb].
  - rewrite map_length, Eq, map_map in E1. fold N in E1. fold w in E1. fold q in E1. fold s in F1, E1.
    assert (Hs : 0 <= B2R s) by (apply (fold_nonneg 53 1024 sq l); [intros i Hi _; now apply G|intros _; cbn; lra|exact F1]).
    destruct (sqrt_step 53 1024 s F1 Hs) as (F2 & r & Hr & E2). split; [exact F2|]. exists (B2R s), r. split; [exact Hs|]. split; [|auto].
    replace (B2R s - t) with ((B2R s - q) + (q - t)) by ring. eapply Rle_trans; [apply Rabs_triang|].
    assert (M : ((1 + w) ^ (N - 1) - 1) * q <= ((1 + w) ^ (N - 1) - 1) * ((1 + u) * t + INR N * eta)) by (apply Rmult_le_compat_l; [lra|apply Hq]). lra.
Qed.

(** ** what does not hold *)
Definition power32 (e : Z) : option binary32 :=
  match SpecFloat.bounded 24 128 (2 ^ 23) e as b return SpecFloat.bounded 24 128 (2 ^ 23) e = b -> option binary32 with
  | true => fun H => Some (B754_finite false (2 ^ 23) e H) | false => fun _ => None end eq_refl.
Definition pow2_32 (e : Z) : binary32 := match power32 (e - 23) with Some x => x | None => B754_zero false end.
Lemma B2R_pow2_32 e : (exists H, power32 (e - 23) = Some (B754_finite false (2 ^ 23) (e - 23) H)) -> B2R (pow2_32 e) = two_to e.
Proof.
  intros [H HE]. unfold pow2_32. rewrite HE. cbn [B2R cond_Zopp]. unfold F2R. cbn [Fnum Fexp]. change (Z.pos (2 ^ 23)) with (Zpower radix2 23). rewrite IZR_Zpower by lia. rewrite <- bpow_plus, two_bpow. f_equal. lia.
Qed.
(** frobenius_norm returns a double, but for a matrix of float with the one element 2^64 it is infinite and for 2^-80 it is zero. *)
Theorem C82_frobenius_float_refuted :
  (exists x : binary32, B2R x = two_to 64 /\ is_finite (frobenius_norm_float [1; 1]%Z (fun _ => x)) = false) /\
  (exists x : binary32, B2R x = two_to (-80) /\ is_finite x = true /\ B2R (frobenius_norm_float [1; 1]%Z (fun _ => x)) = 0).
Proof.
  split; [exists (pow2_32 64)|exists (pow2_32 (-80))].
  - split; [apply B2R_pow2_32; eexists; reflexivity|vm_compute; reflexivity].
  - split; [apply B2R_pow2_32; eexists; reflexivity|]. split; [vm_compute; reflexivity|].
    replace (frobenius_norm_float [1; 1]%Z (fun _ => pow2_32 (-80))) with (B754_zero false : binary64); [reflexivity|]. apply B2SF_inj. vm_compute. reflexivity.
Qed.
(** 2^53 + 1 as a long, plus a complex zero, is 2^53; 2^24 + 1 as an int, times the complex one in float, is 2^24. *)
Theorem C82_integer_refuted : forall r32 q32 r64 q64,
  (exists r, M_Complex.mixed r32 q32 r64 q64 OpPlus (NInt (2 ^ 53 + 1)) (NCDouble (of_real (B754_zero false))) = Some r /\ re_value r = IZR (2 ^ 53)) /\
  (exists r, M_Complex.mixed r32 q32 r64 q64 OpTimes (NInt (2 ^ 24 + 1)) (NCFloat (of_real Bone)) = Some r /\ re_value r = IZR (2 ^ 24)).
Proof.
  intros r32 q32 r64 q64. split; (eexists; split; [reflexivity|]).
  - cbn [has_double orb cplx_op re_value re as_cdouble]. match goal with |- B2R ?t = _ => replace t with (of_int (2 ^ 53) : binary64) end.
    + apply (of_int_exact 53 1024); [vm_compute; discriminate|reflexivity|vm_compute; discriminate].
    + apply B2SF_inj. vm_compute. reflexivity.
  - cbn [has_double orb cplx_op re_value as_cfloat]. match goal with |- B2R ?t = _ => replace t with (of_int (2 ^ 24) : binary32) end.
    + apply (of_int_exact 24 128); [vm_compute; discriminate|reflexivity|vm_compute; discriminate].
    + rewrite mult_parts by (vm_compute; reflexivity). apply B2SF_inj. vm_compute. reflexivity.
Qed.
(** abs2 of 2^27 + 1 as an integer is not its square. *)
Theorem C82_abs2_integer_refuted : forall r64, exists n, B2R (abs2 r64 (NInt n)) <> IZR (n * n).
Proof.
  intros r64. exists (2 ^ 27 + 1)%Z. replace (abs2 r64 (NInt (2 ^ 27 + 1))) with (of_int (2 ^ 54 + 2 ^ 28) : binary64) by (apply B2SF_inj; vm_compute; reflexivity).
  pose proof (normalize_exact 53 1024 (2 ^ 26 + 1) 28 false) as H. assert (Ev : F2R (Float radix2 (2 ^ 26 + 1) 28) = IZR (2 ^ 54 + 2 ^ 28)).
  { unfold F2R. cbn [Fnum Fexp]. rewrite <- (IZR_Zpower radix2 28) by lia. rewrite <- mult_IZR. f_equal. }
  replace (of_int (2 ^ 54 + 2 ^ 28) : binary64) with (binary_normalize 53 1024 prec_53 emax_1024 mode_NE (2 ^ 26 + 1) 28 false) by (apply B2SF_inj; vm_compute; reflexivity).
  destruct H as [_ ->].
  - change (SpecFloat.fexp 53 1024) with (FLT_exp (SpecFloat.emin 53 1024) 53). apply generic_format_FLT. exists (Float radix2 (2 ^ 26 + 1) 28); [reflexivity|reflexivity|vm_compute; discriminate].
  - rewrite Ev, <- abs_IZR. apply Rlt_trans with (bpow radix2 60); [|apply bpow_lt; lia]. rewrite <- (IZR_Zpower radix2 60) by lia. apply IZR_lt. reflexivity.
  - rewrite Ev. intros H. apply eq_IZR in H. discriminate H.
Qed.

(** ** the hypotheses are met *)
Definition int64 (n : Z) : binary64 := of_int n.
Definition int32 (n : Z) : binary32 := of_int n.
Lemma int64_value n : (Z.abs n <= 2 ^ 53)%Z -> is_finite (int64 n) = true /\ B2R (int64 n) = IZR n.
Proof. intros H. apply (of_int_exact 53 1024); [vm_compute; discriminate|reflexivity|exact H]. Qed.
Lemma int32_value n : (Z.abs n <= 2 ^ 24)%Z -> is_finite (int32 n) = true /\ B2R (int32 n) = IZR n.
Proof. intros H. apply (of_int_exact 24 128); [vm_compute; discriminate|reflexivity|exact H]. Qed.
Lemma two_to_10 : two_to 10 = 1024.
Proof. rewrite two_bpow. rewrite <- (IZR_Zpower radix2 10) by lia. reflexivity. Qed.
Lemma u53_small : unit_roundoff 53 <= 1.
Proof. unfold unit_roundoff. rewrite two_bpow. change 1 with (bpow radix2 0). apply bpow_le. lia. Qed.
Lemma u24_small : unit_roundoff 24 <= 1.
Proof. unfold unit_roundoff. rewrite two_bpow. change 1 with (bpow radix2 0). apply bpow_le. lia. Qed.
Lemma eta64_small : half_smallest 53 1024 <= 1.
Proof. unfold half_smallest. rewrite two_bpow. change 1 with (bpow radix2 0). apply bpow_le. lia. Qed.
Lemma eta32_small : half_smallest 24 128 <= 1.
Proof. unfold half_smallest. rewrite two_bpow. change 1 with (bpow radix2 0). apply bpow_le. lia. Qed.
Lemma below e r : (10 <= e)%Z -> r < 1024 -> r < two_to e.
Proof. intros He Hr. eapply Rlt_le_trans; [exact Hr|]. rewrite <- two_to_10, !two_bpow. now apply bpow_le. Qed.
Definition z12 : cplx64 := Cplx (int64 1) (int64 2).

(** 3 + (1 + 2i) and 3 * (1 + 2i), with an int *)
Example C82_mixed_example : forall r32 q32 r64 q64,
  let mixed := M_Complex.mixed r32 q32 r64 q64 in let x := NCDouble z12 in let y := NInt 3 in
  (exists r, mixed OpPlus x y = Some r /\ finite_number r /\ re_value r = 4 /\ im_value r = 2) /\
  (exists r, mixed OpTimes x y = Some r /\ finite_number r /\ re_value r = 3 /\ im_value r = 6) /\
  finite_number x /\ finite_number y /\ digits_of x y = 53%Z /\ fits 53 y /\
  (1 + unit_roundoff 53) * (Rabs (re_value x) + Rabs (re_value y)) < two_to 1024 /\ (1 + unit_roundoff 53) * (Rabs (im_value x) + Rabs (im_value y)) < two_to 1024 /\
  in_reach 53 1024 (re_value x * re_value y) (im_value x * im_value y) /\ in_reach 53 1024 (re_value x * im_value y) (im_value x * re_value y).
Proof.
  intros r32 q32 r64 q64 mixed x y. pose proof (int64_value 1 ltac:(lia)) as [A1 B1]. pose proof (int64_value 2 ltac:(lia)) as [A2 B2]. pose proof u53_small as U. pose proof eta64_small as E. pose proof (u_pos 53) as U0. pose proof (eta_pos 53 1024) as E0.
  split; [|split].
  - exists (NCDouble (Cplx (int64 4) (int64 2))). pose proof (int64_value 4 ltac:(lia)) as [A4 B4]. split; [|cbn [finite_number re_value im_value re im]; auto].
    unfold mixed, M_Complex.mixed, x, y. cbn [is_complex same_real_type orb andb negb has_double cplx_op as_cdouble of_real re im z12]. f_equal. f_equal. f_equal; apply B2SF_inj; vm_compute; reflexivity.
  - exists (NCDouble (Cplx (int64 3) (int64 6))). pose proof (int64_value 3 ltac:(lia)) as [A3 B3]. pose proof (int64_value 6 ltac:(lia)) as [A6 B6]. split; [|cbn [finite_number re_value im_value re im]; auto].
    unfold mixed, M_Complex.mixed, x, y. cbn [is_complex same_real_type orb andb negb has_double cplx_op as_cdouble]. rewrite mult_parts by (vm_compute; reflexivity). f_equal. f_equal. f_equal; apply B2SF_inj; vm_compute; reflexivity.
  - cbn [x y finite_number z12 re im re_value im_value digits_of kind_of fits]. unfold in_reach. cbn [x y z12 re im re_value im_value]. rewrite B1, B2. repeat split; auto; try lia; apply below; try lia;
    rewrite ?Rmult_0_r, ?Rmult_1_l, ?Rabs_R0, ?Rabs_R1, ?(Rabs_pos_eq 2), ?(Rabs_pos_eq 3), ?(Rabs_pos_eq (2 * 3)) by lra; nra.
Qed.
(** (3 + 4i): abs2 is 25; the sum of abs2 over an array of two such numbers *)
Definition z34 : number := NCDouble (Cplx (int64 3) (int64 4)).
Lemma z34_value : finite_number z34 /\ re_value z34 = 3 /\ im_value z34 = 4.
Proof. pose proof (int64_value 3 ltac:(lia)) as [A1 B1]. pose proof (int64_value 4 ltac:(lia)) as [A2 B2]. cbn [z34 finite_number re_value im_value re im]. auto. Qed.
Example C82_abs2_example : forall r64, abs2 r64 z34 = int64 25 /\ finite_number z34 /\ fits 53 z34 /\ in_reach 53 1024 (re_value z34 * re_value z34) (im_value z34 * im_value z34) /\ ~ not_a_number z34 /\
  abs2 r64 (NCDouble (Cplx (B754_infinity true) (int64 1))) = B754_infinity false.
Proof.
  intros r64. destruct z34_value as (F & E1 & E2). pose proof u53_small as U. pose proof eta64_small as E. pose proof (u_pos 53) as U0. pose proof (eta_pos 53 1024) as E0.
  split; [|split; [exact F|split; [exact I|split; [|split]]]].
  - unfold abs2. cbn [z34 is_complex as_cdouble]. rewrite mult_parts by (vm_compute; reflexivity). apply B2SF_inj. vm_compute. reflexivity.
  - unfold in_reach. rewrite E1, E2, !Rabs_pos_eq by lra. apply below; [lia|]. nra.
  - vm_compute. intros [H|H]; discriminate H.
  - apply B2SF_inj. vm_compute. reflexivity.
Qed.
Example C82_sum_abs2_example : enumerates [2]%Z [[0]; [1]]%Z /\ (forall idx, in_range idx [2]%Z -> finite_number ((fun _ => z34) idx) /\ fits 53 ((fun _ => z34) idx)) /\
  (1 + unit_roundoff 53) ^ 3 * (Rsum (map (fun idx => square_value ((fun _ => z34) idx)) [[0]; [1]]%Z) + 2 * INR 2 * half_smallest 53 1024) < two_to 1024.
Proof.
  destruct z34_value as (F & E1 & E2). split; [|split].
  - split; [repeat constructor; cbn; intuition discriminate|]. intros idx. split.
    + intros [<-|[<-|[]]]; repeat constructor; unfold inr; lia.
    + intros H. inversion H as [|i n r s Hi Hr]; subst. inversion Hr; subst. unfold inr in *. assert (Hc : (i = 0 \/ i = 1)%Z) by lia. destruct Hc as [-> | ->]; [now left|right; now left].
  - intros idx _. split; [exact F|exact I].
  - pose proof u53_small as U. pose proof eta64_small as E. pose proof (u_pos 53) as U0. pose proof (eta_pos 53 1024) as E0. cbn [map Rsum]. unfold square_value. rewrite E1, E2. apply below; [lia|]. cbn [INR].
    apply Rle_lt_trans with (2 ^ 3 * (50 + 2 * (1 + 1) * 1)); [|lra]. apply Rmult_le_compat; [apply pow_le; lra|lra|apply pow_incr; lra|lra].
Qed.
(** the norm of the matrix (3 4) of float is 5 *)
Definition row34 (idx : list Z) : binary32 := match idx with [0; 0] => int32 3 | [0; 1] => int32 4 | _ => int32 0 end%Z.
Example C82_frobenius_float_example : frobenius_norm_float [1; 2]%Z row34 = int64 5 /\ enumerates [1; 2]%Z [[0; 0]; [0; 1]]%Z /\
  (forall idx, in_range idx [1; 2]%Z -> is_finite (row34 idx) = true /\ (1 + unit_roundoff 24) * (B2R (row34 idx) * B2R (row34 idx)) + half_smallest 24 128 < two_to 128) /\
  (1 + unit_roundoff 53) ^ 1 * ((1 + unit_roundoff 24) * Rsum (map (fun idx => B2R (row34 idx) * B2R (row34 idx)) [[0; 0]; [0; 1]]%Z) + INR 2 * half_smallest 24 128) < two_to 1024.
Proof.
  pose proof (int32_value 3 ltac:(lia)) as [A1 B1]. pose proof (int32_value 4 ltac:(lia)) as [A2 B2]. pose proof u53_small as U. pose proof (u_pos 53) as U0. pose proof u24_small as U'. pose proof (u_pos 24) as U0'. pose proof eta32_small as E. pose proof (eta_pos 24 128) as E0.
  assert (HI : forall idx, in_range idx [1; 2]%Z <-> idx = [0; 0]%Z \/ idx = [0; 1]%Z).
  { intros idx. split; [|intros [-> | ->]; repeat constructor; unfold inr; lia]. intros H. inversion H as [|i n r s Hi Hr]; subst. inversion Hr as [|j n' r' s' Hj Hr']; subst. inversion Hr'; subst. unfold inr in *. assert (i = 0%Z) by lia. subst i. assert (Hc : (j = 0 \/ j = 1)%Z) by lia. destruct Hc as [-> | ->]; auto. }
  split; [apply B2SF_inj; vm_compute; reflexivity|]. split; [|split].
  - split; [repeat constructor; cbn; intuition discriminate|]. intros idx. rewrite HI. cbn [In]. intuition (subst; auto).
  - intros idx Hi. apply HI in Hi. destruct Hi as [-> | ->]; cbn [row34]; rewrite ?B1, ?B2; (split; [assumption|]); apply below; try lia; nra.
  - cbn [map Rsum row34]. rewrite B1, B2. apply below; [lia|]. cbn [INR pow]. rewrite Rmult_1_r.
    apply Rle_lt_trans with (2 * (2 * 25 + 2)); [|lra]. apply Rmult_le_compat; lra.
Qed.
Example C82_any_nan_example : any [2]%Z (mapped isnan (fun idx => match idx with [0]%Z => NInt 5 | _ => NCFloat (Cplx (int32 1) B754_nan) end)) = true /\
  any [2]%Z (mapped isnan (fun _ => NCFloat (Cplx (int32 1) (B754_infinity false)))) = false.
Proof. split; vm_compute; reflexivity. Qed.

Print Assumptions C82_result_type.
Print Assumptions C82_sum.
Print Assumptions C82_difference.
Print Assumptions C82_product.
Print Assumptions C82_scale.
Print Assumptions C82_parts.
Print Assumptions C82_isnan.
Print Assumptions C82_any_nan.
Print Assumptions C82_abs2_sign.
Print Assumptions C82_abs2.
Print Assumptions C82_abs2_exact.
Print Assumptions C82_sum_abs2.
Print Assumptions C82_frobenius_float.
Print Assumptions C82_frobenius_float_refuted.
Print Assumptions C82_integer_refuted.
Print Assumptions C82_abs2_integer_refuted.
Print Assumptions C82_scale_left.
Print Assumptions C82_quotient.
