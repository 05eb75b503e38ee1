From Verif Require Import Base M_Loops M_Expr M_Ints S_Expr S_Ints L_Loops L_Expr.

Lemma pow2_pos w : 0 <= w -> 0 < 2 ^ w. Proof. intros H. apply Z.pow_pos_nonneg; lia. Qed.
Lemma pow2_half w : 1 <= w -> 2 ^ w = 2 * 2 ^ (w - 1). Proof. intros H. rewrite <- Z.pow_succ_r by lia. f_equal; lia. Qed.
Lemma inside_value t z : inside t z = true <-> value t z.
Proof. unfold inside. rewrite andb_true_iff, !Z.leb_le. destruct t; cbn; lia. Qed.
Lemma conv_value t z : proper t -> value t z -> conv t z = z.
Proof.
  destruct t as [|w|w]; cbn [proper value conv]; intros P H.
  - destruct H as [-> | ->]; reflexivity.
  - pose proof (pow2_half w ltac:(lia)). rewrite Z.mod_small by lia. lia.
  - apply Z.mod_small, H.
Qed.
Lemma conv_wrapped t z : proper t -> wrapped t z (conv t z).
Proof.
  destruct t as [|w|w]; cbn [proper wrapped value conv]; intros P; auto.
  - pose proof (pow2_half w ltac:(lia)) as H. pose proof (pow2_pos w ltac:(lia)) as H0. pose proof (Z.mod_pos_bound (z + 2 ^ (w - 1)) _ H0). split; [lia|].
    exists (- ((z + 2 ^ (w - 1)) / 2 ^ w)). pose proof (Z.div_mod (z + 2 ^ (w - 1)) (2 ^ w) ltac:(lia)). lia.
  - pose proof (pow2_pos w ltac:(lia)) as H0. pose proof (Z.mod_pos_bound z _ H0). split; [lia|]. exists (- (z / 2 ^ w)). pose proof (Z.div_mod z (2 ^ w) ltac:(lia)). lia.
Qed.
Lemma wrapped_unique t z r s : proper t -> wrapped t z r -> wrapped t z s -> r = s.
Proof.
  destruct t as [|w|w]; cbn [proper wrapped value]; intros P; [congruence| |]; intros (R & k & E1) (S & l & E2);
    pose proof (pow2_pos w ltac:(lia)) as H0; try pose proof (pow2_half w ltac:(lia)) as H; assert (-1 < k - l < 1) by (split; apply (Zmult_lt_reg_r _ _ (2 ^ w)); lia); assert (k = l) by lia; subst l; lia.
Qed.
Lemma conv_in t z : proper t -> value t (conv t z).
Proof. intros P. pose proof (conv_wrapped t z P) as H. destruct t; cbn [wrapped] in H; try apply H. cbn [value]. rewrite H. destruct (z =? 0); auto. Qed.
Lemma promote_proper t : proper t -> proper (promote t).
Proof. destruct t as [|w|w]; cbn [promote proper int_t]; intros H; try lia; destruct (w <? 32); cbn [proper int_t]; lia. Qed.
Lemma pow2_le a b : 0 <= a -> a <= b -> 2 ^ a <= 2 ^ b. Proof. intros. apply Z.pow_le_mono_r; lia. Qed.
Lemma promote_value t z : proper t -> value t z -> value (promote t) z.
Proof.
  destruct t as [|w|w]; cbn [promote value proper int_t]; intros P H; [|destruct (Z.ltb_spec w 32); cbn [value int_t]..]; auto.
  - destruct H as [-> | ->]; lia.
  - pose proof (pow2_le (w - 1) (32 - 1) ltac:(lia) ltac:(lia)). lia.
  - pose proof (pow2_le w (32 - 1) ltac:(lia) ltac:(lia)). lia.
Qed.
Lemma promote_idem t : promote (promote t) = promote t.
Proof. destruct t as [|w|w]; cbn; auto; destruct (w <? 32) eqn:E; cbn; auto; now rewrite E. Qed.
Lemma promote_bool t : promote t <> TBool. Proof. destruct t as [|w|w]; cbn; try discriminate; destruct (w <? 32); discriminate. Qed.
Lemma common_self t : common t t = promote t.
Proof. unfold common. pose proof (promote_bool t). destruct (promote t); try congruence; now rewrite Z.max_id. Qed.
Lemma common_acc t : common (promote t) t = promote t.
Proof. unfold common. rewrite promote_idem. pose proof (promote_bool t). destruct (promote t); try congruence; now rewrite Z.max_id. Qed.
Lemma common_proper t u : proper t -> proper u -> proper (common t u).
Proof. intros P Q. apply promote_proper in P, Q. unfold common. destruct (promote t) as [|v|v], (promote u) as [|w|w]; cbn [proper int_t] in *; try lia; destruct (_ <=? _); cbn [proper]; lia. Qed.
Lemma common_bool t u : common t u <> TBool.
Proof. unfold common. destruct (promote t) as [|v|v], (promote u) as [|w|w]; cbn; try discriminate; destruct (_ <=? _); discriminate. Qed.
Lemma fit_value t z : proper t -> value t z -> fit t z = Some z.
Proof. intros P H. destruct t; cbn [fit]; try (apply inside_value in H; now rewrite H). f_equal. now apply conv_value. Qed.
Lemma fit_signed t z r : signed t -> fit t z = Some r <-> r = z /\ value t z.
Proof.
  destruct t as [|w|w]; cbn [signed fit]; intros S; try contradiction. rewrite <- inside_value. destruct (inside _ z); split; intros H; try discriminate; try (destruct H; congruence).
  injection H as <-. auto.
Qed.
Lemma fit_signed_none t z : signed t -> ~ value t z -> fit t z = None.
Proof. intros S H. destruct (fit t z) as [r|] eqn:E; auto. apply (fit_signed t z r S) in E. tauto. Qed.
Lemma conv_unsigned w z : conv (TUnsigned w) z = z mod 2 ^ w. Proof. reflexivity. Qed.

(** ** expressions *)
Lemma ieval_exact e idx z : proper_types e ->
  no_overflow e idx -> imeans e idx = Some z -> ieval e idx = Some z /\ value (type_of e) z /\ proper (type_of e).
Proof.
  revert z. induction e as [t a|t n|e IH|op l IHl r IHr]; intros z P N E; cbn [proper_types no_overflow imeans ieval type_of] in *.
  - injection E as <-. auto.
  - injection E as <-. auto.
  - destruct N as [N V]. destruct (imeans e idx) as [x|] eqn:Ex; [|discriminate]. destruct (IH x P N eq_refl) as (Ev & Hv & Hp). rewrite Ev. pose proof (promote_proper _ Hp) as Hq.
    injection E as <-. specialize (V _ eq_refl). rewrite (fit_value _ _ Hq V). auto.
  - destruct P as [Pl Pr]. destruct N as (Nl & Nr & V). destruct (imeans l idx) as [x|] eqn:Ex; [|discriminate]. destruct (imeans r idx) as [y|] eqn:Ey; [|discriminate].
    destruct (IHl x Pl Nl eq_refl) as (Ev & Hv & Hp). destruct (IHr y Pr Nr eq_refl) as (Ew & Hw & Hq). rewrite Ev, Ew. cbn [both]. unfold binary.
    pose proof (common_proper _ _ Hp Hq) as HC. rewrite !conv_value by (auto; apply V; auto). unfold iop.
    assert (X : exact_op op x y = Some z) by (destruct op; cbn [exact_op]; exact E). rewrite X. rewrite fit_value by (auto; apply V; auto). split; [reflexivity|split; [apply V; auto|exact HC]].
Qed.
Lemma ieval_modular w a idx : 32 <= w -> made_of (TUnsigned w) a -> exists z r, imeans a idx = Some z /\ ieval a idx = Some r /\ r mod 2 ^ w = z mod 2 ^ w /\ type_of a = TUnsigned w.
Proof.
  intros W. assert (PW : promote (TUnsigned w) = TUnsigned w) by (cbn; destruct (Z.ltb_spec w 32); auto; lia).
  pose proof (pow2_pos w ltac:(lia)) as H0.
  induction a as [t a|t n|e IH|op l IHl r IHr]; cbn [made_of imeans ieval type_of]; intros M.
  - subst t. eexists _, _. split; [reflexivity|]. split; [reflexivity|]. auto.
  - subst t. eexists _, _. split; [reflexivity|]. split; [reflexivity|]. auto.
  - destruct (IH M) as (z & r & E1 & E2 & E3 & ->). rewrite E1, E2, PW. eexists _, _. split; [reflexivity|]. split; [reflexivity|]. split; auto.
    cbn [conv]. rewrite Z.mod_mod by lia. rewrite <- (Z.sub_0_l z), <- (Z.sub_0_l r), (Zminus_mod 0 z), (Zminus_mod 0 r), E3. reflexivity.
  - destruct M as (D & Ml & Mr). destruct (IHl Ml) as (z & r0 & E1 & E2 & E3 & ->). destruct (IHr Mr) as (z' & r0' & E1' & E2' & E3' & ->). rewrite E1, E2, E1', E2', common_self, PW.
    cbn [both]. unfold binary. rewrite common_self, PW. unfold iop. destruct op; try congruence; cbn [exact_op fit conv]; (eexists _, _; split; [reflexivity|]; split; [reflexivity|]; split; auto); rewrite Z.mod_mod by lia.
    + now rewrite <- Zplus_mod, (Zplus_mod r0), (Zplus_mod z), E3, E3'.
    + now rewrite <- Zminus_mod, (Zminus_mod r0), (Zminus_mod z), E3, E3'.
    + now rewrite <- Zmult_mod, (Zmult_mod r0), (Zmult_mod z), E3, E3'.
Qed.

(** ** accumulation *)
Definition zop (op : bin_op) : Z -> Z -> Z := match op with OpTimes => Z.mul | _ => Z.add end.
Definition is_zop (op : bin_op) : Prop := op = OpPlus \/ op = OpTimes.
Lemma zop_exact op x y : is_zop op -> exact_op op x y = Some (zop op x y). Proof. intros [-> | ->]; reflexivity. Qed.
Lemma zop_mod op w x y : is_zop op -> 0 < w -> zop op (x mod w) (y mod w) mod w = zop op x y mod w.
Proof. intros [-> | ->] H; cbn [zop]; [now rewrite <- Zplus_mod|now rewrite <- Zmult_mod]. Qed.
Definition acc_step (t u : ity) (op : bin_op) (r : option Z) (x : Z) : option Z := match r with Some r => binary t u op r x | None => None end.
Lemma fold_none {B} (f : option Z -> B -> option Z) l : (forall x, f None x = None) -> fold_left f l None = None.
Proof. intros H. induction l as [|x l IH]; cbn; auto. now rewrite H. Qed.
Lemma acc_signed t op l i s : is_zop op -> proper t -> signed (promote t) -> (forall x, In x l -> value t x) -> value (promote t) i ->
  fold_left (acc_step (promote t) t op) l (Some i) = Some s <-> s = fold_left (zop op) l i /\ forall k, value (promote t) (so_far (zop op) i l k).
Proof.
  intros O P S. pose proof (promote_proper t P) as Q. revert i. induction l as [|x l IH]; intros i V Vi.
  - cbn [fold_left]. unfold so_far. split.
    + intros E. injection E as <-. split; auto. intros k. now rewrite firstn_nil.
    + intros [-> _]. reflexivity.
  - cbn [fold_left]. replace (acc_step (promote t) t op (Some i) x) with (fit (promote t) (zop op i x)).
    2: { cbn [acc_step]. unfold binary. rewrite common_acc. unfold iop. rewrite !conv_value by (auto; apply promote_value; auto; apply V; cbn; auto). now rewrite zop_exact. }
    destruct (inside (promote t) (zop op i x)) eqn:E.
    + apply inside_value in E. rewrite fit_value by auto. rewrite IH by (auto; intros; apply V; cbn; auto). split; intros [-> H]; split; auto; intros k.
      * destruct k as [|k]; [exact Vi|apply (H k)].
      * apply (H (Datatypes.S k)).
    + assert (N : ~ value (promote t) (zop op i x)) by (rewrite <- inside_value; congruence). rewrite (fit_signed_none _ _ S N), fold_none by auto.
      split; [discriminate|]. intros [_ H]. contradiction (N (H 1%nat)).
Qed.
Lemma acc_unsigned w op l i : is_zop op -> 32 <= w -> fold_left (acc_step (TUnsigned w) (TUnsigned w) op) l (Some (i mod 2 ^ w)) = Some (fold_left (zop op) l i mod 2 ^ w).
Proof.
  intros O W. pose proof (pow2_pos w ltac:(lia)) as H0. assert (PW : promote (TUnsigned w) = TUnsigned w) by (cbn; destruct (Z.ltb_spec w 32); auto; lia).
  revert i. induction l as [|x l IH]; intros i; cbn [fold_left]; auto. cbn [acc_step]. unfold binary. rewrite common_self, PW. unfold iop. rewrite zop_exact by auto. cbn [fit conv]. rewrite Z.mod_mod by lia.
  rewrite zop_mod by (auto; lia). apply IH.
Qed.
(** accumulation in the type of the elements *)
Definition acc_conv (t : ity) (op : bin_op) (r : option Z) (x : Z) : option Z := match r with Some r => match binary t t op r x with Some z => Some (conv t z) | None => None end | None => None end.
Lemma binary_self t op x y : is_zop op -> proper t -> value t x -> value t y -> binary t t op x y = fit (promote t) (zop op x y).
Proof. intros O P Vx Vy. pose proof (promote_proper t P). unfold binary. rewrite common_self. unfold iop. rewrite !conv_value by (auto; apply promote_value; auto). now rewrite zop_exact. Qed.
Lemma acc_conv_exact t op l i : is_zop op -> proper t -> (forall x, In x l -> value t x) -> (forall k, value t (so_far (zop op) i l k)) ->
  fold_left (acc_conv t op) l (Some i) = Some (fold_left (zop op) l i).
Proof.
  intros O P. pose proof (promote_proper t P) as Q. revert i. induction l as [|x l IH]; intros i V H; cbn [fold_left]; auto.
  cbn [acc_conv]. rewrite binary_self by (auto; first [exact (H 0%nat)|apply V; cbn; auto]). pose proof (H 1%nat) as H1. cbn in H1.
  rewrite fit_value by (auto; apply promote_value; auto). rewrite conv_value by auto. apply IH; [intros; apply V; cbn; auto|]. intros k. apply (H (Datatypes.S k)).
Qed.
Lemma acc_conv_signed t op l i s : is_zop op -> signed t -> (forall x, In x l -> value t x) -> value t i ->
  fold_left (acc_conv t op) l (Some i) = Some s <-> s = fold_left (zop op) l i /\ forall k, value t (so_far (zop op) i l k).
Proof.
  intros O S. assert (P : proper t) by (destruct t; cbn [signed proper] in *; try contradiction; lia). assert (PT : promote t = t) by (destruct t as [|w|w]; cbn [signed promote] in *; try contradiction; destruct (Z.ltb_spec w 32); auto; lia).
  intros V Vi. split.
  - revert i V Vi. induction l as [|x l IH]; intros i V Vi; cbn [fold_left].
    + intros E. injection E as <-. split; auto. intros k. unfold so_far. now rewrite firstn_nil.
    + cbn [acc_conv]. rewrite binary_self by (auto; apply V; cbn; auto). rewrite PT. destruct (inside t (zop op i x)) eqn:E.
      * apply inside_value in E. rewrite fit_value, conv_value by auto. intros F. destruct (IH _ (fun y Hy => V y (or_intror Hy)) E F) as [-> H]. split; auto. intros [|k]; [exact Vi|apply (H k)].
      * assert (N : ~ value t (zop op i x)) by (rewrite <- inside_value; congruence). rewrite (fit_signed_none _ _ S N), fold_none by auto. discriminate.
  - intros [-> H]. apply acc_conv_exact; auto.
Qed.
(** a type whose products fit in int: no overflow, the result wraps *)
Lemma conv_congr t z y : proper t -> t <> TBool -> (exists k, y = z + k * match t with TSigned w | TUnsigned w => 2 ^ w | TBool => 1 end) -> conv t y = conv t z.
Proof.
  intros P B [k ->]. destruct t as [|w|w]; try congruence; cbn [conv].
  - f_equal. replace (z + k * 2 ^ w + 2 ^ (w - 1)) with (z + 2 ^ (w - 1) + k * 2 ^ w) by lia. apply Z_mod_plus_full.
  - apply Z_mod_plus_full.
Qed.
Definition modulus (t : ity) : Z := match t with TSigned w | TUnsigned w => 2 ^ w | TBool => 1 end.
Lemma conv_shift t z : proper t -> t <> TBool -> exists k, conv t z = z + k * modulus t.
Proof. intros P B. pose proof (conv_wrapped t z P) as H. destruct t; try congruence; apply H. Qed.
Lemma conv_zop t op z y : is_zop op -> proper t -> t <> TBool -> conv t (zop op (conv t z) y) = conv t (zop op z y).
Proof.
  intros O P B. destruct (conv_shift t z P B) as [k ->]. apply conv_congr; auto. destruct O as [-> | ->]; cbn [zop]; fold (modulus t); [exists k|exists (k * y)]; unfold modulus; lia.
Qed.
Lemma acc_conv_small t op l i : is_zop op -> proper t -> t <> TBool -> (forall x y, value t x -> value t y -> value (promote t) (zop op x y)) -> (forall x, In x l -> value t x) ->
  fold_left (acc_conv t op) l (Some (conv t i)) = Some (conv t (fold_left (zop op) l i)).
Proof.
  intros O P B C. pose proof (promote_proper t P) as Q. revert i. induction l as [|x l IH]; intros i V; cbn [fold_left]; auto.
  assert (Vx : value t x) by (apply V; cbn; auto). cbn [acc_conv]. rewrite binary_self by (auto; now apply conv_in). rewrite fit_value by (auto; apply C; auto; now apply conv_in).
  rewrite conv_zop by auto. apply IH. intros; apply V; cbn; auto.
Qed.
Lemma acc_conv_unsigned w op l i : is_zop op -> 32 <= w -> fold_left (acc_conv (TUnsigned w) op) l (Some (i mod 2 ^ w)) = Some (fold_left (zop op) l i mod 2 ^ w).
Proof.
  intros O W. pose proof (pow2_pos w ltac:(lia)) as H0. assert (PW : promote (TUnsigned w) = TUnsigned w) by (cbn; destruct (Z.ltb_spec w 32); auto; lia).
  revert i. induction l as [|x l IH]; intros i; cbn [fold_left]; auto. cbn [acc_conv]. unfold binary. rewrite common_self, PW. unfold iop. rewrite zop_exact by auto. cbn [fit conv]. rewrite !Z.mod_mod by lia.
  rewrite zop_mod by (auto; lia). apply IH.
Qed.

Lemma sum_left l i : fold_left Z.add l i = i + sumZ l.
Proof. revert i. induction l as [|x l IH]; intros i; cbn; [lia|]. rewrite IH. unfold sumZ. lia. Qed.
Lemma prod_left l i : fold_left Z.mul l i = i * prodZ l.
Proof. revert i. induction l as [|x l IH]; intros i; cbn; [lia|]. rewrite IH. unfold prodZ. lia. Qed.
Lemma common_signed t u x : signed (common t u) -> proper t -> proper u -> value t x \/ value u x -> value (common t u) x.
Proof.
  intros S P Q H. assert (G : forall v, proper v -> value v x -> value (promote v) x) by (intros; now apply promote_value).
  assert (H1 : value (promote t) x \/ value (promote u) x) by (destruct H; auto). pose proof (promote_proper t P) as P1. pose proof (promote_proper u Q) as Q1. pose proof (promote_bool t) as B1. pose proof (promote_bool u) as B2. clear H G. unfold common in *.
  destruct (promote t) as [|v|v], (promote u) as [|w|w]; cbn [signed value proper int_t] in *; try contradiction; try congruence.
  - pose proof (pow2_le (v - 1) (Z.max v w - 1) ltac:(lia) ltac:(lia)). pose proof (pow2_le (w - 1) (Z.max v w - 1) ltac:(lia) ltac:(lia)). lia.
  - destruct (Z.leb_spec v w); cbn [signed value] in *; try contradiction. pose proof (pow2_le w (v - 1) ltac:(lia) ltac:(lia)). lia.
  - destruct (Z.leb_spec w v); cbn [signed value] in *; try contradiction. pose proof (pow2_le v (w - 1) ltac:(lia) ltac:(lia)). lia.
Qed.
Lemma promote_wide t : match promote t with TBool => False | TSigned w | TUnsigned w => 32 <= w end.
Proof. destruct t as [|w|w]; cbn [promote int_t]; try lia; destruct (Z.ltb_spec w 32); cbn [int_t]; lia. Qed.
Lemma wide_promote t : match t with TBool => False | TSigned w | TUnsigned w => 32 <= w end -> promote t = t.
Proof. destruct t as [|w|w]; cbn [promote]; intros H; try contradiction; destruct (Z.ltb_spec w 32); auto; lia. Qed.
Lemma promote_common t u : promote (common t u) = common t u.
Proof.
  apply wide_promote. unfold common. pose proof (promote_wide t) as A. pose proof (promote_wide u) as B. destruct (promote t) as [|v|v], (promote u) as [|w|w]; try contradiction; try lia; destruct (_ <=? _); lia.
Qed.
Lemma power_left (x : Z) l : fold_left Z.mul (map (fun _ : Z => x) l) 1 = x ^ Z.of_nat (length l).
Proof.
  rewrite prod_left, Z.mul_1_l. induction l as [|y l IH]; [reflexivity|]. change (x * prodZ (map (fun _ => x) l) = x ^ Z.of_nat (length (y :: l))). rewrite IH.
  change (length (y :: l)) with (S (length l)). rewrite Nat2Z.inj_succ, Z.pow_succ_r by lia. reflexivity.
Qed.
Lemma power_prefix (x : Z) l k : so_far Z.mul 1 (map (fun _ : Z => x) l) k = x ^ Z.of_nat (Nat.min k (length l)).
Proof. unfold so_far. rewrite firstn_map, power_left, firstn_length. reflexivity. Qed.
Lemma minus_one_pow k : 0 <= k -> (-1) ^ k = 1 \/ (-1) ^ k = -1.
Proof. intros H. pattern k. apply natlike_ind; auto. intros x Hx [E|E]; rewrite Z.pow_succ_r, E by lia; auto. Qed.
Lemma power_value t x k n : proper t -> value t x -> 0 <= k <= n -> value t (x ^ n) -> value t (x ^ k).
Proof.
  intros P Vx Hk Vn. destruct (Z.eq_dec k n) as [->|Hne]; auto.
  assert (V1 : value t 1) by (destruct t as [|w|w]; cbn [value proper] in *; auto; [pose proof (pow2_le 1 (w - 1) ltac:(lia) ltac:(lia))|pose proof (pow2_le 1 w ltac:(lia) ltac:(lia))]; lia).
  assert (V0 : value t 0) by (destruct t as [|w|w]; cbn [value proper] in *; auto; [pose proof (pow2_pos (w - 1) ltac:(lia))|pose proof (pow2_pos w ltac:(lia))]; lia).
  destruct (Z.eq_dec k 0) as [->|Hk0]; auto.
  destruct (Z_lt_ge_dec (Z.abs x) 2) as [Hx|Hx].
  - assert (C : x = 0 \/ x = 1 \/ x = -1) by lia. destruct C as [-> |[-> | ->]]; [rewrite Z.pow_0_l by lia; auto|rewrite Z.pow_1_l by lia; auto|].
    assert (D : (-1) ^ k = 1 \/ (-1) ^ k = -1) by (apply minus_one_pow; lia). destruct D as [-> | ->]; auto.
  - assert (L : Z.abs (x ^ k) < Z.abs (x ^ n)) by (rewrite !Z.abs_pow; apply Z.pow_lt_mono_r; lia).
    destruct t as [|w|w]; cbn [value] in *; [lia| lia|]. pose proof (Z.pow_nonneg x k ltac:(lia)). lia.
Qed.
