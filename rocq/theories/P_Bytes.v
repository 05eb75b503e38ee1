(** Property C89: the functions on raw memory change exactly the bytes they are asked to change. *)
From Verif Require Import Base M_Loops M_Assign M_Bytes L_Loops L_Assign.

(** ** Specification *)
(** x is byte j of row i of a block of rows *)
Definition in_row (p pitch width height x i j : Z) : Prop := 0 <= i < height /\ 0 <= j < width /\ x = p + i * pitch + j.
Definition in_rows (p pitch width height x : Z) : Prop := exists i j, in_row p pitch width height x i j.
Definition rows_apart (d dp s sp width height : Z) : Prop := forall x, in_rows d dp width height x -> in_rows s sp width height x -> False.

Lemma in_rows_S p pitch w h x : in_rows p pitch w (Z.of_nat (S h)) x <-> (p <= x < p + w) \/ in_rows (p + pitch) pitch w (Z.of_nat h) x.
Proof.
  split.
  - intros (i & j & Hi & Hj & ->). destruct (Z.eq_dec i 0) as [->|N]; [left; lia|]. right. exists (i - 1), j. repeat split; try lia. 
  - intros [H|(i & j & Hi & Hj & ->)]; [exists 0, (x - p); repeat split; lia|]. exists (i + 1), j. repeat split; lia.
Qed.
Lemma std_memset_in p v c m x : p <= x < p + c -> std_memset p v c m x = v mod 256.
Proof. intros H. unfold std_memset. replace ((p <=? x) && (x <? p + c)) with true by (symmetry; lia). reflexivity. Qed.
Lemma std_memset_out p v c m x : ~ (p <= x < p + c) -> std_memset p v c m x = m x.
Proof. intros H. unfold std_memset. replace ((p <=? x) && (x <? p + c)) with false by (symmetry; lia). reflexivity. Qed.

(** for every pitch, also smaller than the width: the bytes of the rows get the value, all others keep theirs *)
Theorem C89_memset2D (ptr pitch value width height : Z) (m : mem Z) : 0 <= height ->
  let m' := nda_memset2D ptr pitch value width height m in
  (forall x, in_rows ptr pitch width height x -> m' x = value mod 256) /\ (forall x, ~ in_rows ptr pitch width height x -> m' x = m x).
Proof.
  intros Hh. cbn zeta. unfold nda_memset2D. destruct (Z_of_nat_complete height Hh) as [h ->]. rewrite Nat2Z.id. clear Hh.
  revert ptr m. induction h as [|h IH]; intros ptr m; cbn [memset2D_loop].
  - split; [intros x (i & j & Hi & _); lia|reflexivity].
  - destruct (IH (ptr + pitch) (std_memset ptr value width m)) as [I1 I2]. assert (D : forall x, in_rows (ptr + pitch) pitch width (Z.of_nat h) x \/ ~ in_rows (ptr + pitch) pitch width (Z.of_nat h) x).
    { intros x. clear. generalize (ptr + pitch) as p. induction h as [|h IHh]; intros p; [right; intros (i & j & Hi & _); lia|].
      destruct (IHh (p + pitch)) as [Y|N]; [left; apply in_rows_S; auto|]. destruct (Z_le_dec p x) as [A|A]; [destruct (Z_lt_dec x (p + width)) as [B|B]|].
      + left. apply in_rows_S. auto.
      + right. intros C. apply in_rows_S in C. destruct C as [C|C]; [lia|auto].
      + right. intros C. apply in_rows_S in C. destruct C as [C|C]; [lia|auto]. }
    split; intros x H.
    + rewrite in_rows_S in H. destruct (D x) as [Y|N]; [now apply I1|]. rewrite I2 by auto. destruct H as [H|H]; [now apply std_memset_in|contradiction].
    + rewrite in_rows_S in H. rewrite I2 by tauto. apply std_memset_out. tauto.
Qed.
Theorem C89_memset (p value count : Z) (m : mem Z) :
  (forall x, p <= x < p + count -> nda_memset p value count m x = value mod 256) /\ (forall x, ~ (p <= x < p + count) -> nda_memset p value count m x = m x).
Proof. split; intros x H; [now apply std_memset_in|now apply std_memset_out]. Qed.

Lemma std_memcpy_in d s c m m' : std_memcpy d s c m = Some m' -> (forall j, 0 <= j < c -> m' (d + j) = m (s + j)) /\ (forall x, ~ (d <= x < d + c) -> m' x = m x).
Proof.
  unfold std_memcpy. destruct (apart _ _ _ _); [|discriminate]. intros H. injection H as <-. split.
  - intros j Hj. replace ((d <=? d + j) && (d + j <? d + c)) with true by (symmetry; lia). f_equal. lia.
  - intros x Hx. replace ((d <=? x) && (x <? d + c)) with false by (symmetry; lia). reflexivity.
Qed.
Theorem C89_memcpy (dest src count : Z) (m : mem Z) : dest + count <= src \/ src + count <= dest ->
  exists m', nda_memcpy dest src count m = Some m' /\ (forall j, 0 <= j < count -> m' (dest + j) = m (src + j)) /\ (forall x, ~ (dest <= x < dest + count) -> m' x = m x).
Proof.
  intros H. assert (E : exists m', nda_memcpy dest src count m = Some m').
  { unfold nda_memcpy, std_memcpy. replace (apart dest count src count) with true; [eauto|]. symmetry. unfold apart. destruct H as [H|H]; [replace (dest + count <=? src) with true by (symmetry; lia)|replace (src + count <=? dest) with true by (symmetry; lia)]; rewrite ?orb_true_r; reflexivity. }
  destruct E as [m' E]. exists m'. split; [exact E|]. now apply std_memcpy_in.
Qed.
(** rows that are apart from each other and do not overlap among themselves in the target: row i of the target becomes row i of the source, all other
    bytes, also those between the rows, keep their values *)
Theorem C89_memcpy2D (checks : bool) (dest dpitch src spitch width height : Z) (m : mem Z) : 0 <= height -> 0 <= width <= dpitch -> width <= spitch ->
  rows_apart dest dpitch src spitch width height ->
  exists m', nda_memcpy2D checks dest dpitch src spitch width height m = Some m' /\
    (forall i j, 0 <= i < height -> 0 <= j < width -> m' (dest + i * dpitch + j) = m (src + i * spitch + j)) /\
    (forall x, ~ in_rows dest dpitch width height x -> m' x = m x).
Proof.
  intros Hh Hw Hs Ha. unfold nda_memcpy2D. replace ((width <=? dpitch) && (width <=? spitch)) with true by (symmetry; lia). rewrite andb_false_r.
  destruct (Z_of_nat_complete height Hh) as [h ->]. rewrite Nat2Z.id. clear Hh.
  revert dest src m Ha. induction h as [|h IH]; intros dest src m Ha; cbn [memcpy2D_loop].
  - exists m. split; [reflexivity|]. split; [intros i j Hi; lia|reflexivity].
  - assert (E : apart dest width src width = true).
    { unfold apart. destruct (Z.leb_spec width 0) as [H0|H0]; [reflexivity|]. cbn [orb]. destruct (Z.leb_spec (dest + width) src) as [H1|H1]; [reflexivity|]. cbn [orb]. apply Z.leb_le.
      destruct (Z_le_dec (src + width) dest) as [H2|H2]; [exact H2|exfalso]. apply (Ha (Z.max dest src)); apply in_rows_S; left; lia. }
    destruct (std_memcpy dest src width m) as [m1|] eqn:S1; [|unfold std_memcpy in S1; rewrite E in S1; discriminate]. destruct (std_memcpy_in _ _ _ _ _ S1) as [A1 A2].
    destruct (IH (dest + dpitch) (src + spitch) m1) as (m' & L & B1 & B2).
    { intros x X1 X2. apply (Ha x); apply in_rows_S; now right. }
    exists m'. split; [exact L|]. split.
    + intros i j Hi Hj. destruct (Z.eq_dec i 0) as [->|N].
      * rewrite !Z.mul_0_l, !Z.add_0_r. rewrite B2; [now apply A1|]. intros (i' & j' & Hi' & Hj' & X). nia.
      * replace (dest + i * dpitch + j) with (dest + dpitch + (i - 1) * dpitch + j) by ring. rewrite B1 by lia.
        replace (src + spitch + (i - 1) * spitch + j) with (src + i * spitch + j) by ring. apply A2. intros X. apply (Ha (src + i * spitch + j)).
        -- apply in_rows_S. now left.
        -- exists i, j. repeat split; lia.
    + intros x X. rewrite in_rows_S in X. rewrite B2 by tauto. apply A2. tauto.
Qed.
(** rows wider than a pitch are reported in debug builds *)
Theorem C89_reported (dest dpitch src spitch width height : Z) (m : mem Z) : dpitch < width \/ spitch < width -> nda_memcpy2D true dest dpitch src spitch width height m = None.
Proof.
  intros H. unfold nda_memcpy2D. cbn [andb]. destruct (Z.leb_spec width dpitch) as [H1|H1]; destruct (Z.leb_spec width spitch) as [H2|H2]; cbn; auto. lia.
Qed.

(** ** Bytes and elements: copying blocks of elements of [sz] bytes, as assignments of views do (C16), is copying rows of bytes *)
Definition element (sz : Z) (m : mem Z) (a : Z) : list Z := map (fun k => m (a * sz + k)) (zseq sz).
Lemma fold_copy {V} (D S : Z -> Z) (l : list Z) : NoDup l -> (forall p q, In p l -> In q l -> D p = D q -> p = q) -> (forall p q, In p l -> In q l -> D p <> S q) -> forall m : mem V,
  let m' := fold_left (fun m q => mset m (D q) (m (S q))) l m in (forall q, In q l -> m' (D q) = m (S q)) /\ (forall x, (forall q, In q l -> x <> D q) -> m' x = m x).
Proof.
  induction l as [|p l IH]; intros N Inj Ap m; cbn [fold_left]; [split; [intros q []|reflexivity]|]. apply NoDup_cons_iff in N. destruct N as [Np N].
  destruct (IH N) with (m := mset m (D p) (m (S p))) as [I1 I2]; [intros; apply Inj; auto; now right|intros; apply Ap; now right|]. split.
  - intros q [<-|Hq].
    + rewrite I2; [unfold mset; now rewrite Z.eqb_refl|]. intros q Hq C. apply Np. rewrite (Inj p q); auto; [now left|now right].
    + rewrite I1 by auto. unfold mset. destruct (Z.eqb_spec (S q) (D p)) as [C|C]; [|reflexivity]. exfalso. apply (Ap p q); auto; [now left|now right].
  - intros x Hx. rewrite I2 by (intros q Hq; apply Hx; now right). unfold mset. destruct (Z.eqb_spec x (D p)) as [C|C]; [|reflexivity]. exfalso. apply (Hx p); auto. now left.
Qed.
Lemma memcpy2D_elements {V} d dp s sp w h (m : mem V) : 0 <= h -> 0 <= w <= dp -> rows_apart d dp s sp w h ->
  (forall i j, 0 <= i < h -> 0 <= j < w -> memcpy2D d dp s sp w h m (d + i * dp + j) = m (s + i * sp + j)) /\
  (forall x, ~ in_rows d dp w h x -> memcpy2D d dp s sp w h m x = m x).
Proof.
  intros Hh Hw Ha. destruct (Z.eq_dec w 0) as [->|N0].
  - split; [lia|]. intros x _. unfold memcpy2D. cbn [zseq Z.to_nat seq map fold_left]. generalize (zseq h). intros l. revert m. induction l as [|i l IH]; intros m; [reflexivity|]. cbn [fold_left]. apply IH.
  - rewrite memcpy2D_fold by lia.
    assert (R : forall q, In q (zseq (h * w)) -> 0 <= q / w < h /\ 0 <= q mod w < w).
    { intros q Hq. apply zseq_In in Hq. split; [|apply Z.mod_pos_bound; lia]. split; [apply Z.div_pos; lia|apply Z.div_lt_upper_bound; lia]. }
    destruct (fold_copy (V := V) (fun q => d + (q / w * dp + q mod w)) (fun q => s + (q / w * sp + q mod w)) (zseq (h * w))) with (m := m) as [F1 F2].
    + unfold zseq. apply FinFun.Injective_map_NoDup; [intros a b; lia|apply seq_NoDup].
    + intros p q Hp Hq E. pose proof (R p Hp) as [P1 P2]. pose proof (R q Hq) as [Q1 Q2]. assert (p / w = q / w) by nia. assert (p mod w = q mod w) by nia.
      rewrite (Z.div_mod p w), (Z.div_mod q w) by lia. congruence.
    + intros p q Hp Hq E. pose proof (R p Hp) as [P1 P2]. pose proof (R q Hq) as [Q1 Q2]. apply (Ha (d + (p / w * dp + p mod w))).
      * exists (p / w), (p mod w). unfold in_row. lia.
      * exists (q / w), (q mod w). unfold in_row. lia.
    + split.
      * intros i j Hi Hj. assert (Hq : In (i * w + j) (zseq (h * w))) by (apply zseq_In; nia). specialize (F1 _ Hq). cbn beta in F1.
        rewrite (Z.div_add_l i w j), (Z.div_small j w), Z.add_0_r, (Z.add_comm (i * w) j), Z.mod_add, Z.mod_small in F1 by lia. rewrite !Z.add_assoc in F1. exact F1.
      * intros x Hx. apply F2. intros q Hq ->. apply Hx. pose proof (R q Hq) as [Q1 Q2]. exists (q / w), (q mod w). unfold in_row. lia.
Qed.
Theorem C89_elements (checks : bool) (sz d dp s sp w h : Z) (m : mem Z) : 0 < sz -> 0 <= h -> 0 <= w <= dp -> w <= sp -> rows_apart d dp s sp w h ->
  exists m', nda_memcpy2D checks (d * sz) (dp * sz) (s * sz) (sp * sz) (w * sz) h m = Some m' /\
    forall a, element sz m' a = memcpy2D d dp s sp w h (element sz m) a.
Proof.
  intros Hz Hh Hw Hs Ha.
  assert (T : forall p pp x, in_rows (p * sz) (pp * sz) (w * sz) h x -> in_rows p pp w h (x / sz)).
  { intros p pp x (i & j & Hi & Hj & ->). exists i, (j / sz). repeat split; try lia; [apply Z.div_pos; lia|apply Z.div_lt_upper_bound; lia|].
    replace (p * sz + i * (pp * sz) + j) with ((p + i * pp) * sz + j) by ring. rewrite Z.div_add_l by lia. reflexivity. }
  destruct (C89_memcpy2D checks (d * sz) (dp * sz) (s * sz) (sp * sz) (w * sz) h m) as (m' & E & B1 & B2); try nia.
  { intros x X1 X2. apply (Ha (x / sz)); now apply T. }
  exists m'. split; [exact E|]. intros a. destruct (memcpy2D_elements d dp s sp w h (element sz m) Hh Hw Ha) as [G1 G2].
  assert (Dc : in_rows d dp w h a \/ ~ in_rows d dp w h a).
  { destruct (Z.eq_dec dp 0) as [Z0|Z0]; [right; intros (i & j & Hi & Hj & _); lia|].
    destruct (Z_lt_dec ((a - d) mod dp) w) as [L1|L1]; [destruct (Z_le_dec 0 (a - d)) as [L2|L2]; [destruct (Z_lt_dec ((a - d) / dp) h) as [L3|L3]|]|].
    - left. exists ((a - d) / dp), ((a - d) mod dp). pose proof (Z.mod_pos_bound (a - d) dp ltac:(lia)). pose proof (Z.div_pos (a - d) dp L2 ltac:(lia)).
      pose proof (Z.div_mod (a - d) dp Z0). unfold in_row. repeat split; try lia. 
    - right. intros (i & j & Hi & Hj & ->). apply L3. replace (d + i * dp + j - d) with (i * dp + j) by ring. rewrite Z.div_add_l, Z.div_small by lia. lia.
    - right. intros (i & j & Hi & Hj & ->). nia.
    - right. intros (i & j & Hi & Hj & ->). apply L1. replace (d + i * dp + j - d) with (j + i * dp) by ring. rewrite Z.mod_add, Z.mod_small by lia. lia. }
  destruct Dc as [(i & j & Hi & Hj & ->)|Nr].
  - rewrite G1 by auto. unfold element. apply map_ext_in. intros k Hk. apply zseq_In in Hk.
    replace ((d + i * dp + j) * sz + k) with (d * sz + i * (dp * sz) + (j * sz + k)) by ring. rewrite B1 by nia. f_equal. ring.
  - rewrite G2 by auto. unfold element. apply map_ext_in. intros k Hk. apply zseq_In in Hk. apply B2. intros C. apply Nr. apply T in C. rewrite Z.div_add_l, Z.div_small, Z.add_0_r in C by lia. exact C.
Qed.
(** memset2D has no such check: rows wider than the pitch overlap and are written anyway, and on the host this is harmless (C89_memset2D).  memcpy2D
    without checks and with such rows does not copy: later rows overwrite what earlier ones brought *)
Theorem C89_wide_rows_refuted : exists (m m' : mem Z), nda_memcpy2D false 0 1 10 2 2 2 m = Some m' /\ rows_apart 0 1 10 2 2 2 /\ m' (0 + 0 * 1 + 1) <> m (10 + 0 * 2 + 1).
Proof.
  exists (fun x => x). eexists. split; [reflexivity|]. split.
  - intros x (i & j & Hi & Hj & ->) (i' & j' & Hi' & Hj' & E). lia.
  - vm_compute. discriminate.
Qed.
Example C89_example : rows_apart 0 4 100 3 3 2 /\ (0 <= 3 <= 4) /\ exists m', nda_memcpy2D true 0 4 100 3 3 2 (fun x => x) = Some m' /\
  map m' [0; 1; 2; 3; 4; 5; 6; 7] = [100; 101; 102; 3; 103; 104; 105; 7] /\ map (nda_memset2D 0 3 511 2 2 (fun x => x)) [0; 1; 2; 3; 4; 5] = [255; 255; 2; 255; 255; 5].
Proof.
  split; [intros x (i & j & Hi & Hj & ->) (i' & j' & Hi' & Hj' & E); lia|]. split; [lia|]. eexists. split; [reflexivity|]. split; reflexivity.
Qed.
Print Assumptions C89_memset2D.
Print Assumptions C89_memset.
Print Assumptions C89_memcpy.
Print Assumptions C89_memcpy2D.
Print Assumptions C89_reported.
Print Assumptions C89_elements.
Print Assumptions C89_wide_rows_refuted.
