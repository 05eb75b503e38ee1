(** C61: norms of vectors. *)
From Coq Require Import Reals Lra.
From Verif Require Import Base M_Perm M_IdxMap M_Slice M_Loops M_Assign M_Expr M_Transform M_Blas M_Norm S_Layout S_Loops S_Assign S_Expr S_Blas S_Norm
  L_IdxMap L_Loops L_Assign L_Expr L_Transform L_Blas L_Blas3 L_Blas4 L_Lapack2 P_Expr P_Blas.

Lemma C_ring : is_ring C_arith.
Proof.
  split; intros; repeat match goal with z : C |- _ => destruct z end; cbn; f_equal; ring.
Qed.
Lemma R_ring : is_ring R_arith.
Proof. exact RTheory. Qed.
Lemma C_sqr_nonneg z : (0 <= C_sqr z)%R.
Proof. unfold C_sqr. nra. Qed.
Lemma C_abs_nonneg z : (0 <= C_abs z)%R.
Proof. apply sqrt_pos. Qed.
Lemma C_abs_sqr z : (C_abs z * C_abs z = C_sqr z)%R.
Proof. apply sqrt_sqrt, C_sqr_nonneg. Qed.
Lemma C_abs_0 z : C_abs z = 0%R -> z = (0, 0)%R.
Proof. intros H. pose proof (C_abs_sqr z) as E. rewrite H in E. unfold C_sqr in E. destruct z as [a b]. cbn in *. assert (a = 0%R) by nra. assert (b = 0%R) by nra. now subst. Qed.
Lemma real_pow_nonneg x y : (0 <= real_pow x y)%R.
Proof. unfold real_pow. destruct (Req_EM_T x 0); [lra|]. unfold Rpower. left. apply exp_pos. Qed.
Lemma real_pow_pos x y : x <> 0%R -> (0 < real_pow x y)%R.
Proof. intros H. unfold real_pow. destruct (Req_EM_T x 0); [contradiction|]. apply exp_pos. Qed.
Lemma real_pow_inv x p : (0 <= x)%R -> p <> 0%R -> real_pow (real_pow x (1 / p)) p = x.
Proof.
  intros Hx Hp. unfold real_pow at 2. destruct (Req_EM_T x 0) as [->|Hn].
  - unfold real_pow. destruct (Req_EM_T 0 0); [reflexivity|lra].
  - unfold real_pow. destruct (Req_EM_T (Rpower x (1 / p)) 0) as [E|_]; [exfalso; pose proof (exp_pos (1 / p * ln x)) as H; unfold Rpower in E; lra|].
    rewrite Rpower_mult. replace (1 / p * p)%R with 1%R by (field; exact Hp). apply Rpower_1. lra.
Qed.
Lemma real_pow_1 x : (0 <= x)%R -> real_pow x 1 = x.
Proof. intros H. unfold real_pow. destruct (Req_EM_T x 0) as [->|]; [reflexivity|]. apply Rpower_1. lra. Qed.
Lemma real_pow_2 x : (0 <= x)%R -> real_pow x 2 = (x * x)%R.
Proof. intros H. unfold real_pow. destruct (Req_EM_T x 0) as [->|]; [ring|]. replace 2%R with (1 + 1)%R by ring. rewrite Rpower_plus, Rpower_1; lra. Qed.
Lemma sum_nonneg n f : (forall i, 0 <= i < n -> (0 <= f i)%R) -> (0 <= sum_to R_arith n f)%R.
Proof.
  intros H. destruct (Z.leb_spec 0 n) as [Hn|Hn]; [|rewrite sum_to_0 by lia; cbn; lra]. revert H. pattern n. apply sum_to_ind; [intros _; rewrite sum_to_0 by lia; cbn; lra| |exact Hn].
  intros k Hk IH H. rewrite sum_to_S by lia. cbn [v_add R_arith]. pose proof (H k ltac:(lia)). specialize (IH ltac:(intros i Hi; apply H; lia)). lra.
Qed.
Lemma sum_pos n f : 1 <= n -> (forall i, 0 <= i < n -> (0 < f i)%R) -> (0 < sum_to R_arith n f)%R.
Proof.
  intros Hn H. replace n with (n - 1 + 1) by lia. rewrite sum_to_S by lia. cbn [v_add R_arith]. pose proof (H (n - 1) ltac:(lia)). assert (0 <= sum_to R_arith (n - 1) f)%R by (apply sum_nonneg; intros i Hi; left; apply H; lia). lra.
Qed.
(** the reductions of one-dimensional arrays *)
Lemma all_idx1 n : all_idx [n] = map (fun i => [i]) (zseq n).
Proof. cbn [all_idx map]. induction (zseq n) as [|i l IH]; [reflexivity|]. cbn [flat_map map app]. now rewrite IH. Qed.
Lemma sum1 n f : 0 <= n -> sum R_arith [n] f = sum_to R_arith n (fun i => f [i]).
Proof.
  intros Hn. unfold sum. rewrite fold_list, all_idx1, map_map. pattern n. apply sum_to_ind; [reflexivity| |exact Hn]. intros k Hk IH. rewrite zseq_succ by lia. rewrite map_app, fold_left_app, IH, sum_to_S by lia. reflexivity.
Qed.
Lemma sum_ext1 n f g : (forall i, 0 <= i < n -> f i = g i) -> sum_to R_arith n f = sum_to R_arith n g.
Proof. apply sum_to_ext. Qed.
Lemma R_total : strict_total R_ltb.
Proof.
  unfold R_ltb. split; [|split].
  - intros x. destruct (Rlt_dec x x); [lra|reflexivity].
  - intros x y z. destruct (Rlt_dec x y), (Rlt_dec y z), (Rlt_dec x z); try discriminate; auto; lra.
  - intros x y. destruct (Rlt_dec x y), (Rlt_dec y x); auto. right. left. lra.
Qed.
Lemma R_ltb_false x y : R_ltb x y = false -> (y <= x)%R.
Proof. unfold R_ltb. destruct (Rlt_dec x y); [discriminate|]. lra. Qed.
Lemma p_is_true p q : p_is p q = true -> p = Finite q.
Proof. destruct p as [p| |]; cbn [p_is]; try discriminate. unfold R_eqb. destruct (Req_EM_T p q) as [->|]; [reflexivity|discriminate]. Qed.
Lemma p_is_false p q : p_is (Finite p) q = false -> p <> q.
Proof. cbn [p_is]. unfold R_eqb. destruct (Req_EM_T p q); [discriminate|auto]. Qed.
Lemma C_is0_spec z : C_is0 z = true <-> z = (0, 0)%R.
Proof.
  destruct z as [a b]. unfold C_is0, R_eqb. cbn [fst snd]. destruct (Req_EM_T a 0) as [->|Ha]; destruct (Req_EM_T b 0) as [->|Hb]; cbn [andb]; split; intros H; try discriminate; try reflexivity; injection H; intros; contradiction.
Qed.
Lemma dotc_self n (e : Z -> C) : 0 <= n -> fst (sum_to C_arith n (fun i => v_mul C_arith (C_conj (e i)) (e i))) = sum_to R_arith n (fun i => C_sqr (e i)).
Proof.
  intros Hn. pattern n. apply sum_to_ind; [reflexivity| |exact Hn]. intros k Hk IH. rewrite !sum_to_S by lia. cbn [v_add C_arith R_arith fst]. rewrite IH. f_equal. unfold C_sqr. destruct (e k) as [a b]. cbn. ring.
Qed.
Lemma norm_mem_spec checks v m n s e : vector_of v n s -> 0 < s -> (forall i, 0 <= i < n -> m (cell v [i]) = e i) -> norm_mem checks v m = BRet (sqrt (sum_to R_arith n (fun i => C_sqr (e i)))).
Proof.
  intros Hv Hs He. unfold norm_mem. rewrite (blas_dot_spec C_arith C_conj C_ring checks true v v m n s s) by auto. cbn [bbind]. do 2 f_equal. rewrite <- dotc_self by (destruct Hv; lia). f_equal. apply sum_to_ext. intros i Hi. now rewrite He.
Qed.
Lemma count_spec n (f : Z -> bool) : 0 <= n -> fold_left (fun count i => if f i then count else count + 1) (zseq n) 0 = Z.of_nat (length (filter (fun i => negb (f i)) (zseq n))).
Proof.
  intros Hn. pattern n. apply sum_to_ind; [reflexivity| |exact Hn]. intros k Hk IH. rewrite zseq_succ by lia. rewrite fold_left_app, filter_app, app_length, IH. cbn [fold_left filter]. destruct (f k); cbn [negb length]; lia.
Qed.

(** norm(x, p) is the norm of order p of the elements of x *)
Theorem C61_norm : forall checks base x p m n e, elements x base m n e -> exists r, norm checks base x p m = BRet r /\ p_norm n e p r.
Proof.
  intros checks base x p m n e (Hn & In & Hx).
  assert (Hs : vec_shape x = [n]) by (destruct x as [v|k f]; cbn [vec_shape]; [destruct Hx as (s & _ & Hv & _); apply Hv|now destruct Hx as [-> _]]).
  assert (Hz : vec_size x = n) by (destruct x as [v|k f]; cbn [vec_size]; [rewrite size_prodZ; destruct Hx as (s & _ & Hv & _); rewrite (vector_len _ _ _ Hv); cbn; lia|now destruct Hx as [-> _]]).
  assert (Ha : forall i, 0 <= i < n -> vec_at x m [i] = e i).
  { intros i Hi. destruct x as [v|k f]; cbn [vec_at]; [|destruct Hx as (_ & H & _); now apply H]. destruct Hx as (s & _ & Hv & Ht & He). rewrite elem_cell_in; [now apply He|exact Ht|apply (in_view1 v n); [apply Hv|exact Hi]]. }
  assert (P2 : p_is p 2 = true -> exists r, norm checks base x p m = BRet r /\ r = sqrt (sum_to R_arith n (fun i => C_sqr (e i)))).
  { intros H2. unfold norm. rewrite H2. eexists. split; [|reflexivity]. destruct x as [v|k f].
    - destruct Hx as (s & Hs0 & Hv & _ & He). now apply norm_mem_spec with (s := s).
    - destruct Hx as (-> & He & Hf). destruct (copy_new1 checks base n f m Hn) as (m' & E & Hc & _).
      + intros idx m1 m2 Hi H. destruct (in_view1_inv (new_array [0%nat] base [n]) n idx eq_refl Hi) as (i & -> & Hi'). now apply Hf.
      + rewrite E. apply norm_mem_spec with (s := 1); [now apply new_vector|lia|]. intros i Hi. rewrite Hc by auto. now apply He. }
  destruct (p_is p 2) eqn:E2.
  { destruct (P2 eq_refl) as (r & Er & Hr). exists r. split; [exact Er|]. apply p_is_true in E2. subst p r. cbn [p_norm]. split; [intros H; exfalso; lra|]. split; [|intros H; exfalso; lra]. intros _. split; [apply sqrt_pos|].
    rewrite real_pow_2 by apply sqrt_pos. rewrite sqrt_sqrt by (apply sum_nonneg; intros; apply C_sqr_nonneg). apply sum_ext1. intros i Hi. rewrite real_pow_2 by apply C_abs_nonneg. now rewrite C_abs_sqr. }
  clear P2. unfold norm. rewrite E2.
  destruct (p_is p 1) eqn:E1.
  { apply p_is_true in E1. subst p. eexists. split; [reflexivity|]. rewrite Hs, sum1 by lia. cbn [p_norm]. split; [intros H; exfalso; lra|]. split; [|intros H; exfalso; lra]. intros _.
    assert (H0 : (0 <= sum_to R_arith n (fun i => C_abs (vec_at x m [i])))%R) by (apply sum_nonneg; intros; apply C_abs_nonneg). split; [exact H0|]. rewrite real_pow_1 by exact H0. apply sum_ext1. intros i Hi. rewrite real_pow_1 by apply C_abs_nonneg. now rewrite Ha. }
  destruct (p_is p 0) eqn:E0.
  { apply p_is_true in E0. subst p. eexists. split; [reflexivity|]. cbn [p_norm]. split; [|split; intros H; exfalso; lra]. intros _. rewrite Hz, (count_spec n (fun i => C_is0 (vec_at x m [i]))) by lia.
    exists (filter (fun i => negb (C_is0 (vec_at x m [i]))) (zseq n)). split; [apply NoDup_filter, L_SymGrp.zseq_nodup|]. split; [|now rewrite <- INR_IZR_INZ].
    intros i. rewrite filter_In, zseq_In. split; intros [Hi H]; split; auto.
    - rewrite Ha in H by auto. intros E. apply C_is0_spec in E. rewrite E in H. discriminate.
    - rewrite Ha by auto. destruct (C_is0 (e i)) eqn:E; [|reflexivity]. apply C_is0_spec in E. contradiction. }
  destruct p as [p| |].
  - eexists. split; [reflexivity|]. rewrite Hs, sum1 by lia. cbn [p_norm]. pose proof (p_is_false _ _ E0) as Hp.
    assert (Hsum : sum_to R_arith n (fun i => real_pow (C_abs (vec_at x m [i])) p) = sum_to R_arith n (fun i => real_pow (C_abs (e i)) p)) by (apply sum_ext1; intros i Hi; now rewrite Ha).
    rewrite Hsum. assert (H0 : (0 <= sum_to R_arith n (fun i => real_pow (C_abs (e i)) p))%R) by (apply sum_nonneg; intros; apply real_pow_nonneg).
    split; [intros H; contradiction|]. split; intros H.
    + split; [apply real_pow_nonneg|]. now apply real_pow_inv.
    + intros Hn1 He. split; [|now apply real_pow_inv]. apply real_pow_pos. assert (0 < sum_to R_arith n (fun i => real_pow (C_abs (e i)) p))%R; [|lra]. apply sum_pos; [exact Hn1|]. intros i Hi. apply real_pow_pos. intros E. apply (He i Hi). now apply C_abs_0.
  - eexists. split; [reflexivity|]. cbn [p_norm]. intros Hn1. rewrite Hs. destruct (C22_max R_ltb [n] (fun idx => C_abs (vec_at x m idx)) R_total ltac:(constructor; [lia|constructor])) as [(idx & Hi & E) H].
    destruct (in_view1_inv (new_array [0%nat] base [n]) n idx eq_refl Hi) as (i & -> & Hi'). split; [exists i; split; [exact Hi'|]; rewrite E; now rewrite Ha|]. intros j Hj. rewrite <- (Ha j Hj). apply R_ltb_false. apply (H [j]). now apply (in_view1 (new_array [0%nat] base [n]) n j eq_refl).
  - eexists. split; [reflexivity|]. cbn [p_norm]. intros Hn1. rewrite Hs. destruct (C22_min R_ltb [n] (fun idx => C_abs (vec_at x m idx)) R_total ltac:(constructor; [lia|constructor])) as [(idx & Hi & E) H].
    destruct (in_view1_inv (new_array [0%nat] base [n]) n idx eq_refl Hi) as (i & -> & Hi'). split; [exists i; split; [exact Hi'|]; rewrite E; now rewrite Ha|]. intros j Hj. rewrite <- (Ha j Hj). apply R_ltb_false. apply (H [j]). now apply (in_view1 (new_array [0%nat] base [n]) n j eq_refl).
Qed.
Print Assumptions C61_norm.
(** in particular norm(x) is the root of the sum of the squares *)
Theorem C61_euclidean : forall checks base x m n e, elements x base m n e -> norm checks base x (Finite 2) m = BRet (sqrt (sum_to R_arith n (fun i => C_sqr (e i)))).
Proof.
  intros checks base x m n e H. destruct (C61_norm checks base x (Finite 2) m n e H) as (r & -> & _ & Hr & _). destruct Hr as [H0 Hr]; [lra|]. f_equal. rewrite real_pow_2 in Hr by exact H0.
  replace (sum_to R_arith n (fun i => C_sqr (e i))) with (r * r)%R; [symmetry; now apply sqrt_square|]. rewrite Hr. apply sum_ext1. intros i Hi. rewrite real_pow_2 by apply C_abs_nonneg. apply C_abs_sqr.
Qed.
Print Assumptions C61_euclidean.
Lemma p_norm_definite p n e r : (p = PlusInf \/ exists q, p = Finite q /\ (0 < q)%R) -> 1 <= n -> p_norm n e p r -> (r = 0%R <-> forall i, 0 <= i < n -> e i = (0, 0)%R).
Proof.
  intros Hp Hn H. assert (A0 : C_abs (0, 0)%R = 0%R) by (unfold C_abs, C_sqr; cbn; replace (0 * 0 + 0 * 0)%R with 0%R by ring; apply sqrt_0).
  destruct Hp as [->|(q & -> & Hq)].
  - destruct (H Hn) as [(i & Hi & E) Hm]. split.
    + intros -> j Hj. apply C_abs_0. pose proof (Hm j Hj). pose proof (C_abs_nonneg (e j)). lra.
    + intros H0. rewrite E, H0 by auto. exact A0.
  - destruct H as (_ & H & _). destruct (H Hq) as [H0 E]. split.
    + intros -> i Hi. apply C_abs_0. unfold real_pow at 1 in E. destruct (Req_EM_T 0 0) as [_|]; [|lra]. rewrite (sum_to_pick R_arith R_ring n i) in E by exact Hi. cbn [v_add R_arith] in E.
      assert (0 <= sum_to R_arith n (fun k => if (k =? i)%Z then v_zero R_arith else real_pow (C_abs (e k)) q))%R by (apply sum_nonneg; intros k Hk; destruct (k =? i); [cbn; lra|apply real_pow_nonneg]).
      pose proof (real_pow_nonneg (C_abs (e i)) q). destruct (Req_dec (C_abs (e i)) 0) as [|Hne]; [assumption|]. pose proof (real_pow_pos _ q Hne). lra.
    + intros Hz. destruct (Req_dec r 0) as [|Hne]; [assumption|]. exfalso. pose proof (real_pow_pos r q Hne) as Hr. rewrite E in Hr. rewrite (sum_to_zero R_arith R_ring) in Hr; [cbn in Hr; lra|].
      intros i Hi. rewrite (Hz i Hi), A0. unfold real_pow. destruct (Req_EM_T 0 0); [reflexivity|lra].
Qed.
(** the norms of positive and infinite order are definite *)
Theorem C61_definite : forall checks base x p m n e, elements x base m n e -> 1 <= n -> (p = PlusInf \/ exists q, p = Finite q /\ (0 < q)%R) ->
  exists r, norm checks base x p m = BRet r /\ (r = 0%R <-> forall i, 0 <= i < n -> e i = (0, 0)%R).
Proof. intros checks base x p m n e H Hn Hp. destruct (C61_norm checks base x p m n e H) as (r & E & Hr). exists r. split; [exact E|]. now apply (p_norm_definite p). Qed.
Print Assumptions C61_definite.

(** Not so for vectors with a negative stride: the two elements of the reversed vector are zero, its norm is 1. *)
Lemma reversed_dot {V} (A : arith V) cj (m : mem V) : exists x, slice_view AlgA (c_array 10 [2]) [ARange (Range 1 (-1) (-1))] = Some (AlgA, x) /\ im_len (v_lay x) = [2] /\
  cell x [0] = 11 /\ cell x [1] = 10 /\ blas_dot A cj true true x x m = BRet (v_add A (v_add A (v_zero A) (v_mul A (cj (m 12)) (m 12))) (v_mul A (cj (m 11)) (m 11))).
Proof. eexists. split; [reflexivity|]. repeat split. Qed.
Theorem C61_reversed_refuted : exists x (m : mem C), slice_view AlgA (c_array 10 [2]) [ARange (Range 1 (-1) (-1))] = Some (AlgA, x) /\ im_len (v_lay x) = [2] /\
  (forall i, 0 <= i < 2 -> m (cell x [i]) = (0, 0)%R) /\ norm true 0 (VMem x) (Finite 2) m = BRet 1%R.
Proof.
  set (m := (fun q => if q =? 12 then (1, 0)%R else (0, 0)%R) : mem C). destruct (reversed_dot C_arith C_conj m) as (x & Ex & El & E0 & E1 & Ed). exists x, m. split; [exact Ex|]. split; [exact El|]. split.
  - intros i Hi. assert (i = 0 \/ i = 1) as [-> | ->] by lia; [rewrite E0|rewrite E1]; reflexivity.
  - unfold norm. cbn [p_is]. unfold R_eqb. destruct (Req_EM_T 2 2) as [_|C0]; [|now destruct C0]. unfold norm_mem. rewrite Ed. cbn [bbind]. f_equal. unfold m. cbn -[sqrt Rmult Rplus Rminus]. match goal with |- sqrt ?t = _ => replace t with 1%R by ring end. apply sqrt_1.
Qed.
Print Assumptions C61_reversed_refuted.
(** The largest absolute value of an empty vector is whatever is found in memory. *)
Theorem C61_empty_refuted : forall r, (0 <= r)%R -> exists x (m : mem C), im_len (v_lay x) = [0] /\ norm true 0 (VMem x) PlusInf m = BRet r /\ norm true 0 (VMem x) MinusInf m = BRet r.
Proof.
  intros r Hr. exists (c_array 0 [0]), (fun _ => (r, 0)%R). split; [reflexivity|]. unfold norm. cbn [p_is].
  assert (E : C_abs (r, 0)%R = r) by (unfold C_abs, C_sqr; cbn [fst snd]; replace (r * r + 0 * 0)%R with (r * r)%R by ring; now apply sqrt_square).
  split; f_equal; exact E.
Qed.
Print Assumptions C61_empty_refuted.

(** non-vacuity: elements 3 and 4i, with stride 3; the norm is 5 *)
Example C61_ex : let x := ex_view [0%nat] [2] [3] 0 in let m := (fun a => if a =? 0 then (3, 0)%R else if a =? 3 then (0, 4)%R else (7, 7)%R) : mem C in
  elements (VMem x) 0 m 2 (fun i => if i =? 0 then (3, 0)%R else (0, 4)%R) /\ norm true 0 (VMem x) (Finite 2) m = BRet 5%R.
Proof.
  intros x m. assert (H : elements (VMem x) 0 m 2 (fun i => if i =? 0 then (3, 0)%R else (0, 4)%R)).
  { split; [lia|]. split; [unfold int_range; lia|]. exists 3. split; [lia|]. split; [ex_vec|]. split.
    - split; [split; [reflexivity|]; split; [exact order1|]; split; [reflexivity|]; split; [repeat constructor; lia|cbn; lia]|split; discriminate].
    - intros i Hi. assert (i = 0 \/ i = 1) as [-> | ->] by lia; reflexivity. }
  split; [exact H|]. rewrite (C61_euclidean _ _ _ _ _ _ H). f_equal. transitivity (sqrt (5 * 5)); [f_equal|apply sqrt_square; lra]. change (0 + (3 * 3 + 0 * 0) + (0 * 0 + 4 * 4) = 5 * 5)%R. ring.
Qed.
