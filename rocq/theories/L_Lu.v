(** An elimination with pivoting that keeps the promise of getrf: the hypotheses of the theorems on LAPACK can be met over every field. *)
From Coq Require Import Ring Field.
From Verif Require Import Base M_Perm M_IdxMap M_Slice M_Loops M_Assign M_Expr M_Transform M_Blas M_Lapack S_Layout S_Loops S_Assign S_Blas S_Lapack
  L_Perm L_IdxMap L_Layout L_Loops L_Assign L_Transform L_Factory L_Blas L_Blas2 L_Blas3 L_Blas4 L_Lapack L_Lapack2 L_Lapack3.

(** writes an M by N matrix in column-major order *)
Definition store {V} (m : mem V) (p ld M N : Z) (f : Z -> Z -> V) : mem V := fun q =>
  let i := (q - p) mod ld in let j := (q - p) / ld in if (i <? M) && (0 <=? j) && (j <? N) then f i j else m q.
Lemma store_seen {V} (m : mem V) p ld M N f i j : Z.max 1 M <= ld -> 0 <= i < M -> 0 <= j < N -> seen (store m p ld M N f) p ld i j = f i j.
Proof.
  intros Hl Hi Hj. unfold seen, store, col_major. replace (p + i + j * ld - p) with (i + j * ld) by lia. rewrite Z.mod_add, Z.div_add by lia. rewrite Z.mod_small, Z.div_small by lia.
  destruct (Z.ltb_spec i M); [|lia]. destruct (Z.leb_spec 0 (0 + j)); [|lia]. destruct (Z.ltb_spec (0 + j) N); [|lia]. reflexivity.
Qed.
Lemma store_outside {V} (m : mem V) p ld M N f q : Z.max 1 M <= ld -> ~ in_rect p ld M N q -> store m p ld M N f q = m q.
Proof.
  intros Hl Hq. unfold store. pose proof (Z.div_mod (q - p) ld ltac:(lia)) as E. pose proof (Z.mod_pos_bound (q - p) ld ltac:(lia)) as B.
  destruct (Z.ltb_spec ((q - p) mod ld) M); [|reflexivity]. destruct (Z.leb_spec 0 ((q - p) / ld)); [|reflexivity]. destruct (Z.ltb_spec ((q - p) / ld) N); [|reflexivity].
  exfalso. apply Hq. exists ((q - p) mod ld), ((q - p) / ld). unfold col_major. repeat split; nia.
Qed.
Lemma interchange_snoc' {V} l : forall i0 p (a : Z -> Z -> V), interchange_from i0 (l ++ [p]) a = swap_rows (i0 + Z.of_nat (length l)) (p - 1) (interchange_from i0 l a).
Proof. induction l as [|x l IH]; intros i0 p a; cbn [app interchange_from length]; [now rewrite Z.add_0_r|]. rewrite IH. f_equal. lia. Qed.

Section Lu.
Context {V : Type} (A : arith V) (F : is_field A) (is0 : V -> bool) (Z0 : decides_zero A is0).
Let R : is_ring A := F_R F.
Let Rth : ring_theory (v_zero A) (v_one A) (v_add A) (v_mul A) (v_sub A) (v_opp A) eq := R.
Add Ring VRLu : Rth.
Declare Scope lu. Local Notation "x + y" := (v_add A x y) : lu. Local Notation "x * y" := (v_mul A x y) : lu. Local Notation "x - y" := (v_sub A x y) : lu.
Delimit Scope lu with lu.
Notation "0v" := (v_zero A). Notation "1v" := (v_one A).
Implicit Types (a f : Z -> Z -> V).

Definition pivot (M k : Z) f : Z := hd k (filter (fun i => negb (is0 (f i k))) (map (Z.add k) (zseq (M - k)))).
Definition eliminate (k : Z) f : Z -> Z -> V := fun i j =>
  if k <? i then
    let l := if is0 (f k k) then f i k else v_div A (f i k) (f k k) in
    if j <? k then f i j else if j =? k then l else (f i j - l * f k j)%lu
  else f i j.
Fixpoint lu_steps (M : Z) (k : nat) a : (Z -> Z -> V) * list Z :=
  match k with
  | O => (a, [])
  | S k => let '(f, ipiv) := lu_steps M k a in let p := pivot M (Z.of_nat k) f in (eliminate (Z.of_nat k) (swap_rows (Z.of_nat k) p f), ipiv ++ [p + 1])
  end.
Lemma pivot_range M k f : 0 <= k < M -> k <= pivot M k f < M.
Proof.
  intros Hk. unfold pivot. destruct (filter _ _) as [|p l] eqn:E; cbn [hd]; [lia|]. assert (Hin : In p (p :: l)) by now left. rewrite <- E in Hin. apply filter_In in Hin. destruct Hin as [Hin _].
  apply in_map_iff in Hin. destruct Hin as (x & <- & Hx). apply zseq_In in Hx. lia.
Qed.
Lemma pivot_zero M k f : 0 <= k < M -> is0 (f (pivot M k f) k) = true -> forall i, k <= i < M -> f i k = 0v.
Proof.
  intros Hk Hz i Hi. apply Z0. destruct (is0 (f i k)) eqn:Ei; [reflexivity|]. exfalso. unfold pivot in Hz. destruct (filter _ _) as [|p l] eqn:E; cbn [hd] in Hz.
  - assert (Hin : In i (filter (fun i => negb (is0 (f i k))) (map (Z.add k) (zseq (M - k))))) by (apply filter_In; split; [apply in_map_iff; exists (i - k); split; [lia|apply zseq_In; lia]|now rewrite Ei]). rewrite E in Hin. exact Hin.
  - assert (Hin : In p (p :: l)) by now left. rewrite <- E in Hin. apply filter_In in Hin. destruct Hin as [_ Hin]. rewrite Hz in Hin. discriminate.
Qed.
Lemma div_mul x y : y <> 0v -> (v_div A x y * y)%lu = x.
Proof. intros Hy. rewrite (Fdiv_def F). pose proof (Finv_l F y Hy) as H. cbv beta in H. set (d := v_div A 1v y) in *. clearbody d. transitivity (x * (d * y))%lu; [ring|]. rewrite H. ring. Qed.

Definition inv_lu (M N : Z) (k : nat) a f (ipiv : list Z) : Prop :=
  length ipiv = k /\ (forall i, (i < k)%nat -> Z.of_nat i + 1 <= nthZ ipiv i <= M) /\
  (forall i j, 0 <= i < M -> 0 <= j < N -> interchanged ipiv a i j = (product_at A (Z.of_nat k) (lower_of A f) (upper_of A f) i j + (if (Z.of_nat k <=? i) && (Z.of_nat k <=? j) then f i j else 0v))%lu).
Lemma lu_step M N k a f ipiv : Z.of_nat k < Z.min M N -> inv_lu M N k a f ipiv ->
  let p := pivot M (Z.of_nat k) f in inv_lu M N (S k) a (eliminate (Z.of_nat k) (swap_rows (Z.of_nat k) p f)) (ipiv ++ [p + 1]).
Proof.
  intros Hk (Hl & Hp & Hinv) p. pose proof (pivot_range M (Z.of_nat k) f ltac:(lia)) as Hpr. fold p in Hpr.
  split; [rewrite app_length; cbn [length]; lia|]. split.
  { intros i Hi. unfold nthZ. destruct (Nat.eq_dec i k) as [->|Hne]; [rewrite app_nth2 by lia; rewrite Hl, Nat.sub_diag; cbn [nth]; lia|]. rewrite app_nth1 by lia. apply Hp. lia. }
  intros i j Hi Hj. unfold interchanged. rewrite interchange_snoc', Hl, Z.add_0_l. replace (p + 1 - 1) with p by lia. fold (interchanged ipiv a).
  set (kz := Z.of_nat k) in *. set (f1 := swap_rows kz p f).
  (* after the interchange of rows kz and p *)
  assert (H1 : swap_rows kz p (interchanged ipiv a) i j = (product_at A kz (lower_of A f1) (upper_of A f1) i j + (if (kz <=? i) && (kz <=? j) then f1 i j else 0v))%lu).
  { unfold swap_rows at 1. set (i' := if i =? kz then p else if i =? p then kz else i).
    assert (Hi' : 0 <= i' < M /\ (kz <=? i') = (kz <=? i)) by (unfold i'; destruct (Z.eqb_spec i kz); [|destruct (Z.eqb_spec i p)]; repeat match goal with |- context [?x <=? ?y] => destruct (Z.leb_spec x y) end; lia). destruct Hi' as [Hi' Ele].
    rewrite (Hinv i' j Hi' Hj), Ele. f_equal.
    unfold product_at. apply sum_to_ext. intros q Hq. f_equal.
    - unfold lower_of, f1, swap_rows. fold i'. unfold i'. destruct (Z.eqb_spec i kz) as [->|Hn1].
      + destruct (Z.ltb_spec q p); [|lia]. destruct (Z.ltb_spec q kz); [reflexivity|lia].
      + destruct (Z.eqb_spec i p) as [->|Hn2]; [|reflexivity]. destruct (Z.ltb_spec q p); [|lia]. destruct (Z.ltb_spec q kz); [reflexivity|lia].
    - unfold upper_of, f1, swap_rows. destruct (q <=? j); [|reflexivity]. destruct (Z.eqb_spec q kz); [lia|]. destruct (Z.eqb_spec q p); [lia|reflexivity]. }
  rewrite H1. replace (Z.of_nat (S k)) with (kz + 1) by (unfold kz; lia). unfold product_at at 2. rewrite sum_to_S by (unfold kz; lia). fold (product_at A kz (lower_of A (eliminate kz f1)) (upper_of A (eliminate kz f1)) i j).
  assert (Hsame : product_at A kz (lower_of A (eliminate kz f1)) (upper_of A (eliminate kz f1)) i j = product_at A kz (lower_of A f1) (upper_of A f1) i j).
  { unfold product_at. apply sum_to_ext. intros q Hq. f_equal.
    - unfold lower_of, eliminate. destruct (q <? i); [|reflexivity]. destruct (Z.ltb_spec kz i); [|reflexivity]. destruct (Z.ltb_spec q kz); [reflexivity|lia].
    - unfold upper_of, eliminate. destruct (q <=? j); [|reflexivity]. destruct (Z.ltb_spec kz q); [lia|reflexivity]. }
  rewrite Hsame.
  assert (Hkk : is0 (f1 kz kz) = true -> forall r, kz < r < M -> f1 r kz = 0v).
  { intros E r Hr. assert (Ez : is0 (f p kz) = true) by (unfold f1, swap_rows in E; now rewrite Z.eqb_refl in E). pose proof (pivot_zero M kz f ltac:(lia) Ez) as Hz. unfold f1, swap_rows. destruct (Z.eqb_spec r kz); [lia|]. destruct (Z.eqb_spec r p); apply Hz; lia. }
  assert (Hlk : forall r, kz < r < M -> ((if is0 (f1 kz kz) then f1 r kz else v_div A (f1 r kz) (f1 kz kz)) * f1 kz kz)%lu = f1 r kz).
  { intros r Hr. destruct (is0 (f1 kz kz)) eqn:E; [rewrite (Hkk eq_refl r Hr); ring|]. apply div_mul. intros C. apply Z0 in C. congruence. }
  unfold lower_of, upper_of. destruct (Z.leb_spec kz j) as [Hkj|Hkj]; destruct (Z.leb_spec kz i) as [Hki|Hki]; cbn [andb].
  - assert (Ek : eliminate kz f1 kz j = f1 kz j) by (unfold eliminate; destruct (Z.ltb_spec kz kz); [lia|reflexivity]). rewrite Ek.
    destruct (Z.ltb_spec kz i) as [Hgt|Hgt].
    + destruct (Z.leb_spec (kz + 1) i); [|lia]. cbn [andb]. specialize (Hlk i ltac:(lia)). unfold eliminate. destruct (Z.ltb_spec kz i); [|lia]. destruct (Z.ltb_spec kz kz); [lia|]. rewrite Z.eqb_refl. cbv zeta.
      set (l := if is0 (f1 kz kz) then f1 i kz else v_div A (f1 i kz) (f1 kz kz)) in *. clearbody l. destruct (Z.leb_spec (kz + 1) j).
      * destruct (Z.ltb_spec j kz); [lia|]. destruct (Z.eqb_spec j kz); [lia|]. ring.
      * assert (j = kz) as -> by lia. rewrite Hlk. ring.
    + assert (i = kz) as -> by lia. rewrite Z.eqb_refl. destruct (Z.leb_spec (kz + 1) kz); [lia|]. cbn [andb]. ring.
  - destruct (Z.ltb_spec kz i); [lia|]. destruct (Z.eqb_spec kz i); [lia|]. destruct (Z.leb_spec (kz + 1) i); [lia|]. cbn [andb]. ring.
  - destruct (Z.leb_spec (kz + 1) j); [lia|]. rewrite andb_false_r. ring.
  - destruct (Z.leb_spec (kz + 1) j); [lia|]. rewrite andb_false_r. ring.
Qed.
Lemma lu_steps_inv M N a k : Z.of_nat k <= Z.min M N -> let '(f, ipiv) := lu_steps M k a in inv_lu M N k a f ipiv.
Proof.
  induction k as [|k IH]; intros Hk; cbn [lu_steps].
  - split; [reflexivity|]. split; [lia|]. intros i j Hi Hj. cbn [Z.of_nat]. unfold product_at. rewrite sum_to_0 by lia. unfold interchanged. cbn [interchange_from]. destruct (Z.leb_spec 0 i); [|lia]. destruct (Z.leb_spec 0 j); [|lia]. cbn [andb]. ring.
  - specialize (IH ltac:(lia)). destruct (lu_steps M k a) as [f ipiv]. apply lu_step; [lia|exact IH].
Qed.

Definition first_zero (n : Z) f : Z := match find (fun i => is0 (f i i)) (zseq n) with Some i => i + 1 | None => 0 end.
Definition ref_getrf (M N pa lda : Z) (m : mem V) : bout (mem V * (list Z * Z)) :=
  let '(f, ipiv) := lu_steps M (Z.to_nat (Z.min M N)) (seen m pa lda) in BRet (store m pa lda M N f, (ipiv, first_zero (Z.min M N) f)).
Lemma ref_getrf_ok M N pa lda (m : mem V) : 0 <= M -> 0 <= N -> Z.max 1 M <= lda ->
  exists m' ipiv info, ref_getrf M N pa lda m = BRet (m', (ipiv, info)) /\ lu_of A M N ipiv (seen m pa lda) (seen m' pa lda) /\
    (forall q, ~ in_rect pa lda M N q -> m' q = m q) /\ 0 <= info <= Z.min M N /\
    (info = 0 -> forall i, 0 <= i < Z.min M N -> seen m' pa lda i i <> v_zero A) /\ (0 < info -> seen m' pa lda (info - 1) (info - 1) = v_zero A).
Proof.
  intros HM HN Hl. unfold ref_getrf. pose proof (lu_steps_inv M N (seen m pa lda) (Z.to_nat (Z.min M N)) ltac:(lia)) as H. destruct (lu_steps M _ _) as [f ipiv]. destruct H as (Hlen & Hp & Hinv). rewrite Z2Nat.id in Hinv by lia.
  eexists _, ipiv, _. split; [reflexivity|].
  assert (Hs : forall i j, 0 <= i < M -> 0 <= j < N -> seen (store m pa lda M N f) pa lda i j = f i j) by (intros; now apply store_seen).
  split; [|split; [intros q Hq; now apply store_outside|]].
  - split; [lia|]. split; [intros i Hi; specialize (Hp (Z.to_nat i) ltac:(lia)); rewrite Z2Nat.id in Hp by lia; exact Hp|]. intros i j Hi Hj. rewrite (Hinv i j Hi Hj).
    destruct (Z.leb_spec (Z.min M N) i); destruct (Z.leb_spec (Z.min M N) j); try lia; cbn [andb]; match goal with |- (?x + 0v)%lu = ?y => transitivity x; [ring|] end;
    unfold product_at; apply sum_to_ext; intros q Hq; unfold lower_of, upper_of; rewrite !Hs by lia; reflexivity.
  - unfold first_zero. destruct (find _ _) as [i|] eqn:E.
    + apply find_some in E. destruct E as [Hi E]. apply zseq_In in Hi. apply Z0 in E. split; [lia|]. split; [lia|]. intros _. replace (i + 1 - 1) with i by lia. rewrite Hs by lia. exact E.
    + split; [lia|]. split; [|lia]. intros _ i Hi. rewrite Hs by lia. intros C. apply Z0 in C. pose proof (find_none _ _ E i (proj2 (zseq_In _ i) Hi)) as E'. cbv beta in E'. congruence.
Qed.
End Lu.
