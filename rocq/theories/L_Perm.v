(** Lemmas about permutations (model M_Perm). *)
From Verif Require Import Base M_Perm.

(** [p] lists every number below [n] exactly once *)
Definition is_perm (n : nat) (p : list nat) : Prop := Permutation p (seq 0 n).

Lemma is_perm_length n p : is_perm n p -> length p = n.
Proof. intros H. apply Permutation_length in H. now rewrite seq_length in H. Qed.

Lemma is_perm_In n p u : is_perm n p -> (In u p <-> (u < n)%nat).
Proof.
  intros H. split; intros Hu.
  - eapply Permutation_in in Hu; [|exact H]. apply in_seq in Hu. lia.
  - apply Permutation_in with (l := seq 0 n); [now symmetry|]. apply in_seq. lia.
Qed.

Lemma is_perm_NoDup n p : is_perm n p -> NoDup p.
Proof. intros H. apply Permutation_NoDup with (l := seq 0 n); [now symmetry|]. apply seq_NoDup. Qed.

Lemma is_perm_lt n p u : is_perm n p -> (u < n)%nat -> (nthN p u < n)%nat.
Proof.
  intros H Hu. apply (is_perm_In n p (nthN p u) H). apply nth_In. rewrite (is_perm_length _ _ H). exact Hu.
Qed.

Lemma is_perm_inj n p u v : is_perm n p -> (u < n)%nat -> (v < n)%nat -> nthN p u = nthN p v -> u = v.
Proof.
  intros H Hu Hv E. pose proof (is_perm_length _ _ H) as L.
  apply (proj1 (NoDup_nth p 0%nat) (is_perm_NoDup _ _ H)); auto; lia.
Qed.

Lemma is_perm_surj n p v : is_perm n p -> (v < n)%nat -> exists u, (u < n)%nat /\ nthN p u = v.
Proof.
  intros H Hv. apply (is_perm_In n p v H) in Hv. destruct (In_nth p v 0%nat Hv) as [u [Hu E]].
  exists u. rewrite (is_perm_length _ _ H) in Hu. split; auto.
Qed.

Lemma is_perm_intro n p :
  length p = n -> (forall u, (u < n)%nat -> (nthN p u < n)%nat) ->
  (forall u v, (u < n)%nat -> (v < n)%nat -> nthN p u = nthN p v -> u = v) -> is_perm n p.
Proof.
  intros L B I. unfold is_perm. apply NoDup_Permutation_bis.
  - apply (NoDup_nth p 0%nat). rewrite L. intros i j Hi Hj E. apply I; auto.
  - rewrite seq_length; lia.
  - intros x Hx. destruct (In_nth p x 0%nat Hx) as [u [Hu E]]. apply in_seq.
    specialize (B u). unfold nthN in B. rewrite E in B. lia.
Qed.

Lemma is_perm_identity n : is_perm n (identity n).
Proof. apply Permutation_refl. Qed.

Lemma nth_identity n u : (u < n)%nat -> nthN (identity n) u = u.
Proof. intros. unfold nthN, identity. now rewrite seq_nth. Qed.

(** ** loops that scatter through a permutation *)
Lemma scatter_length {A} (p : list nat) (g : nat -> A) us r :
  length (fold_left (fun r u => upd r (nthN p u) (g u)) us r) = length r.
Proof. revert r; induction us as [|u us IH]; intros r; simpl; auto. now rewrite IH, upd_length. Qed.

Lemma scatter_other {A} (p : list nat) (g : nat -> A) us r j d :
  (forall u, In u us -> nthN p u <> j) ->
  nth j (fold_left (fun r u => upd r (nthN p u) (g u)) us r) d = nth j r d.
Proof.
  revert r; induction us as [|u us IH]; intros r H; simpl; auto.
  rewrite IH by (intros; apply H; now right). apply nth_upd_neq. apply H. now left.
Qed.

Lemma scatter_hit {A} (p : list nat) (g : nat -> A) us r u d :
  NoDup us -> In u us -> (forall v, In v us -> nthN p v = nthN p u -> v = u) -> (nthN p u < length r)%nat ->
  nth (nthN p u) (fold_left (fun r u => upd r (nthN p u) (g u)) us r) d = g u.
Proof.
  revert r; induction us as [|w us IH]; intros r ND I J B; simpl in *; [contradiction|].
  inversion ND as [|w' us' Hw ND']; subst. destruct I as [->|I].
  - rewrite scatter_other.
    + now apply nth_upd_eq.
    + intros v Hv E. apply Hw. rewrite <- (J v (or_intror Hv) E). exact Hv.
  - apply IH; auto. now rewrite upd_length.
Qed.

Lemma scatter_perm {A} n p (g : nat -> A) r u d :
  is_perm n p -> length r = n -> (u < n)%nat ->
  nth (nthN p u) (fold_left (fun r u => upd r (nthN p u) (g u)) (seq 0 n) r) d = g u.
Proof.
  intros H L Hu. apply scatter_hit.
  - apply seq_NoDup.
  - apply in_seq; lia.
  - intros v Hv E. apply in_seq in Hv. apply (is_perm_inj n p); auto. lia.
  - rewrite L. now apply is_perm_lt.
Qed.

Lemma apply_inverse_length {A} (d : A) p a : length (apply_inverse d p a) = length p.
Proof. unfold apply_inverse. now rewrite scatter_length, repeat_length. Qed.

Lemma nth_apply_inverse {A} (d e : A) n p a u :
  is_perm n p -> (u < n)%nat -> nth (nthN p u) (apply_inverse d p a) e = nth u a d.
Proof.
  intros H Hu. unfold apply_inverse. rewrite (is_perm_length _ _ H).
  apply (scatter_perm n p (fun u => nth u a d)); auto. apply repeat_length.
Qed.

Lemma apply_length {A} (d : A) p a : length (apply d p a) = length p.
Proof. unfold apply. now rewrite map_length, seq_length. Qed.

Lemma nth_apply {A} (d e : A) p a u : (u < length p)%nat -> nth u (apply d p a) e = nth (nthN p u) a d.
Proof. intros H. unfold apply. now rewrite nth_map_seq. Qed.

Lemma inverse_length p : length (inverse p) = length p.
Proof. unfold inverse. now rewrite scatter_length, repeat_length. Qed.

Lemma nth_inverse n p u : is_perm n p -> (u < n)%nat -> nthN (inverse p) (nthN p u) = u.
Proof.
  intros H Hu. unfold inverse, nthN at 1. rewrite (is_perm_length _ _ H).
  apply (scatter_perm n p (fun u => u)); auto. apply repeat_length.
Qed.

Lemma nth_inverse_r n p v : is_perm n p -> (v < n)%nat ->
  (nthN (inverse p) v < n)%nat /\ nthN p (nthN (inverse p) v) = v.
Proof.
  intros H Hv. destruct (is_perm_surj n p v H Hv) as [u [Hu <-]].
  rewrite (nth_inverse n p u H Hu). auto.
Qed.

Lemma is_perm_inverse n p : is_perm n p -> is_perm n (inverse p).
Proof.
  intros H. apply is_perm_intro.
  - now rewrite inverse_length, (is_perm_length _ _ H).
  - intros u Hu. now apply nth_inverse_r.
  - intros u v Hu Hv E.
    destruct (nth_inverse_r n p u H Hu) as [_ Eu], (nth_inverse_r n p v H Hv) as [_ Ev]. congruence.
Qed.

Lemma compose_length p q : length (compose p q) = length q.
Proof. unfold compose. now rewrite map_length, seq_length. Qed.

Lemma nth_compose p q u : (u < length q)%nat -> nthN (compose p q) u = nthN p (nthN q u).
Proof. intros H. unfold compose, nthN at 1. now rewrite nth_map_seq. Qed.

Lemma is_perm_compose n p q : is_perm n p -> is_perm n q -> is_perm n (compose p q).
Proof.
  intros Hp Hq. pose proof (is_perm_length _ _ Hq) as L. apply is_perm_intro.
  - now rewrite compose_length.
  - intros u Hu. rewrite nth_compose by lia. auto using is_perm_lt.
  - intros u v Hu Hv E. rewrite !nth_compose in E by lia.
    apply (is_perm_inj n q); auto. apply (is_perm_inj n p); auto using is_perm_lt.
Qed.

Lemma compose_identity_r n p : is_perm n p -> compose p (identity n) = p.
Proof.
  intros H. apply nth_ext_len with (d := 0%nat).
  - rewrite compose_length. unfold identity. rewrite seq_length. symmetry; now apply is_perm_length.
  - intros i Hi. rewrite compose_length in Hi. unfold identity in Hi. rewrite seq_length in Hi.
    change (nthN (compose p (identity n)) i = nthN p i).
    rewrite nth_compose by (unfold identity; rewrite seq_length; lia). now rewrite nth_identity.
Qed.

Lemma compose_identity_l n p : is_perm n p -> compose (identity n) p = p.
Proof.
  intros H. pose proof (is_perm_length _ _ H) as L. apply nth_ext_len with (d := 0%nat).
  - apply compose_length.
  - intros i Hi. rewrite compose_length in Hi. change (nthN (compose (identity n) p) i = nthN p i).
    rewrite nth_compose by lia. apply nth_identity. apply is_perm_lt; auto; lia.
Qed.

Lemma compose_assoc n p q r : is_perm n p -> is_perm n q -> is_perm n r ->
  compose p (compose q r) = compose (compose p q) r.
Proof.
  intros Hp Hq Hr. pose proof (is_perm_length _ _ Hr). pose proof (is_perm_length _ _ Hq).
  apply nth_ext_len with (d := 0%nat).
  - now rewrite !compose_length.
  - intros i Hi. rewrite !compose_length in Hi.
    change (nthN (compose p (compose q r)) i = nthN (compose (compose p q) r) i).
    rewrite !nth_compose; auto; rewrite ?compose_length; auto.
    replace (length q) with n by auto. apply is_perm_lt; auto; lia.
Qed.

Lemma compose_inverse_r n p : is_perm n p -> compose p (inverse p) = identity n.
Proof.
  intros H. apply nth_ext_len with (d := 0%nat).
  - rewrite compose_length, inverse_length. unfold identity. rewrite seq_length. now apply is_perm_length.
  - intros i Hi. rewrite compose_length, inverse_length, (is_perm_length _ _ H) in Hi.
    change (nthN (compose p (inverse p)) i = nthN (identity n) i).
    rewrite nth_compose, nth_identity by (rewrite ?inverse_length, ?(is_perm_length _ _ H); auto).
    now apply (nth_inverse_r n p i).
Qed.

Lemma compose_inverse_l n p : is_perm n p -> compose (inverse p) p = identity n.
Proof.
  intros H. pose proof (is_perm_length _ _ H) as L. apply nth_ext_len with (d := 0%nat).
  - rewrite compose_length. unfold identity. now rewrite seq_length.
  - intros i Hi. rewrite compose_length in Hi. change (nthN (compose (inverse p) p) i = nthN (identity n) i).
    rewrite nth_compose, nth_identity by lia. apply (nth_inverse n); auto; lia.
Qed.

Lemma apply_apply_inverse {A} (d : A) n p a : is_perm n p -> length a = n -> apply d p (apply_inverse d p a) = a.
Proof.
  intros H L. pose proof (is_perm_length _ _ H) as Lp. apply nth_ext_len with (d := d).
  - rewrite apply_length. lia.
  - intros i Hi. rewrite apply_length in Hi. rewrite nth_apply by lia. apply (nth_apply_inverse d d n); auto; lia.
Qed.

Lemma apply_inverse_apply {A} (d : A) n p a : is_perm n p -> length a = n -> apply_inverse d p (apply d p a) = a.
Proof.
  intros H L. pose proof (is_perm_length _ _ H) as Lp. apply nth_ext_len with (d := d).
  - rewrite apply_inverse_length. lia.
  - intros i Hi. rewrite apply_inverse_length in Hi.
    destruct (is_perm_surj n p i H ltac:(lia)) as [u [Hu <-]].
    rewrite (nth_apply_inverse d d n) by auto. apply nth_apply. lia.
Qed.

Lemma apply_inverse_is_apply {A} (d : A) n p a : is_perm n p -> length a = n ->
  apply_inverse d p a = apply d (inverse p) a.
Proof.
  intros H L. pose proof (is_perm_length _ _ H) as Lp. apply nth_ext_len with (d := d).
  - now rewrite apply_inverse_length, apply_length, inverse_length.
  - intros i Hi. rewrite apply_inverse_length in Hi.
    rewrite nth_apply by (rewrite inverse_length; lia).
    destruct (is_perm_surj n p i H ltac:(lia)) as [u [Hu <-]].
    rewrite (nth_apply_inverse d d n), (nth_inverse n) by auto. reflexivity.
Qed.

Lemma apply_Permutation {A} (d : A) n p a : is_perm n p -> length a = n -> Permutation (apply d p a) a.
Proof.
  intros H L. unfold apply. rewrite (is_perm_length _ _ H).
  replace (map (fun u => nth (nthN p u) a d) (seq 0 n)) with (map (fun k => nth k a d) p).
  - apply Permutation_trans with (map (fun k => nth k a d) (seq 0 n)).
    + apply Permutation_map. exact H.
    + rewrite <- L, map_seq_nth. apply Permutation_refl.
  - apply nth_ext_len with (d := d).
    + rewrite !map_length, seq_length. now apply is_perm_length.
    + intros i Hi. rewrite map_length, (is_perm_length _ _ H) in Hi. rewrite nth_map_seq by auto.
      rewrite (nth_map_lt (fun k => nth k a d) p i d 0%nat); auto. now rewrite (is_perm_length _ _ H).
Qed.

Lemma apply_as_map {A} (d : A) p a : apply d p a = map (fun k => nth k a d) p.
Proof.
  unfold apply. apply nth_ext_len with (d := d).
  - now rewrite !map_length, seq_length.
  - intros i Hi. rewrite map_length, seq_length in Hi. rewrite nth_map_seq by auto.
    now rewrite (nth_map_lt (fun k => nth k a d) p i d 0%nat).
Qed.

Lemma apply_map {A B} (f : A -> B) d e p a :
  (forall k, In k p -> (k < length a)%nat) -> apply e p (map f a) = map f (apply d p a).
Proof.
  intros H. rewrite !apply_as_map, map_map. apply map_ext_in. intros k Hk.
  now rewrite (nth_map_lt f a k e d) by auto.
Qed.

(** in_range is preserved by reordering both sides *)
Lemma in_range_apply n p idx len : is_perm n p -> length len = n -> in_range idx len ->
  in_range (apply 0 p idx) (apply 0 p len).
Proof.
  intros H L R. apply (Forall2_nth _ _ _ 0 0). rewrite !apply_length. split; auto.
  pose proof (is_perm_length _ _ H) as Lp. intros i Hi. rewrite !nth_apply by auto.
  apply (Forall2_nth _ _ _ 0 0) in R. destruct R as [Ll R]. apply R.
  rewrite Ll, L. apply is_perm_lt; auto. lia.
Qed.

Lemma in_range_apply_iff n p idx len : is_perm n p -> length len = n -> length idx = n ->
  (in_range (apply 0 p idx) (apply 0 p len) <-> in_range idx len).
Proof.
  intros H L L'. split; [|now apply (in_range_apply n)].
  intros R. apply (Forall2_nth _ _ _ 0 0). split; [lia|]. intros i Hi.
  apply (Forall2_nth _ _ _ 0 0) in R. destruct R as [Ll R].
  destruct (is_perm_surj n p i H ltac:(lia)) as [u [Hu <-]].
  specialize (R u). rewrite apply_length, (is_perm_length _ _ H) in R. specialize (R Hu).
  rewrite !nth_apply in R by (rewrite (is_perm_length _ _ H); auto). exact R.
Qed.

Lemma dot_apply n p a b : is_perm n p -> length a = n -> length b = n ->
  dot (apply 0 p a) (apply 0 p b) = dot a b.
Proof.
  intros H La Lb. rewrite (dot_sum_seq a b) by lia. rewrite dot_sum_seq by now rewrite !apply_length.
  rewrite apply_length, (is_perm_length _ _ H), La.
  transitivity (sumZ (map (fun k => nthZ a k * nthZ b k) p)).
  - f_equal. apply nth_ext_len with (d := 0).
    + now rewrite !map_length, seq_length, (is_perm_length _ _ H).
    + intros i Hi. rewrite map_length, seq_length in Hi. rewrite nth_map_seq by auto.
      unfold nthZ at 1 2. rewrite !nth_apply by now rewrite (is_perm_length _ _ H).
      rewrite (nth_map_lt (fun k => nthZ a k * nthZ b k) p i 0 0%nat) by now rewrite (is_perm_length _ _ H).
      reflexivity.
  - apply sumZ_perm. apply Permutation_map. exact H.
Qed.

Lemma is_perm_cons_inv_lt n p : is_perm n p -> Forall (fun k => (k < n)%nat) p.
Proof. intros H. apply Forall_forall. intros k Hk. now apply (is_perm_In n p k H). Qed.

(** ** reverse, transposition *)
Lemma nth_reverse_identity n u : (u < n)%nat -> nthN (reverse_identity n) u = (n - 1 - u)%nat.
Proof. intros. unfold nthN, reverse_identity. now rewrite nth_map_seq. Qed.

Lemma is_perm_reverse_identity n : is_perm n (reverse_identity n).
Proof.
  apply is_perm_intro.
  - unfold reverse_identity. now rewrite map_length, seq_length.
  - intros u Hu. rewrite nth_reverse_identity by auto. lia.
  - intros u v Hu Hv. rewrite !nth_reverse_identity by auto. lia.
Qed.

Lemma nth_transposition n i j u : (i < n)%nat -> (j < n)%nat -> (u < n)%nat ->
  nthN (transposition n i j) u = if Nat.eqb u i then j else if Nat.eqb u j then i else u.
Proof.
  intros Hi Hj Hu. unfold transposition, nthN.
  rewrite nth_upd by (rewrite upd_length; unfold identity; rewrite seq_length; lia).
  rewrite nth_upd by (unfold identity; rewrite seq_length; lia).
  fold (nthN (identity n) u). rewrite nth_identity by auto.
  destruct (Nat.eqb_spec j u), (Nat.eqb_spec i u), (Nat.eqb_spec u i), (Nat.eqb_spec u j); lia.
Qed.

Lemma is_perm_transposition n i j : (i < n)%nat -> (j < n)%nat -> is_perm n (transposition n i j).
Proof.
  intros Hi Hj. apply is_perm_intro.
  - unfold transposition. rewrite !upd_length. apply seq_length.
  - intros u Hu. rewrite nth_transposition by auto.
    destruct (Nat.eqb_spec u i), (Nat.eqb_spec u j); lia.
  - intros u v Hu Hv. rewrite !nth_transposition by auto.
    destruct (Nat.eqb_spec u i), (Nat.eqb_spec u j), (Nat.eqb_spec v i), (Nat.eqb_spec v j); lia.
Qed.

Lemma transposition_involutive n i j : (i < n)%nat -> (j < n)%nat ->
  compose (transposition n i j) (transposition n i j) = identity n.
Proof.
  intros Hi Hj. pose proof (is_perm_transposition n i j Hi Hj) as H.
  pose proof (is_perm_length _ _ H) as L. apply nth_ext_len with (d := 0%nat).
  - rewrite compose_length. unfold identity. now rewrite seq_length.
  - intros u Hu. rewrite compose_length in Hu.
    change (nthN (compose (transposition n i j) (transposition n i j)) u = nthN (identity n) u).
    rewrite nth_compose, nth_identity by lia.
    pose proof (is_perm_lt n _ u H ltac:(lia)) as Hb.
    rewrite (nth_transposition n i j (nthN _ u)) by auto. rewrite !nth_transposition by lia.
    destruct (Nat.eqb_spec u i), (Nat.eqb_spec u j); subst;
      repeat match goal with |- context [Nat.eqb ?a ?b] => destruct (Nat.eqb_spec a b) end; lia.
Qed.

(** ** is_valid *)
Lemma is_valid_loop_spec counts p :
  Forall (fun x => 0 <= x < Z.of_nat (length counts)) p ->
  exists b, is_valid_loop counts p = Some b /\
    (b = true <-> NoDup p /\ forall x, In x p -> nth (Z.to_nat x) counts false = false).
Proof.
  revert counts; induction p as [|x p IH]; intros counts HF; simpl.
  - exists true. split; auto. split; auto. intros _. split; [constructor|]. intros; contradiction.
  - inversion HF as [|x' p' Hx HF']; subst.
    replace ((0 <=? x) && (x <? Z.of_nat (length counts))) with true by (symmetry; lia).
    destruct (nth (Z.to_nat x) counts false) eqn:E.
    + exists false. split; auto. split; [discriminate|]. intros [_ H]. specialize (H x (or_introl eq_refl)). congruence.
    + destruct (IH (upd counts (Z.to_nat x) true)) as [b [Hb Hiff]].
      { rewrite upd_length. exact HF'. }
      exists b. split; auto. rewrite Hiff. clear Hiff Hb IH. split; intros [ND H].
      * assert (Hnx : ~ In x p).
        { intros Hin. specialize (H x Hin). rewrite nth_upd_eq in H by lia. discriminate. }
        split; [now constructor|]. intros y [->|Hy]; auto.
        specialize (H y Hy). rewrite nth_upd_neq in H; auto.
        rewrite Forall_forall in HF'. specialize (HF' y Hy).
        intros C. apply Hnx. replace x with y by lia. exact Hy.
      * inversion ND as [|x' p' Hn ND']; subst. split; auto. intros y Hy.
        rewrite nth_upd_neq; [apply H; now right|].
        rewrite Forall_forall in HF'. specialize (HF' y Hy).
        intros C. apply Hn. replace x with y by lia. exact Hy.
Qed.

Lemma is_valid_spec p : Forall (fun x => 0 <= x < Z.of_nat (length p)) p ->
  exists b, is_valid p = Some b /\ (b = true <-> NoDup p).
Proof.
  intros H. destruct (is_valid_loop_spec (repeat false (length p)) p) as [b [Hb Hiff]].
  { now rewrite repeat_length. }
  exists b. split; auto. rewrite Hiff. split; [now intros [? _]|]. intros ND; split; auto.
  intros x _. generalize (Z.to_nat x) as k. generalize (length p) as n. clear.
  induction n as [|n IH]; intros [|k]; simpl; auto.
Qed.

(** ** encode / decode *)
Lemma int_shl_small a n : 0 <= a < 16 -> 0 <= n <= 28 ->
  exists v, int_shl a n = Some v /\ v mod 2 ^ 64 = (if a * 2 ^ n <? 2 ^ 31 then a * 2 ^ n else a * 2 ^ n + (2^64 - 2^32)).
Proof.
  intros Ha Hn. unfold int_shl.
  replace ((0 <=? n) && (n <? 32)) with true by (symmetry; lia).
  assert (Hp : 1 <= 2 ^ n <= 2 ^ 28).
  { split; [apply (Z.pow_le_mono_r 2 0 n); lia|apply Z.pow_le_mono_r; lia]. }
  rewrite (Z.mod_small (a * 2 ^ n)) by (change (2^28) with 268435456 in Hp; change (2^32) with 4294967296; nia).
  eexists; split; [reflexivity|].
  change (2^28) with 268435456 in Hp. change (2^31) with 2147483648. change (2^32) with 4294967296.
  change (2^64) with 18446744073709551616.
  destruct (a * 2 ^ n <? 2147483648) eqn:E.
  - apply Z.mod_small. nia.
  - replace (a * 2 ^ n - 4294967296) with ((a * 2 ^ n + (18446744073709551616 - 4294967296)) + (-1) * 18446744073709551616) by ring.
    rewrite Z.mod_add by lia. apply Z.mod_small. nia.
Qed.

(** value of the digits, base 16, least significant first *)
Fixpoint hex (a : list Z) : Z := match a with [] => 0 | x :: a' => x + 16 * hex a' end.

Lemma hex_bound a : Forall (fun x => 0 <= x < 16) a -> 0 <= hex a < 16 ^ Z.of_nat (length a).
Proof.
  induction 1 as [|x a Hx H IH]; [simpl; lia|].
  cbn [hex length]. rewrite Nat2Z.inj_succ, Z.pow_succ_r by lia. lia.
Qed.

Lemma encode_from_mod i a acc r : Forall (fun x => 0 <= x < 16) a -> 0 <= i -> i + Z.of_nat (length a) <= 8 ->
  exists w, encode_from i a acc = Some w /\ w mod 2 ^ 32 = (acc + 16 ^ i * hex a) mod 2 ^ 32 /\ (r = acc -> a <> [] -> 0 <= w).
Proof.
  intros H. revert i acc r; induction H as [|x a Hx H IH]; intros i acc r Hi HL; cbn [encode_from hex length] in *.
  - exists acc. split; auto. split; [f_equal; lia|]. congruence.
  - destruct (int_shl_small x (4 * i) Hx ltac:(lia)) as [v [Hv Hm]]. rewrite Hv.
    destruct (IH (i + 1) ((acc + v) mod 2 ^ 64) ((acc + v) mod 2 ^ 64) ltac:(lia) ltac:(lia)) as [w [Hw [Hmod Hpos]]].
    exists w. split; auto. split.
    + rewrite Hmod. assert (E : v mod 2^32 = (16 ^ i * x) mod 2 ^ 32).
      { replace (16 ^ i) with (2 ^ (4 * i)) by (rewrite Z.pow_mul_r by lia; reflexivity).
        replace (v mod 2 ^ 32) with ((v mod 2^64) mod 2^32).
        - rewrite Hm. destruct (_ <? _).
          + f_equal; ring.
          + change (2^64 - 2^32) with (4294967295 * 2^32). rewrite Z.mod_add by lia. f_equal; ring.
        - change (2^64) with (2^32 * 2^32). rewrite Z.rem_mul_r by lia.
          rewrite (Z.mul_comm (2 ^ 32)), Z.mod_add by lia. apply Z.mod_mod; lia. }
      replace (16 ^ (i + 1)) with (16 * 16 ^ i) by (rewrite Z.pow_add_r by lia; lia).
      rewrite <- (Z.add_mod_idemp_l (_ mod 2^64)) by lia.
      replace (((acc + v) mod 2 ^ 64) mod 2 ^ 32) with ((acc + v) mod 2 ^ 32).
      2:{ change (2^64) with (2^32 * 2^32). rewrite Z.rem_mul_r by lia.
          rewrite (Z.mul_comm (2 ^ 32) (_ mod _)), Z.mod_add by lia. symmetry; apply Z.mod_mod; lia. }
      rewrite <- (Z.add_mod_idemp_r acc v) by lia. rewrite E. rewrite Z.add_mod_idemp_r by lia.
      rewrite Z.add_mod_idemp_l by lia. f_equal. ring.
    + intros _ _. destruct a as [|y a'].
      * cbn [encode_from] in Hw. injection Hw as <-. apply Z.mod_pos_bound; lia.
      * apply Hpos; congruence.
Qed.

Lemma decode_hex_mod a w : Forall (fun x => 0 <= x < 16) a -> (length a <= 8)%nat -> 
  w mod 2 ^ 32 = hex a -> decode (length a) w = a.
Proof.
  intros H HL Hw. apply nth_ext_len with (d := 0).
  - unfold decode. now rewrite map_length, seq_length.
  - intros i Hi. unfold decode in *. rewrite map_length, seq_length in Hi. rewrite nth_map_seq by auto.
    change 15 with (Z.ones 4). rewrite Z.land_ones, Z.shiftr_div_pow2 by lia.
    assert (Hb : (w / 2 ^ (4 * Z.of_nat i)) mod 2 ^ 4 = (hex a / 2 ^ (4 * Z.of_nat i)) mod 2 ^ 4).
    { rewrite <- Hw. rewrite <- !Z.shiftr_div_pow2, <- !Z.land_ones by lia.
      apply Z.bits_inj'. intros k Hk. rewrite !Z.land_spec, !Z.shiftr_spec by lia.
      destruct (Z.testbit (Z.ones 4) k) eqn:E; [|now rewrite !andb_false_r].
      rewrite Z.testbit_ones_nonneg in E by lia. rewrite Z.land_spec, Z.testbit_ones_nonneg by lia.
      replace (k + 4 * Z.of_nat i <? 32) with true by (symmetry; lia). now rewrite !andb_true_r. }
    rewrite Hb. clear Hb Hw w HL. revert i Hi. induction H as [|x a Hx H IH]; intros i Hi; [simpl in Hi; lia|].
    cbn [hex]. destruct i as [|i].
    + cbn [nth]. change (2 ^ (4 * Z.of_nat 0)) with 1. change (2^4) with 16. rewrite Z.div_1_r.
      rewrite (Z.mul_comm 16), Z.mod_add, Z.mod_small by lia. reflexivity.
    + cbn [nth]. replace (2 ^ (4 * Z.of_nat (S i))) with (16 * 2 ^ (4 * Z.of_nat i)).
      2:{ rewrite Nat2Z.inj_succ. replace (4 * Z.succ (Z.of_nat i)) with (4 + 4 * Z.of_nat i) by lia.
          rewrite Z.pow_add_r by lia. reflexivity. }
      rewrite <- Z.div_div by (try apply Z.pow_pos_nonneg; lia). rewrite (Z.mul_comm 16 (hex a)), Z.div_add, (Z.div_small x) by lia.
      rewrite Z.add_0_l. apply IH. simpl in Hi. lia.
Qed.

Lemma encode_decode a : Forall (fun x => 0 <= x < 16) a -> (length a <= 8)%nat ->
  exists w, encode a = Some w /\ decode (length a) w = a.
Proof.
  intros H HL. destruct (encode_from_mod 0 a 0 0 H ltac:(lia) ltac:(lia)) as [w [Hw [Hm _]]].
  exists w. split; auto. apply decode_hex_mod; auto. rewrite Hm.
  change (16 ^ 0) with 1. rewrite Z.add_0_l, Z.mul_1_l. apply Z.mod_small.
  pose proof (hex_bound a H) as Hb. split; [lia|].
  eapply Z.lt_le_trans; [apply Hb|]. change (2^32) with (16^8). apply Z.pow_le_mono_r; lia.
Qed.

Lemma encode_from_none i a acc : 0 <= i -> 8 < i + Z.of_nat (length a) -> a <> [] ->
  encode_from i a acc = None.
Proof.
  revert i acc; induction a as [|x a IH]; intros i acc Hi HL Hn; [congruence|].
  cbn [encode_from]. unfold int_shl. destruct (Z.ltb_spec i 8) as [Hlt|Hge].
  - replace ((0 <=? 4 * i) && (4 * i <? 32)) with true by (symmetry; lia).
    destruct a as [|y a].
    + cbn [length] in HL. lia.
    + apply IH; try lia; try congruence. cbn [length] in *. lia.
  - replace ((0 <=? 4 * i) && (4 * i <? 32)) with false by (symmetry; lia). reflexivity.
Qed.

(** ** cycle *)
Lemma cycle_nth n p pos i : (i < n)%nat -> 0 <= p <= pos -> pos <= Z.of_nat n ->
  nthZ (cycle n p pos) i = if Z.of_nat i <? pos then (Z.of_nat i - p) mod pos else Z.of_nat i.
Proof.
  intros Hi Hp Hpos. unfold nthZ, cycle. rewrite nth_map_seq by auto. cbn zeta.
  destruct (Z.ltb_spec (Z.of_nat i) pos) as [H|H]; auto.
  rewrite Z.rem_mod_nonneg by lia.
  replace (pos + Z.of_nat i - p) with (Z.of_nat i - p + 1 * pos) by ring. apply Z.mod_add. lia.
Qed.

Lemma cycle_is_perm n p pos : 0 <= p <= pos -> pos <= Z.of_nat n ->
  is_perm n (map Z.to_nat (cycle n p pos)).
Proof.
  intros Hp Hpos.
  assert (N : forall u, (u < n)%nat -> nthN (map Z.to_nat (cycle n p pos)) u = Z.to_nat (nthZ (cycle n p pos) u)).
  { intros u Hu. unfold nthN. change 0%nat with (Z.to_nat 0). now rewrite map_nth. }
  assert (B : forall u, (u < n)%nat -> 0 <= nthZ (cycle n p pos) u < Z.of_nat n).
  { intros u Hu. rewrite cycle_nth by auto. destruct (Z.ltb_spec (Z.of_nat u) pos) as [H|H]; [|lia].
    pose proof (Z.mod_pos_bound (Z.of_nat u - p) pos ltac:(lia)). lia. }
  apply is_perm_intro.
  - unfold cycle. now rewrite !map_length, seq_length.
  - intros u Hu. rewrite N by auto. pose proof (B u Hu). lia.
  - intros u v Hu Hv E. rewrite !N in E by auto. pose proof (B u Hu). pose proof (B v Hv).
    assert (E' : nthZ (cycle n p pos) u = nthZ (cycle n p pos) v) by lia. clear E.
    rewrite !cycle_nth in E' by auto.
    destruct (Z.ltb_spec (Z.of_nat u) pos) as [H1|H1], (Z.ltb_spec (Z.of_nat v) pos) as [H2|H2].
    + assert (Hd : (Z.of_nat u - Z.of_nat v) mod pos = 0).
      { replace (Z.of_nat u - Z.of_nat v) with ((Z.of_nat u - p) - (Z.of_nat v - p)) by ring.
        rewrite Zminus_mod, E', Z.sub_diag. reflexivity. }
      apply Z.mod_divide in Hd; [|lia]. destruct Hd as [k Hk]. assert (k = 0) by nia. lia.
    + pose proof (Z.mod_pos_bound (Z.of_nat u - p) pos ltac:(lia)). lia.
    + pose proof (Z.mod_pos_bound (Z.of_nat v - p) pos ltac:(lia)). lia.
    + lia.
Qed.

(** computable test, used for the concrete examples *)
Definition perm_check (n : nat) (p : list nat) : bool :=
  Nat.eqb (length p) n && forallb (fun u => existsb (Nat.eqb u) p) (seq 0 n).
Lemma perm_check_ok n p : perm_check n p = true -> is_perm n p.
Proof.
  unfold perm_check. intros H. apply andb_prop in H. destruct H as [H1 H2]. apply Nat.eqb_eq in H1.
  apply Permutation_sym. apply NoDup_Permutation_bis; [apply seq_NoDup|rewrite seq_length; lia|].
  intros u Hu. rewrite forallb_forall in H2. specialize (H2 u Hu). apply existsb_exists in H2.
  destruct H2 as [v [Hv E]]. apply Nat.eqb_eq in E. now subst.
Qed.

Lemma inverse_unique n p q : is_perm n p -> is_perm n q -> compose p q = identity n -> inverse p = q.
Proof.
  intros Hp Hq E. rewrite <- (compose_identity_r n (inverse p)) by now apply is_perm_inverse.
  rewrite <- E. rewrite (compose_assoc n) by auto using is_perm_inverse.
  rewrite (compose_inverse_l n) by auto. now apply compose_identity_l.
Qed.
Lemma inverse_reverse_identity n : inverse (reverse_identity n) = reverse_identity n.
Proof.
  pose proof (is_perm_reverse_identity n) as H. apply (inverse_unique n); auto.
  apply nth_ext_len with (d := 0%nat).
  - rewrite compose_length, (is_perm_length _ _ H). unfold identity. now rewrite seq_length.
  - intros u Hu. rewrite compose_length, (is_perm_length _ _ H) in Hu.
    fold (nthN (compose (reverse_identity n) (reverse_identity n)) u). fold (nthN (identity n) u).
    rewrite nth_compose by (rewrite (is_perm_length _ _ H); auto). rewrite nth_identity by auto.
    rewrite !nth_reverse_identity; try lia. rewrite nth_reverse_identity; lia.
Qed.
