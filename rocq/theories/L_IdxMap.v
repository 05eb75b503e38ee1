(** Lemmas about idx_map (model M_IdxMap). *)
From Verif Require Import Base M_Perm L_Perm M_IdxMap M_Slice S_Layout.

(** suffix products: strides of a contiguous map, slowest first *)
Fixpoint suffix_prods (len : list Z) : list Z :=
  match len with [] => [] | _ :: len' => prodZ len' :: suffix_prods len' end.

Lemma suffix_prods_length len : length (suffix_prods len) = length len.
Proof. induction len; simpl; auto. Qed.

Lemma dot_suffix_prods len dig : length dig = length len -> dot dig (suffix_prods len) = radix len dig.
Proof.
  revert dig; induction len as [|l len IH]; intros [|i dig] H; simpl in *; try discriminate; auto.
  rewrite IH by lia. reflexivity.
Qed.

Lemma nth_suffix_prods len i : (i < length len)%nat -> nthZ (suffix_prods len) i = prodZ (skipn (S i) len).
Proof.
  revert i; induction len as [|l len IH]; intros i Hi; [simpl in Hi; lia|].
  destruct i as [|i]; [reflexivity|]. simpl in Hi. unfold nthZ in *. cbn [suffix_prods nth skipn].
  rewrite IH by lia. reflexivity.
Qed.

Lemma fold_mul_acc l a : fold_left Z.mul l a = a * prodZ l.
Proof.
  revert a; induction l as [|x l IH]; intros a; cbn [fold_left]; rewrite ?prodZ_nil, ?prodZ_cons; [ring|].
  rewrite IH. ring.
Qed.

Lemma size_prodZ m : size m = prodZ (im_len m).
Proof. unfold size. rewrite fold_mul_acc. ring. Qed.

Lemma fold_left_rev_seq {A} (f : A -> nat -> A) k n a :
  fold_left f (rev (seq k (S n))) a = f (fold_left f (rev (seq (S k) n)) a) k.
Proof. cbn [seq rev]. now rewrite fold_left_app. Qed.

(** the loop, restricted to v = k+n-1 .. k *)
Lemma compute_strides_loop R so len junk k n :
  is_perm R so -> length len = R -> length junk = R -> (k + n = R)%nat ->
  let st := fold_left (compute_strides_step so len) (rev (seq k n)) (junk, 1) in
  length (fst st) = R /\ snd st = prodZ (skipn k (apply 0 so len)) /\
  forall v, (k <= v < R)%nat -> nthZ (fst st) (nthN so v) = prodZ (skipn (S v) (apply 0 so len)).
Proof.
  intros Hp Ll Lj. pose proof (is_perm_length _ _ Hp) as Ls. revert k; induction n as [|n IH]; intros k Hk; cbn zeta.
  - cbn [seq rev fold_left fst snd]. repeat split; auto.
    + rewrite skipn_all2 by (rewrite apply_length; lia). reflexivity.
    + intros v Hv. lia.
  - rewrite fold_left_rev_seq. specialize (IH (S k) ltac:(lia)). cbn zeta in IH.
    set (st := fold_left (compute_strides_step so len) (rev (seq (S k) n)) (junk, 1)) in *.
    destruct IH as [IHl [IHs IHv]]. unfold compute_strides_step. cbn [fst snd].
    assert (Hsk : skipn k (apply 0 so len) = nthZ len (nthN so k) :: skipn (S k) (apply 0 so len)).
    { replace (nthZ len (nthN so k)) with (nthZ (apply 0 so len) k) by (unfold nthZ; apply nth_apply; lia).
      apply skipn_cons_nth. rewrite apply_length; lia. }
    repeat split.
    + now rewrite upd_length.
    + rewrite Hsk, prodZ_cons, IHs. ring.
    + intros v Hv. unfold nthZ. destruct (Nat.eq_dec v k) as [->|Hne].
      * rewrite nth_upd_eq by (rewrite IHl; apply is_perm_lt; auto; lia). exact IHs.
      * rewrite nth_upd_neq.
        -- apply IHv. lia.
        -- intros E. apply Hne. symmetry. apply (is_perm_inj R so); auto; lia.
Qed.

Lemma apply_skipn_nth so (l : list Z) k : (k < length so)%nat -> nthZ (apply 0 so l) k = nthZ l (nthN so k).
Proof. intros. unfold nthZ. now rewrite nth_apply. Qed.

Lemma compute_strides_length R so len junk : is_perm R so -> length len = R -> length junk = R ->
  length (compute_strides_contiguous so len junk) = R.
Proof.
  intros Hp Ll Lj. unfold compute_strides_contiguous. rewrite Ll.
  destruct (compute_strides_loop R so len junk 0 R Hp Ll Lj eq_refl) as [H _]. exact H.
Qed.

(** strides listed along the stride order are the suffix products of the extents in that order *)
Lemma compute_strides_in_order R so len junk : is_perm R so -> length len = R -> length junk = R ->
  apply 0 so (compute_strides_contiguous so len junk) = suffix_prods (apply 0 so len).
Proof.
  intros Hp Ll Lj. pose proof (is_perm_length _ _ Hp) as Ls.
  unfold compute_strides_contiguous. rewrite Ll.
  destruct (compute_strides_loop R so len junk 0 R Hp Ll Lj eq_refl) as [Hl [_ Hv]].
  apply nth_ext_len with (d := 0).
  - rewrite apply_length, suffix_prods_length, apply_length. reflexivity.
  - intros i Hi. rewrite apply_length in Hi. rewrite nth_apply by auto.
    fold (nthZ (suffix_prods (apply 0 so len)) i).
    rewrite nth_suffix_prods by (rewrite apply_length; auto).
    apply Hv. lia.
Qed.

(** ENSURES(s == size()) at idx_map.hpp:180 *)
Lemma compute_strides_final R so len junk : is_perm R so -> length len = R -> length junk = R ->
  snd (fold_left (compute_strides_step so len) (rev (seq 0 (length len))) (junk, 1)) = prodZ len.
Proof.
  intros Hp Ll Lj. rewrite Ll. destruct (compute_strides_loop R so len junk 0 R Hp Ll Lj eq_refl) as [_ [Hs _]].
  rewrite Hs. cbn [skipn]. apply prodZ_perm. now apply (apply_Permutation 0 R).
Qed.

Lemma in_order_apply so (l : list Z) : in_order 0 so l = apply 0 so l.
Proof. unfold in_order. now rewrite apply_as_map. Qed.

Lemma dot_compute_strides R so len junk idx : is_perm R so -> length len = R -> length junk = R -> length idx = R ->
  dot idx (compute_strides_contiguous so len junk) = radix (apply 0 so len) (apply 0 so idx).
Proof.
  intros Hp Ll Lj Li. rewrite <- (dot_apply R so) by (auto using compute_strides_length).
  rewrite (compute_strides_in_order R) by auto.
  apply dot_suffix_prods. rewrite !apply_length. reflexivity.
Qed.

(** ** call operator *)
Lemma nth_map_CLong idx i : (i < length idx)%nat -> nth i (map CLong idx) CEll = CLong (nthZ idx i).
Proof. intros H. unfold nthZ. now rewrite (nth_map_lt CLong idx i CEll 0). Qed.

Lemma sumZ_zero l : (forall x, In x l -> x = 0) -> sumZ l = 0.
Proof.
  induction l as [|x l IH]; intros H; simpl; auto.
  rewrite IH by (intros; apply H; now right). rewrite (H x (or_introl eq_refl)). reflexivity.
Qed.

Lemma call_e_pos_longs idx : call_e_pos (map CLong idx) = -1.
Proof.
  unfold call_e_pos. rewrite sumZ_zero; auto. intros x Hx. apply in_map_iff in Hx. destruct Hx as [i [<- Hi]].
  rewrite map_length in Hi. apply in_seq in Hi. rewrite nth_map_CLong by lia. reflexivity.
Qed.

Lemma smallest_skip m i x : has_smallest_stride_is_one (im_prop m) = true -> smallest_one_true m ->
  myget m true i (CLong x) = x * nthZ (im_str m) i.
Proof.
  intros Hp Hs. unfold myget. cbn [andb].
  destruct (Nat.eqb_spec i (nthN (im_so m) (rank m - 1))) as [->|]; auto.
  unfold smallest_one_true, min_stride in Hs. rewrite Hs. ring.
Qed.

Lemma call_impl_longs m idx : length idx = length (im_str m) ->
  (has_smallest_stride_is_one (im_prop m) = true -> smallest_one_true m) ->
  call_impl m (map CLong idx) = dot idx (im_str m).
Proof.
  intros L Hs. unfold call_impl. rewrite call_e_pos_longs. change (-1 =? -1) with true. cbn iota.
  rewrite map_length, dot_sum_seq by auto.
  destruct (has_smallest_stride_is_one (im_prop m)) eqn:E.
  - f_equal. apply map_ext_in. intros i Hi. apply in_seq in Hi. rewrite nth_map_CLong by lia.
    now apply smallest_skip; auto.
  - f_equal. apply map_ext_in. intros i Hi. apply in_seq in Hi. now rewrite nth_map_CLong by lia.
Qed.

Lemma call_e_pos_ell a b : call_e_pos (map CLong a ++ CEll :: map CLong b) = Z.of_nat (length a).
Proof.
  unfold call_e_pos. rewrite app_length, map_length. cbn [length]. rewrite map_length.
  rewrite seq_app, map_app, sumZ_app. cbn [seq map]. rewrite sumZ_cons.
  rewrite (sumZ_zero (map _ (seq 0 (length a)))).
  2:{ intros x Hx. apply in_map_iff in Hx. destruct Hx as [i [<- Hi]]. apply in_seq in Hi.
      rewrite app_nth1 by (rewrite map_length; lia). now rewrite nth_map_CLong by lia. }
  rewrite (sumZ_zero (map _ (seq (S _) (length b)))).
  2:{ intros x Hx. apply in_map_iff in Hx. destruct Hx as [i [<- Hi]]. apply in_seq in Hi.
      rewrite app_nth2 by (rewrite map_length; lia). rewrite map_length.
      replace (i - length a)%nat with (S (i - length a - 1)) by lia. cbn [nth].
      now rewrite nth_map_CLong by lia. }
  rewrite app_nth2 by (rewrite map_length; lia). rewrite map_length, Nat.add_0_l, Nat.sub_diag. cbn [nth]. lia.
Qed.

Lemma call_impl_ellipsis m a b : length (a ++ b) = length (im_str m) ->
  (has_smallest_stride_is_one (im_prop m) = true -> smallest_one_true m) ->
  call_impl m (map CLong a ++ CEll :: map CLong b) = dot (a ++ b) (im_str m).
Proof.
  intros L Hs. unfold call_impl. rewrite call_e_pos_ell.
  replace (Z.of_nat (length a) =? -1) with false by (symmetry; apply Z.eqb_neq; lia).
  rewrite dot_sum_seq by auto. rewrite !app_length, map_length. cbn [length]. rewrite map_length.
  assert (G : forall i x, myget m (has_smallest_stride_is_one (im_prop m)) i (CLong x) = x * nthZ (im_str m) i).
  { intros i x. destruct (has_smallest_stride_is_one (im_prop m)) eqn:E.
    - apply smallest_skip; auto.
    - reflexivity. }
  replace (length a + S (length b))%nat with (length a + (1 + length b))%nat by lia.
  rewrite !seq_app, !map_app, !sumZ_app. cbn [seq map]. rewrite sumZ_cons. f_equal.
  - f_equal. apply map_ext_in. intros i Hi. apply in_seq in Hi.
    replace (Z.of_nat i <? Z.of_nat (length a)) with true by (symmetry; lia).
    rewrite app_nth1 by (rewrite map_length; lia). rewrite nth_map_CLong by lia. rewrite G.
    unfold nthZ at 3. rewrite app_nth1 by lia. reflexivity.
  - rewrite Nat.add_0_l. rewrite app_nth2 by (rewrite map_length; lia). rewrite map_length, Nat.sub_diag. cbn [nth myget].
    rewrite ?sumZ_cons. change (sumZ []) with 0. rewrite ?Z.add_0_l. f_equal.
    replace (length a + 1)%nat with (S (length a)) by lia.
    rewrite <- seq_shift, map_map. apply map_ext_in. intros i Hi. apply in_seq in Hi.
    replace (Z.of_nat (S i) <? Z.of_nat (length a)) with false by (symmetry; lia).
    rewrite app_nth2 by (rewrite map_length; lia). rewrite map_length.
    replace (S i - length a)%nat with (S (i - length a)) by lia. cbn [nth].
    rewrite nth_map_CLong by lia. rewrite G. replace (S i - 1)%nat with i by lia.
    unfold nthZ at 3. rewrite app_nth2 by lia. reflexivity.
Qed.

(** ** to_idx *)
Fixpoint residues_rec (s : list Z) (n : Z) : list Z :=
  match s with [] => [] | a :: s' => n :: residues_rec s' (Z.rem n a) end.

Lemma residues_loop R s n : (0 < R)%nat -> length s = R ->
  fold_left (fun res i => upd res i (Z.rem (nthZ res (i - 1)) (nthZ s (i - 1)))) (seq 1 (R - 1)) (upd (repeat 0 R) 0 n)
  = residues_rec s n.
Proof.
  intros HR Ls.
  assert (G : forall k, (k <= R - 1)%nat ->
    let res := fold_left (fun res i => upd res i (Z.rem (nthZ res (i - 1)) (nthZ s (i - 1)))) (seq 1 k) (upd (repeat 0 R) 0 n) in
    length res = R /\ forall i, (i <= k)%nat -> nthZ res i = nthZ (residues_rec s n) i).
  { induction k as [|k IH]; intros Hk; cbn zeta.
    - cbn [seq fold_left]. rewrite upd_length, repeat_length. split; auto. intros i Hi.
      replace i with 0%nat by lia. destruct R as [|R]; [lia|]. cbn [repeat upd]. unfold nthZ. cbn [nth].
      destruct s as [|a s]; [discriminate|]. reflexivity.
    - rewrite seq_S, fold_left_app. cbn [fold_left]. specialize (IH ltac:(lia)). cbn zeta in IH.
      set (res := fold_left _ (seq 1 k) _) in *. destruct IH as [Hl IH].
      rewrite upd_length. split; auto. intros i Hi. unfold nthZ at 1. destruct (Nat.eq_dec i (1 + k)) as [->|Hne].
      + rewrite nth_upd_eq by lia. replace (1 + k - 1)%nat with k by lia. rewrite IH by lia.
        clear - Hk Ls HR. assert (Hks : (S k < length s)%nat) by lia. clear - Hks.
        revert n k Hks; induction s as [|a s IHs]; intros n k H; [simpl in H; lia|].
        destruct k as [|k].
        * destruct s as [|b s]; [simpl in H; lia|]. reflexivity.
        * cbn [residues_rec]. unfold nthZ in *. cbn [nth Nat.add]. apply IHs. simpl in H. lia.
      + rewrite nth_upd_neq by lia. apply IH. lia. }
  specialize (G (R - 1)%nat ltac:(lia)). cbn zeta in G. destruct G as [Hl G].
  assert (Lr : length (residues_rec s n) = R).
  { rewrite <- Ls. clear. revert n; induction s as [|a s IH]; intros n; simpl; auto. }
  apply nth_ext_len with (d := 0); [lia|]. intros i Hi. apply G. lia.
Qed.

(** digits extracted by successive division along strides [s] *)
Fixpoint div_digits (s : list Z) (n : Z) : list Z :=
  match s with [] => [] | a :: s' => Z.quot (n - Z.rem n a) a :: div_digits s' (Z.rem n a) end.

Lemma residues_rec_length s n : length (residues_rec s n) = length s.
Proof. revert n; induction s as [|a s IH]; intros n; simpl; auto. Qed.

Lemma to_idx_digits s n R : (0 < R)%nat -> length s = R -> (forall a, In a s -> a <> 0) ->
  map (fun i => if Nat.eqb i (R - 1) then Z.quot (nthZ (residues_rec s n) i) (nthZ s i)
                else Z.quot (nthZ (residues_rec s n) i - nthZ (residues_rec s n) (i + 1)) (nthZ s i)) (seq 0 R)
  = map (fun x => x) (div_digits s n).
Proof.
  rewrite map_id. intros HR Ls Hz. subst R.
  revert n; induction s as [|a s IH]; intros n; [simpl in HR; lia|]. cbn [length].
  destruct s as [|b s].
  - cbn [length seq map Nat.eqb Nat.sub div_digits residues_rec]. unfold nthZ; cbn [nth]. f_equal.
    assert (Ha : a <> 0) by (apply Hz; now left).
    rewrite (Z.quot_rem' n a) at 2. replace (a * (n ÷ a) + Z.rem n a - Z.rem n a) with (n ÷ a * a) by ring.
    now rewrite Z.quot_mul.
  - change (div_digits (a :: b :: s) n) with (Z.quot (n - Z.rem n a) a :: div_digits (b :: s) (Z.rem n a)).
    cbn [seq map]. f_equal.
    rewrite <- (IH ltac:(simpl; lia) ltac:(intros; apply Hz; now right) (Z.rem n a)).
    rewrite <- (seq_shift (length (b :: s)) 0), map_map. apply map_ext_in. intros i Hi. apply in_seq in Hi.
    replace (Nat.eqb (S i) (S (length (b :: s)) - 1)) with (Nat.eqb i (length (b :: s) - 1)).
    2:{ destruct (Nat.eqb_spec i (length (b :: s) - 1)), (Nat.eqb_spec (S i) (S (length (b :: s)) - 1)); auto; simpl in *; lia. }
    destruct (Nat.eqb i (length (b :: s) - 1)); reflexivity.
Qed.

(** the fastest dimensions together never reach the stride of a slower one *)
Fixpoint span (len str : list Z) : Z :=
  match len, str with l :: len', s :: str' => (l - 1) * Z.abs s + span len' str' | _, _ => 0 end.
Fixpoint nested (len str : list Z) : Prop :=
  match len, str with
  | l :: len', s :: str' => 1 <= l /\ span len' str' < Z.abs s /\ nested len' str'
  | [], [] => True
  | _, _ => False
  end.

Lemma nested_length len str : nested len str -> length len = length str.
Proof. revert str; induction len as [|l len IH]; intros [|s str]; simpl; intuition. Qed.

Lemma nested_nonzero len str a : nested len str -> In a str -> a <> 0.
Proof.
  revert str; induction len as [|l len IH]; intros [|s str]; simpl; intros H HI; try tauto.
  destruct H as [Hl [Hs Hn]]. destruct HI as [<-|HI]; [|eapply IH; eauto].
  enough (0 <= span len str) by lia. clear - Hn.
  revert str Hn; induction len as [|l len IH]; intros [|s str] H; simpl in *; try tauto; try lia.
  destruct H as [H1 [H2 H3]]. specialize (IH _ H3). nia.
Qed.

Lemma span_nonneg len str : nested len str -> 0 <= span len str.
Proof.
  revert str; induction len as [|l len IH]; intros [|s str] H; simpl in *; try tauto; try lia.
  destruct H as [H1 [H2 H3]]. specialize (IH _ H3). nia.
Qed.

Lemma nested_bound len str idx : nested len str -> in_range idx len -> Z.abs (dot idx str) <= span len str.
Proof.
  intros Hn Hi. revert str Hn; induction Hi as [|i l idx len Hil Hi IH]; intros [|s str] Hn; simpl in *; try tauto; try lia.
  destruct Hn as [H1 [H2 H3]]. specialize (IH _ H3). unfold inr in Hil.
  assert (Z.abs (i * s) <= (l - 1) * Z.abs s) by (rewrite Z.abs_mul; nia). lia.
Qed.

Lemma nested_pos_bound len str idx : nested len str -> Forall (fun s => 0 < s) str -> in_range idx len ->
  0 <= dot idx str <= span len str.
Proof.
  intros Hn Hp Hi. revert str Hn Hp; induction Hi as [|i l idx len Hil Hi IH]; intros [|s str] Hn Hp; simpl in *; try tauto; try lia.
  destruct Hn as [H1 [H2 H3]]. inversion Hp as [|s' str' Hs Hp']; subst. specialize (IH _ H3 Hp'). unfold inr in Hil.
  rewrite (Z.abs_eq s) in * by lia. nia.
Qed.

Lemma nested_inj len str a b : nested len str -> in_range a len -> in_range b len -> dot a str = dot b str -> a = b.
Proof.
  intros Hn Ha. revert b str Hn; induction Ha as [|x l a len Hx Ha IH]; intros b str Hn Hb E.
  - inversion Hb; reflexivity.
  - inversion Hb as [|y l' b' len' Hy Hb']; subst. destruct str as [|s str]; simpl in Hn; [tauto|].
    destruct Hn as [H1 [H2 H3]]. simpl in E. unfold inr in Hx, Hy.
    assert (D : exists c, c = (y - x) * s /\ c = dot a str - dot b' str) by (exists ((y - x) * s); lia).
    assert (Bnd : Z.abs (dot a str - dot b' str) <= span len str).
    { clear - Ha Hb' H3. revert str H3 b' Hb'. induction Ha as [|u l a len Hu Ha IH]; intros [|s str] Hn b' Hb'; simpl in *; try tauto.
      - inversion Hb'; subst; simpl; lia.
      - inversion Hb' as [|v l' b'' len' Hv Hb'']; subst. destruct Hn as [H1 [H2 H3]]. specialize (IH _ H3 _ Hb'').
        cbn [dot]. unfold inr in *. assert (Z.abs ((u - v) * s) <= (l - 1) * Z.abs s) by (rewrite Z.abs_mul; nia). lia. }
    assert (Exy : x = y).
    { destruct (Z.eq_dec x y); auto. exfalso.
      assert (Z.abs s <= Z.abs ((y - x) * s)) by (rewrite Z.abs_mul; nia).
      replace ((y - x) * s) with (dot a str - dot b' str) in * by lia. lia. }
    subst y. f_equal. apply IH with (str := str); auto. lia.
Qed.

Lemma div_digits_nested len str idx : nested len str -> Forall (fun s => 0 < s) str -> in_range idx len ->
  div_digits str (dot idx str) = idx.
Proof.
  intros Hn Hp Hi. revert str Hn Hp; induction Hi as [|i l idx len Hil Hi IH]; intros [|s str] Hn Hp; simpl in Hn; try tauto; auto.
  destruct Hn as [H1 [H2 H3]]. inversion Hp as [|s' str' Hs Hp']; subst. cbn [dot div_digits].
  pose proof (nested_pos_bound _ _ _ H3 Hp' Hi) as B. unfold inr in Hil.
  rewrite (Z.abs_eq s) in H2 by lia.
  assert (Er : Z.rem (i * s + dot idx str) s = dot idx str).
  { rewrite Z.rem_mod_nonneg by nia. rewrite Z.add_comm, Z.mod_add by lia. apply Z.mod_small. lia. }
  rewrite Er. rewrite IH by auto.
  replace (i * s + dot idx str - dot idx str) with (i * s) by ring. rewrite Z.quot_mul by lia. reflexivity.
Qed.

(** to_idx inverts the address map of every layout whose strides, in stride order, are positive and nested *)
Lemma to_idx_inverse m idx : wf m -> valid_idx m idx ->
  nested (apply 0 (im_so m) (im_len m)) (apply 0 (im_so m) (im_str m)) ->
  Forall (fun s => 0 < s) (im_str m) ->
  to_idx m (addr m idx) = Some idx.
Proof.
  intros (Ls & Hp & Lse & Hnn & HR & _) Hv Hn Hpos. unfold to_idx, rank, addr.
  set (R := length (im_len m)) in *. pose proof (is_perm_length _ _ Hp) as Lso.
  assert (Hpos' : Forall (fun s => 0 < s) (apply 0 (im_so m) (im_str m))).
  { apply Forall_forall. intros x Hx. rewrite apply_as_map in Hx. apply in_map_iff in Hx. destruct Hx as [k [<- Hk]].
    rewrite Forall_forall in Hpos. apply Hpos. apply nth_In. rewrite Ls. now apply (is_perm_In R (im_so m) k Hp). }
  replace (existsb _ (seq 0 R)) with false.
  2:{ symmetry. apply not_true_is_false. intros E. apply existsb_exists in E. destruct E as [i [Hi E]].
      apply in_seq in Hi. apply Z.eqb_eq in E. rewrite Forall_forall in Hpos.
      assert (nthZ (im_str m) (nthN (im_so m) i) > 0); [|lia].
      apply Z.lt_gt. apply Hpos. apply nth_In. rewrite Ls. apply is_perm_lt; auto. lia. }
  f_equal.
  set (ss := apply 0 (im_so m) (im_str m)) in *.
  assert (Lss : length ss = R) by (unfold ss; now rewrite apply_length).
  assert (Hs : forall i, (i < R)%nat -> nthZ (im_str m) (nthN (im_so m) i) = nthZ ss i).
  { intros i Hi. unfold ss. rewrite apply_skipn_nth by lia. reflexivity. }
  transitivity (apply_inverse 0 (im_so m) (apply 0 (im_so m) idx)).
  2:{ apply (apply_inverse_apply 0 R); auto. apply in_range_length in Hv. exact Hv. }
  f_equal. cbn zeta.
  rewrite <- (dot_apply R (im_so m) idx (im_str m)) by (auto; apply in_range_length in Hv; exact Hv).
  fold ss.
  assert (EF : forall n, fold_left (fun res i => upd res i (Z.rem (nthZ res (i - 1)) (nthZ (im_str m) (nthN (im_so m) (i - 1)))))
             (seq 1 (R - 1)) (upd (repeat 0 R) 0 n)
          = residues_rec ss n).
  { intros n. rewrite <- (residues_loop R ss n HR Lss).
    assert (GG : forall l acc, (forall i, In i l -> (1 <= i < R)%nat) ->
       fold_left (fun res i => upd res i (Z.rem (nthZ res (i - 1)) (nthZ (im_str m) (nthN (im_so m) (i - 1))))) l acc
       = fold_left (fun res i => upd res i (Z.rem (nthZ res (i - 1)) (nthZ ss (i - 1)))) l acc).
    { induction l as [|i l IHl]; intros acc Hl; simpl; auto. rewrite IHl by (intros; apply Hl; now right).
      rewrite Hs; auto. specialize (Hl i (or_introl eq_refl)). lia. }
    apply GG. intros i Hi. apply in_seq in Hi. lia. }
  rewrite EF.
  transitivity (div_digits ss (dot (apply 0 (im_so m) idx) ss)).
  - rewrite <- (map_id (div_digits _ _)). rewrite <- (to_idx_digits ss _ R); auto.
    + apply map_ext_in. intros i Hi. apply in_seq in Hi. rewrite !Hs by lia. reflexivity.
    + intros a Ha E. rewrite Forall_forall in Hpos'. specialize (Hpos' a Ha). lia.
  - apply (div_digits_nested (apply 0 (im_so m) (im_len m))); auto.
    apply (in_range_apply R); auto.
Qed.

Lemma span_suffix_prods len : Forall (fun l => 1 <= l) len -> span len (suffix_prods len) = prodZ len - 1.
Proof.
  induction 1 as [|l len Hl H IH]; [reflexivity|]. cbn [span suffix_prods]. rewrite IH, prodZ_cons.
  rewrite Z.abs_eq; [ring|]. apply prodZ_nonneg. eapply Forall_impl; [|exact H]. simpl; lia.
Qed.

Lemma nested_suffix_prods len : Forall (fun l => 1 <= l) len -> nested len (suffix_prods len).
Proof.
  induction 1 as [|l len Hl H IH]; simpl; auto. repeat split; auto.
  rewrite span_suffix_prods by auto. lia.
Qed.

Lemma suffix_prods_pos len : Forall (fun l => 1 <= l) len -> Forall (fun s => 0 < s) (suffix_prods len).
Proof.
  induction 1 as [|l len Hl H IH]; simpl; constructor; auto.
  apply prodZ_pos. eapply Forall_impl; [|exact H]. simpl; lia.
Qed.

Lemma Forall_apply (P : Z -> Prop) R so l : is_perm R so -> length l = R -> (Forall P (apply 0 so l) <-> Forall P l).
Proof.
  intros Hp L. pose proof (apply_Permutation 0 R so l Hp L) as HP. rewrite !Forall_forall. split; intros H x Hx; apply H.
  - eapply Permutation_in; [symmetry; exact HP|exact Hx].
  - eapply Permutation_in; [exact HP|exact Hx].
Qed.

(** ** fresh maps *)
Lemma fresh_wf so se p junk shape :
  is_order (length shape) so -> length junk = length shape -> length se = length shape ->
  Forall (fun l => 0 <= l) shape -> (0 < length shape < 16)%nat -> wf (idx_map_of_shape so se p junk shape).
Proof.
  intros Hp Lj Lse Hnn [HR HR']. unfold wf, idx_map_of_shape; cbn [im_len im_str im_so im_se]. repeat split; auto.
  now apply (compute_strides_length (length shape)).
Qed.

Lemma fresh_contiguous_true so se p junk shape :
  is_order (length shape) so -> length junk = length shape -> contiguous_true (idx_map_of_shape so se p junk shape).
Proof.
  intros Hp Lj idx Hv. unfold addr, seq_number, idx_map_of_shape, valid_idx in *; cbn [im_len im_str im_so] in *.
  rewrite !in_order_apply. apply (dot_compute_strides (length shape)); auto. now apply in_range_length in Hv.
Qed.

Lemma fresh_nested so se p junk shape :
  is_order (length shape) so -> length junk = length shape -> Forall (fun l => 1 <= l) shape ->
  let m := idx_map_of_shape so se p junk shape in
  nested (apply 0 (im_so m) (im_len m)) (apply 0 (im_so m) (im_str m)) /\ Forall (fun s => 0 < s) (im_str m).
Proof.
  intros Hp Lj H m. unfold m, idx_map_of_shape; cbn [im_len im_str im_so].
  pose proof (compute_strides_in_order (length shape) so shape junk Hp eq_refl Lj) as E.
  assert (H' : Forall (fun l => 1 <= l) (apply 0 so shape)) by (apply (Forall_apply _ (length shape)); auto).
  split.
  - rewrite E. now apply nested_suffix_prods.
  - apply (Forall_apply _ (length shape) so); auto.
    + now apply (compute_strides_length (length shape)).
    + rewrite E. now apply suffix_prods_pos.
Qed.

(** ** nested <-> separated *)
Lemma reach_span len str : length len = length str -> reach len str = span len str.
Proof.
  revert str; induction len as [|l len IH]; intros [|s str] H; try discriminate; auto.
  unfold reach. cbn [length seq map]. rewrite sumZ_cons, <- seq_shift, map_map. cbn [span].
  rewrite <- IH by (simpl in H; lia). reflexivity.
Qed.

Lemma nested_iff len str : length len = length str ->
  (nested len str <-> Forall (fun l => 1 <= l) len /\
     forall k, (k < length len)%nat -> span (skipn (S k) len) (skipn (S k) str) < Z.abs (nthZ str k)).
Proof.
  revert str; induction len as [|l len IH]; intros [|s str] H; try discriminate.
  - simpl. split; auto. intros _. split; [constructor|]. intros; lia.
  - cbn [nested]. rewrite IH by (simpl in H; lia). split.
    + intros (H1 & H2 & H3 & H4). split; [now constructor|]. intros [|k] Hk.
      * exact H2.
      * apply (H4 k). simpl in Hk; lia.
    + intros (H1 & H2). inversion H1 as [|l' len' Hl Hl']; subst. repeat split; auto.
      * apply (H2 0%nat). simpl; lia.
      * intros k Hk. apply (H2 (S k)). simpl; lia.
Qed.

Lemma separated_nested m : wf m -> (Forall (fun l => 1 <= l) (im_len m) /\ separated m) <->
  nested (apply 0 (im_so m) (im_len m)) (apply 0 (im_so m) (im_str m)).
Proof.
  intros (Ls & Hp & Lse & Hnn & HR). rewrite nested_iff by now rewrite !apply_length.
  rewrite (Forall_apply _ (length (im_len m))) by auto. unfold separated. cbn zeta. rewrite !in_order_apply, apply_length.
  split; intros [H1 H2]; split; auto; intros k Hk; specialize (H2 k Hk).
  - rewrite <- reach_span; auto. now rewrite !skipn_length, !apply_length.
  - rewrite reach_span; auto. now rewrite !skipn_length, !apply_length.
Qed.

Lemma regular_apply d m : regular d m <->
  apply 0 (im_so m) (im_str m) = map (Z.mul d) (suffix_prods (apply 0 (im_so m) (im_len m))).
Proof.
  unfold regular. rewrite !in_order_apply. split.
  - intros H. apply nth_ext_len with (d := 0).
    + now rewrite map_length, suffix_prods_length, !apply_length.
    + intros i Hi. rewrite apply_length in Hi. rewrite H by auto.
      rewrite (nth_map_lt (Z.mul d) _ i 0 0) by (rewrite suffix_prods_length, apply_length; auto).
      f_equal. symmetry. apply nth_suffix_prods. now rewrite apply_length.
  - intros E k Hk. rewrite E.
    rewrite (nth_map_lt (Z.mul d) _ k 0 0) by (rewrite suffix_prods_length, apply_length; auto).
    f_equal. apply nth_suffix_prods. now rewrite apply_length.
Qed.

Lemma dot_map_mul d a b : dot a (map (Z.mul d) b) = d * dot a b.
Proof. revert b; induction a as [|x a IH]; intros [|y b]; simpl; rewrite ?IH; ring. Qed.

Lemma regular_strided m d idx : wf m -> regular d m -> length idx = length (im_len m) ->
  addr m idx = d * seq_number (im_so m) (im_len m) idx.
Proof.
  intros (Ls & Hp & Lse & Hnn & HR) H Hl. apply regular_apply in H. unfold addr, seq_number.
  rewrite <- (dot_apply (length (im_len m)) (im_so m)) by auto. rewrite H, dot_map_mul, !in_order_apply. f_equal.
  apply dot_suffix_prods. now rewrite !apply_length.
Qed.

Lemma regular_strided_1d m : wf m -> regular (min_stride m) m -> strided_1d_true m.
Proof. intros W H idx Hv. apply regular_strided; auto. now apply in_range_length in Hv. Qed.

Lemma regular_contiguous m : wf m -> regular 1 m -> contiguous_true m.
Proof.
  intros W H idx Hv. rewrite (regular_strided m 1); auto; [ring|]. now apply in_range_length in Hv.
Qed.

Lemma min_stride_apply m : wf m -> min_stride m = nthZ (apply 0 (im_so m) (im_str m)) (rank m - 1).
Proof.
  intros (Ls & Hp & Lse & Hnn & HR). unfold min_stride, rank. pose proof (is_perm_length _ _ Hp) as L.
  rewrite apply_skipn_nth by lia. reflexivity.
Qed.

Lemma fresh_regular so se p junk shape :
  is_order (length shape) so -> length junk = length shape -> regular 1 (idx_map_of_shape so se p junk shape).
Proof.
  intros Hp Lj. apply regular_apply. unfold idx_map_of_shape; cbn [im_len im_str im_so].
  rewrite (compute_strides_in_order (length shape)) by auto.
  rewrite <- (map_id (suffix_prods _)) at 1. apply map_ext. intros; ring.
Qed.

Lemma regular_min_stride m d : wf m -> regular d m -> min_stride m = d.
Proof.
  intros W H. rewrite min_stride_apply by auto. destruct W as (Ls & Hp & Lse & Hnn & HR).
  pose proof (is_perm_length _ _ Hp) as L. unfold rank. specialize (H (length (im_len m) - 1)%nat ltac:(lia)).
  rewrite !in_order_apply in H. unfold nthZ. rewrite H.
  rewrite skipn_all2 by (rewrite apply_length; lia). rewrite prodZ_nil. ring.
Qed.

Lemma fresh_flags so se p junk shape :
  is_order (length shape) so -> length junk = length shape -> length se = length shape ->
  Forall (fun l => 0 <= l) shape -> (0 < length shape < 16)%nat ->
  flags_true (idx_map_of_shape so se p junk shape).
Proof.
  intros Hp Lj Lse Hnn HR. pose proof (fresh_wf so se p junk shape Hp Lj Lse Hnn HR) as W.
  pose proof (fresh_regular so se p junk shape Hp Lj) as Hr. pose proof (regular_min_stride _ _ W Hr) as E.
  split; intros _.
  - rewrite E. exact Hr.
  - exact E.
Qed.

(** ** transpose *)
Lemma compose_as_map p q : compose p q = map (nthN p) q.
Proof.
  unfold compose. apply nth_ext_len with (d := 0%nat).
  - now rewrite !map_length, seq_length.
  - intros i Hi. rewrite map_length, seq_length in Hi. rewrite nth_map_seq by auto.
    now rewrite (nth_map_lt (nthN p) q i 0%nat 0%nat).
Qed.

Lemma apply_compose_inverse {A} (d : A) n p q (l : list A) : is_perm n p -> is_perm n q ->
  apply d (compose p q) (apply_inverse d p l) = apply d q l.
Proof.
  intros Hp Hq. rewrite !apply_as_map, compose_as_map, map_map. apply map_ext_in. intros k Hk.
  apply (nth_apply_inverse d d n); auto. now apply (is_perm_In n q k Hq).
Qed.

Lemma transpose_wf p m : wf m -> is_order (rank m) p -> wf (transpose p m).
Proof.
  intros (Ls & Hp & Lse & Hnn & HR) Ho. unfold wf, transpose, rank in *; cbn [im_len im_str im_so im_se].
  pose proof (is_perm_length _ _ Ho) as Lp. rewrite !apply_inverse_length, Lp. repeat split; try tauto.
  - now apply is_perm_compose.
  - rewrite (apply_inverse_is_apply 0 (length (im_len m))) by auto.
    apply (Forall_apply _ (length (im_len m))); auto. now apply is_perm_inverse.
Qed.

Lemma transpose_order p m : wf m -> is_order (rank m) p ->
  apply 0 (im_so (transpose p m)) (im_len (transpose p m)) = apply 0 (im_so m) (im_len m) /\
  apply 0 (im_so (transpose p m)) (im_str (transpose p m)) = apply 0 (im_so m) (im_str m).
Proof.
  intros (Ls & Hp & Lse & Hnn & HR) Ho. unfold transpose, rank in *; cbn [im_len im_str im_so im_se].
  split; apply (apply_compose_inverse 0 (length (im_len m))); auto.
Qed.

Lemma transpose_addr p m idx : wf m -> is_order (rank m) p -> length idx = rank m ->
  addr (transpose p m) idx = addr m (apply 0 p idx).
Proof.
  intros (Ls & Hp & Lse & Hnn & HR) Ho L. unfold addr, transpose, rank in *; cbn [im_str].
  rewrite <- (dot_apply (length (im_len m)) p idx) by (auto; rewrite apply_inverse_length; now apply is_perm_length).
  now rewrite (apply_apply_inverse 0 (length (im_len m))).
Qed.

Lemma transpose_valid p m idx : wf m -> is_order (rank m) p -> length idx = rank m ->
  (valid_idx (transpose p m) idx <-> valid_idx m (apply 0 p idx)).
Proof.
  intros (Ls & Hp & Lse & Hnn & HR) Ho L. unfold valid_idx, transpose, rank in *; cbn [im_len].
  rewrite <- (in_range_apply_iff (length (im_len m)) p idx) by (auto; rewrite apply_inverse_length; now apply is_perm_length).
  now rewrite (apply_apply_inverse 0 (length (im_len m))).
Qed.

Lemma transpose_regular d p m : wf m -> is_order (rank m) p -> regular d m -> regular d (transpose p m).
Proof.
  intros W Ho H. apply regular_apply. apply regular_apply in H.
  destruct (transpose_order p m W Ho) as [-> ->]. exact H.
Qed.

Lemma transpose_min_stride p m : wf m -> is_order (rank m) p -> min_stride (transpose p m) = min_stride m.
Proof.
  intros W Ho. rewrite !min_stride_apply by auto using transpose_wf.
  destruct (transpose_order p m W Ho) as [_ ->]. unfold rank. f_equal.
  unfold transpose; cbn [im_len]. rewrite apply_inverse_length. f_equal. now apply is_perm_length.
Qed.

Lemma transpose_flags p m : wf m -> is_order (rank m) p -> flags_true m -> flags_true (transpose p m).
Proof.
  intros W Ho [H1 H2]. split; unfold smallest_one_true; rewrite transpose_min_stride by auto; cbn [transpose im_prop].
  - intros Hf. apply transpose_regular; auto.
  - exact H2.
Qed.
