(** Lemmas for P_Mpi. *)
From Verif Require Import Base M_Perm M_IdxMap M_Loops M_Assign M_Expr M_Transform M_Mpi S_Layout S_Assign S_Mpi L_Perm L_IdxMap L_Layout L_Loops L_Assign L_Transform L_SymGrp.

Lemma to_int_id z : 0 <= z < 2147483648 -> to_int z = z.
Proof. intros H. unfold to_int. rewrite Z.mod_small; lia. Qed.

(** ** transfers *)
Lemma transfer_spec {V} (src : mem V) s m d n a : transfer src s m d n a = if (d <=? a) && (a <? d + n) then src (s + (a - d)) else m a.
Proof.
  unfold transfer. destruct (Z.leb_spec d a) as [H1|H1]; [destruct (Z.ltb_spec a (d + n)) as [H2|H2]|]; cbn [andb].
  - pose proof (write_values (zseq n) (fun k => d + k) (fun _ k => src (s + k)) m) as W. specialize (W ltac:(apply FinFun.Injective_map_NoDup; [intros u v; lia|apply zseq_nodup])).
    specialize (W (fun _ _ _ _ _ => eq_refl) (a - d)). rewrite zseq_In in W. replace (d + (a - d)) with a in W by lia. apply W. lia.
  - apply (write_frame (zseq n) (fun k => d + k) (fun _ k => src (s + k))). intros C. apply in_map_iff in C. destruct C as [k [E Hk]]. apply zseq_In in Hk. lia.
  - apply (write_frame (zseq n) (fun k => d + k) (fun _ k => src (s + k))). intros C. apply in_map_iff in C. destruct C as [k [E Hk]]. apply zseq_In in Hk. lia.
Qed.

(** ** sums *)
Lemma sumZ_nonneg l : Forall (fun x => 0 <= x) l -> 0 <= sumZ l.
Proof. induction 1 as [|x l Hx H IH]; [cbv; congruence|]. change (x :: l) with ([x] ++ l). rewrite sumZ_app. cbn. lia. Qed.
Lemma sum_cons x l : sumZ (x :: l) = x + sumZ l.
Proof. change (x :: l) with ([x] ++ l). rewrite sumZ_app. f_equal. cbv [sumZ fold_right]. lia. Qed.
Lemma before_S l r x : nth_error l r = Some x -> before l (S r) = before l r + x.
Proof.
  revert r. induction l as [|y l IH]; intros [|r] E; cbn [nth_error] in E; try discriminate.
  - injection E as ->. unfold before. cbn [firstn]. rewrite sum_cons. cbv [sumZ fold_right]. lia.
  - unfold before in *. cbn [firstn]. rewrite !sum_cons. rewrite <- Z.add_assoc, <- IH by auto. cbn [firstn]. destruct l; reflexivity.
Qed.
Lemma Forall_fst {T} (P : T -> Prop) n l : Forall P l -> Forall P (firstn n l).
Proof. intros H. rewrite <- (firstn_skipn n l) in H. now apply Forall_app in H. Qed.
Lemma Forall_skp {T} (P : T -> Prop) n l : Forall P l -> Forall P (skipn n l).
Proof. intros H. rewrite <- (firstn_skipn n l) in H. now apply Forall_app in H. Qed.
Lemma before_le l r : Forall (fun x => 0 <= x) l -> 0 <= before l r <= sumZ l.
Proof.
  intros H. unfold before. rewrite <- (firstn_skipn r l) at 3. rewrite sumZ_app.
  assert (0 <= sumZ (firstn r l)) by (apply sumZ_nonneg, Forall_fst; auto). assert (0 <= sumZ (skipn r l)) by (apply sumZ_nonneg, Forall_skp; auto). lia.
Qed.
Lemma before_step_le l r x : Forall (fun x => 0 <= x) l -> nth_error l r = Some x -> before l r + x <= sumZ l.
Proof. intros H E. rewrite <- (before_S _ _ _ E). now apply before_le. Qed.
Lemma before_mul l c r : before (map (fun x => x * c) l) r = before l r * c.
Proof.
  unfold before. rewrite firstn_map. induction (firstn r l) as [|x k IH]; [reflexivity|]. cbn [map]. rewrite !sum_cons, IH. ring.
Qed.
Lemma before_full l : before l (length l) = sumZ l.
Proof. unfold before. now rewrite firstn_all. Qed.

Lemma displs_spec counts d : Forall (fun x => 0 <= x) counts -> 0 <= d -> d + sumZ counts < 2147483648 ->
  exists l, displs_from d counts = Some l /\ forall r, (r < length counts)%nat -> nthZ l r = d + before counts r.
Proof.
  intros H. revert d. induction H as [|c counts Hc H IH]; intros d Hd Hb; cbn [displs_from].
  - exists [d]. split; [reflexivity|]. intros r Hr. cbn [length] in Hr. lia.
  - rewrite sum_cons in Hb. pose proof (sumZ_nonneg _ H). unfold add_int.
    assert ((-2147483648 <=? c + d) && (c + d <? 2147483648) = true) as -> by (apply andb_true_iff; rewrite Z.leb_le, Z.ltb_lt; lia).
    destruct (IH (c + d) ltac:(lia) ltac:(lia)) as (l & -> & Hl). exists (d :: l). split; [reflexivity|]. intros [|r] Hr.
    + unfold nthZ, before. cbn [nth firstn]. cbv [sumZ fold_right]. lia.
    + unfold nthZ in *. cbn [nth]. cbn [length] in Hr. rewrite Hl by lia. unfold before. cbn [firstn]. rewrite sum_cons. lia.
Qed.

(** ** chunks *)
Lemma chunk_nonneg N n r : 0 <= N -> (0 < n)%nat -> 0 <= chunk_length N n r.
Proof. intros HN Hn. unfold chunk_length. assert (0 <= N / Z.of_nat n) by (apply Z.div_pos; lia). destruct (_ <? _); lia. Qed.
Lemma chunks_before N n r : 0 <= N -> (0 < n)%nat -> (r <= n)%nat -> before (chunks N n) r = Z.of_nat r * (N / Z.of_nat n) + Z.min (Z.of_nat r) (N mod Z.of_nat n).
Proof.
  intros HN Hn. pose proof (Z.mod_pos_bound N (Z.of_nat n) ltac:(lia)) as Hm. induction r as [|r IH]; intros Hr.
  - unfold before. cbn [firstn]. cbv [sumZ fold_right]. lia.
  - assert (E : nth_error (chunks N n) r = Some (chunk_length N n r)).
    { unfold chunks. rewrite nth_error_map. rewrite (nth_error_nth' _ 0%nat) by (rewrite seq_length; lia). rewrite seq_nth by lia. reflexivity. }
    rewrite (before_S _ _ _ E), IH by lia. unfold chunk_length. destruct (Z.ltb_spec (Z.of_nat r) (N mod Z.of_nat n)); nia.
Qed.
Lemma chunks_nth N n r : (r < n)%nat -> nth_error (chunks N n) r = Some (chunk_length N n r).
Proof. intros Hr. unfold chunks. rewrite nth_error_map. rewrite (nth_error_nth' _ 0%nat) by (rewrite seq_length; lia). rewrite seq_nth by lia. reflexivity. Qed.
Lemma chunks_length N n : length (chunks N n) = n.
Proof. unfold chunks. now rewrite map_length, seq_length. Qed.
Lemma chunks_sum N n : 0 <= N -> (0 < n)%nat -> sumZ (chunks N n) = N.
Proof.
  intros HN Hn. rewrite <- before_full, chunks_length. rewrite chunks_before by lia. pose proof (Z.mod_pos_bound N (Z.of_nat n) ltac:(lia)).
  rewrite Z.min_r by lia. pose proof (Z.div_mod N (Z.of_nat n) ltac:(lia)). lia.
Qed.
Lemma chunks_nonneg N n : 0 <= N -> (0 < n)%nat -> Forall (fun x => 0 <= x) (chunks N n).
Proof. intros HN Hn. unfold chunks. apply Forall_map, Forall_forall. intros r _. now apply chunk_nonneg. Qed.

(** ** all processes *)
Lemma ranks_spec {A B} (f : nat -> A -> option B) (Q : nat -> A -> B -> Prop) ps :
  (forall r p, nth_error ps r = Some p -> exists b, f r p = Some b /\ Q r p b) ->
  exists res, ranks f ps = Some res /\ length res = length ps /\ forall r p, nth_error ps r = Some p -> exists b, nth_error res r = Some b /\ Q r p b.
Proof.
  unfold ranks.
  assert (G : forall k, (forall r p, nth_error ps r = Some p -> exists b, f (k + r)%nat p = Some b /\ Q (k + r)%nat p b) ->
    exists res, all_some (map (fun rp => f (fst rp) (snd rp)) (combine (seq k (length ps)) ps)) = Some res /\ length res = length ps /\
      forall r p, nth_error ps r = Some p -> exists b, nth_error res r = Some b /\ Q (k + r)%nat p b).
  { induction ps as [|p ps IH]; intros k H; cbn [length seq combine map all_some].
    - exists []. split; [reflexivity|]. split; [reflexivity|]. intros [|r] p E; discriminate E.
    - cbn [fst snd]. destruct (H 0%nat p eq_refl) as (b & Eb & Qb). rewrite Nat.add_0_r in *. rewrite Eb.
      destruct (IH (S k)) as (res & Er & Lr & Hr). { intros r q Eq. destruct (H (S r) q Eq) as (b' & E1 & E2). rewrite Nat.add_succ_r in *. eauto. }
      rewrite Er. exists (b :: res). split; [reflexivity|]. split; [cbn [length]; lia|]. intros [|r] q Eq; cbn [nth_error] in *.
      + injection Eq as <-. rewrite Nat.add_0_r. eauto.
      + destruct (Hr r q Eq) as (b' & E1 & E2). rewrite Nat.add_succ_r. eauto. }
  intros H. destruct (G 0%nat) as (res & E1 & E2 & E3); eauto.
Qed.

(** ** plain arrays *)
Lemma plain_wf v so shape : plain v so shape -> wf (v_lay v).
Proof. intros ((n & off & Hv) & _). eapply view_wf; eauto. Qed.
Lemma plain_shape v so shape : plain v so shape -> Forall (fun l => 0 <= l) shape /\ is_order (length shape) so /\ (0 < length shape < 16)%nat.
Proof. intros P. pose proof (plain_wf _ _ _ P) as (A & B & C & D & E). destruct P as (_ & L & S & _). rewrite L, S in *. auto. Qed.
Lemma plain_cell v so shape idx : plain v so shape -> in_range idx shape -> cell v idx = v_base v + seq_number so shape idx.
Proof.
  intros P Hi. pose proof P as ((n & off & Hv) & L & S & C). pose proof (contiguous_answer _ _ _ Hv C idx) as A. unfold valid_idx in A.
  rewrite L, S in A. unfold cell. now rewrite A.
Qed.
Lemma plain_size v so shape : plain v so shape -> size (v_lay v) = prodZ shape.
Proof. intros (_ & L & _). now rewrite size_prodZ, L. Qed.
Lemma plain_cells v so shape a : plain v so shape -> is_cell_of v a <-> v_base v <= a < v_base v + prodZ shape.
Proof.
  intros P. pose proof (plain_wf _ _ _ P) as W. pose proof P as (_ & L & S & _). split.
  - intros (idx & Hi & ->). unfold in_view, valid_idx in Hi. pose proof (seq_number_bound _ _ W Hi) as B. rewrite L, S in *. rewrite (plain_cell _ _ _ _ P Hi). lia.
  - intros Ha. destruct (order_nth_valid (v_lay v) (a - v_base v) W) as [Hv E]. { rewrite (plain_size _ _ _ P). lia. }
    exists (order_nth (v_lay v) (a - v_base v)). split; [exact Hv|]. unfold valid_idx in Hv. rewrite L, S in *. rewrite (plain_cell _ _ _ _ P Hv). lia.
Qed.
Lemma new_plain so b shape : is_order (length shape) so -> Forall (fun l => 0 <= l) shape -> (0 < length shape < 16)%nat -> plain (new_array so b shape) so shape.
Proof.
  intros Ho Hs HR. assert (Hv : view_of (fun s => 0 < s) (prodZ shape) 0 (v_lay (new_array so b shape))) by (apply vo_fresh; auto; apply repeat_length).
  split; [eauto|]. split; [reflexivity|]. split; [reflexivity|].
  apply is_contiguous_complete; [eapply view_wf; eauto|]. pose proof (view_flags _ _ _ _ Hv) as [F1 F2]. specialize (F1 eq_refl). specialize (F2 eq_refl).
  unfold smallest_one_true in F2. now rewrite F2 in F1.
Qed.
Lemma resize_plain t so shape : fit_target t so shape -> (exists v, plain v so shape) -> exists tv, resize_or_check t shape = Some tv /\ plain tv so shape.
Proof.
  intros F [w Pw]. unfold resize_or_check. destruct (list_eq_dec Z.eq_dec _ shape) as [E|NE].
  - exists (tgt_view t). split; [reflexivity|]. destruct t as [v nb|v]; cbn [fit_target tgt_view] in *; [|exact F]. destruct F as [old (A & B & C & D)].
    split; auto.
  - destruct t as [v nb|v]; cbn [fit_target tgt_view] in *.
    + destruct F as [old (A & B & C & D)]. unfold resized. rewrite C. eexists. split; [reflexivity|]. destruct (plain_shape _ _ _ Pw) as (X & Y & Z). now apply new_plain.
    + destruct F as (_ & L & _). contradiction.
Qed.
Lemma fit_contiguous t so shape : fit_target t so shape -> is_contiguous (v_lay (tgt_view t)) = true.
Proof. destruct t as [v nb|v]; cbn [fit_target tgt_view]; [intros [old P]|intros P]; apply P. Qed.
Lemma fit_so t so shape : fit_target t so shape -> exists sh, plain (tgt_view t) so sh.
Proof. destruct t as [v nb|v]; cbn [fit_target tgt_view]; eauto. Qed.

(** ** slabs *)
Definition inner (so : list nat) (rest j : list Z) : Z := radix (map (fun k => nthZ rest (k - 1)) (tl so)) (map (fun k => nthZ j (k - 1)) (tl so)).
Lemma slab_number so N rest i j : is_order (length (N :: rest)) so -> first_slowest so -> in_range (i :: j) (N :: rest) ->
  seq_number so (N :: rest) (i :: j) = i * prodZ rest + inner so rest j /\ 0 <= inner so rest j < prodZ rest.
Proof.
  intros Ho Hf Hi. destruct so as [|k so]. { apply Permutation_length in Ho. rewrite seq_length in Ho. discriminate. }
  unfold first_slowest in Hf. cbn [nth] in Hf. subst k. unfold seq_number, inner, in_order. cbn [map tl radix length] in *. replace (nth 0 (i :: j) 0) with i by reflexivity.
  assert (Hk : Permutation so (seq 1 (length rest))). { cbn [seq] in Ho. now apply Permutation_cons_inv in Ho. }
  assert (H1 : forall k, In k so -> (1 <= k <= length rest)%nat). { intros k Hk'. assert (In k (seq 1 (length rest))) by (eapply Permutation_in; eauto). apply in_seq in H. lia. }
  assert (E : forall (x : Z) l, map (fun k => nth k (x :: l) 0) so = map (fun k => nthZ l (k - 1)) so).
  { intros x l. apply map_ext_in. intros k Hk'. specialize (H1 k Hk'). destruct k as [|k]; [lia|]. cbn [nth]. unfold nthZ. now rewrite Nat.sub_succ, Nat.sub_0_r. }
  rewrite !E. assert (P : prodZ (map (fun k => nthZ rest (k - 1)) so) = prodZ rest).
  { apply prodZ_perm. etransitivity; [apply Permutation_map; exact Hk|]. rewrite <- seq_shift, map_map. cbn [Nat.sub].
    rewrite (map_ext _ (fun k => nth k rest 0)) by (intros k; unfold nthZ; now rewrite Nat.sub_0_r). now rewrite map_seq_nth. }
  rewrite P. split; [reflexivity|]. rewrite <- P. apply radix_bound. unfold in_range in *. inversion Hi as [|? ? ? ? _ Hj]; subst.
  pose proof (in_range_length _ _ Hj) as L. clear -H1 Hj L. induction so as [|k so IH]; cbn [map]; constructor.
  - specialize (H1 k (or_introl eq_refl)). assert (G : forall a b n, Forall2 inr a b -> (n < length b)%nat -> inr (nthZ a n) (nthZ b n)).
    { clear. intros a b n F. revert n. induction F as [|x y a b Hxy F IH]; intros n Hn; cbn [length] in Hn; [lia|]. destruct n; [exact Hxy|]. apply IH. lia. }
    apply G; auto. lia.
  - apply IH. intros k' Hk'. apply H1. now right.
Qed.

Lemma slab_stride v so N rest : plain v so (N :: rest) -> first_slowest so -> prodZ (N :: rest) <> 0 -> nthZ (im_str (v_lay v)) 0 = prodZ rest.
Proof.
  intros P Hf Hp. pose proof (plain_wf _ _ _ P) as (Ls & Ho & _ & Hnn & _). pose proof P as ((n & off & Hv) & L & S & C).
  assert (Hpos : Forall (fun s => 0 < s) (N :: rest)). { rewrite L in Hnn. apply prodZ_pos_Forall; auto. pose proof (prodZ_nonneg _ Hnn). lia. }
  assert (Hge : Forall (fun l => 1 <= l) (im_len (v_lay v))). { rewrite L. eapply Forall_impl; [|exact Hpos]. cbv beta. lia. }
  pose proof (view_nested _ _ _ _ Hv Hge) as Hn. pose proof (view_positive _ _ _ Hv Hge) as Hs. unfold nestedm in Hn.
  unfold is_contiguous in C. rewrite size_prodZ, L in C. destruct (Z.eqb_spec (prodZ (N :: rest)) 0) as [|_]; [contradiction|]. apply Z.eqb_eq in C.
  rewrite L in Ls. cbn [length] in Ls.
  assert (M : nthZ (im_str (v_lay v)) 0 * N <= prodZ (N :: rest)).
  { rewrite <- C. apply max_element_ge. apply arr_mul_In; [now rewrite Ls|]. exists 0%nat. split; [lia|reflexivity]. }
  rewrite S, L in Hn, Ho. destruct so as [|k so]. { apply Permutation_length in Ho. rewrite seq_length in Ho. discriminate. }
  unfold first_slowest in Hf. cbn [nth] in Hf. subst k. rewrite <- !in_order_apply in Hn. unfold in_order in Hn. cbn [map nested] in Hn. destruct Hn as (A1 & A2 & A3). replace (nth 0 (N :: rest) 0) with N in * by reflexivity.
  assert (Pr : prodZ (map (fun k => nth k (N :: rest) 0) so) = prodZ rest).
  { apply prodZ_perm. cbn [length seq] in Ho. apply Permutation_cons_inv in Ho. etransitivity; [apply Permutation_map; exact Ho|].
    rewrite <- seq_shift, map_map. cbn [nth]. now rewrite map_seq_nth. }
  pose proof (span_ge_prod _ _ A3) as SP.
  assert (Fs : Forall (fun s => 0 < s) (map (fun k => nth k (im_str (v_lay v)) 0) so)).
  { apply Forall_map, Forall_forall. intros k Hk. rewrite Forall_forall in Hs. apply Hs, nth_In. rewrite Ls.
    assert (In k (seq 0 (length (N :: rest)))) as Q by (eapply Permutation_in; [exact Ho|now right]). apply in_seq in Q. cbn [length] in Q. lia. }
  specialize (SP Fs). rewrite Pr in SP. inversion Hpos as [|x l HN _]; subst. rewrite prodZ_cons in M.
  assert (0 < nthZ (im_str (v_lay v)) 0). { rewrite Forall_forall in Hs. apply Hs. unfold nthZ. apply nth_In. lia. }
  unfold nthZ in *. rewrite Z.abs_eq in * by lia. nia.
Qed.
