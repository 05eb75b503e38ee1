(** C36, C37: MPI scatter, gather, reduce, broadcast. *)
From Verif Require Import Base M_Perm M_IdxMap M_Slice M_Loops M_Assign M_Expr M_Transform M_Mpi S_Layout S_Assign S_Mpi L_Perm L_IdxMap L_Layout L_Loops L_Assign L_Transform L_SymGrp L_Mpi L_Mpi2.

(** The chunks partition [0, N) in rank order, with lengths differing by at most one, the longer ones first. *)
Theorem C36_chunks : forall N n, 0 <= N -> (0 < n)%nat ->
  sumZ (chunks N n) = N /\ length (chunks N n) = n /\
  (forall r q, (r < q < n)%nat -> chunk_length N n q <= chunk_length N n r <= chunk_length N n q + 1) /\ (forall r, 0 <= chunk_length N n r).
Proof.
  intros N n HN Hn. split; [now apply chunks_sum|]. split; [apply chunks_length|]. split; [|intros r; now apply chunk_nonneg].
  intros r q H. unfold chunk_length. destruct (Z.ltb_spec (Z.of_nat r) (N mod Z.of_nat n)), (Z.ltb_spec (Z.of_nat q) (N mod Z.of_nat n)); lia.
Qed.
Print Assumptions C36_chunks.

Section Scatter.
Context {V : Type}.
Variables (root : nat) (ps : list (proc V)) (so : list nat) (N : Z) (rest : list Z).
Hypothesis Hso : first_slowest so.
Hypothesis Hne : 0 < prodZ rest \/ N = 0.
Hypothesis Hsz : N * prodZ rest < 2147483648.
Hypothesis Hps : Forall (fun p => plain (p_rhs p) so (N :: rest)) ps.
Hypothesis Hroot : (root < length ps)%nat.
Notation n := (length ps).
Notation P := (prodZ rest).

Lemma ps_plain r p : nth_error ps r = Some p -> plain (p_rhs p) so (N :: rest).
Proof using Hps. intros E. rewrite Forall_forall in Hps. apply Hps. eapply nth_error_In; eauto. Qed.
Lemma sc_shape : 0 <= N /\ Forall (fun l => 0 <= l) rest /\ is_order (length (N :: rest)) so /\ (0 < length (N :: rest) < 16)%nat.
Proof using Hps Hroot.
  destruct ps as [|p l]; [cbn [length] in Hroot; lia|]. inversion Hps as [|? ? Hp _]; subst. destruct (plain_shape _ _ _ Hp) as (A & B & C). inversion A; subst. auto.
Qed.
Lemma sc_P : 0 <= P.
Proof using Hps Hroot. apply prodZ_nonneg. apply sc_shape. Qed.
Lemma sc_count r p : nth_error ps r = Some p -> forall q, (q < n)%nat -> scatter_count n q p = chunk_length N n q * P.
Proof using Hso Hne Hsz Hps Hroot.
  intros E q Hq. pose proof (ps_plain _ _ E) as Pl. destruct sc_shape as (HN & _ & _ & _). pose proof sc_P as HP.
  pose proof (before_step_le _ _ _ (chunks_nonneg N n HN ltac:(lia)) (chunks_nth N n q Hq)) as B. rewrite chunks_sum in B by lia.
  pose proof (before_le (chunks N n) q (chunks_nonneg N n HN ltac:(lia))). pose proof (chunk_nonneg N n q HN ltac:(lia)).
  unfold scatter_count. pose proof Pl as (_ & L & _). rewrite L. replace (nthZ (N :: rest) 0) with N by reflexivity.
  assert (Es : chunk_length N n q * nthZ (im_str (v_lay (p_rhs p))) 0 = chunk_length N n q * P).
  { destruct (Z.eq_dec N 0) as [->|Nz]; [assert (chunk_length 0 n q = 0) as -> by lia; reflexivity|]. f_equal. eapply slab_stride; eauto. rewrite prodZ_cons. nia. }
  rewrite Es. apply to_int_id. nia.
Qed.
Lemma sc_counts r p : nth_error ps r = Some p -> scatter_counts n p = map (fun c => c * P) (chunks N n).
Proof using Hso Hne Hsz Hps Hroot.
  intros E. unfold scatter_counts, chunks. rewrite map_map. apply map_ext_in. intros q Hq. apply in_seq in Hq. eapply sc_count; eauto. lia.
Qed.
Lemma sc_displs r p : nth_error ps r = Some p -> exists l, displs_from 0 (scatter_counts n p) = Some l /\ forall q, (q < n)%nat -> nthZ l q = before (chunks N n) q * P.
Proof using Hso Hne Hsz Hps Hroot.
  intros E. rewrite (sc_counts _ _ E). destruct sc_shape as (HN & _). pose proof sc_P as HP.
  destruct (displs_spec (map (fun c => c * P) (chunks N n)) 0) as (l & El & Hl); [| lia | |].
  - apply Forall_map. eapply Forall_impl; [|apply chunks_nonneg; [exact HN|lia]]. cbv beta. nia.
  - rewrite <- before_full, before_mul, map_length, before_full, chunks_sum by lia. lia.
  - exists l. split; [exact El|]. intros q Hq. rewrite Hl by (rewrite map_length, chunks_length; lia). rewrite before_mul. lia.
Qed.
End Scatter.

(** scatter: process r gets the slabs [start, start + length) of the array of the root, start being the number of slabs of the ranks before r; nothing else changes. *)
Theorem C36_scatter : forall V root (ps : list (proc V)) so N rest proot,
  first_slowest so -> (0 < prodZ rest \/ N = 0) -> N * prodZ rest < 2147483648 -> Forall (fun p => plain (p_rhs p) so (N :: rest)) ps ->
  nth_error ps root = Some proot ->
  (forall r p, nth_error ps r = Some p -> fit_target (p_tgt p) so (chunk_length N (length ps) r :: rest)) ->
  (forall tv, resize_or_check (p_tgt proot) (chunk_length N (length ps) root :: rest) = Some tv -> disjoint (p_rhs proot) tv) ->
  exists res, scatter root ps = Some res /\ length res = length ps /\
    forall r p, nth_error ps r = Some p -> exists m' tv, nth_error res r = Some (m', tv) /\ plain tv so (chunk_length N (length ps) r :: rest) /\
      unchanged_outside tv (p_mem p) m' /\
      forall i j, in_view tv (i :: j) -> in_view (p_rhs proot) (before (chunks N (length ps)) r + i :: j) /\
        m' (cell tv (i :: j)) = p_mem proot (cell (p_rhs proot) (before (chunks N (length ps)) r + i :: j)).
Proof.
  intros V root ps so N rest proot Hso Hne Hsz Hps Er Ht Hd. set (n := length ps) in *.
  assert (Hroot : (root < length ps)%nat) by (apply nth_error_Some; congruence).
  pose proof (sc_shape root ps so N rest Hps Hroot) as (HN & Hrest & Ho & HR). pose proof (sc_P root ps so N rest Hps Hroot) as HP.
  destruct (sc_displs root ps so N rest Hso Hne Hsz Hps Hroot root proot Er) as (dl & Edl & Hdl).
  unfold scatter. rewrite Er, Edl.
  destruct (ranks_spec (scatter_rank (length ps) root proot dl) (fun r p b => plain (snd b) so (chunk_length N n r :: rest) /\ unchanged_outside (snd b) (p_mem p) (fst b) /\
      forall i j, in_view (snd b) (i :: j) -> in_view (p_rhs proot) (before (chunks N n) r + i :: j) /\
        (fst b) (cell (snd b) (i :: j)) = p_mem proot (cell (p_rhs proot) (before (chunks N n) r + i :: j))) ps) as (res & E1 & E2 & E3).
  2:{ exists res. split; [exact E1|]. split; [exact E2|]. intros r p Hr. destruct (E3 r p Hr) as ([m' tv] & A & B). exists m', tv. auto. }
  intros r p Hr. assert (Hrn : (r < n)%nat) by (apply nth_error_Some; congruence).
  pose proof (ps_plain ps so N rest Hps r p Hr) as Pl. pose proof (ps_plain ps so N rest Hps root proot Er) as Plr.
  pose proof (chunk_nonneg N n r HN ltac:(lia)) as Hc.
  pose proof (before_step_le _ _ _ (chunks_nonneg N n HN ltac:(lia)) (chunks_nth N n r Hrn)) as Hb. rewrite chunks_sum in Hb by lia.
  pose proof (before_le (chunks N n) r (chunks_nonneg N n HN ltac:(lia))) as Hb0.
  unfold scatter_rank, contiguous_args. replace (is_contiguous (v_lay (p_rhs p))) with true by (symmetry; apply Pl). rewrite (fit_contiguous _ _ _ (Ht r p Hr)). cbn [andb].
  assert (Es : scatter_shape (length ps) r (nthZ (im_len (v_lay (p_rhs proot))) 0) p = chunk_length N n r :: rest).
  { unfold scatter_shape. destruct Pl as (_ & -> & _). destruct Plr as (_ & -> & _). reflexivity. }
  rewrite Es.
  destruct (resize_plain _ _ _ (Ht r p Hr)) as (tv & Etv & Ptv).
  { exists (new_array so 0 (chunk_length N n r :: rest)). apply new_plain; auto. }
  rewrite Etv. destruct (sc_displs root ps so N rest Hso Hne Hsz Hps Hroot r p Hr) as (dl' & -> & _). cbv zeta.
  rewrite (sc_count root ps so N rest Hso Hne Hsz Hps Hroot r p Hr r Hrn).
  assert (Esc : nthZ (scatter_counts (length ps) proot) r = chunk_length N n r * prodZ rest).
  { rewrite (sc_counts root ps so N rest Hso Hne Hsz Hps Hroot root proot Er). apply nth_error_nth. rewrite nth_error_map. fold n. now rewrite chunks_nth. }
  rewrite Esc, Z.eqb_refl. fold n. assert ((0 <=? chunk_length N n r * prodZ rest) = true) as -> by (apply Z.leb_le; nia). cbn [andb].
  rewrite Hdl by auto. fold n.
  set (from := v_base (p_rhs proot) + before (chunks N n) r * prodZ rest). set (k := chunk_length N n r * prodZ rest).
  assert (Pk : prodZ (chunk_length N n r :: rest) = k) by apply prodZ_cons.
  assert (Ap : negb (r =? root)%nat || apart from k (v_base tv) k = true).
  { destruct (Nat.eqb_spec r root) as [->|_]; [|reflexivity]. cbn [negb orb]. rewrite Er in Hr. injection Hr as <-. specialize (Hd tv Etv).
    destruct (apart from k (v_base tv) k) eqn:Ea; [reflexivity|]. exfalso. unfold apart in Ea. rewrite !orb_false_iff, !Z.leb_gt in Ea.
    apply (Hd (Z.max from (v_base tv))).
    - apply (plain_cells _ _ _ _ Plr). rewrite prodZ_cons. assert (before (chunks N n) root * prodZ rest + k <= N * prodZ rest) by (unfold k; nia).
      assert (0 <= before (chunks N n) root * prodZ rest) by nia. unfold from in *. lia.
    - apply (plain_cells _ _ _ _ Ptv). rewrite Pk. lia. }
  rewrite Ap. eexists. split; [reflexivity|]. cbn [fst snd]. split; [exact Ptv|]. split.
  - intros a Ha. rewrite transfer_spec. rewrite (plain_cells _ _ _ _ Ptv), Pk in Ha.
    destruct (Z.leb_spec (v_base tv) a), (Z.ltb_spec a (v_base tv + k)); cbn [andb]; auto. exfalso. lia.
  - intros i j Hij. unfold in_view, valid_idx in Hij. pose proof Ptv as (_ & Lt & _). rewrite Lt in Hij.
    inversion Hij as [|? ? ? ? Hi Hj]; subst. unfold inr in Hi.
    assert (Hij' : in_range (before (chunks N n) r + i :: j) (N :: rest)) by (constructor; auto; unfold inr; lia).
    split. { unfold in_view, valid_idx. destruct Plr as (_ & -> & _). exact Hij'. }
    rewrite (plain_cell _ _ _ _ Ptv Hij), (plain_cell _ _ _ _ Plr Hij'), transfer_spec.
    destruct (slab_number so (chunk_length N n r) rest i j Ho Hso Hij) as [-> B1]. destruct (slab_number so N rest _ j Ho Hso Hij') as [-> _].
    assert ((v_base tv <=? v_base tv + (i * prodZ rest + inner so rest j)) && (v_base tv + (i * prodZ rest + inner so rest j) <? v_base tv + k) = true) as ->.
    { apply andb_true_iff. rewrite Z.leb_le, Z.ltb_lt. unfold k. nia. }
    f_equal. unfold from. ring.
Qed.
Print Assumptions C36_scatter.

(** ** gather *)
Lemma gatherv_spec {V} (ps : list (proc V)) counts displs m d : length counts = length ps -> Forall (fun c => 0 <= c) counts ->
  (forall q, (q < length counts)%nat -> nthZ displs q = before counts q) ->
  (forall q p x, nth_error ps q = Some p -> 0 <= x < nthZ counts q -> gatherv ps counts displs m d (d + before counts q + x) = p_mem p (v_base (p_rhs p) + x)) /\
  (forall a, ~ (d <= a < d + sumZ counts) -> gatherv ps counts displs m d a = m a).
Proof.
  intros L Hc Hd. unfold gatherv. set (step := fun (m : mem V) q => _).
  assert (G : forall k, (k <= length ps)%nat -> let m' := fold_left step (seq 0 k) m in
     (forall q p x, (q < k)%nat -> nth_error ps q = Some p -> 0 <= x < nthZ counts q -> m' (d + before counts q + x) = p_mem p (v_base (p_rhs p) + x)) /\
     (forall a, ~ (d <= a < d + before counts k) -> m' a = m a)).
  { induction k as [|k IH]; intros Hk.
    - cbn. split; [intros; lia|]. auto.
    - rewrite seq_S, fold_left_app. cbn [fold_left Nat.add]. specialize (IH ltac:(lia)). destruct IH as [I1 I2]. set (m1 := fold_left step (seq 0 k) m) in *.
      destruct (nth_error ps k) as [pk|] eqn:Ek; [|apply nth_error_None in Ek; lia].
      assert (Ec : nth_error counts k = Some (nthZ counts k)) by (apply nth_error_nth'; lia).
      rewrite (before_S _ _ _ Ec). pose proof (before_le counts k Hc) as Bk.
      assert (Ck : 0 <= nthZ counts k). { rewrite Forall_forall in Hc. apply Hc. eapply nth_error_In; eauto. }
      unfold step at 1 2. rewrite Ek, Hd by lia. cbv zeta. split.
      + intros q p x Hq Ep Hx. rewrite transfer_spec. destruct (Nat.eq_dec q k) as [->|Nq].
        * rewrite Ek in Ep. injection Ep as <-.
          assert ((d + before counts k <=? d + before counts k + x) && (d + before counts k + x <? d + before counts k + nthZ counts k) = true) as ->.
          { apply andb_true_iff. rewrite Z.leb_le, Z.ltb_lt. lia. }
          f_equal. ring.
        * assert (Hb : before counts q + nthZ counts q <= before counts k).
          { assert (Eq : nth_error counts q = Some (nthZ counts q)) by (apply nth_error_nth'; lia). rewrite <- (before_S _ _ _ Eq).
            assert (M : forall a b, (a <= b)%nat -> before counts a <= before counts b).
            { intros a b Hab. unfold before. replace (firstn a counts) with (firstn a (firstn b counts)) by (rewrite firstn_firstn; f_equal; lia).
              apply (before_le (firstn b counts) a). now apply Forall_fst. }
            apply M. lia. }
          destruct (Z.leb_spec (d + before counts k) (d + before counts q + x)) as [C|C]; [lia|]. cbn [andb]. apply I1; auto. lia.
      + intros a Ha. rewrite transfer_spec. destruct (Z.leb_spec (d + before counts k) a), (Z.ltb_spec a (d + before counts k + nthZ counts k)); cbn [andb]; try (apply I2; lia). lia. }
  destruct (G (length ps) (le_n _)) as [G1 G2]. split.
  - intros q p x Ep Hx. apply G1; auto. apply nth_error_Some. congruence.
  - intros a Ha. apply G2. rewrite <- L, before_full. exact Ha.
Qed.

(** gather: the target of the root (of every process for all_gather) is the concatenation of all arrays along the first dimension in rank order;
    the other targets are left alone. *)
Theorem C36_gather : forall V all root (ps : list (proc V)) so Ns rest,
  first_slowest so -> sumZ Ns * prodZ rest < 2147483648 -> Forall2 (fun N p => plain (p_rhs p) so (N :: rest)) Ns ps -> (root < length ps)%nat ->
  (forall r p, nth_error ps r = Some p -> all = true \/ r = root ->
     fit_target (p_tgt p) so (sumZ Ns :: rest) /\ forall tv, resize_or_check (p_tgt p) (sumZ Ns :: rest) = Some tv -> disjoint (p_rhs p) tv) ->
  (forall p, In p ps -> exists sh, fit_target (p_tgt p) so sh) ->
  exists res, gather all root ps = Some res /\ length res = length ps /\
    forall r p, nth_error ps r = Some p -> exists m' tv, nth_error res r = Some (m', tv) /\
      (if all || (r =? root)%nat
       then plain tv so (sumZ Ns :: rest) /\ unchanged_outside tv (p_mem p) m' /\
         forall q pq N i j, nth_error ps q = Some pq -> nth_error Ns q = Some N -> in_view (p_rhs pq) (i :: j) ->
           in_view tv (before Ns q + i :: j) /\ m' (cell tv (before Ns q + i :: j)) = p_mem pq (cell (p_rhs pq) (i :: j))
       else m' = p_mem p /\ tv = tgt_view (p_tgt p)).
Proof.
  intros V all root ps so Ns rest Hso Hsz Hps Hroot Ht Hc.
  assert (LN : length Ns = length ps) by (clear -Hps; induction Hps; cbn [length]; auto).
  assert (Hat : forall q p N, nth_error ps q = Some p -> nth_error Ns q = Some N -> plain (p_rhs p) so (N :: rest)).
  { clear -Hps. induction Hps as [|N p Ns ps Hp F IH]; intros [|q] p' N' E1 E2; cbn [nth_error] in *; try discriminate; [congruence|eauto]. }
  assert (HN : Forall (fun x => 0 <= x) Ns).
  { clear -Hps. induction Hps as [|N p Ns ps Hp F IH]; constructor; auto. destruct (plain_shape _ _ _ Hp) as (A & _). now inversion A. }
  destruct (nth_error ps 0) as [p0|] eqn:E0; [|apply nth_error_None in E0; lia].
  destruct (nth_error Ns 0) as [N0|] eqn:EN0; [|apply nth_error_None in EN0; lia].
  destruct (plain_shape _ _ _ (Hat _ _ _ E0 EN0)) as (Sh & Ho & HR). inversion Sh as [|? ? H0 Hrest]; subst. pose proof (prodZ_nonneg _ Hrest) as HP.
  pose proof (sumZ_nonneg _ HN) as HT.
  assert (Cn : map gather_count ps = map (fun N => N * prodZ rest) Ns).
  { clear -Hps HN HP Hsz HT. assert (Hb : forall N, In N Ns -> N * prodZ rest < 2147483648).
    { intros N Hin. apply In_nth_error in Hin. destruct Hin as [q Eq]. pose proof (before_step_le _ _ _ HN Eq). pose proof (before_le Ns q HN). nia. }
    clear HT Hsz. induction Hps as [|N p Ns ps Hp F IH]; cbn [map]; [reflexivity|]. inversion HN; subst. f_equal.
    - unfold gather_count. rewrite (plain_size _ _ _ Hp), prodZ_cons. apply to_int_id. specialize (Hb N (or_introl eq_refl)). nia.
    - apply IH; auto. intros N' Hin. apply Hb. now right. }
  assert (Sn : map slow_size ps = Ns).
  { clear -Hps. induction Hps as [|N p Ns ps Hp F IH]; cbn [map]; [reflexivity|]. f_equal; auto. unfold slow_size. destruct Hp as (_ & -> & _). reflexivity. }
  set (counts := map (fun N => N * prodZ rest) Ns) in *.
  assert (Hcn : Forall (fun c => 0 <= c) counts) by (unfold counts; apply Forall_map; eapply Forall_impl; [|exact HN]; cbv beta; nia).
  assert (Bc : forall q, before counts q = before Ns q * prodZ rest) by (intros q; apply before_mul).
  assert (Sc : sumZ counts = sumZ Ns * prodZ rest). { rewrite <- before_full, Bc. unfold counts. now rewrite map_length, before_full. }
  unfold gather. assert ((root <? length ps)%nat = true) as -> by now apply Nat.ltb_lt.
  destruct (ranks_spec (gather_rank all root ps) (fun r p b => if all || (r =? root)%nat
       then plain (snd b) so (sumZ Ns :: rest) /\ unchanged_outside (snd b) (p_mem p) (fst b) /\
         forall q pq N i j, nth_error ps q = Some pq -> nth_error Ns q = Some N -> in_view (p_rhs pq) (i :: j) ->
           in_view (snd b) (before Ns q + i :: j) /\ (fst b) (cell (snd b) (before Ns q + i :: j)) = p_mem pq (cell (p_rhs pq) (i :: j))
       else fst b = p_mem p /\ snd b = tgt_view (p_tgt p)) ps) as (res & E1 & E2 & E3).
  2:{ exists res. split; [exact E1|]. split; [exact E2|]. intros r p Hr. destruct (E3 r p Hr) as ([m' tv] & A & B). exists m', tv. auto. }
  intros r p Er. unfold gather_rank, contiguous_args.
  destruct (nth_error Ns r) as [N|] eqn:EN. 2:{ apply nth_error_None in EN. assert (r < length ps)%nat by (apply nth_error_Some; congruence). lia. }
  pose proof (Hat _ _ _ Er EN) as Pl. replace (is_contiguous (v_lay (p_rhs p))) with true by (symmetry; apply Pl).
  destruct (Hc p (nth_error_In _ _ Er)) as [sh Hsh]. rewrite (fit_contiguous _ _ _ Hsh). cbn [andb].
  destruct (all || (r =? root)%nat) eqn:Ea; [|eexists; split; [reflexivity|]; auto].
  assert (Hrec : all = true \/ r = root). { apply orb_true_iff in Ea. destruct Ea as [Ea|Ea]; [auto|right; now apply Nat.eqb_eq]. }
  destruct (Ht r p Er Hrec) as [Hf Hd].
  assert (Es : gather_shape all root r (sumZ (map slow_size ps)) p = sumZ Ns :: rest).
  { unfold gather_shape. rewrite Sn. assert (negb all && negb (r =? root)%nat = false) as -> by (rewrite <- negb_orb, Ea; reflexivity). destruct Pl as (_ & -> & _). reflexivity. }
  rewrite Es. destruct (resize_plain _ _ _ Hf) as (tv & Etv & Ptv). { exists (new_array so 0 (sumZ Ns :: rest)). apply new_plain; auto. }
  rewrite Etv, Cn. destruct (displs_spec counts 0 Hcn ltac:(lia)) as (dl & Edl & Hdl); [rewrite Sc; lia|]. rewrite Edl. cbv zeta.
  assert (forallb (fun c => 0 <=? c) counts = true) as ->. { apply forallb_forall. intros c Hin. rewrite Forall_forall in Hcn. apply Z.leb_le. now apply Hcn. }
  assert (Pt : prodZ (sumZ Ns :: rest) = sumZ counts) by (rewrite prodZ_cons; lia).
  assert (Gc : gather_count p = prodZ (N :: rest)).
  { assert (Q : nth_error (map gather_count ps) r = Some (gather_count p)) by (rewrite nth_error_map, Er; reflexivity). rewrite Cn in Q. unfold counts in Q.
    rewrite nth_error_map, EN in Q. injection Q as Q. now rewrite prodZ_cons. }
  assert (apart (v_base (p_rhs p)) (gather_count p) (v_base tv) (sumZ counts) = true) as ->.
  { destruct (apart _ _ _ _) eqn:Ep; [reflexivity|]. exfalso. unfold apart in Ep. rewrite !orb_false_iff, !Z.leb_gt in Ep.
    apply (Hd tv Etv (Z.max (v_base (p_rhs p)) (v_base tv))); [apply (plain_cells _ _ _ _ Pl)|apply (plain_cells _ _ _ _ Ptv); rewrite Pt]; lia. }
  cbn [andb]. eexists. split; [reflexivity|]. cbn [fst snd].
  destruct (gatherv_spec ps counts dl (p_mem p) (v_base tv)) as [G1 G2]; [unfold counts; now rewrite map_length|exact Hcn|intros q Hq; rewrite Hdl by auto; lia|].
  split; [exact Ptv|]. split.
  - intros a Ha. apply G2. rewrite (plain_cells _ _ _ _ Ptv), Pt in Ha. exact Ha.
  - clear Sn. intros q pq Nq i j Eq ENq Hij. pose proof (Hat _ _ _ Eq ENq) as Plq. unfold in_view, valid_idx in Hij. pose proof Plq as (_ & Lq & _). rewrite Lq in Hij.
    inversion Hij as [|? ? ? ? Hi Hj]; subst. unfold inr in Hi. pose proof (before_step_le _ _ _ HN ENq) as Bs. pose proof (before_le Ns q HN) as B0.
    assert (Hij' : in_range (before Ns q + i :: j) (sumZ Ns :: rest)) by (constructor; auto; unfold inr; lia).
    split. { unfold in_view, valid_idx. destruct Ptv as (_ & -> & _). exact Hij'. }
    rewrite (plain_cell _ _ _ _ Ptv Hij'), (plain_cell _ _ _ _ Plq Hij).
    destruct (slab_number so Nq rest i j Ho Hso Hij) as [-> B1]. destruct (slab_number so (sumZ Ns) rest _ j Ho Hso Hij') as [-> _].
    rewrite <- (G1 q pq); auto; [f_equal; rewrite Bc; ring|].
    assert (nthZ counts q = Nq * prodZ rest) as -> by (unfold counts; apply nth_error_nth; now rewrite nth_error_map, ENq). nia.
Qed.
Print Assumptions C36_gather.

(** gather after scatter gives back the array of the root. *)
Theorem C36_round_trip : forall V root (ps : list (proc V)) so N rest proot res all root' ps',
  first_slowest so -> (0 < prodZ rest \/ N = 0) -> N * prodZ rest < 2147483648 -> Forall (fun p => plain (p_rhs p) so (N :: rest)) ps ->
  nth_error ps root = Some proot ->
  (forall r p, nth_error ps r = Some p -> fit_target (p_tgt p) so (chunk_length N (length ps) r :: rest)) ->
  (forall tv, resize_or_check (p_tgt proot) (chunk_length N (length ps) root :: rest) = Some tv -> disjoint (p_rhs proot) tv) ->
  scatter root ps = Some res ->
  Forall2 (fun b p => p_mem p = fst b /\ p_rhs p = snd b) res ps' -> (root' < length ps')%nat ->
  (forall r p, nth_error ps' r = Some p -> all = true \/ r = root' -> fit_target (p_tgt p) so (N :: rest) /\ forall tv, resize_or_check (p_tgt p) (N :: rest) = Some tv -> disjoint (p_rhs p) tv) ->
  (forall p, In p ps' -> exists sh, fit_target (p_tgt p) so sh) ->
  exists res', gather all root' ps' = Some res' /\
    forall r, (r < length ps')%nat -> all = true \/ r = root' -> exists m' tv, nth_error res' r = Some (m', tv) /\ plain tv so (N :: rest) /\
      forall idx, in_view tv idx -> m' (cell tv idx) = p_mem proot (cell (p_rhs proot) idx).
Proof.
  intros V root ps so N rest proot res all root' ps' Hso Hne Hsz Hps Er Ht Hd Es F Hr' Ht' Hft'.
  destruct (C36_scatter V root ps so N rest proot Hso Hne Hsz Hps Er Ht Hd) as (res0 & E0 & L & Hres). rewrite Es in E0. injection E0 as <-.
  assert (L' : length ps' = length ps) by (rewrite <- L; clear -F; induction F; cbn [length]; auto).
  assert (Hroot : (root < length ps)%nat) by (apply nth_error_Some; congruence).
  destruct (sc_shape root ps so N rest Hps Hroot) as (HN & _).
  assert (Fn : forall r m tv, nth_error res r = Some (m, tv) -> exists p', nth_error ps' r = Some p' /\ p_mem p' = m /\ p_rhs p' = tv).
  { clear -F. induction F as [|b p res ps' [A B] F IH]; intros [|r] m tv E; cbn [nth_error] in *; try discriminate; [|eauto]. injection E as ->. exists p. auto. }
  assert (Sm : sumZ (chunks N (length ps)) = N) by (apply chunks_sum; lia).
  destruct (C36_gather V all root' ps' so (chunks N (length ps)) rest) as (res' & Eg & Lg & Hg).
  - exact Hso.
  - now rewrite Sm.
  - assert (G : forall r p', nth_error ps' r = Some p' -> plain (p_rhs p') so (nthZ (chunks N (length ps)) r :: rest)).
    { intros r p' Ep. assert (Hr : (r < length ps)%nat) by (rewrite <- L'; apply nth_error_Some; congruence).
      destruct (nth_error ps r) as [p|] eqn:E1; [|apply nth_error_None in E1; lia]. destruct (Hres r p E1) as (m' & tv & A & B & _).
      destruct (Fn r m' tv A) as (p2 & E2 & _ & E3). rewrite Ep in E2. injection E2 as <-. rewrite E3.
      rewrite (nth_error_nth (chunks N (length ps)) r 0 (chunks_nth N (length ps) r Hr) : nthZ _ _ = _). exact B. }
    revert G. assert (Lc : length (chunks N (length ps)) = length ps') by (rewrite chunks_length; lia). clear -Lc.
    generalize dependent ps'. induction (chunks N (length ps)) as [|c cs IH]; intros [|p l] Lc G; cbn [length] in Lc; try discriminate; constructor.
    + apply (G 0%nat). reflexivity.
    + apply IH; [lia|]. intros r p' E. apply (G (S r)). exact E.
  - exact Hr'.
  - intros r p Ep Hrec. rewrite Sm. now apply (Ht' r).
  - exact Hft'.
  - exists res'. split; [exact Eg|]. intros r Hr Hrec. destruct (nth_error ps' r) as [p'|] eqn:Ep; [|apply nth_error_None in Ep; lia].
    destruct (Hg r p' Ep) as (m' & tv & A & B). exists m', tv. split; [exact A|].
    assert (all || (r =? root')%nat = true) as Ea. { apply orb_true_iff. destruct Hrec as [-> | ->]; [now left|right; apply Nat.eqb_refl]. }
    rewrite Ea in B. destruct B as (Ptv & _ & B). rewrite Sm in Ptv. split; [exact Ptv|].
    intros idx Hidx. unfold in_view, valid_idx in Hidx. pose proof Ptv as (_ & Lt & _). rewrite Lt in Hidx.
    inversion Hidx as [|k l j rst Hk Hj Ek El]. subst. unfold inr in Hk.
    destruct (which_block (chunks N (length ps)) (chunks_nonneg N (length ps) HN ltac:(lia)) k ltac:(lia)) as (q & x & i & Ex & Hi & ->).
    assert (Hq : (q < length ps)%nat). { rewrite <- (chunks_length N (length ps)). apply nth_error_Some. congruence. }
    rewrite (chunks_nth N (length ps) q Hq) in Ex. injection Ex as <-.
    destruct (nth_error ps q) as [pq|] eqn:E1; [|apply nth_error_None in E1; lia]. destruct (Hres q pq E1) as (mq & tq & A1 & A2 & _ & A3).
    destruct (Fn q mq tq A1) as (p2 & E2 & E3 & E4). assert (Hv : in_view tq (i :: j)).
    { unfold in_view, valid_idx. destruct A2 as (_ & -> & _). constructor; auto. }
    destruct (A3 i j Hv) as [_ <-]. destruct (B q p2 _ i j E2 (chunks_nth N (length ps) q Hq)) as [_ ->]; [now rewrite E4|]. now rewrite E3, E4.
Qed.
Print Assumptions C36_round_trip.

(** ** reduce *)
(** reduce: on every receiving process the target holds, element by element, the reduction of the arrays of all processes; nothing else is changed. *)
Theorem C37_reduce : forall V op (red : nat -> Z -> list V -> V) all root (ps : list (proc V)) so shape (inpl : nat -> bool),
  assoc_comm op -> mpi_reduces op red -> prodZ shape < 2147483648 -> Forall (fun p => plain (p_rhs p) so shape) ps -> (root < length ps)%nat ->
  (all = true -> forall r, inpl r = inpl root) ->
  (forall r p, nth_error ps r = Some p -> reduce_args (inpl r) (all || (r =? root)%nat) p so shape) ->
  exists res, reduce red all root ps = Some res /\ length res = length ps /\
    forall r p, nth_error ps r = Some p -> exists m' tv, nth_error res r = Some (m', tv) /\
      (if all || (r =? root)%nat
       then plain tv so shape /\ unchanged_outside tv (p_mem p) m' /\
         forall idx, in_view tv idx -> total op (map (fun q => p_mem q (cell (p_rhs q) idx)) ps) (m' (cell tv idx))
       else m' = p_mem p /\ tv = tgt_view (p_tgt p)).
Proof.
  intros V op red all root ps so shape inpl Hop Hred Hsz Hps Hroot Hall Hargs.
  assert (Hpl : forall r p, nth_error ps r = Some p -> plain (p_rhs p) so shape).
  { intros r p E. rewrite Forall_forall in Hps. apply Hps. eapply nth_error_In; eauto. }
  destruct (nth_error ps root) as [proot|] eqn:Er; [|apply nth_error_None in Er; lia].
  pose proof (Hpl _ _ Er) as Plr. destruct (plain_shape _ _ _ Plr) as (Sh & Ho & HR). pose proof (prodZ_nonneg _ Sh) as HP.
  assert (Sz : forall p : proc V, plain (p_rhs p) so shape -> to_int (size (v_lay (p_rhs p))) = prodZ shape) by (intros p Pl; rewrite (plain_size _ _ _ Pl); apply to_int_id; lia).
  assert (Hin : forall r p, nth_error ps r = Some p -> in_place p = inpl r).
  { intros r p E. specialize (Hargs r p E). unfold reduce_args in Hargs. unfold in_place. destruct (inpl r).
    - rewrite Hargs. apply Z.eqb_refl.
    - apply Z.eqb_neq. apply Hargs. }
  unfold reduce. rewrite Er, (Sz _ Plr), (Hin _ _ Er).
  destruct (ranks_spec (reduce_rank red all root ps (prodZ shape) (inpl root)) (fun r p b => if all || (r =? root)%nat
       then plain (snd b) so shape /\ unchanged_outside (snd b) (p_mem p) (fst b) /\
         forall idx, in_view (snd b) idx -> total op (map (fun q => p_mem q (cell (p_rhs q) idx)) ps) ((fst b) (cell (snd b) idx))
       else fst b = p_mem p /\ snd b = tgt_view (p_tgt p)) ps) as (res & E1 & E2 & E3).
  2:{ exists res. split; [exact E1|]. split; [exact E2|]. intros r p Hr. destruct (E3 r p Hr) as ([m' tv] & A & B). exists m', tv. auto. }
  intros r p E. pose proof (Hpl _ _ E) as Pl. specialize (Hargs r p E). unfold reduce_rank.
  assert (Ct : contiguous_args p = true).
  { unfold contiguous_args. replace (is_contiguous (v_lay (p_rhs p))) with true by (symmetry; apply Pl). unfold reduce_args in Hargs. destruct (inpl r).
    - rewrite Hargs. cbn [andb]. apply Pl.
    - destruct Hargs as [Hf _]. now rewrite (fit_contiguous _ _ _ Hf). }
  rewrite Ct, (Sz _ Pl), Z.eqb_refl, (Hin _ _ E). assert ((0 <=? prodZ shape) = true) as -> by now apply Z.leb_le. cbn [andb].
  assert (negb all || eqb (inpl r) (inpl root) = true) as ->. { destruct all; cbn [negb orb]; [|reflexivity]. rewrite Hall by reflexivity. apply eqb_reflx. }
  assert (T : exists tv, reduce_target all root r p = Some tv /\
     (if all || (r =? root)%nat then plain tv so shape else tv = tgt_view (p_tgt p)) /\ (inpl r = true -> tv = p_rhs p)).
  { unfold reduce_target. rewrite (Hin _ _ E). unfold reduce_args in Hargs. destruct (inpl r).
    - rewrite Hargs, Z.eqb_refl. exists (p_rhs p). split; [reflexivity|]. split; [|auto]. destruct (all || (r =? root)%nat); auto.
    - destruct Hargs as (Hf & Hb & Hd & Hn). rewrite (orb_comm (r =? root)%nat all). destruct (all || (r =? root)%nat) eqn:Ea.
      + pose proof Pl as (_ & Lr & _). rewrite Lr. destruct (resize_plain _ _ _ Hf) as (tv & Etv & Ptv). { exists (p_rhs p). exact Pl. }
        rewrite Etv. exists tv. split; [|split; [exact Ptv|discriminate]]. specialize (Hd eq_refl tv Etv).
        rewrite (plain_size _ _ _ Pl). destruct (Z.ltb_spec (Z.abs (v_base tv - v_base (p_rhs p))) (prodZ shape)) as [C|C]; [|reflexivity]. exfalso.
        apply (Hd (Z.max (v_base tv) (v_base (p_rhs p)))); [apply (plain_cells _ _ _ _ Pl)|apply (plain_cells _ _ _ _ Ptv)]; lia.
      + specialize (Hn eq_refl). exists (tgt_view (p_tgt p)). split; [|split; [reflexivity|discriminate]].
        rewrite (plain_size _ _ _ Pl). assert ((Z.abs (v_base (tgt_view (p_tgt p)) - v_base (p_rhs p)) <? prodZ shape) = false) as -> by (apply Z.ltb_ge; lia). reflexivity. }
  destruct T as (tv & -> & Ptv & Hi). destruct (all || (r =? root)%nat) eqn:Ea; [|eexists; split; [reflexivity|]; auto].
  assert (Eb : (if inpl r then v_base (p_rhs p) else v_base tv) = v_base tv) by (destruct (inpl r); [now rewrite Hi|reflexivity]).
  rewrite Eb. eexists. split; [reflexivity|]. cbn [fst snd]. split; [exact Ptv|]. split.
  - intros a Ha. rewrite reduced_spec. rewrite (plain_cells _ _ _ _ Ptv) in Ha.
    destruct (Z.leb_spec (v_base tv) a), (Z.ltb_spec a (v_base tv + prodZ shape)); cbn [andb]; auto. exfalso. lia.
  - intros idx Hidx. assert (Hr2 : in_range idx shape). { unfold in_view, valid_idx in Hidx. destruct Ptv as (_ & Lt & _). now rewrite Lt in Hidx. }
    assert (Hc : is_cell_of tv (cell tv idx)) by (exists idx; auto). rewrite (plain_cells _ _ _ _ Ptv) in Hc.
    rewrite reduced_spec. assert ((v_base tv <=? cell tv idx) && (cell tv idx <? v_base tv + prodZ shape) = true) as ->.
    { apply andb_true_iff. rewrite Z.leb_le, Z.ltb_lt. lia. }
    apply reduces_total; [exact Hop|]. rewrite (plain_cell _ _ _ _ Ptv Hr2). replace (v_base tv + seq_number so shape idx - v_base tv) with (seq_number so shape idx) by ring.
    replace (map (fun p0 => p_mem p0 (v_base (p_rhs p0) + seq_number so shape idx)) ps) with (map (fun q => p_mem q (cell (p_rhs q) idx)) ps).
    + apply Hred. destruct ps; [cbn [length] in Hroot; lia|discriminate].
    + apply map_ext_in. intros q Hq. f_equal. apply plain_cell; [|exact Hr2]. rewrite Forall_forall in Hps. now apply Hps.
Qed.
Print Assumptions C37_reduce.

(** ** broadcast *)
Theorem C37_broadcast : forall V root (ps : list (proc V)) so shape proot,
  nth_error ps root = Some proot -> plain (tgt_view (p_tgt proot)) so shape -> prodZ shape < 2147483648 ->
  (forall p, In p ps -> fit_target (p_tgt p) so shape) ->
  exists res, broadcast root ps = Some res /\ length res = length ps /\
    forall r p, nth_error ps r = Some p -> exists m' tv, nth_error res r = Some (m', tv) /\ plain tv so shape /\ unchanged_outside tv (p_mem p) m' /\
      forall idx, in_view tv idx -> m' (cell tv idx) = p_mem proot (cell (tgt_view (p_tgt proot)) idx).
Proof.
  intros V root ps so shape proot Er Plr Hsz Ht. destruct (plain_shape _ _ _ Plr) as (Sh & Ho & HR). pose proof (prodZ_nonneg _ Sh) as HP.
  unfold broadcast. rewrite Er.
  destruct (ranks_spec (broadcast_rank root (p_mem proot) (tgt_view (p_tgt proot))) (fun r p b => plain (snd b) so shape /\ unchanged_outside (snd b) (p_mem p) (fst b) /\
      forall idx, in_view (snd b) idx -> (fst b) (cell (snd b) idx) = p_mem proot (cell (tgt_view (p_tgt proot)) idx)) ps) as (res & E1 & E2 & E3).
  2:{ exists res. split; [exact E1|]. split; [exact E2|]. intros r p Hr. destruct (E3 r p Hr) as ([m' tv] & A & B). exists m', tv. auto. }
  intros r p E. unfold broadcast_rank. destruct (Nat.eqb_spec r root) as [->|N].
  - rewrite Er in E. injection E as <-. rewrite (plain_size _ _ _ Plr), (to_int_id (prodZ shape)) by lia. assert ((0 <=? prodZ shape) = true) as -> by now apply Z.leb_le.
    eexists. split; [reflexivity|]. cbn [fst snd]. split; [exact Plr|]. split; [|auto]. intros a _. reflexivity.
  - pose proof Plr as (_ & Lr & _). rewrite Lr. destruct (resize_plain _ _ _ (Ht p (nth_error_In _ _ E))) as (tv & -> & Ptv). { eexists; exact Plr. }
    rewrite (plain_size _ _ _ Ptv), (plain_size _ _ _ Plr), (to_int_id (prodZ shape)) by lia. rewrite Z.eqb_refl. assert ((0 <=? prodZ shape) = true) as -> by now apply Z.leb_le. cbn [andb].
    eexists. split; [reflexivity|]. cbn [fst snd]. split; [exact Ptv|]. split.
    + intros a Ha. rewrite transfer_spec. rewrite (plain_cells _ _ _ _ Ptv) in Ha. destruct (Z.leb_spec (v_base tv) a), (Z.ltb_spec a (v_base tv + prodZ shape)); cbn [andb]; auto. exfalso. lia.
    + intros idx Hidx. assert (Hr2 : in_range idx shape). { unfold in_view, valid_idx in Hidx. destruct Ptv as (_ & Lt & _). now rewrite Lt in Hidx. }
      assert (Hc : is_cell_of tv (cell tv idx)) by (exists idx; auto). rewrite (plain_cells _ _ _ _ Ptv) in Hc.
      rewrite transfer_spec. assert ((v_base tv <=? cell tv idx) && (cell tv idx <? v_base tv + prodZ shape) = true) as ->. { apply andb_true_iff. rewrite Z.leb_le, Z.ltb_lt. lia. }
      rewrite (plain_cell _ _ _ _ Ptv Hr2), (plain_cell _ _ _ _ Plr Hr2). f_equal. ring.
Qed.
Print Assumptions C37_broadcast.

(** ** a communicator of three processes, arrays of shape (4, 2) *)
Definition ex_mem (r a : Z) : Z := 1000 * r + a.
Definition ex_proc (so : list nat) (r : Z) (shape : list Z) (t : target) : proc Z := Proc (ex_mem r) (new_array so 100 shape) t.
Definition ex_ps (so : list nat) (shape : list Z) : list (proc Z) :=
  [ex_proc so 0 shape (TArray (new_array so 5 [1; 1]) 200); ex_proc so 1 shape (TArray (new_array so 5 [1; 1]) 200); ex_proc so 2 shape (TView (new_array so 300 [1; 2]))].
Lemma order2 a b : Permutation [0%nat; 1%nat] [a; b] -> is_order 2 [a; b].
Proof. intros H. unfold is_order. now apply Permutation_sym. Qed.
Lemma ex_plain a b base r c : Permutation [0%nat; 1%nat] [a; b] -> 0 <= r -> 0 <= c -> plain (new_array [a; b] base [r; c]) [a; b] [r; c].
Proof. intros H Hr Hc. apply new_plain; [now apply order2|repeat constructor; auto|cbn [length]; lia]. Qed.
Lemma ex_disjoint so v w sv sw : plain v so sv -> plain w so sw -> v_base v + prodZ sv <= v_base w -> disjoint v w.
Proof. intros P Q H a A B. rewrite (plain_cells _ _ _ _ P) in A. rewrite (plain_cells _ _ _ _ Q) in B. lia. Qed.
Lemma ex_ps_plain a b r c : Permutation [0%nat; 1%nat] [a; b] -> 0 <= r -> 0 <= c -> Forall (fun p => plain (p_rhs p) [a; b] [r; c]) (ex_ps [a; b] [r; c]).
Proof. intros H Hr Hc. repeat constructor; cbn [p_rhs ex_proc]; now apply ex_plain. Qed.
Lemma perm_c : Permutation [0%nat; 1%nat] [0%nat; 1%nat]. Proof. apply Permutation_refl. Qed.
Lemma perm_f : Permutation [0%nat; 1%nat] [1%nat; 0%nat]. Proof. apply perm_swap. Qed.
Lemma ex_scatter_fit a b : Permutation [0%nat; 1%nat] [a; b] ->
  forall r p, nth_error (ex_ps [a; b] [4; 2]) r = Some p -> fit_target (p_tgt p) [a; b] (chunk_length 4 (length (ex_ps [a; b] [4; 2])) r :: [2]).
Proof.
  intros H [|[|[|r]]] p E; cbn [nth_error ex_ps] in E; try (destruct r; discriminate); injection E as <-; cbn [fit_target p_tgt ex_proc].
  1, 2: exists [1; 1]; apply ex_plain; auto; lia.
  change (chunk_length 4 (length (ex_ps [a; b] [4; 2])) 2) with 1. apply ex_plain; auto; lia.
Qed.

(** the hypotheses of C36_scatter hold here *)
Example C36_scatter_example : exists res, scatter 0 (ex_ps [0; 1]%nat [4; 2]) = Some res.
Proof.
  destruct (C36_scatter Z 0 (ex_ps [0; 1]%nat [4; 2]) [0; 1]%nat 4 [2] (ex_proc [0; 1]%nat 0 [4; 2] (TArray (new_array [0; 1]%nat 5 [1; 1]) 200))) as (res & E & _); [reflexivity|left; reflexivity|reflexivity| |reflexivity|apply ex_scatter_fit, perm_c| |eauto].
  - apply ex_ps_plain; [apply perm_c|lia|lia].
  - intros tv E. vm_compute in E. injection E as <-.
    apply (ex_disjoint [0; 1]%nat (new_array [0; 1]%nat 100 [4; 2]) (new_array [0; 1]%nat 200 [2; 2]) [4; 2] [2; 2]); [apply ex_plain; auto; lia..|]. cbn. lia.
Qed.
Definition ex_show (v : view) (m : mem Z) : list Z * list Z := (im_len (v_lay v), map (fun idx => m (cell v idx)) (all_idx (im_len (v_lay v)))).
Example C36_scatter_values :
  match scatter 0 (ex_ps [0; 1]%nat [4; 2]) with Some l => map (fun b => ex_show (snd b) (fst b)) l | None => [] end
  = [([2; 2], [100; 101; 102; 103]); ([1; 2], [104; 105]); ([1; 2], [106; 107])].
Proof. vm_compute. reflexivity. Qed.
Example C36_gather_values :
  match gather true 1 (ex_ps [0; 1]%nat [1; 2]) with Some l => map (fun b => ex_show (snd b) (fst b)) l | None => [] end = [] /\
  match gather false 1 (ex_ps [0; 1]%nat [1; 2]) with Some l => map (fun b => ex_show (snd b) (fst b)) l | None => [] end
  = [([1; 1], [5]); ([3; 2], [100; 101; 1100; 1101; 2100; 2101]); ([1; 2], [2300; 2301])].
Proof. vm_compute. split; reflexivity. Qed.

(** the first dimension must be the slowest one: with Fortran order the slabs are wrong and part of the target is not even written *)
Theorem C36_order_refuted : ~ (forall V root (ps : list (proc V)) so N rest proot,
  is_order (length (N :: rest)) so -> 0 < prodZ rest -> N * prodZ rest < 2147483648 -> Forall (fun p => plain (p_rhs p) so (N :: rest)) ps ->
  nth_error ps root = Some proot ->
  (forall r p, nth_error ps r = Some p -> fit_target (p_tgt p) so (chunk_length N (length ps) r :: rest)) ->
  (forall tv, resize_or_check (p_tgt proot) (chunk_length N (length ps) root :: rest) = Some tv -> disjoint (p_rhs proot) tv) ->
  forall res r m' tv i j, scatter root ps = Some res -> nth_error res r = Some (m', tv) -> in_view tv (i :: j) ->
    m' (cell tv (i :: j)) = p_mem proot (cell (p_rhs proot) (before (chunks N (length ps)) r + i :: j))).
Proof.
  intros H. specialize (H Z 0%nat (ex_ps [1; 0]%nat [4; 2]) [1; 0]%nat 4 [2] (ex_proc [1; 0]%nat 0 [4; 2] (TArray (new_array [1; 0]%nat 5 [1; 1]) 200))).
  specialize (H (order2 _ _ perm_f) eq_refl eq_refl (ex_ps_plain _ _ 4 2 perm_f ltac:(lia) ltac:(lia)) eq_refl (ex_scatter_fit _ _ perm_f)).
  assert (D : forall tv, resize_or_check (TArray (new_array [1; 0]%nat 5 [1; 1]) 200) (chunk_length 4 (length (ex_ps [1; 0]%nat [4; 2])) 0 :: [2]) = Some tv ->
    disjoint (new_array [1; 0]%nat 100 [4; 2]) tv).
  { intros tv E. vm_compute in E. injection E as <-.
    apply (ex_disjoint [1; 0]%nat (new_array [1; 0]%nat 100 [4; 2]) (new_array [1; 0]%nat 200 [2; 2]) [4; 2] [2; 2]); [apply ex_plain; auto using perm_f; lia..|]. cbn. lia. }
  specialize (H D).
  assert (X : match scatter 0 (ex_ps [1; 0]%nat [4; 2]) with Some [_; (m, t); _] => im_len (v_lay t) = [1; 2] /\ m (cell t [0; 1]) = 1201 | _ => False end) by (vm_compute; split; reflexivity).
  destruct (scatter 0 (ex_ps [1; 0]%nat [4; 2])) as [[|b0 [|[m t] [|b2 [|]]]]|] eqn:E; try contradiction. destruct X as [X1 X2].
  assert (Hv : in_view t [0; 1]) by (unfold in_view, valid_idx; rewrite X1; repeat constructor; lia).
  specialize (H _ 1%nat m t 0 [1] eq_refl eq_refl Hv). rewrite X2 in H. vm_compute in H. discriminate H.
Qed.
Print Assumptions C36_order_refuted.

(** the extents of the root are broadcast, but the counts are computed from the local extents: with another local extent the counts do not match *)
Theorem C36_local_extent_refuted : exists (ps : list (proc Z)) p0 p1, ps = [p0; p1] /\ plain (p_rhs p0) [0; 1]%nat [4; 2] /\ plain (p_rhs p1) [0; 1]%nat [0; 2] /\
  scatter_shape 2 1 4 p1 = [2; 2] /\ scatter 0 ps = None.
Proof.
  exists [ex_proc [0; 1]%nat 0 [4; 2] (TArray (new_array [0; 1]%nat 5 [1; 1]) 200); ex_proc [0; 1]%nat 0 [0; 2] (TArray (new_array [0; 1]%nat 5 [1; 1]) 200)].
  eexists. eexists. split; [reflexivity|]. split; [apply ex_plain; auto; lia|]. split; [apply ex_plain; auto; lia|]. split; vm_compute; reflexivity.
Qed.
Print Assumptions C36_local_extent_refuted.

(** scattering a view with an empty inner dimension writes memory that belongs to no array of the call *)
Definition ex_hollow : view := View (snd (match slice (v_lay (new_array [0; 1]%nat 100 [4; 4])) [ARange (Range 0 4 1); ARange (Range 0 0 1)] with Some x => x | None => (0, v_lay (new_array [0; 1]%nat 100 [0; 0])) end)) 100.
Theorem C36_empty_refuted : exists (p0 : proc Z), plain (p_rhs p0) [0; 1]%nat [4; 0] /\ fit_target (p_tgt p0) [0; 1]%nat [4; 0] /\
  match scatter 0 [p0] with Some [(m, t)] => size (v_lay t) = 0 /\ (forall a, ~ is_cell_of t a) /\ m 200 <> p_mem p0 200 | _ => False end.
Proof.
  exists (Proc (fun a => a) ex_hollow (TArray (new_array [0; 1]%nat 5 [1; 1]) 200)). split; [|split].
  - split.
    + exists 16, (0 + 0). eapply (vo_slice _ 16 0 (v_lay (new_array [0; 1]%nat 100 [4; 4])) [ARange (Range 0 4 1); ARange (Range 0 0 1)]).
      * apply vo_fresh; [apply order2, perm_c|reflexivity|reflexivity|repeat constructor; lia|cbn [length]; lia|reflexivity].
      * vm_compute. reflexivity.
      * intros r [E|[E|[]]]; injection E as <-; cbn [r_step]; lia.
      * change (Forall2 arg_in_bounds [ARange (Range 0 4 1); ARange (Range 0 0 1)] [4; 4]).
        constructor; [|constructor; [|constructor]]; intros x Hx; unfold in_range_arg in Hx; cbn in Hx |- *; lia.
      * exists (ARange (Range 0 4 1)). split; [now left|reflexivity].
    + vm_compute. auto.
  - exists [1; 1]. apply ex_plain; auto; lia.
  - assert (E : match scatter 0 [Proc (fun a : Z => a) ex_hollow (TArray (new_array [0; 1]%nat 5 [1; 1]) 200)] with
       | Some [(m, t)] => t = new_array [0; 1]%nat 200 [4; 0] /\ m 200 = 100 | _ => False end) by (vm_compute; auto).
    destruct (scatter 0 _) as [[|[m t] [|]]|]; try contradiction. destruct E as [-> E]. split; [reflexivity|]. split; [|rewrite E; cbn [p_mem]; lia].
    intros a Ha. rewrite (plain_cells _ [0; 1]%nat [4; 0]) in Ha by (apply ex_plain; auto; lia). cbn in Ha. lia.
Qed.
Print Assumptions C36_empty_refuted.

(** gather does not compare the other extents: arrays of different widths are written beyond the end of the target *)
Theorem C36_gather_mismatch_refuted : exists (p0 p1 : proc Z), plain (p_rhs p0) [0; 1]%nat [1; 2] /\ plain (p_rhs p1) [0; 1]%nat [1; 5] /\
  fit_target (p_tgt p0) [0; 1]%nat [2; 2] /\ fit_target (p_tgt p1) [0; 1]%nat [2; 2] /\
  match gather false 0 [p0; p1] with Some [(m, t); _] => t = new_array [0; 1]%nat 200 [2; 2] /\ ~ is_cell_of t 206 /\ m 206 <> p_mem p0 206 | _ => False end.
Proof.
  exists (ex_proc [0; 1]%nat 0 [1; 2] (TArray (new_array [0; 1]%nat 5 [1; 1]) 200)), (ex_proc [0; 1]%nat 1 [1; 5] (TArray (new_array [0; 1]%nat 5 [1; 1]) 200)).
  split; [apply ex_plain; auto; lia|]. split; [apply ex_plain; auto; lia|]. split; [exists [1; 1]; apply ex_plain; auto; lia|]. split; [exists [1; 1]; apply ex_plain; auto; lia|].
  assert (E : match gather false 0 [ex_proc [0; 1]%nat 0 [1; 2] (TArray (new_array [0; 1]%nat 5 [1; 1]) 200); ex_proc [0; 1]%nat 1 [1; 5] (TArray (new_array [0; 1]%nat 5 [1; 1]) 200)] with
       | Some [(m, t); _] => t = new_array [0; 1]%nat 200 [2; 2] /\ m 206 = 1104 | _ => False end) by (vm_compute; auto).
  destruct (gather _ _ _) as [[|[m t] [|b [|]]]|]; try contradiction. destruct E as [-> E]. split; [reflexivity|]. split.
  - intros Ha. rewrite (plain_cells _ [0; 1]%nat [2; 2]) in Ha by (apply ex_plain; auto; lia). cbn in Ha. lia.
  - rewrite E. cbn. lia.
Qed.
Print Assumptions C36_gather_mismatch_refuted.

(** the hypotheses of C37_reduce hold for in place and out of place reductions *)
Definition ex_red (r : nat) (k : Z) (l : list Z) : Z := match l with [] => 0 | x :: l' => fold_left Z.add l' x end.
Lemma ex_red_reduces : mpi_reduces Z.add ex_red.
Proof.
  assert (R : forall l' l1 v, reduces Z.add l1 v -> reduces Z.add (l1 ++ l') (fold_left Z.add l' v)).
  { induction l' as [|y l' IH]; intros l1 v H; cbn [fold_left]; [now rewrite app_nil_r|].
    replace (l1 ++ y :: l') with ((l1 ++ [y]) ++ l') by (rewrite <- app_assoc; reflexivity). apply IH. eapply reduces_op; [exact H|apply reduces_one|apply Permutation_refl]. }
  intros r k [|x l] H; [contradiction|]. apply (R l [x] x), reduces_one.
Qed.
Definition ex_sum_ps : list (proc Z) :=
  [ex_proc [0; 1]%nat 0 [1; 2] (TArray (new_array [0; 1]%nat 5 [1; 1]) 200); ex_proc [0; 1]%nat 1 [1; 2] (TView (new_array [0; 1]%nat 100 [1; 2]))].
Example C37_reduce_example : exists res, reduce ex_red false 0 ex_sum_ps = Some res.
Proof.
  destruct (C37_reduce Z Z.add ex_red false 0 ex_sum_ps [0; 1]%nat [1; 2] (fun r => (r =? 1)%nat)) as (res & E & _); [|apply ex_red_reduces|reflexivity| |cbn; lia|discriminate| |eauto].
  - split; intros; lia.
  - repeat constructor; cbn [p_rhs ex_proc]; apply ex_plain; auto; lia.
  - intros [|[|r]] p E; cbn [nth_error ex_sum_ps] in E; try (destruct r; discriminate); injection E as <-; cbn [Nat.eqb orb reduce_args].
    + split; [exists [1; 1]; apply ex_plain; auto; lia|]. split; [cbn; lia|]. split; [|discriminate]. intros _ tv E. vm_compute in E. injection E as <-.
      apply (ex_disjoint [0; 1]%nat (new_array [0; 1]%nat 100 [1; 2]) (new_array [0; 1]%nat 200 [1; 2]) [1; 2] [1; 2]); [apply ex_plain; auto; lia..|]. cbn. lia.
    + reflexivity.
Qed.
Example C37_reduce_values :
  match reduce ex_red false 0 ex_sum_ps with Some l => map (fun b => ex_show (snd b) (fst b)) l | None => [] end = [([1; 2], [1200; 1202]); ([1; 2], [1100; 1101])].
Proof. vm_compute. reflexivity. Qed.
Example C37_broadcast_values :
  match broadcast 1 (ex_ps [0; 1]%nat [4; 2]) with Some l => map (fun b => ex_show (snd b) (fst b)) l | None => [] end = [] /\
  match broadcast 2 (ex_ps [0; 1]%nat [4; 2]) with Some l => map (fun b => ex_show (snd b) (fst b)) l | None => [] end
  = [([1; 2], [2300; 2301]); ([1; 2], [2300; 2301]); ([1; 2], [2300; 2301])].
Proof. vm_compute. split; reflexivity. Qed.

