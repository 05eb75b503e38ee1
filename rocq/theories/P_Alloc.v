(** C32, C33: memory handed out by the allocators. *)
From Verif Require Import Base M_Alloc S_Alloc L_Alloc L_Alloc2 L_Alloc3.

(** * C32: bucket and multi_bucket *)
(** For every history of allocations (up to 64 at a time), deallocations and writes, with blocks not longer than a chunk: the
    blocks in use never overlap, keep what was written to them, allocate_zero gives zeros, nothing aborts, and all memory is
    given back at the end. *)
Theorem C32_bucket chunk : 0 < chunk -> serves (bucket_alloc chunk) (bucket_ok chunk).
Proof. intros Hc. exact (reliable_serves _ _ _ _ (bucket_reliable chunk Hc)). Qed.
Theorem C32_multi_bucket chunk : 0 < chunk -> serves (multi_bucket chunk) (multi_ok chunk).
Proof. intros Hc. exact (reliable_serves _ _ _ _ (multi_reliable chunk Hc)). Qed.

(** the queries of a bucket are exact after every history *)
Theorem C32_bucket_queries chunk : 0 < chunk -> forall e junk p l b s live, ideal_cs (bucket_ok chunk) true [] p = Some l ->
  c_program (bucket_alloc chunk) e junk p = Ok (b, s, live) ->
  (bk_full b = true <-> length live = 64%nat) /\ (bk_empty b = true <-> live = [])
  /\ (exists r, os s = [r] /\ forall q, bk_owns chunk b q = true <-> byte_of q r) /\ (forall blk, In blk live -> bk_owns chunk b (fst blk) = true).
Proof.
  intros Hc e junk p l b s live E R. pose proof (c_program_served _ _ _ _ (bucket_reliable chunk Hc) e junk p l E) as S. rewrite R in S. destruct S as (I & H & F).
  destruct I as [W PR PL HL]. inversion W as [|? ? Wb _]; subst. cbn [flat_map map] in PL, PR. rewrite app_nil_r in PL.
  assert (Len : length (used b) = length live) by (apply Permutation_length in PL; rewrite map_length in PL; unfold chunks in PL; now rewrite map_length in PL).
  split; [|split; [|split]].
  - rewrite <- Len. now apply bk_full_used.
  - rewrite (bk_empty_used b Wb). rewrite <- !length_zero_iff_nil, Len. tauto.
  - exists (region chunk b). split; [now apply Permutation_sym, Permutation_length_1_inv in PR|]. intros q. apply bk_owns_spec.
  - intros blk Hb. apply bk_owns_spec. assert (Hin : In (fst blk) (chunks chunk b)) by (rewrite <- PL; now apply in_map).
    apply (chunk_in chunk Hc) in Hin. unfold within, byte_of in *. cbn [fst snd] in *. lia.
Qed.

(** multi_bucket asks for more memory only if all chunks it has are in use *)
Theorem C32_no_waste chunk : 0 < chunk -> forall e junk p l x s live z n ev x' s' live', ideal_cs (multi_ok chunk) true [] p = Some l ->
  c_program (multi_bucket chunk) e junk p = Ok (x, s, live) -> 0 <= n <= chunk ->
  c_step (multi_bucket chunk) (x, s, live) (CAlloc z n ev) = Ok (x', s', live') ->
  os s' <> os s -> length live = (64 * length (os s))%nat.
Proof.
  intros Hc e junk p l x s live z n ev x' s' live' E R Hn St Hne. pose proof (c_program_served _ _ _ _ (multi_reliable chunk Hc) e junk p l E) as S.
  rewrite R in S. destruct S as (I & H & F). cbn [c_step al multi_bucket] in St.
  pose proof (multi_alloc_spec chunk Hc x live (os s) [] s z n ev I ltac:(now rewrite app_nil_r) H Hn) as A.
  destruct (multi_al chunk z n ev x s) as [[[x1 s1] q]| |]; try discriminate. injection St as -> -> _. destruct A as (R' & _ & _ & _ & _ & _ & A). auto.
Qed.

(** refuted: nothing checks that a block fits into a chunk; longer blocks overlap *)
Theorem C32_oversize_refuted : exists e junk b s live, c_program (bucket_alloc 8) e junk [CAlloc false 16 (Env 0 junk); CAlloc false 16 (Env 0 junk)] = Ok (b, s, live) /\ ~ separate live.
Proof.
  exists (fun _ => Env 1000 (fun _ => 0)), (fun _ => 7). eexists _, _, _. split; [cbn; reflexivity|]. intros H. inversion H as [|? ? F _]; subst. inversion F as [|? ? G _]; subst.
  vm_compute in G. destruct G; auto.
Qed.

(** a program on a multi_bucket with chunks of 4 bytes that fills one bucket, needs a second one at a lower address, and
    frees the first *)
Definition prog1 : list cop :=
  repeat (CAlloc true 4 (Env 0 (fun _ => 9))) 64 ++ [CAlloc true 3 (Env 100 (fun _ => 9)); CPoke 0 2 5; CPoke 1 0 6; CFree 2; CAlloc false 4 (Env 0 (fun _ => 9))]
  ++ repeat (CFree 2) 63 ++ [CFree 0].
Definition env1 : nat -> env := fun _ => Env 1000 (fun _ => 9).
Example C32_example :
  match c_program (multi_bucket 4) env1 (fun _ => 1) prog1, ideal_cs (multi_ok 4) true [] prog1 with
  | Ok (x, s, live), Some l => live = [(100, 3)] /\ l = [[Some 0; Some 0; Some 5]] /\ map (bytes s) [100; 101; 102] = [0; 0; 5]
      /\ match fin (multi_bucket 4) x s with Ok s' => os s' = [] | _ => False end
  | _, _ => False
  end.
Proof. vm_compute. repeat split. Qed.
Example C32_no_waste_example :
  match c_program (multi_bucket 4) env1 (fun _ => 1) (repeat (CAlloc true 4 (Env 0 (fun _ => 9))) 64) with
  | Ok (x, s, live) => match c_step (multi_bucket 4) (x, s, live) (CAlloc true 3 (Env 100 (fun _ => 9))) with
                       | Ok (_, s', _) => length live = 64%nat /\ length (os s) = 1%nat /\ length (os s') = 2%nat
                       | _ => False
                       end
  | _ => False
  end.
Proof. vm_compute. repeat split. Qed.

(** * C33: composed allocators *)
Theorem C33_mallocator : serves mallocator (fun _ _ => true).
Proof. exact (reliable_serves _ _ _ _ malloc_reliable). Qed.
(** a segregator of two reliable allocators is reliable; it serves every history whose small sizes suit the one and whose
    large sizes suit the other *)
Theorem C33_segregator T A B okA okB IA IB : reliable A okA true IA -> reliable B okB true IB ->
  (exists I, reliable (segregator T A B) (seg_ok T okA okB) true I) /\ serves (segregator T A B) (seg_ok T okA okB).
Proof.
  intros HA HB. pose proof (segregator_reliable T A B okA okB true true IA IB HA HB) as H. split; [eexists; exact H|]. exact (reliable_serves _ _ _ _ H).
Qed.
(** leak_check and multi_bucket + mallocator, as used in the library: every size is served *)
Lemma ideal_ok_ext ok ok' z : (forall sizes n, 0 <= n -> ok sizes n = ok' sizes n) -> forall p l, ideal_cs ok z l p = ideal_cs ok' z l p.
Proof.
  intros H. induction p as [|o p IH]; intros l; cbn [ideal_cs]; auto. assert (E : ideal_c ok z l o = ideal_c ok' z l o).
  { destruct o; cbn [ideal_c]; auto. destruct (Z.leb_spec 0 n); cbn [andb]; auto. now rewrite H. }
  rewrite E. destruct (ideal_c ok' z l o); auto.
Qed.
Theorem C33_small_and_big chunk T : 0 < chunk -> T <= chunk -> serves (leak_check (segregator T (multi_bucket chunk) mallocator)) (fun _ _ => true).
Proof.
  intros Hc HT e junk p l E. apply (reliable_serves _ _ _ _ (leak_reliable _ _ _ _ (segregator_reliable T _ _ _ _ true true _ _ (multi_reliable chunk Hc) malloc_reliable)) e junk p l).
  rewrite <- E. apply ideal_ok_ext. intros sizes n Hn. unfold seg_ok, multi_ok. destruct (Z.leb_spec n T); auto. lia.
Qed.
(** leak_check: dressing any allocator changes nothing but adds a counter, which is always the total size of the blocks in
    use; the destructor complains if and only if this is not 0 *)
Theorem C33_leak_check A e junk p : Forall (fun n => 0 <= n) (sizes_of p) ->
  match c_program A e junk p, c_program (leak_check A) e junk p with
  | Ok (x, s, live), Ok ((x', used), s', live') => x' = x /\ s' = s /\ live' = live /\ used = total live
      /\ fin (leak_check A) (x', used) s' = (if total live =? 0 then fin A x s else Bad)
  | Bad, Bad | NoEnv, NoEnv => True
  | _, _ => False
  end.
Proof.
  intros H. unfold c_program. cbn [mk leak_check]. destruct (mk A e _) as [[x s]| |]; auto. pose proof (leak_run A p x s [] H (Forall_nil _)) as D.
  change (total []) with 0 in D. destruct (c_run A _ _) as [[[x1 s1] l1]| |], (c_run (leak_check A) _ _) as [[[xu s2] l2]| |]; auto. destruct D as (-> & -> & ->).
  cbn [fin leak_check fst snd]. auto.
Qed.
(** stats: after every history bin c of the histogram is the number of allocations with 2^(63-c) <= size < 2^(64-c); except
    that allocate_zero acts as allocate nothing else is changed *)
Theorem C33_stats A e junk p : Forall (fun n => 0 < n < 2 ^ 64) (sizes_of p) ->
  match c_program A e junk (map unzero p), c_program (stats A) e junk p with
  | Ok (x, s, live), Ok ((x', hist), s', live') => x' = x /\ s' = s /\ live' = live /\ length hist = 65%nat
      /\ (forall c, (c < 64)%nat -> nthZ hist c = count_bin c (sizes_of p)) /\ nthZ hist 64 = 0
  | Bad, Bad | NoEnv, NoEnv => True
  | _, _ => False
  end.
Proof.
  intros H. unfold c_program. cbn [mk stats]. destruct (mk A e _) as [[x s]| |]; auto. pose proof (stats_run A p x (repeat 0 65) s [] H (repeat_length _ _)) as D.
  destruct (c_run A _ _) as [[[x1 s1] l1]| |], (c_run (stats A) _ _) as [[[xh s2] l2]| |]; auto. destruct xh as [x' hist]. cbn [fst snd] in D.
  destruct D as (-> & -> & -> & E1 & E2 & E3). split; auto. split; auto. split; auto. split; auto. split; auto.
  intros c Hc. rewrite (E2 c Hc). unfold nthZ. rewrite nth_repeat. lia.
Qed.
(** refuted: allocate_zero of stats does not give zeros *)
Theorem C33_stats_zero_refuted : exists e junk s x live, c_program (stats mallocator) e junk [CAlloc true 2 (Env 50 (fun _ => 9))] = Ok (x, s, live) /\ live = [(50, 2)] /\ bytes s 50 <> 0.
Proof. exists (fun _ => Env 0 (fun _ => 0)), (fun _ => 0). eexists _, _, _. split; [cbn; reflexivity|]. split; [reflexivity|]. vm_compute. discriminate. Qed.
(** refuted: stats with size 0 (an empty block is fine for the base allocator) *)
Theorem C33_stats_empty_refuted e junk : c_program (stats mallocator) e junk [CAlloc false 0 (Env 50 junk)] = Bad
  /\ exists w, c_program mallocator e junk [CAlloc false 0 (Env 50 junk)] = Ok w.
Proof. split; [reflexivity|]. eexists. cbn. reflexivity. Qed.
(** refuted: a leak of blocks of size 0 is not seen by leak_check although the base allocator holds memory *)
Theorem C33_leak_empty_refuted : exists e junk x s live s', c_program (leak_check mallocator) e junk [CAlloc false 0 (Env 50 junk)] = Ok (x, s, live) /\ live <> []
  /\ fin (leak_check mallocator) x s = Ok s' /\ os s' <> [].
Proof. exists (fun _ => Env 0 (fun _ => 0)), (fun _ => 0). eexists _, _, _, _. split; [cbn; reflexivity|]. split; [discriminate|]. split; [cbn; reflexivity|]. discriminate. Qed.

Definition prog2 : list cop := [CAlloc true 3 (Env 0 (fun _ => 9)); CAlloc true 20 (Env 5000 (fun _ => 9)); CPoke 0 19 4; CAlloc false 8 (Env 0 (fun _ => 9)); CFree 1; CFree 1].
Example C33_example :
  match c_program (leak_check (segregator 8 (multi_bucket 8) mallocator)) env1 (fun _ => 1) prog2, ideal_cs (fun _ _ => true) true [] prog2 with
  | Ok (x, s, live), Some l => live = [(1008, 8)] /\ l = [repeat None 8] /\ snd x = 8 /\ os s = [(1000, 512)]
  | _, _ => False
  end.
Proof. vm_compute. repeat split. Qed.
Example C33_stats_example :
  match c_program (stats mallocator) env1 (fun _ => 1) [CAlloc true 3 (Env 100 (fun _ => 9)); CAlloc true 2 (Env 5000 (fun _ => 9)); CAlloc true 4 (Env 200 (fun _ => 9)); CFree 1] with
  | Ok (x, s, live) => live = [(200, 4); (100, 3)] /\ nthZ (snd x) 62 = 2 /\ nthZ (snd x) 61 = 1 /\ nthZ (snd x) 63 = 0
  | _ => False
  end.
Proof. vm_compute. repeat split. Qed.

Print Assumptions C32_bucket.
Print Assumptions C32_multi_bucket.
Print Assumptions C32_bucket_queries.
Print Assumptions C32_no_waste.
Print Assumptions C32_oversize_refuted.
Print Assumptions C33_mallocator.
Print Assumptions C33_segregator.
Print Assumptions C33_small_and_big.
Print Assumptions C33_leak_check.
Print Assumptions C33_stats.
Print Assumptions C33_stats_zero_refuted.
Print Assumptions C33_stats_empty_refuted.
Print Assumptions C33_leak_empty_refuted.
