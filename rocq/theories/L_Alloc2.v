(** Lemmas on bucket and multi_bucket. *)
From Coq Require Import Sorted.
From Verif Require Import Base M_Alloc S_Alloc M_Loops L_Loops L_Alloc.

Lemma upd_mid {T} (l1 l2 : list T) x y k : k = length l1 -> upd (l1 ++ x :: l2) k y = l1 ++ y :: l2.
Proof. intros ->. induction l1 as [|a l1 IH]; cbn [app length upd]; auto. now rewrite IH. Qed.

Section Buckets.
Variable chunk : Z.
Hypothesis Hc : 0 < chunk.
Notation chunks := (chunks chunk).
Notation region := (region chunk).

Record vec_inv (v : list bucket) (L R : list (Z * Z)) : Prop := {
  vi_wf : Forall (fun b => flags_wf (b_flags b)) v;
  vi_R : Permutation R (map region v);
  vi_L : Permutation (map fst L) (flat_map chunks v);
  vi_n : Forall (fun b => 0 <= snd b <= chunk) L
}.
Lemma chunks_perm b b' i : b_p b' = b_p b -> Permutation (used b') (i :: used b) -> Permutation (chunks b') ((b_p b + i * chunk) :: chunks b).
Proof. intros Ep P. unfold L_Alloc.chunks. rewrite Ep. exact (Permutation_map (fun i => b_p b + i * chunk) P). Qed.
Lemma vec_swap l1 b b' l2 p : Permutation (chunks b') (p :: chunks b) -> Permutation (flat_map chunks (l1 ++ b' :: l2)) (p :: flat_map chunks (l1 ++ b :: l2)).
Proof.
  intros P. rewrite !flat_map_app. cbn [flat_map]. rewrite P. cbn [app]. symmetry. apply Permutation_middle.
Qed.
Lemma wf_swap l1 b b' l2 : flags_wf (b_flags b') -> Forall (fun b => flags_wf (b_flags b)) (l1 ++ b :: l2) -> Forall (fun b => flags_wf (b_flags b)) (l1 ++ b' :: l2).
Proof. intros W H. apply Forall_app in H. destruct H as [H1 H2]. inversion H2; subst. apply Forall_app. split; auto. Qed.
Lemma map_region l1 b b' l2 : b_p b' = b_p b -> map region (l1 ++ b' :: l2) = map region (l1 ++ b :: l2).
Proof. intros E. rewrite !map_app. cbn [map]. unfold L_Alloc.region. now rewrite E. Qed.

Lemma vec_alloc v L R k b n : vec_inv v L R -> nth_error v k = Some b -> bk_full b = false -> 0 <= n <= chunk ->
  exists b' p, bk_alloc chunk b = Ok (b', p) /\ b_p b' = b_p b /\ vec_inv (upd v k b') ((p, n) :: L) R.
Proof.
  intros I Hk Hf Hn. apply nth_error_split in Hk. destruct Hk as (l1 & l2 & -> & <-). destruct I as [W PR PL HL].
  assert (Wb : flags_wf (b_flags b)) by (apply Forall_app in W; destruct W as [_ W]; now inversion W).
  destruct (bk_alloc_spec chunk b Wb Hf) as (b' & i & E & Ep & W' & Hi & Nn & P). exists b', (b_p b + i * chunk). split; auto. split; auto.
  rewrite upd_mid by auto. constructor.
  - eapply wf_swap; eauto.
  - now rewrite (map_region _ b).
  - cbn [map fst]. rewrite PL. symmetry. apply vec_swap. now apply chunks_perm.
  - constructor; auto.
Qed.
Lemma vec_perm v L L' R R' : vec_inv v L R -> Permutation L L' -> Permutation R R' -> vec_inv v L' R'.
Proof. intros [W PR PL HL] P1 P2. constructor; auto; [now rewrite <- P2|now rewrite <- P1|eapply Permutation_Forall; eauto]. Qed.
Lemma vec_inside v L R : vec_inv v L R -> regions_ok R -> separate L /\ Forall (fun b => exists r, In r R /\ within b r) L.
Proof.
  intros [W PR PL HL] HR. rewrite Forall_forall in HL. apply (regions_perm _ _ PR) in HR. split.
  - destruct HR as [Sp _]. apply (chunks_all chunk Hc) in Sp. apply Permutation_sym in PL. apply (Permutation_map (fun p => (p, chunk))) in PL.
    apply (sep_perm _ _ PL) in Sp. rewrite map_map in Sp. unfold separate in *. rewrite FOP_map in Sp. eapply FOP_impl; [|exact Sp].
    intros x y Hx Hy H. cbn [fst snd] in H. specialize (HL x Hx) as H1. specialize (HL y Hy) as H2. lia.
  - apply Forall_forall. intros b Hb. assert (Hp : In (fst b) (flat_map chunks v)) by (rewrite <- PL; now apply in_map).
    apply in_flat_map in Hp. destruct Hp as (q & Hq & Hp). exists (region q). split; [rewrite PR; now apply in_map|].
    apply (chunk_in chunk Hc) in Hp. specialize (HL b Hb). unfold within, L_Alloc.region in *. cbn [fst snd] in *. lia.
Qed.
Lemma vec_owner v L R p n : vec_inv v L R -> regions_ok R -> In (p, n) L ->
  (exists k b, nth_error v k = Some b /\ In p (chunks b)) /\ (forall k b, nth_error v k = Some b -> bk_owns chunk b p = true -> In p (chunks b)).
Proof.
  intros [W PR PL HL] HR Hin. assert (Hp : In p (flat_map chunks v)) by (rewrite <- PL; apply (in_map fst _ _ Hin)).
  apply in_flat_map in Hp. destruct Hp as (q & Hq & Hp). split.
  - apply In_nth_error in Hq. destruct Hq as (k & Hk). now exists k, q.
  - intros k b Hk Ho. apply bk_owns_spec in Ho. apply nth_error_In in Hk. apply (regions_perm _ _ PR) in HR. destruct HR as [Sp _].
    apply (chunk_in chunk Hc) in Hp as Hp'. unfold separate in Sp. rewrite FOP_map in Sp.
    destruct (FOP_in _ _ b q (fun x y => sep_sym _ _) Sp Hk Hq) as [->|A]; auto. exfalso.
    unfold L_Alloc.region, within, byte_of in *. cbn [fst snd] in *. lia.
Qed.
Lemma vec_free v L L' R p n k b : vec_inv v L R -> Permutation L ((p, n) :: L') -> nth_error v k = Some b -> In p (chunks b) ->
  exists b', bk_free chunk p b = Ok b' /\ b_p b' = b_p b /\ flags_wf (b_flags b') /\ vec_inv (upd v k b') L' R.
Proof.
  intros [W PR PL HL] P Hk Hp. apply nth_error_split in Hk. destruct Hk as (l1 & l2 & -> & <-).
  assert (Wb : flags_wf (b_flags b)) by (apply Forall_app in W; destruct W as [_ W]; now inversion W).
  unfold L_Alloc.chunks in Hp. apply in_map_iff in Hp. destruct Hp as (i & <- & Hi).
  destruct (bk_free_spec chunk Hc b i Wb Hi) as (b' & E & Ep & W' & Pu). exists b'. split; auto. split; auto. split; auto. rewrite upd_mid by auto. constructor.
  - eapply wf_swap; eauto.
  - now rewrite (map_region _ b).
  - apply (Permutation_cons_inv (a := b_p b + i * chunk)). rewrite <- (vec_swap l1 b' b l2).
    + rewrite <- PL, P. reflexivity.
    + rewrite <- Ep. apply chunks_perm; auto.
  - apply (Permutation_Forall P) in HL. now inversion HL.
Qed.

(** filling with zeros touches the new block only *)
Lemma zero_keeps L R F p n s z : separate ((p, n) :: L) -> regions_ok (R ++ F) -> (exists r, In r R /\ within (p, n) r) ->
  keeps L F (bytes s) (bytes (if z : bool then memset0 p n s else s)) /\ (z = true -> forall a, byte_of a (p, n) -> bytes (if z then memset0 p n s else s) a = 0)
  /\ os (if z then memset0 p n s else s) = os s.
Proof.
  intros Sp [HR _] (q & Hq & Wq). destruct z; [|repeat split; auto; try discriminate; intros x r _ _; auto].
  cbn [memset0 os bytes]. split; [|split; auto].
  - intros x r Hr Hb. destruct (inside_b (p, n) x) eqn:E; auto. apply inside_spec in E. exfalso. apply FOP_app in HR. destruct HR as (_ & _ & H3).
    inversion Sp as [|? ? F1 _]; subst. rewrite Forall_forall in F1. apply in_app_or in Hr. destruct Hr as [Hr|Hr].
    + specialize (F1 r Hr). unfold byte_of in *. cbn [fst snd] in *. lia.
    + specialize (H3 q r Hq Hr). unfold byte_of, within in *. cbn [fst snd] in *. lia.
  - intros _ a Ha. apply inside_spec in Ha. now rewrite Ha.
Qed.
Lemma vec_zero v L R F s p n z : vec_inv v ((p, n) :: L) R -> regions_ok (R ++ F) ->
  keeps L F (bytes s) (bytes (if z : bool then memset0 p n s else s)) /\ (z = true -> forall a, byte_of a (p, n) -> bytes (if z then memset0 p n s else s) a = 0)
  /\ os (if z then memset0 p n s else s) = os s.
Proof.
  intros I H. apply regions_app in H as H'. destruct H' as [HR _]. destruct (vec_inside _ _ _ I HR) as [Sp In]. inversion In; subst. eapply zero_keeps; eauto.
Qed.
Lemma vec_new s e : regions_ok (os s) -> match bk_new chunk e s with
  | NoEnv => True | Bad => False
  | Ok (b', s') => b' = Bucket (e_addr e) all_free /\ os s' = region b' :: os s /\ regions_ok (os s') /\ keeps [] (os s) (bytes s) (bytes s')
  end.
Proof.
  intros H. unfold bk_new. pose proof (os_alloc_spec (64 * chunk) (fun _ => 0) (e_addr e) s H) as Sp. destruct (os_alloc _ _ _ _) as [[s' p]| |]; auto.
  destruct Sp as (-> & Eo & Hr & _ & _ & K). unfold L_Alloc.region. cbn [b_p]. replace (Z.max (64 * chunk) 1) with (64 * chunk) in Eo by lia. auto.
Qed.
Lemma fresh_chunks a : chunks (Bucket a all_free) = [].
Proof. unfold L_Alloc.chunks. assert (E : used (Bucket a all_free) = []) by (apply bk_empty_used; [apply all_free_wf|reflexivity]). now rewrite E. Qed.
Lemma full_count v : Forall (fun b => flags_wf (b_flags b)) v -> forallb bk_full v = true -> length (flat_map chunks v) = (64 * length v)%nat.
Proof.
  induction v as [|b v IH]; intros W E; auto. inversion W; subst. cbn [forallb] in E. apply andb_true_iff in E. destruct E as [E1 E2].
  cbn [flat_map]. rewrite app_length, (IH H2 E2). apply bk_full_used in E1; auto. unfold L_Alloc.chunks. rewrite map_length, E1, len_cons. lia.
Qed.

(** ** bucket *)
Definition bucket_inv (b : st (bucket_alloc chunk)) (L R : list (Z * Z)) : Prop := vec_inv [b] L R.
Lemma bucket_reliable : reliable (bucket_alloc chunk) (bucket_ok chunk) true bucket_inv.
Proof.
  constructor.
  - intros e s H. cbn [mk bucket_alloc]. pose proof (vec_new s (e O) H) as N. destruct (bk_new _ _ _) as [[b s']| |]; auto.
    destruct N as (-> & Eo & Hr & K). exists [region (Bucket (e_addr (e O)) all_free)]. rewrite Eo at 1. split; [reflexivity|]. split; auto. split; auto.
    constructor; cbn [map flat_map].
    + repeat constructor; apply all_free_wf.
    + apply Permutation_refl.
    + now rewrite fresh_chunks.
    + constructor.
  - intros b L R F s z n e I P H Hn Hok. cbn [al bucket_alloc] in *. unfold bucket_ok in Hok. apply andb_true_iff in Hok. destruct Hok as [Hok1 Hok2].
    apply Z.leb_le in Hok1. apply Nat.ltb_lt in Hok2. rewrite map_length in Hok2.
    assert (Hf : bk_full b = false).
    { destruct (bk_full b) eqn:E; auto. exfalso. destruct I as [W PR PL _]. inversion W; subst. apply Permutation_length in PL.
      rewrite full_count in PL; [|auto|cbn [forallb]; now rewrite E]. rewrite map_length in PL. cbn [length] in PL. lia. }
    destruct (vec_alloc [b] L R 0 b n I eq_refl Hf) as (b' & p & E & Ep & I'); [lia|]. rewrite E. cbn [upd] in I'.
    assert (HR : regions_ok (R ++ F)) by (eapply regions_perm; eauto). destruct (vec_zero _ _ _ F s p n z I' HR) as (K1 & K2 & K3).
    exists R. rewrite K3. split; [exact P|]. split; [exact H|]. split; [exact I'|]. split; auto.
  - intros b L L' R F s [p n] I P H PL. cbn [de bucket_alloc fst]. assert (HR : regions_ok R) by (apply (regions_perm _ _ P) in H; now apply regions_app in H).
    assert (Hin : In (p, n) L) by (rewrite PL; now left). destruct (vec_owner _ _ _ p n I HR Hin) as [(k & q & Hk & Hp) _].
    assert (nth_error [b] 0 = Some b /\ q = b) as [Hk' ->]. { split; auto. apply nth_error_In in Hk. destruct Hk as [->|[]]; auto. }
    destruct (vec_free [b] L L' R p n 0 b I PL Hk' Hp) as (b' & E & _ & _ & I'). rewrite E. exists R. split; [exact P|]. split; [exact H|]. split; [exact I'|]. reflexivity.
  - intros b R F s I P H. cbn [fin bucket_alloc]. destruct I as [_ PR _ _]. cbn [map] in PR.
    assert (P' : Permutation (os s) (region b :: F)) by (rewrite P, PR; reflexivity). destruct (os_free_spec s (b_p b) _ F H P') as (s' & -> & Q & _). exact Q.
  - intros b L L' R R' I PL PR. eapply vec_perm; eauto.
  - intros b L R I HR. now apply (vec_inside [b]).
Qed.

(** ** multi_bucket *)
Definition sorted (v : list bucket) : Prop := StronglySorted Z.lt (map b_p v).
Record multi_inv (m : st (multi_bucket chunk)) (L R : list (Z * Z)) : Prop := {
  mi_vec : vec_inv (m_vec m) L R; mi_sorted : sorted (m_vec m); mi_cur : (m_cur m <= length (m_vec m))%nat
}.
Lemma sorted_mid l1 b l2 : sorted (l1 ++ b :: l2) <-> sorted l1 /\ sorted l2 /\ Forall (fun x => b_p x < b_p b) l1 /\ Forall (fun x => b_p b < b_p x) l2
   /\ (forall x y, In x l1 -> In y l2 -> b_p x < b_p y).
Proof.
  unfold sorted. induction l1 as [|a l1 IH]; cbn [app map].
  - split.
    + intros H. inversion H; subst. rewrite Forall_map in *. repeat split; auto; try constructor. intros x y [].
    + intros (_ & H2 & _ & H3 & _). constructor; auto. now rewrite Forall_map.
  - split.
    + intros H. inversion H as [|? ? S1 F1]; subst. apply IH in S1. destruct S1 as (A1 & A2 & A3 & A4 & A5). rewrite map_app in F1. apply Forall_app in F1.
      destruct F1 as [F1 F2]. cbn [map] in F2. inversion F2 as [|? ? G1 G2]; subst. rewrite Forall_map in G2. rewrite Forall_forall in G2.
      repeat split; auto. { constructor; auto. } intros x y [->|Hx] Hy; auto.
    + intros (H1 & H2 & H3 & H4 & H5). inversion H1 as [|? ? S1 F1]; subst. inversion H3; subst. constructor.
      * apply IH. repeat split; auto. intros; apply H5; auto. now right.
      * rewrite map_app. apply Forall_app. split; auto. cbn [map]. constructor; auto. rewrite Forall_map. apply Forall_forall. intros y Hy. apply H5; auto. now left.
Qed.
Lemma take_while_le f v : (take_while f v <= length v)%nat.
Proof. induction v as [|b v IH]; cbn [take_while length]; [lia|]. destruct (f b); lia. Qed.
Lemma take_while_first f v : Forall (fun x => f x = true) (firstn (take_while f v) v).
Proof. induction v as [|b v IH]; cbn [take_while]; [constructor|]. destruct (f b) eqn:E; cbn [firstn]; constructor; auto. Qed.
Lemma take_while_stop f v b : nth_error v (take_while f v) = Some b -> f b = false.
Proof. induction v as [|a v IH]; cbn [take_while]; [discriminate|]. destruct (f a) eqn:E; cbn [nth_error]; auto. intros H. now injection H as <-. Qed.
Lemma take_while_all f v : take_while f v = length v -> forallb f v = true.
Proof. intros E. apply forallb_forall. pose proof (take_while_first f v) as H. rewrite E, firstn_all, Forall_forall in H. auto. Qed.
Lemma bound_sorted f v t : sorted v -> (forall x, f x = (b_p x <=? t)) -> exists k, bound f v = Ok k /\ (k <= length v)%nat
   /\ Forall (fun x => b_p x <= t) (firstn k v) /\ Forall (fun x => t < b_p x) (skipn k v).
Proof.
  intros S Hf. assert (G : Forall (fun x => t < b_p x) (skipn (take_while f v) v)).
  { induction v as [|b v IH]; cbn [take_while]; [constructor|]. inversion S as [|? ? S1 F1]; subst. rewrite Hf. destruct (Z.leb_spec (b_p b) t); cbn [skipn]; [now apply IH|].
    constructor; [lia|]. rewrite Forall_map in F1. eapply Forall_impl; [|exact F1]. cbv beta. intros; lia. }
  exists (take_while f v). split; [|split; [apply take_while_le|split; auto]].
  - unfold bound, partitioned. replace (forallb _ _) with true; auto. symmetry. apply forallb_forall. rewrite Forall_forall in G. intros x Hx. apply G in Hx. rewrite Hf. lia.
  - eapply Forall_impl; [|apply take_while_first]. cbv beta. intros x Hx. rewrite Hf in Hx. lia.
Qed.
Lemma sorted_upd v k b b' : nth_error v k = Some b -> b_p b' = b_p b -> sorted v -> sorted (upd v k b').
Proof.
  intros Hk E S. apply nth_error_split in Hk. destruct Hk as (l1 & l2 & -> & <-). rewrite upd_mid by auto. apply sorted_mid. apply sorted_mid in S. now rewrite E.
Qed.

(** a bucket with room *)
Lemma find_non_full_spec m L R F s e : multi_inv m L R -> Permutation (os s) (R ++ F) -> regions_ok (os s) ->
  match find_non_full chunk e m s with
  | NoEnv => True | Bad => False
  | Ok (m1, s1) => exists R1 b, Permutation (os s1) (R1 ++ F) /\ regions_ok (os s1) /\ multi_inv m1 L R1
      /\ nth_error (m_vec m1) (m_cur m1) = Some b /\ bk_full b = false /\ keeps [] (os s) (bytes s) (bytes s1)
      /\ (os s1 <> os s -> length L = (64 * length R)%nat)
  end.
Proof.
  intros [I S Hcur] P H. unfold find_non_full. destruct (Nat.ltb_spec (take_while bk_full (m_vec m)) (length (m_vec m))) as [Hk|Hk].
  - destruct (nth_error (m_vec m) (take_while bk_full (m_vec m))) as [b|] eqn:E; [|apply nth_error_None in E; lia].
    exists R, b. cbn [m_vec m_cur]. split; auto. split; auto. split; [constructor; auto; cbn [m_cur m_vec]; lia|]. split; auto. split; [eapply take_while_stop; eauto|].
    split; [intros x r _ _; auto|congruence].
  - pose proof (vec_new s e H) as N. destruct (bk_new _ _ _) as [[b s1]| |]; auto. destruct N as (Eb & Eo & Hr & K).
    destruct (bound_sorted (fun x => negb (b_p b <? b_p x)) (m_vec m) (b_p b) S ltac:(intros; lia)) as (k & -> & Hkl & F1 & F2).
    exists (region b :: R), b. cbn [m_vec m_cur]. rewrite Eo. split; [now rewrite P|]. split; [now rewrite <- Eo|].
    assert (En : nth_error (insert_at k b (m_vec m)) k = Some b).
    { unfold insert_at. rewrite nth_error_app2; rewrite firstn_length_le by auto; [|lia]. now rewrite Nat.sub_diag. }
    split; [|split; [auto|split; [subst b; reflexivity|split; [auto|]]]].
    + destruct I as [W PR PL HL]. constructor; cbn [m_vec m_cur].
      * constructor.
        -- unfold insert_at. rewrite <- (firstn_skipn k (m_vec m)) in W. apply Forall_app in W. apply Forall_app. split; [tauto|]. constructor; [|tauto]. subst b. apply all_free_wf.
        -- unfold insert_at. rewrite map_app. cbn [map]. rewrite <- Permutation_middle, <- map_app, firstn_skipn. now constructor.
        -- unfold insert_at. rewrite flat_map_app. cbn [flat_map]. subst b. rewrite fresh_chunks. cbn [app]. now rewrite <- flat_map_app, firstn_skipn.
        -- auto.
      * unfold insert_at. apply sorted_mid. rewrite <- (firstn_skipn k (m_vec m)) in S. unfold sorted in S. rewrite map_app in S.
        rewrite Forall_forall in F1, F2.
        assert (Hne : forall x, In x (m_vec m) -> b_p x <> b_p b).
        { intros x Hx E. rewrite Eo in Hr. destruct Hr as [Hr _]. inversion Hr as [|? ? G _]; subst. rewrite Forall_forall in G.
          assert (Hin : In (region x) (os s)) by (rewrite P; apply in_or_app; left; rewrite PR; now apply in_map).
          specialize (G _ Hin). unfold L_Alloc.region in G. cbn [fst snd b_p] in *. lia. }
        assert (Sa : forall a c, StronglySorted Z.lt (a ++ c) -> StronglySorted Z.lt a /\ StronglySorted Z.lt c).
        { clear. induction a as [|x a IH]; cbn [app]; intros c Hs; [split; auto; constructor|]. inversion Hs as [|? ? S1 F1]; subst. apply IH in S1. apply Forall_app in F1.
          split; [constructor|]; tauto. }
        apply Sa in S. destruct S as [S1 S2]. split; [exact S1|]. split; [exact S2|]. split; [|split].
        -- apply Forall_forall. intros x Hx. specialize (F1 x Hx). assert (In x (m_vec m)) by (rewrite <- (firstn_skipn k (m_vec m)); apply in_or_app; now left).
           specialize (Hne x H0). lia.
        -- apply Forall_forall. intros x Hx. now apply F2.
        -- intros x y Hx Hy. specialize (F1 x Hx). specialize (F2 y Hy). lia.
      * assert (k < length (insert_at k b (m_vec m)))%nat by (apply nth_error_Some; congruence). lia.
    + intros _. destruct I as [W PR PL HL]. apply Permutation_length in PL, PR. rewrite map_length in PL, PR. rewrite PR, PL. apply full_count; auto.
      apply take_while_all. pose proof (take_while_le bk_full (m_vec m)). lia.
Qed.
Lemma multi_alloc_spec m L R F s z n e : multi_inv m L R -> Permutation (os s) (R ++ F) -> regions_ok (os s) -> 0 <= n <= chunk ->
  match multi_al chunk z n e m s with
  | NoEnv => True | Bad => False
  | Ok (m', s', p) => exists R', Permutation (os s') (R' ++ F) /\ regions_ok (os s') /\ multi_inv m' ((p, n) :: L) R' /\ keeps L F (bytes s) (bytes s')
      /\ (z = true -> forall a, byte_of a (p, n) -> bytes s' a = 0) /\ (os s' <> os s -> length L = (64 * length R)%nat)
  end.
Proof.
  intros I P H Hn. unfold multi_al.
  assert (G : match (if Nat.eqb (m_cur m) (length (m_vec m)) || cur_full m then find_non_full chunk e m s else Ok (m, s)) with
     | NoEnv => True | Bad => False
     | Ok (m1, s1) => exists R1 b, Permutation (os s1) (R1 ++ F) /\ regions_ok (os s1) /\ multi_inv m1 L R1
      /\ nth_error (m_vec m1) (m_cur m1) = Some b /\ bk_full b = false /\ keeps [] (os s) (bytes s) (bytes s1)
      /\ (os s1 <> os s -> length L = (64 * length R)%nat)
     end).
  { destruct (Nat.eqb (m_cur m) (length (m_vec m)) || cur_full m) eqn:E; [now apply find_non_full_spec|].
    apply orb_false_iff in E. destruct E as [E1 E2]. unfold cur_full in E2. destruct (nth_error (m_vec m) (m_cur m)) as [b|] eqn:Eb; [|discriminate].
    exists R, b. split; [exact P|]. split; [exact H|]. split; [exact I|]. split; [auto|]. split; [auto|]. split; [intros x r _ _; auto|congruence]. }
  destruct (if Nat.eqb _ _ || _ then _ else _) as [[m1 s1]| |]; auto. destruct G as (R1 & b & P1 & H1 & I1 & Eb & Hf & K & Hw). rewrite Eb.
  destruct I1 as [V1 S1 C1]. destruct (vec_alloc _ _ _ _ b n V1 Eb Hf Hn) as (b' & p & -> & Ep & V').
  assert (HR : regions_ok (R1 ++ F)) by (eapply regions_perm; eauto). destruct (vec_zero _ _ _ F s1 p n z V' HR) as (K1 & K2 & K3).
  exists R1. rewrite K3. split; auto. split; auto. split; [|split; [|split; auto]].
  - constructor; cbn [m_vec m_cur]; auto. { eapply sorted_upd; eauto. } now rewrite upd_length.
  - apply (regions_perm _ _ P) in H as HR0. apply regions_app in HR0. destruct HR0 as [HR0 _]. destruct I as [V _ _]. destruct (vec_inside _ _ _ V HR0) as [_ In0].
    rewrite Forall_forall in In0. intros x r Hin Hb. rewrite (K1 x r Hin Hb). apply in_app_or in Hin. destruct Hin as [Hin|Hin].
    + destruct (In0 r Hin) as (q & Hq & Wq). apply (K x q); [cbn [app]; rewrite P; apply in_or_app; now left|]. unfold byte_of, within in *. lia.
    + apply (K x r); auto. cbn [app]. rewrite P. apply in_or_app. now right.
Qed.

Lemma erase_mid l1 (b : bucket) l2 : erase_at (length l1) (l1 ++ b :: l2) = l1 ++ l2.
Proof. unfold erase_at. rewrite firstn_app, Nat.sub_diag, firstn_all. cbn [firstn]. rewrite app_nil_r. f_equal. replace (S (length l1)) with (length (l1 ++ [b])) by (rewrite app_length; cbn; lia).
  change (b :: l2) with ([b] ++ l2). rewrite app_assoc, skipn_app, skipn_all, Nat.sub_diag. reflexivity. Qed.

Lemma multi_free_spec m L L' R F s b : multi_inv m L R -> Permutation (os s) (R ++ F) -> regions_ok (os s) -> Permutation L (b :: L') ->
  match multi_de chunk b m s with
  | NoEnv => True | Bad => False
  | Ok (m', s') => exists R', Permutation (os s') (R' ++ F) /\ regions_ok (os s') /\ multi_inv m' L' R' /\ bytes s' = bytes s
  end.
Proof.
  intros [V S C] P H PL. destruct b as [p n]. assert (HR : regions_ok R) by (apply (regions_perm _ _ P) in H; now apply regions_app in H).
  assert (Hin : In (p, n) L) by (rewrite PL; now left). destruct (vec_owner _ _ _ p n V HR Hin) as [(k0 & q & Hk0 & Hq) Ho].
  assert (Hb : exists k1, bound (fun x => b_p x <=? p) (m_vec m) = Ok k1 /\ k1 = Datatypes.S k0).
  { destruct (bound_sorted (fun x => b_p x <=? p) (m_vec m) p S ltac:(intros; lia)) as (k1 & E1 & Hkl & F1 & F2). exists k1. split; auto.
    pose proof (chunk_in chunk Hc _ _ Hq) as Wq. unfold within in Wq. cbn [fst snd] in Wq. rewrite Forall_forall in F1, F2. clear E1.
    apply nth_error_split in Hk0. destruct Hk0 as (l1 & l2 & Ev & El). rewrite Ev in F1, F2, Hkl, S. apply sorted_mid in S. destruct S as (_ & _ & _ & S4 & _).
    rewrite app_length in Hkl. cbn [length] in Hkl. destruct (Nat.lt_trichotomy k1 (Datatypes.S k0)) as [Hlt|[?|Hgt]]; auto; exfalso.
    - assert (Hin2 : In q (skipn k1 (l1 ++ q :: l2))) by (rewrite skipn_app; apply in_or_app; right; replace (k1 - length l1)%nat with O by lia; now left).
      apply F2 in Hin2. lia.
    - rewrite firstn_app in F1. replace (k1 - length l1)%nat with (Datatypes.S (k1 - Datatypes.S k0)) in F1 by lia. cbn [firstn] in F1.
      destruct l2 as [|q2 l2]; [cbn [length] in Hkl; lia|]. replace (k1 - Datatypes.S k0)%nat with (Datatypes.S (k1 - 2 - k0)) in F1 by lia. cbn [firstn] in F1.
      assert (Hin2 : b_p q2 <= p) by (apply F1; apply in_or_app; right; right; now left). inversion S4 as [|? ? G _]; subst.
      assert (Hq2 : In q2 (m_vec m)) by (rewrite Ev; apply in_or_app; right; right; now left).
      assert (Hq1 : In q (m_vec m)) by (rewrite Ev; apply in_or_app; right; now left).
      destruct V as [_ PR _ _]. apply (regions_perm _ _ PR) in HR. destruct HR as [Sp _]. unfold separate in Sp. rewrite FOP_map in Sp.
      destruct (FOP_in _ _ q q2 (fun x y => sep_sym _ _) Sp Hq1 Hq2) as [->|A]; [lia|]. unfold L_Alloc.region in A. cbn [fst snd] in A. lia. }
  destruct Hb as (k1 & Eb1 & ->). unfold multi_de. cbn [fst].
  destruct (Nat.ltb (m_cur m) (length (m_vec m)) && match nth_error (m_vec m) (m_cur m) with Some b => bk_owns chunk b p | None => false end) eqn:Ec.
  - apply andb_true_iff in Ec. destruct Ec as [_ Ec]. destruct (nth_error (m_vec m) (m_cur m)) as [b|] eqn:Eb; [|discriminate].
    destruct (vec_free _ _ _ _ p n _ b V PL Eb (Ho _ _ Eb Ec)) as (b' & -> & Ep & Wb' & V'). exists R. split; auto. split; auto. split; auto.
    constructor; cbn [m_vec m_cur]; auto; [eapply sorted_upd; eauto|now rewrite upd_length].
  - rewrite Eb1, Hk0. assert (Hw : bk_owns chunk q p = true).
    { apply bk_owns_spec. apply (chunk_in chunk Hc) in Hq. unfold within, byte_of in *. cbn [fst snd] in *. lia. }
    rewrite Hw. destruct (vec_free _ _ _ _ p n _ q V PL Hk0 Hq) as (b' & -> & Ep & Wb' & V').
    assert (S' : sorted (upd (m_vec m) k0 b')) by (eapply sorted_upd; eauto).
    assert (Hk0' : (k0 < length (m_vec m))%nat) by (apply nth_error_Some; congruence).
    assert (G : exists R', Permutation (os s) (R' ++ F) /\ regions_ok (os s) /\ multi_inv (Multi (upd (m_vec m) k0 b') k0) L' R' /\ bytes s = bytes s).
    { exists R. split; auto. split; auto. split; auto. constructor; cbn [m_vec m_cur]; auto. rewrite upd_length. lia. }
    destruct (bk_empty b') eqn:Ee; cbn [negb m_vec]; [|exact G].
    destruct (Nat.leb (length (upd (m_vec m) k0 b')) 1); [exact G|].
    destruct (nth_error_split _ _ Hk0) as (l1 & l2 & Ev & El). rewrite Ev in V', S' |- *. rewrite upd_mid in V', S' |- * by auto. subst k0. rewrite erase_mid.
    destruct V' as [W' PR' PL' HL']. rewrite map_app in PR'. cbn [map] in PR'.
    assert (P' : Permutation (os s) ((b_p b', 64 * chunk) :: map region (l1 ++ l2) ++ F)).
    { rewrite P, PR', map_app. change (b_p b', 64 * chunk) with (region b'). rewrite <- Permutation_middle. reflexivity. }
    destruct (os_free_spec s _ _ _ H P') as (s' & -> & Q1 & Q2 & Q3). exists (map region (l1 ++ l2)). split; auto. split; auto. split; auto.
    constructor; cbn [m_vec m_cur]; auto.
    + constructor; auto.
      * apply Forall_app in W'. destruct W' as [W1 W2]. inversion W2; subst. apply Forall_app. auto.
      * rewrite PL', !flat_map_app. cbn [flat_map]. unfold L_Alloc.chunks at 2. apply bk_empty_used in Ee; auto. rewrite Ee. reflexivity.
    + apply sorted_mid in S'. destruct S' as (S1 & S2 & S3 & S4 & S5). clear - S1 S2 S5. unfold sorted in *. rewrite map_app.
      induction l1 as [|x l1 IH]; cbn [map app] in *; auto. inversion S1 as [|? ? T1 T2]; subst. constructor.
      * apply IH; auto. intros; apply S5; auto. now right.
      * apply Forall_app. split; auto. rewrite Forall_map. apply Forall_forall. intros y Hy. apply S5; auto. now left.
Qed.
Lemma multi_fin_spec v R F s : Permutation R (map region v) -> Permutation (os s) (R ++ F) -> regions_ok (os s) ->
  exists s', fold_left (fun r b => let! s := r in os_free (b_p b) s) v (Ok s) = Ok s' /\ Permutation (os s') F.
Proof.
  revert R s. induction v as [|b v IH]; intros R s PR P H; cbn [fold_left map] in *.
  - exists s. split; auto. rewrite P, PR. reflexivity.
  - assert (P' : Permutation (os s) (region b :: (map region v ++ F))) by (rewrite P, PR; reflexivity).
    destruct (os_free_spec s (b_p b) _ _ H P') as (s1 & -> & Q1 & Q2 & Q3). apply (IH (map region v)); auto.
Qed.
Lemma multi_reliable : reliable (multi_bucket chunk) (multi_ok chunk) true multi_inv.
Proof.
  constructor.
  - intros e s H. cbn [mk multi_bucket]. pose proof (vec_new s (e O) H) as N. destruct (bk_new _ _ _) as [[b s']| |]; auto.
    destruct N as (-> & Eo & Hr & K). exists [region (Bucket (e_addr (e O)) all_free)]. rewrite Eo at 1. split; [reflexivity|]. split; auto. split; auto.
    constructor; cbn [m_vec m_cur length]; auto.
    + constructor; cbn [map flat_map].
      * repeat constructor; apply all_free_wf.
      * apply Permutation_refl.
      * now rewrite fresh_chunks.
      * constructor.
    + unfold sorted. cbn [map]. repeat constructor.
  - intros m L R F s z n e I P H Hn Hok. unfold multi_ok in Hok. pose proof (multi_alloc_spec m L R F s z n e I P H ltac:(lia)) as A. cbn [al multi_bucket].
    destruct (multi_al _ _ _ _ _ _) as [[[m' s'] p]| |]; auto. destruct A as (R' & A1 & A2 & A3 & A4 & A5 & _). exists R'. split; [exact A1|]. split; [exact A2|]. split; [exact A3|]. split; auto.
  - intros m L L' R F s b I P H PL. apply (multi_free_spec m L L' R F s b); auto.
  - intros m R F s I P H. cbn [fin multi_bucket]. unfold multi_fin. destruct I as [[_ PR _ _] _ _]. destruct (multi_fin_spec _ R F s PR P H) as (s' & -> & Q). exact Q.
  - intros m L L' R R' [V Ss C] PL PR. constructor; auto. eapply vec_perm; eauto.
  - intros m L R I HR. destruct I as [V _ _]. now apply (vec_inside (m_vec m)).
Qed.
End Buckets.
