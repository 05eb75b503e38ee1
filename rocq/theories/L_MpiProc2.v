(** Lemmas for C87: the processes in step do what M_Mpi says. *)
From Verif Require Import Base M_Perm M_IdxMap M_Loops M_Assign M_Transform M_Mpi M_MpiProc S_MpiProc L_Assign L_MpiProc.

Section Ops.
Context {V : Type}.
Variable red : nat -> Z -> list V -> V.
Variable n : nat.
Notation locks := (locks red n).

(** ** memory *)
Lemma store_seq (f : Z -> V) d c : forall j m, store m (d + Z.of_nat j) (map f (map Z.of_nat (seq j c))) = fold_left (fun m k => mset m (d + k) (f k)) (map Z.of_nat (seq j c)) m.
Proof.
  induction c as [|c IH]; intros j m; cbn [seq map store fold_left]; [reflexivity|]. rewrite <- IH. f_equal. lia.
Qed.
Lemma store_read (src : mem V) s m d c : store m d (read src s c) = transfer src s m d c.
Proof. unfold read, transfer, zseq. rewrite <- (store_seq (fun k => src (s + k))). f_equal. lia. Qed.
Lemma read_length (m : mem V) a c : Z.of_nat (length (read m a c)) = Z.max 0 c.
Proof. unfold read, zseq. rewrite !map_length, seq_length. lia. Qed.
Lemma store_reduced (p : nat -> proc V) r c m d : store m d (map (fun k => red r k (map (fun q => p_mem q (v_base (p_rhs q) + k)) (map p (seq 0 n)))) (zseq c)) = reduced red (map p (seq 0 n)) r c m d.
Proof. unfold reduced, zseq. rewrite <- (store_seq (fun k => red r k (map (fun q => p_mem q (v_base (p_rhs q) + k)) (map p (seq 0 n))))). f_equal. lia. Qed.

(** ** calls of all *)
Lemma all_some_map {A B} (f : A -> option B) (g : A -> B) l : (forall q, In q l -> f q = Some (g q)) -> all_some (map f l) = Some (map g l).
Proof.
  induction l as [|q l IH]; intros H; cbn; [reflexivity|]. rewrite (H q (or_introl eq_refl)). rewrite IH; [reflexivity|]. intros q' Hq. apply H. now right.
Qed.
Lemma collect_all {B} cs (f : call V -> option B) (g : nat -> B) k : (forall q, (q < n)%nat -> f (cs q) = Some (g q)) ->
  collect n (full n cs) f k = match k (map g (seq 0 n)) with Some x => Got x | None => Wrong end.
Proof.
  intros H. unfold collect, everyone. rewrite (all_some_map (full n cs) cs).
  2:{ intros q Hq. apply in_seq in Hq. unfold full. assert ((q <? n)%nat = true) as -> by (apply Nat.ltb_lt; lia). reflexivity. }
  rewrite map_map. rewrite (all_some_map (fun q => f (cs q)) g); [reflexivity|]. intros q Hq. apply in_seq in Hq. apply H. lia.
Qed.
Lemma full_at (cs : nat -> call V) q : (q < n)%nat -> full n cs q = Some (cs q).
Proof. intros H. unfold full. apply Nat.ltb_lt in H. now rewrite H. Qed.

Lemma ranks_inv {A B} (f : nat -> A -> option B) (p : nat -> A) res : ranks f (map p (seq 0 n)) = Some res -> length res = n /\ forall r, (r < n)%nat -> exists b, nth_error res r = Some b /\ f r (p r) = Some b.
Proof.
  unfold ranks. rewrite map_length, seq_length.
  assert (G : forall c j res, all_some (map (fun rp => f (fst rp) (snd rp)) (combine (seq j c) (map p (seq j c)))) = Some res -> length res = c /\ forall r, (r < c)%nat -> exists b, nth_error res r = Some b /\ f (j + r)%nat (p (j + r)%nat) = Some b).
  { clear. induction c as [|c IH]; intros j res; cbn.
    - intros E. injection E as <-. split; [reflexivity|]. intros r Hr. lia.
    - destruct (f j (p j)) as [b|] eqn:Eb; [|discriminate]. destruct (all_some _) as [l|] eqn:El; [|discriminate]. intros E. injection E as <-. destruct (IH (S j) l El) as [Hl H]. split; [cbn; lia|].
      intros [|r] Hr; [exists b; rewrite Nat.add_0_r; auto|]. destruct (H r ltac:(lia)) as (b' & H1 & H2). exists b'. split; [exact H1|]. now rewrite <- plus_n_Sm. }
  intros E. destruct (G n O res E) as [Hl H]. split; [exact Hl|exact H].
Qed.

(** ** shapes *)
Lemma scatter_shape_locks root (p : nat -> proc V) k tr out : (root < n)%nat ->
  locks (fun r => k r (scatter_shape n r (nthZ (im_len (v_lay (p_rhs (p root)))) 0) (p r))) tr out -> exists tr', locks (fun r => scatter_shape_act n root r (p r) (k r)) tr' out.
Proof.
  intros Hr L. eexists. eapply locks_call with (cs := fun r => CBcastL root [nthZ (im_len (v_lay (p_rhs (p r)))) 0]) (reps := fun r => RZs [nthZ (im_len (v_lay (p_rhs (p root)))) 0]).
  - intros r _. reflexivity.
  - intros r _. cbn [answer]. rewrite (full_at _ root Hr). now rewrite Nat.eqb_refl.
  - intros r q _ _. cbn. auto.
  - exact L.
Qed.
Lemma gather_shape_locks all root (p : nat -> proc V) k tr out :
  locks (fun r => k r (gather_shape all root r (sumZ (map slow_size (map p (seq 0 n)))) (p r))) tr out -> exists tr', locks (fun r => gather_shape_act all root r (p r) (k r)) tr' out.
Proof.
  intros L. eexists. eapply locks_call with (cs := fun r => CSum all root (slow_size (p r))) (reps := fun r => if all || (r =? root)%nat then RZ (sumZ (map slow_size (map p (seq 0 n)))) else RNo).
  - intros r _. reflexivity.
  - intros r _. cbn [answer]. destruct (all || (r =? root)%nat); [|reflexivity]. rewrite (collect_all _ _ (fun q => slow_size (p q))); [now rewrite map_map|]. intros q _. rewrite eqb_reflx, Nat.eqb_refl, orb_true_r. reflexivity.
  - intros r q _ _. cbn. auto.
  - eapply locks_ext; [|exact L]. intros r _. cbv beta. destruct (all || (r =? root)%nat) eqn:E; [reflexivity|]. f_equal. unfold gather_shape. apply orb_false_iff in E. destruct E as [-> ->]. reflexivity.
Qed.
(** the beginning of an assignment *)
Lemma begin_locks checks (sh : nat -> (list Z -> act V) -> act V) (sha : nat -> list Z) (p : nat -> proc V) (t : nat -> target) (k : nat -> proc V -> act V) tr out :
  (forall k tr out, locks (fun r => k r (sha r)) tr out -> exists tr', locks (fun r => sh r (k r)) tr' out) ->
  one_kind checks (map p (seq 0 n)) = true -> (forall r, (r < n)%nat -> begin_assign checks (p_rhs (p r)) (p_tgt (p r)) (sha r) = Some (t r)) ->
  locks (fun r => k r (Proc (p_mem (p r)) (p_rhs (p r)) (t r))) tr out -> exists tr', locks (fun r => begin_act checks (sh r) (p r) (k r)) tr' out.
Proof.
  intros HS OK HB L. unfold one_kind in OK. apply orb_true_iff in OK. destruct OK as [OK|OK].
  - destruct (HS (fun r s => match begin_assign checks (p_rhs (p r)) (p_tgt (p r)) s with Some t => k r (Proc (p_mem (p r)) (p_rhs (p r)) t) | None => Bad end) tr out) as (tr' & L').
    { eapply locks_ext; [|exact L]. intros r Hr. cbv beta. now rewrite (HB r Hr). }
    exists tr'. eapply locks_ext; [|exact L']. intros r Hr. unfold begin_act. destruct (p_tgt (p r)) as [v nb|v] eqn:Et; [reflexivity|].
    apply orb_true_iff in OK. destruct OK as [->|OK]; [reflexivity|]. rewrite forallb_forall in OK. specialize (OK (p r)). rewrite Et in OK. discriminate OK. apply in_map, in_seq. lia.
  - destruct checks.
    { destruct (HS (fun r s => match begin_assign true (p_rhs (p r)) (p_tgt (p r)) s with Some t => k r (Proc (p_mem (p r)) (p_rhs (p r)) t) | None => Bad end) tr out) as (tr' & L').
      { eapply locks_ext; [|exact L]. intros r Hr. cbv beta. now rewrite (HB r Hr). }
      exists tr'. eapply locks_ext; [|exact L']. intros r Hr. unfold begin_act. destruct (p_tgt (p r)); reflexivity. }
    exists tr. eapply locks_ext; [|exact L]. intros r Hr. unfold begin_act. specialize (HB r Hr). rewrite forallb_forall in OK. specialize (OK (p r) (in_map p _ _ (proj2 (in_seq n 0 r) ltac:(lia)))).
    destruct (p r) as [m rhs tg]. cbn [p_tgt p_mem p_rhs] in *. destruct tg as [v nb|v]; [discriminate OK|]. cbn in HB. injection HB as <-. reflexivity.
Qed.
Lemma begin_local checks (p : proc V) t (k : proc V -> act V) : begin_assign checks (p_rhs p) (p_tgt p) (im_len (v_lay (p_rhs p))) = Some t ->
  begin_act checks (fun k => k (im_len (v_lay (p_rhs p)))) p k = k (Proc (p_mem p) (p_rhs p) t).
Proof.
  intros H. unfold begin_act. rewrite H. destruct p as [m rhs tg]. cbn [p_tgt p_mem p_rhs] in *. destruct tg as [v nb|v]; [reflexivity|]. destruct checks; [reflexivity|]. cbn in H. now injection H as <-.
Qed.

(** ** scatter *)
Lemma scatter_invoke_locks root displs (p : nat -> proc V) b k tr out : (root < n)%nat -> displs_from 0 (scatter_counts n (p root)) = Some displs ->
  (forall r, (r < n)%nat -> scatter_rank n root (p root) displs r (p r) = Some (b r)) ->
  locks (fun r => k r (fst (b r)) (snd (b r))) tr out -> exists tr', locks (fun r => scatter_invoke n root r (p r) (k r)) tr' out.
Proof.
  intros Hr HD HR L.
  set (tv := fun r => snd (b r)).
  assert (F : forall r, (r < n)%nat -> is_contiguous (v_lay (tgt_view (p_tgt (p r)))) = true /\ (exists ds, displs_from 0 (scatter_counts n (p r)) = Some ds /\ (r = root -> ds = displs)) /\
    resize_or_check (p_tgt (p r)) (scatter_shape n r (nthZ (im_len (v_lay (p_rhs (p root)))) 0) (p r)) = Some (tv r) /\
    0 <= scatter_count n r (p r) /\ scatter_count n r (p r) = nthZ (scatter_counts n (p root)) r /\ (negb (r =? root)%nat || apart (v_base (p_rhs (p root)) + nthZ displs r) (scatter_count n r (p r)) (v_base (tv r)) (scatter_count n r (p r)) = true) /\
    fst (b r) = transfer (p_mem (p root)) (v_base (p_rhs (p root)) + nthZ displs r) (p_mem (p r)) (v_base (tv r)) (scatter_count n r (p r))).
  { intros r Hrn. specialize (HR r Hrn). unfold scatter_rank, contiguous_args in HR. destruct (is_contiguous (v_lay (p_rhs (p r))) && is_contiguous (v_lay (tgt_view (p_tgt (p r))))) eqn:Ec; [|discriminate HR].
    apply andb_true_iff in Ec. destruct (resize_or_check _ _) as [w|] eqn:Ew; [|discriminate HR]. destruct (displs_from 0 (scatter_counts n (p r))) as [ds|] eqn:Ed; [|discriminate HR].
    destruct ((0 <=? scatter_count n r (p r)) && _ && _) eqn:Ea; [|discriminate HR]. injection HR as HR. apply andb_true_iff in Ea. destruct Ea as [Ea Ea3]. apply andb_true_iff in Ea. destruct Ea as [Ea1 Ea2].
    subst tv. cbv beta. rewrite <- HR. cbn [fst snd]. split; [apply Ec|]. split; [|split; [reflexivity|split; [now apply Z.leb_le|split; [now apply Z.eqb_eq|split; [exact Ea3|reflexivity]]]]].
    exists ds. split; [reflexivity|]. intros ->. congruence. }
  set (part := fun q => read (p_mem (p root)) (v_base (p_rhs (p root)) + nthZ displs q) (nthZ (scatter_counts n (p root)) q)).
  assert (L2 : exists tr', locks (fun r => Call (CScatterv root (if (r =? root)%nat then map part (seq 0 n) else []) (scatter_count n r (p r)))
      (fun x => match x with REl l => k r (store (p_mem (p r)) (v_base (tv r)) l) (tv r) | _ => Bad end)) tr' out).
  { eexists. eapply locks_call with (cs := fun r => CScatterv root (if (r =? root)%nat then map part (seq 0 n) else []) (scatter_count n r (p r))) (reps := fun r => REl (part r)).
    - intros r _. reflexivity.
    - intros r Hrn. cbn [answer]. rewrite (full_at _ root Hr), !Nat.eqb_refl. rewrite (map_nth_error part r (seq 0 n) (d := r)).
      2:{ rewrite (nth_error_nth' (seq 0 n) 0%nat) by (rewrite seq_length; exact Hrn). now rewrite seq_nth. }
      destruct (F r Hrn) as (_ & _ & _ & C1 & C2 & _). subst part. cbv beta. rewrite read_length, <- C2. rewrite Z.max_r by exact C1. now rewrite Z.eqb_refl.
    - intros r q _ _. cbn. reflexivity.
    - eapply locks_ext; [|exact L]. intros r Hrn. cbv beta. destruct (F r Hrn) as (_ & _ & _ & _ & C2 & _ & C3). subst part. cbv beta. now rewrite store_read, <- C2, C3. }
  destruct L2 as (tr2 & L2). destruct (scatter_shape_locks root p (fun r sha =>
    match resize_or_check (p_tgt (p r)) sha, displs_from 0 (scatter_counts n (p r)) with
    | Some tv, Some displs =>
        if (0 <=? scatter_count n r (p r)) && (negb (r =? root)%nat || apart (v_base (p_rhs (p r)) + nthZ displs r) (scatter_count n r (p r)) (v_base tv) (scatter_count n r (p r))) then
          Call (CScatterv root (if (r =? root)%nat then map (fun q => read (p_mem (p r)) (v_base (p_rhs (p r)) + nthZ displs q) (nthZ (scatter_counts n (p r)) q)) (seq 0 n) else []) (scatter_count n r (p r)))
               (fun x => match x with REl l => k r (store (p_mem (p r)) (v_base tv) l) tv | _ => Bad end)
        else Bad
    | _, _ => Bad
    end) tr2 out Hr) as (tr1 & L1).
  { eapply locks_ext; [|exact L2]. intros r Hrn. cbv beta. destruct (F r Hrn) as (_ & (ds & D1 & D2) & D3 & C1 & C2 & C4 & _). rewrite D3, D1. apply Z.leb_le in C1. rewrite C1. cbn [andb].
    destruct (Nat.eqb_spec r root) as [->|Nr]; cbn [negb orb] in *; [|reflexivity]. rewrite (D2 eq_refl). rewrite C4. reflexivity. }
  exists tr1. eapply locks_ext; [|exact L1]. intros r Hrn. cbv beta. unfold scatter_invoke. destruct (F r Hrn) as (-> & _). reflexivity.
Qed.

(** ** gather *)
Lemma nthZ_map_seq (f : nat -> Z) q : (q < n)%nat -> nthZ (map f (seq 0 n)) q = f q.
Proof. intros H. unfold nthZ. rewrite (nth_indep _ 0 (f 0%nat)) by (rewrite map_length, seq_length; exact H). rewrite map_nth, seq_nth by exact H. reflexivity. Qed.
Lemma nth_error_map_seq {T} (f : nat -> T) q : (q < n)%nat -> nth_error (map f (seq 0 n)) q = Some (f q).
Proof. intros H. apply map_nth_error. rewrite (nth_error_nth' (seq 0 n) 0%nat) by (rewrite seq_length; exact H). now rewrite seq_nth. Qed.
Lemma place_gatherv (p : nat -> proc V) displs m d :
  place m d displs (map (fun q => read (p_mem (p q)) (v_base (p_rhs (p q))) (gather_count (p q))) (seq 0 n)) = gatherv (map p (seq 0 n)) (map gather_count (map p (seq 0 n))) displs m d.
Proof.
  unfold place, gatherv. rewrite !map_length, seq_length. apply fold_left_ext_in. intros m' q Hq. apply in_seq in Hq. rewrite !nth_error_map_seq by lia. rewrite store_read, map_map. now rewrite nthZ_map_seq by lia.
Qed.
Lemma gather_invoke_locks all root (p : nat -> proc V) b k tr out : (root < n)%nat ->
  (forall r, (r < n)%nat -> gather_rank all root (map p (seq 0 n)) r (p r) = Some (b r)) ->
  locks (fun r => k r (fst (b r)) (snd (b r))) tr out -> exists tr', locks (fun r => gather_invoke all root r (p r) (k r)) tr' out.
Proof.
  intros Hroot HR L. set (ps := map p (seq 0 n)) in *. set (counts := map gather_count ps).
  set (data := fun q => read (p_mem (p q)) (v_base (p_rhs (p q))) (gather_count (p q))).
  assert (F : forall r, (r < n)%nat -> is_contiguous (v_lay (tgt_view (p_tgt (p r)))) = true /\
    (if all || (r =? root)%nat then
      resize_or_check (p_tgt (p r)) (gather_shape all root r (sumZ (map slow_size ps)) (p r)) = Some (snd (b r)) /\
      exists displs, displs_from 0 counts = Some displs /\ forallb (fun c => 0 <=? c) counts && apart (v_base (p_rhs (p r))) (gather_count (p r)) (v_base (snd (b r))) (sumZ counts) = true /\
        fst (b r) = gatherv ps counts displs (p_mem (p r)) (v_base (snd (b r)))
     else b r = (p_mem (p r), tgt_view (p_tgt (p r))))).
  { intros r Hr. specialize (HR r Hr). unfold gather_rank, contiguous_args in HR. fold counts in HR. destruct (is_contiguous (v_lay (p_rhs (p r)))); [|discriminate HR]. cbn [andb] in HR.
    destruct (is_contiguous (v_lay (tgt_view (p_tgt (p r))))); [|discriminate HR]. split; [reflexivity|]. destruct (all || (r =? root)%nat); [|now injection HR as <-].
    destruct (resize_or_check _ _) as [tv|]; [|discriminate HR]. destruct (displs_from 0 counts) as [displs|]; [|discriminate HR]. destruct (forallb _ counts && _) eqn:Ea; [|discriminate HR].
    injection HR as <-. cbn [fst snd]. split; [reflexivity|]. exists displs. auto. }
  assert (NN : Forall (fun c => 0 <= c) counts).
  { destruct (F root Hroot) as (_ & Fr). rewrite Nat.eqb_refl, orb_true_r in Fr. destruct Fr as (_ & displs & _ & Fa & _). apply andb_true_iff in Fa. destruct Fa as [Fa _]. rewrite forallb_forall in Fa. apply Forall_forall. intros c Hc. apply Z.leb_le. now apply Fa. }
  assert (LEN : map (fun d => Z.of_nat (length d)) (map data (seq 0 n)) = counts).
  { subst counts ps data. rewrite !map_map. apply map_ext_in. intros q Hq. rewrite read_length. apply Z.max_r. rewrite Forall_forall in NN. apply NN. rewrite map_map. apply in_map_iff. exists q. auto. }
  (* the third call *)
  assert (L3 : exists tr', locks (fun r => Call (CGatherv all root (data r) (if all || (r =? root)%nat then counts else []))
      (fun y => if all || (r =? root)%nat then match y with RBl bl => k r (match displs_from 0 counts with Some displs => place (p_mem (p r)) (v_base (snd (b r))) displs bl | None => p_mem (p r) end) (snd (b r)) | _ => Bad end
                else match y with RNo => k r (p_mem (p r)) (snd (b r)) | _ => Bad end)) tr' out).
  { eexists. eapply locks_call with (cs := fun r => CGatherv all root (data r) (if all || (r =? root)%nat then counts else [])) (reps := fun r => if all || (r =? root)%nat then RBl (map data (seq 0 n)) else RNo).
    - intros r _. reflexivity.
    - intros r _. cbn [answer]. destruct (all || (r =? root)%nat); [|reflexivity]. rewrite (collect_all _ _ data).
      + rewrite LEN. destruct (list_eq_dec Z.eq_dec counts counts) as [_|C]; [reflexivity|contradiction].
      + intros q _. rewrite eqb_reflx, Nat.eqb_refl, orb_true_r. reflexivity.
    - intros r q _ _. cbn. auto.
    - eapply locks_ext; [|exact L]. intros r Hr. cbv beta. destruct (F r Hr) as (_ & Fr). destruct (all || (r =? root)%nat).
      + destruct Fr as (_ & displs & -> & _ & ->). f_equal. symmetry. apply place_gatherv.
      + now rewrite Fr. }
  destruct L3 as (tr3 & L3).
  (* the second call *)
  assert (L2 : exists tr', locks (fun r => Call (CGatherI all root (gather_count (p r))) (fun x =>
      match x with
      | RZs counts =>
          match displs_from 0 counts with
          | None => Bad
          | Some displs =>
              if forallb (fun c => 0 <=? c) counts && apart (v_base (p_rhs (p r))) (gather_count (p r)) (v_base (snd (b r))) (sumZ counts)
              then Call (CGatherv all root (data r) counts) (fun y => match y with RBl bl => k r (place (p_mem (p r)) (v_base (snd (b r))) displs bl) (snd (b r)) | _ => Bad end)
              else Bad
          end
      | RNo => Call (CGatherv all root (data r) []) (fun y => match y with RNo => k r (p_mem (p r)) (snd (b r)) | _ => Bad end)
      | _ => Bad
      end)) tr' out).
  { eexists. eapply locks_call with (cs := fun r => CGatherI all root (gather_count (p r))) (reps := fun r => if all || (r =? root)%nat then RZs counts else RNo).
    - intros r _. reflexivity.
    - intros r _. cbn [answer]. destruct (all || (r =? root)%nat); [|reflexivity]. rewrite (collect_all _ _ (fun q => gather_count (p q))).
      + subst counts ps. now rewrite map_map.
      + intros q _. rewrite eqb_reflx, Nat.eqb_refl, orb_true_r. reflexivity.
    - intros r q _ _. cbn. auto.
    - eapply locks_ext; [|exact L3]. intros r Hr. cbv beta. destruct (F r Hr) as (_ & Fr). destruct (all || (r =? root)%nat); [|reflexivity].
      destruct Fr as (_ & displs & -> & -> & _). reflexivity. }
  destruct L2 as (tr2 & L2).
  destruct (gather_shape_locks all root p (fun r sha =>
    match (if all || (r =? root)%nat then resize_or_check (p_tgt (p r)) sha else Some (tgt_view (p_tgt (p r)))) with
    | None => Bad
    | Some tv =>
        Call (CGatherI all root (gather_count (p r))) (fun x =>
        match x with
        | RZs counts =>
            match displs_from 0 counts with
            | None => Bad
            | Some displs =>
                if forallb (fun c => 0 <=? c) counts && apart (v_base (p_rhs (p r))) (gather_count (p r)) (v_base tv) (sumZ counts)
                then Call (CGatherv all root (data r) counts) (fun y => match y with RBl bl => k r (place (p_mem (p r)) (v_base tv) displs bl) tv | _ => Bad end)
                else Bad
            end
        | RNo => Call (CGatherv all root (data r) []) (fun y => match y with RNo => k r (p_mem (p r)) tv | _ => Bad end)
        | _ => Bad
        end)
    end) tr2 out) as (tr1 & L1).
  { eapply locks_ext; [|exact L2]. intros r Hr. cbv beta. fold ps. destruct (F r Hr) as (_ & Fr). destruct (all || (r =? root)%nat); [destruct Fr as (-> & _); reflexivity|]. rewrite Fr. reflexivity. }
  exists tr1. eapply locks_ext; [|exact L1]. intros r Hr. cbv beta. unfold gather_invoke. destruct (F r Hr) as (-> & _). reflexivity.
Qed.

(** ** reduce *)
Lemma column_map (p : nat -> proc V) c k : 0 <= k < c -> column k (map (fun q => read (p_mem (p q)) (v_base (p_rhs (p q))) c) (seq 0 n)) = map (fun q => p_mem q (v_base (p_rhs q) + k)) (map p (seq 0 n)).
Proof.
  intros Hk. unfold column. rewrite map_map. induction (seq 0 n) as [|q l IH]; cbn [map flat_map]; [reflexivity|]. rewrite IH.
  unfold read at 1, zseq. rewrite map_map. rewrite (map_nth_error _ _ _ (d := Z.to_nat k)).
  2:{ rewrite (nth_error_nth' _ 0%nat) by (rewrite seq_length; lia). rewrite seq_nth by lia. reflexivity. }
  cbn [app]. rewrite Z2Nat.id by lia. reflexivity.
Qed.
Lemma reduce_invoke_locks all root (p : nat -> proc V) b k tr out : (root < n)%nat ->
  (forall r, (r < n)%nat -> reduce_rank red all root (map p (seq 0 n)) (to_int (size (v_lay (p_rhs (p root))))) (in_place (p root)) r (p r) = Some (b r)) ->
  locks (fun r => k r (fst (b r)) (snd (b r))) tr out -> exists tr', locks (fun r => reduce_invoke all root r (p r) (k r)) tr' out.
Proof.
  intros Hroot HR L. set (count := to_int (size (v_lay (p_rhs (p root))))) in *. set (data := fun q => read (p_mem (p q)) (v_base (p_rhs (p q))) count).
  assert (F : forall r, (r < n)%nat -> is_contiguous (v_lay (tgt_view (p_tgt (p r)))) = true /\ to_int (size (v_lay (p_rhs (p r)))) = count /\ 0 <= count /\ negb all || eqb (in_place (p r)) (in_place (p root)) = true /\
    reduce_target all root r (p r) = Some (snd (b r)) /\
    fst (b r) = if all || (r =? root)%nat then reduced red (map p (seq 0 n)) r count (p_mem (p r)) (if in_place (p r) then v_base (p_rhs (p r)) else v_base (snd (b r))) else p_mem (p r)).
  { intros r Hr. specialize (HR r Hr). unfold reduce_rank, contiguous_args in HR. destruct (_ && _ && _ && _) eqn:Ea in HR; [|discriminate HR]. apply andb_true_iff in Ea. destruct Ea as [Ea E4]. apply andb_true_iff in Ea. destruct Ea as [Ea E3]. apply andb_true_iff in Ea. destruct Ea as [Ea E2]. apply andb_true_iff in Ea. destruct Ea as [_ E1].
    apply Z.eqb_eq in E2. apply Z.leb_le in E3. destruct (reduce_target all root r (p r)) as [tv|]; [|discriminate HR].
    split; [exact E1|]. split; [exact E2|]. split; [exact E3|]. split; [exact E4|]. destruct (all || (r =? root)%nat); injection HR as <-; cbn [fst snd]; auto. }
  assert (HC : 0 <= count) by apply (F root Hroot).
  assert (LEN : forall q, length (data q) = Z.to_nat count). { intros q. unfold data. pose proof (read_length (p_mem (p q)) (v_base (p_rhs (p q))) count) as H. lia. }
  eexists. eapply locks_call with (cs := fun r => CReduce all root (in_place (p r)) (data r))
    (ks := fun r x => match x with REl l => k r (store (p_mem (p r)) (if in_place (p r) then v_base (p_rhs (p r)) else v_base (snd (b r))) l) (snd (b r)) | RNo => k r (p_mem (p r)) (snd (b r)) | _ => Bad end)
    (reps := fun r => if all || (r =? root)%nat then REl (map (fun k => red r k (map (fun q => p_mem q (v_base (p_rhs q) + k)) (map p (seq 0 n)))) (zseq count)) else RNo).
  - intros r Hr. unfold reduce_invoke. destruct (F r Hr) as (-> & -> & _ & _ & -> & _). cbv zeta. assert ((0 <=? count) = true) as -> by now apply Z.leb_le. reflexivity.
  - intros r Hr. cbn [answer]. destruct (all || (r =? root)%nat) eqn:Er; [|reflexivity]. rewrite (collect_all _ _ data).
    + f_equal. f_equal. rewrite LEN, Z2Nat.id by exact HC. apply map_ext_in. intros j Hj. f_equal. apply column_map. unfold zseq in Hj. apply in_map_iff in Hj. destruct Hj as (i & <- & Hi). apply in_seq in Hi. lia.
    + intros q Hq. rewrite eqb_reflx, Nat.eqb_refl, orb_true_r, !LEN, Nat.eqb_refl. cbn [andb]. rewrite andb_true_r.
      assert (negb all || eqb (in_place (p r)) (in_place (p q)) = true) as ->; [|reflexivity]. destruct (F r Hr) as (_ & _ & _ & F1 & _). destruct (F q Hq) as (_ & _ & _ & F2 & _). destruct all; [|reflexivity]. cbn [negb orb] in *. apply eqb_prop in F1, F2. rewrite F1, F2. apply eqb_reflx.
  - intros r q _ _. cbn. split; [reflexivity|]. split; [reflexivity|]. now rewrite !LEN.
  - eapply locks_ext; [|exact L]. intros r Hr. cbv beta. destruct (F r Hr) as (_ & _ & _ & _ & _ & E). rewrite E. destruct (all || (r =? root)%nat); [|reflexivity]. now rewrite store_reduced.
Qed.

(** ** broadcast *)
Lemma broadcast_locks root (p : nat -> proc V) b k tr out : (root < n)%nat -> (forall r, (r < n)%nat -> length (im_len (v_lay (tgt_view (p_tgt (p r))))) = length (im_len (v_lay (tgt_view (p_tgt (p root)))))) ->
  (forall r, (r < n)%nat -> broadcast_rank root (p_mem (p root)) (tgt_view (p_tgt (p root))) r (p r) = Some (b r)) ->
  locks (fun r => k r (fst (b r)) (snd (b r))) tr out -> exists tr', locks (fun r => broadcast_act root r (p r) (k r)) tr' out.
Proof.
  intros Hroot HD HR L. set (vr := tgt_view (p_tgt (p root))) in *. set (count := to_int (size (v_lay vr))).
  assert (F : forall r, (r < n)%nat -> (if (r =? root)%nat then Some (tgt_view (p_tgt (p r))) else resize_or_check (p_tgt (p r)) (im_len (v_lay vr))) = Some (snd (b r)) /\ to_int (size (v_lay (snd (b r)))) = count /\ 0 <= count /\
    fst (b r) = if (r =? root)%nat then p_mem (p r) else transfer (p_mem (p root)) (v_base vr) (p_mem (p r)) (v_base (snd (b r))) count).
  { intros r Hr. specialize (HR r Hr). unfold broadcast_rank in HR. destruct (Nat.eqb_spec r root) as [Er|Nr].
    - rewrite Er in *. fold vr in HR |- *. fold count in HR. destruct (Z.leb_spec 0 count); [|discriminate HR]. injection HR as <-. cbn [fst snd]. auto.
    - destruct (resize_or_check _ _) as [tv|]; [|discriminate HR]. fold count in HR. destruct (_ && _) eqn:Ea in HR; [|discriminate HR]. injection HR as <-. cbn [fst snd]. apply andb_true_iff in Ea. destruct Ea as [E1 E2]. apply Z.leb_le in E1. apply Z.eqb_eq in E2. rewrite E2 in *. auto. }
  assert (L2 : exists tr', locks (fun r => Call (CBcast root count (if (r =? root)%nat then read (p_mem (p r)) (v_base (snd (b r))) count else []))
      (fun y => match y with REl l => k r (store (p_mem (p r)) (v_base (snd (b r))) l) (snd (b r)) | RNo => k r (p_mem (p r)) (snd (b r)) | _ => Bad end)) tr' out).
  { eexists. eapply locks_call with (cs := fun r => CBcast root count (if (r =? root)%nat then read (p_mem (p r)) (v_base (snd (b r))) count else [])) (reps := fun r => if (r =? root)%nat then RNo else REl (read (p_mem (p root)) (v_base vr) count)).
    - intros r _. reflexivity.
    - intros r _. cbn [answer]. rewrite (full_at _ root Hroot), !Nat.eqb_refl, Z.eqb_refl. cbn [andb]. destruct (F root Hroot) as (Fr & _). rewrite Nat.eqb_refl in Fr. injection Fr as Fr. fold vr in Fr. now rewrite <- Fr.
    - intros r q _ _. cbn. auto.
    - eapply locks_ext; [|exact L]. intros r Hr. cbv beta. destruct (F r Hr) as (_ & _ & _ & ->). destruct (r =? root)%nat; [reflexivity|]. now rewrite store_read. }
  destruct L2 as (tr2 & L2). eexists. eapply locks_call with (cs := fun r => CBcastL root (im_len (v_lay (tgt_view (p_tgt (p r)))))) (reps := fun r => RZs (im_len (v_lay vr))).
  - intros r _. reflexivity.
  - intros r Hr. cbn [answer]. rewrite (full_at _ root Hroot), Nat.eqb_refl. fold vr. rewrite (HD r Hr), Nat.eqb_refl. reflexivity.
  - intros r q Hr Hq. cbn. split; [reflexivity|]. now rewrite (HD r Hr), (HD q Hq).
  - eapply locks_ext; [|exact L2]. intros r Hr. cbv beta. destruct (F r Hr) as (F1 & F2 & F3 & _). rewrite F1, F2. cbv zeta. apply Z.leb_le in F3. rewrite F3. reflexivity.
Qed.

(** ** assignments *)
Definition nth_res (p : nat -> proc V) (res : list (mem V * view)) (r : nat) : mem V * view := nth r res (p_mem (p O), p_rhs (p O)).
Definition op_ok (f : list (proc V) -> option (list (mem V * view))) (opact : nat -> proc V -> (mem V -> view -> act V) -> act V) : Prop :=
  forall p res, f (map p (seq 0 n)) = Some res -> length res = n /\ forall k tr out, locks (fun r => k r (fst (nth_res p res r)) (snd (nth_res p res r))) tr out -> exists tr', locks (fun r => opact r (p r) (k r)) tr' out.
Lemma begin_all_inv checks sha (p : nat -> proc V) ps' : begin_all checks sha (map p (seq 0 n)) = Some ps' ->
  exists t, ps' = map (fun r => Proc (p_mem (p r)) (p_rhs (p r)) (t r)) (seq 0 n) /\ forall r, (r < n)%nat -> begin_assign checks (p_rhs (p r)) (p_tgt (p r)) (sha r (p r)) = Some (t r).
Proof.
  intros E. unfold begin_all in E. apply ranks_inv in E. destruct E as [HL H]. exists (fun r => p_tgt (nth r ps' (p O))). split.
  - apply nth_ext with (d := p O) (d' := p O); [now rewrite map_length, seq_length|]. intros r Hr. rewrite HL in Hr. destruct (H r Hr) as (b & Hb & Eb).
    rewrite (nth_error_nth _ _ (p O) (nth_error_map_seq (fun r => Proc (p_mem (p r)) (p_rhs (p r)) (p_tgt (nth r ps' (p O)))) r Hr)).
    rewrite (nth_error_nth _ _ (p O) Hb). destruct (begin_assign _ _ _ _) as [t|]; [|discriminate Eb]. now injection Eb as <-.
  - intros r Hr. destruct (H r Hr) as (b & Hb & Eb). rewrite (nth_error_nth _ _ (p O) Hb). destruct (begin_assign _ _ _ _) as [t|]; [|discriminate Eb]. now injection Eb as <-.
Qed.
Lemma scatter_ok checks root : op_ok (fun ps => if one_kind checks ps then scatter_assign checks root ps else None) (scatter_act checks n root).
Proof.
  intros p res. destruct (one_kind checks (map p (seq 0 n))) eqn:OK; [|discriminate]. unfold scatter_assign. rewrite map_length, seq_length.
  destruct (nth_error (map p (seq 0 n)) root) as [proot|] eqn:Eroot; [|discriminate].
  assert (Hroot : (root < n)%nat). { rewrite <- (seq_length n 0), <- (map_length p). apply nth_error_Some. congruence. }
  rewrite nth_error_map_seq in Eroot by exact Hroot. injection Eroot as <-.
  destruct (begin_all _ _ _) as [ps'|] eqn:EB; [|discriminate]. apply begin_all_inv in EB. destruct EB as (t & -> & HB). unfold scatter. rewrite nth_error_map_seq by exact Hroot. rewrite !map_length, seq_length.
  destruct (displs_from _ _) as [displs|] eqn:ED; [|discriminate]. intros ER. apply ranks_inv in ER. destruct ER as [HL HR]. split; [exact HL|]. intros k tr out L.
  set (p' := fun r => Proc (p_mem (p r)) (p_rhs (p r)) (t r)) in *.
  assert (HR' : forall r, (r < n)%nat -> scatter_rank n root (p' root) displs r (p' r) = Some (nth_res p res r)).
  { intros r Hr. destruct (HR r Hr) as (b & Hb & Eb). unfold nth_res. rewrite (nth_error_nth _ _ _ Hb). exact Eb. }
  destruct (scatter_invoke_locks root displs p' (nth_res p res) k tr out Hroot ED HR' L) as (tr1 & L1).
  destruct (begin_locks checks (fun r => scatter_shape_act n root r (p r)) (fun r => scatter_shape n r (nthZ (im_len (v_lay (p_rhs (p root)))) 0) (p r)) p t (fun r q => scatter_invoke n root r q (k r)) tr1 out) as (tr2 & L2); [|exact OK|exact HB|exact L1|].
  { intros k0 tr0 out0 L0. eapply scatter_shape_locks; [exact Hroot|exact L0]. }
  exists tr2. eapply locks_ext; [|exact L2]. intros r Hr. cbv beta. unfold scatter_act. specialize (HR' r Hr). unfold scatter_rank, contiguous_args in HR'. subst p'. cbn [p_rhs] in HR'. destruct (is_contiguous (v_lay (p_rhs (p r)))); [reflexivity|discriminate HR'].
Qed.
Lemma gather_ok checks all root : op_ok (fun ps => if one_kind checks ps then gather_assign checks all root ps else None) (gather_act checks all root).
Proof.
  intros p res. destruct (one_kind checks (map p (seq 0 n))) eqn:OK; [|discriminate]. unfold gather_assign.
  destruct (begin_all _ _ _) as [ps'|] eqn:EB; [|discriminate]. apply begin_all_inv in EB. destruct EB as (t & -> & HB). unfold gather. rewrite !map_length, seq_length.
  destruct (Nat.ltb_spec root n) as [Hroot|]; [|discriminate]. intros ER. apply ranks_inv in ER. destruct ER as [HL HR]. split; [exact HL|]. intros k tr out L.
  set (p' := fun r => Proc (p_mem (p r)) (p_rhs (p r)) (t r)) in *.
  assert (HR' : forall r, (r < n)%nat -> gather_rank all root (map p' (seq 0 n)) r (p' r) = Some (nth_res p res r)).
  { intros r Hr. destruct (HR r Hr) as (b & Hb & Eb). unfold nth_res. rewrite (nth_error_nth _ _ _ Hb). exact Eb. }
  destruct (gather_invoke_locks all root p' (nth_res p res) k tr out Hroot HR' L) as (tr1 & L1).
  destruct (begin_locks checks (fun r => gather_shape_act all root r (p r)) (fun r => gather_shape all root r (sumZ (map slow_size (map p (seq 0 n)))) (p r)) p t (fun r q => gather_invoke all root r q (k r)) tr1 out) as (tr2 & L2); [|exact OK|exact HB|exact L1|].
  { intros k0 tr0 out0 L0. eapply gather_shape_locks. exact L0. }
  exists tr2. eapply locks_ext; [|exact L2]. intros r Hr. cbv beta. unfold gather_act. specialize (HR' r Hr). unfold gather_rank, contiguous_args in HR'. subst p'. cbn [p_rhs] in HR'. destruct (is_contiguous (v_lay (p_rhs (p r)))); [reflexivity|discriminate HR'].
Qed.
Lemma reduce_ok checks all root : op_ok (reduce_assign red checks all root) (reduce_act checks all root).
Proof.
  intros p res. unfold reduce_assign. destruct (begin_all _ _ _) as [ps'|] eqn:EB; [|discriminate]. apply begin_all_inv in EB. destruct EB as (t & -> & HB). unfold reduce.
  set (p' := fun r => Proc (p_mem (p r)) (p_rhs (p r)) (t r)) in *.
  destruct (nth_error (map p' (seq 0 n)) root) as [proot|] eqn:Eroot; [|discriminate].
  assert (Hroot : (root < n)%nat). { rewrite <- (seq_length n 0), <- (map_length p'). apply nth_error_Some. congruence. }
  rewrite nth_error_map_seq in Eroot by exact Hroot. injection Eroot as <-.
  intros ER. apply ranks_inv in ER. destruct ER as [HL HR]. split; [exact HL|]. intros k tr out L.
  assert (HR' : forall r, (r < n)%nat -> reduce_rank red all root (map p' (seq 0 n)) (to_int (size (v_lay (p_rhs (p' root))))) (in_place (p' root)) r (p' r) = Some (nth_res p res r)).
  { intros r Hr. destruct (HR r Hr) as (b & Hb & Eb). unfold nth_res. rewrite (nth_error_nth _ _ _ Hb). exact Eb. }
  destruct (reduce_invoke_locks all root p' (nth_res p res) k tr out Hroot HR' L) as (tr1 & L1).
  exists tr1. eapply locks_ext; [|exact L1]. intros r Hr. cbv beta. unfold reduce_act. specialize (HR' r Hr). unfold reduce_rank, contiguous_args in HR'. rewrite (begin_local checks (p r) (t r) _ (HB r Hr)). subst p'. cbn [p_rhs] in HR'. destruct (is_contiguous (v_lay (p_rhs (p r)))); [reflexivity|discriminate HR'].
Qed.
Lemma broadcast_ok root : op_ok (fun ps => if one_rank ps then broadcast root ps else None) (broadcast_act root).
Proof.
  intros p res. destruct (one_rank _) eqn:OK; [|discriminate]. unfold broadcast.
  destruct (nth_error (map p (seq 0 n)) root) as [proot|] eqn:Eroot; [|discriminate].
  assert (Hroot : (root < n)%nat). { rewrite <- (seq_length n 0), <- (map_length p). apply nth_error_Some. congruence. }
  rewrite nth_error_map_seq in Eroot by exact Hroot. injection Eroot as <-.
  intros ER. apply ranks_inv in ER. destruct ER as [HL HR]. split; [exact HL|]. intros k tr out L.
  eapply broadcast_locks with (b := nth_res p res); [exact Hroot| | |exact L].
  - unfold one_rank in OK. destruct (map p (seq 0 n)) as [|p0 l] eqn:E; [intros r Hr; apply (f_equal (@length _)) in E; rewrite map_length, seq_length in E; cbn in E; lia|].
    rewrite <- E in OK. rewrite forallb_forall in OK. assert (G : forall r, (r < n)%nat -> length (im_len (v_lay (tgt_view (p_tgt (p r))))) = length (im_len (v_lay (tgt_view (p_tgt p0))))).
    { intros r Hr. apply Nat.eqb_eq. apply OK. apply in_map. apply in_seq. lia. }
    intros r Hr. now rewrite (G r Hr), (G root Hroot).
  - intros r Hr. destruct (HR r Hr) as (b & Hb & Eb). unfold nth_res. rewrite (nth_error_nth _ _ _ Hb). exact Eb.
Qed.

(** ** programs *)
Lemma all_some_inv {A} (l : list (option A)) l' : all_some l = Some l' -> l = map Some l'.
Proof.
  revert l'. induction l as [|[a|] l IH]; intros l'; cbn; [intros E; now injection E as <-| |discriminate]. destruct (all_some l) as [l1|]; [|discriminate]. intros E. injection E as <-. cbn. now rewrite (IH l1 eq_refl).
Qed.
Lemma list_fun {A} (l : list A) d : l = map (fun r => nth r l d) (seq 0 (length l)).
Proof.
  apply nth_ext with (d := d) (d' := d); [now rewrite map_length, seq_length|]. intros r Hr. symmetry. apply nth_error_nth. rewrite (map_nth_error _ _ _ (d := r)); [reflexivity|].
  rewrite (nth_error_nth' _ O) by (now rewrite seq_length). now rewrite seq_nth.
Qed.
Lemma on_all_locks f opact (d : lstate V) ss x y ss' : op_ok f opact -> length ss = n -> on_all ss x y f = Some ss' ->
  length ss' = n /\ forall k tr out, locks (fun r => k r (nth r ss' d)) tr out ->
    exists tr', locks (fun r => on_proc (nth r ss d) x y (fun p => opact r p (fun m tv => k r (put (nth r ss d) y m tv)))) tr' out.
Proof.
  intros OK HL E. unfold on_all in E. destruct (all_some _) as [ps|] eqn:EP; [|discriminate E]. apply all_some_inv in EP.
  assert (HLP : length ps = n). { apply (f_equal (@length _)) in EP. rewrite !map_length in EP. lia. }
  destruct (f ps) as [res|] eqn:EF; [|discriminate E]. injection E as <-.
  destruct ps as [|p0 ps0] eqn:EPS.
  { destruct n as [|n0]; [|discriminate HLP]. destruct ss; [|discriminate HL]. cbn. split; [reflexivity|]. intros k tr out _. exists []. apply locks_end. intros r Hr. lia. }
  rewrite <- EPS in *. clear EPS ps0. rewrite (list_fun ps p0), HLP in EF. apply OK in EF. destruct EF as [HR EF]. set (p := fun r => nth r ps p0) in *.
  assert (AP : forall r, (r < n)%nat -> as_proc (nth r ss d) x y = Some (p r)).
  { intros r Hr. assert (E1 : nth_error (map (fun s => as_proc s x y) ss) r = Some (as_proc (nth r ss d) x y)) by (apply (map_nth_error (fun s => as_proc s x y)), nth_error_nth'; lia).
    rewrite EP in E1. rewrite (map_nth_error Some r ps (d := p r)) in E1; [now injection E1 as <-|]. apply nth_error_nth'. lia. }
  unfold put_all. split; [rewrite map_length, combine_length; lia|]. intros k tr out L.
  destruct (EF (fun r m tv => k r (put (nth r ss d) y m tv)) tr out) as (tr' & L').
  - eapply locks_ext; [|exact L]. intros r Hr. cbv beta. f_equal.
    assert (E1 : nth_error (combine ss res) r = Some (nth r ss d, nth_res p res r)).
    { rewrite (nth_error_nth' _ (d, (p_mem (p O), p_rhs (p O)))) by (rewrite combine_length; lia). rewrite combine_nth by lia. reflexivity. }
    apply (nth_error_nth _ _ d). rewrite (map_nth_error _ _ _ E1). reflexivity.
  - exists tr'. eapply locks_ext; [|exact L']. intros r Hr. cbv beta. unfold on_proc. now rewrite (AP r Hr).
Qed.
Lemma prog_locks checks (d : lstate V) prog : forall ss ss', length ss = n -> meaning red checks prog ss = Some ss' ->
  length ss' = n /\ exists tr, locks (fun r => prog_act checks n r prog (nth r ss d)) tr (fun r => nth r ss' d).
Proof.
  induction prog as [|st prog IH]; intros ss ss' HL; cbn [meaning].
  - intros E. injection E as <-. split; [exact HL|]. exists []. apply locks_end. intros r _. reflexivity.
  - destruct (meaning1 red checks st ss) as [ss1|] eqn:E1; [|discriminate]. intros E.
    assert (HL1 : length ss1 = n /\ forall tr out, locks (fun r => prog_act checks n r prog (nth r ss1 d)) tr out -> exists tr', locks (fun r => prog_act checks n r (st :: prog) (nth r ss d)) tr' out).
    { destruct st as [f|root x y|all root x y|all root x y|root y]; cbn [meaning1] in E1.
      - rewrite (list_fun ss d), HL in E1. apply ranks_inv in E1. destruct E1 as [HL1 HF]. split; [exact HL1|]. intros tr out L. exists tr. eapply locks_ext; [|exact L]. intros r Hr. cbv beta. cbn [prog_act].
        destruct (HF r Hr) as (b & Hb & ->). now rewrite (nth_error_nth _ _ d Hb).
      - destruct (on_all_locks _ _ d ss x y ss1 (scatter_ok checks root) HL E1) as [HL1 H]. split; [exact HL1|]. intros tr out L. apply (H (fun r => prog_act checks n r prog) tr out L).
      - destruct (on_all_locks _ _ d ss x y ss1 (gather_ok checks all root) HL E1) as [HL1 H]. split; [exact HL1|]. intros tr out L. apply (H (fun r => prog_act checks n r prog) tr out L).
      - destruct (on_all_locks _ _ d ss x y ss1 (reduce_ok checks all root) HL E1) as [HL1 H]. split; [exact HL1|]. intros tr out L. apply (H (fun r => prog_act checks n r prog) tr out L).
      - destruct (on_all_locks _ _ d ss y y ss1 (broadcast_ok root) HL E1) as [HL1 H]. split; [exact HL1|]. intros tr out L. apply (H (fun r => prog_act checks n r prog) tr out L). }
    destruct HL1 as [HL1 H]. destruct (IH ss1 ss' HL1 E) as (HL' & tr & L). split; [exact HL'|]. apply (H tr _ L).
Qed.
End Ops.

(** ** the whole *)
Lemma program_runs {V} (red : nat -> Z -> list V -> V) checks prog ss ss' : meaning red checks prog ss = Some ss' ->
  exists N, forall sched, exists S', turns red (start checks prog ss) sched = Some S' /\ length S' = length ss /\
    (forall r s, ended S' r s -> nth_error ss' r = Some s) /\
    (forall r q p pq k c c', nth_error S' r = Some p -> nth_error S' q = Some pq -> nth_error (sent p) k = Some c -> nth_error (sent pq) k = Some c' -> belong c c') /\
    (forall parts, sched = concat parts -> fair (length ss) parts -> (N <= length parts)%nat -> forall r s, nth_error ss' r = Some s -> ended S' r s).
Proof.
  intros E. destruct ss as [|s0 ss0] eqn:ESS.
  { exists O. intros sched. exists []. assert (T : forall sched, turns red (V := V) [] sched = Some []). { clear. induction sched as [|[r e] sched IH]; [reflexivity|]. cbn [turns]. unfold turn. destruct r; cbn; exact IH. }
    split; [apply T|]. split; [reflexivity|]. split; [intros r s (p & H & _); destruct r; discriminate H|]. split; [intros r q p pq k c c' H; destruct r; discriminate H|].
    intros parts _ _ _ r s Hs. destruct (prog_locks red O checks s prog [] ss' eq_refl E) as (HL & _). destruct ss'; [destruct r; discriminate Hs|discriminate HL]. }
  rewrite <- ESS in *. clear ESS ss0. destruct (prog_locks red (length ss) checks s0 prog ss ss' eq_refl E) as (HL & tr & L).
  assert (B : begins (length ss) (fun r => prog_act checks (length ss) r prog (nth r ss s0)) (start checks prog ss)).
  { unfold begins, start. split; [rewrite map_length, combine_length, seq_length; lia|]. intros r p Hp. assert (Hr : (r < length ss)%nat). { assert (H : (r < length (map (fun rs : nat * lstate V => PState [] 0 (prog_act checks (length ss) (fst rs) prog (snd rs))) (combine (seq 0 (length ss)) ss)))%nat) by (apply nth_error_Some; congruence). rewrite map_length, combine_length, seq_length in H. lia. }
    assert (E1 : nth_error (combine (seq 0 (length ss)) ss) r = Some (r, nth r ss s0)). { rewrite (nth_error_nth' _ (O, s0)) by (rewrite combine_length, seq_length; lia). rewrite combine_nth by (now rewrite seq_length). now rewrite seq_nth. }
    rewrite (map_nth_error _ _ _ E1) in Hp. injection Hp as <-. reflexivity. }
  exists (2 * length tr)%nat. intros sched. destruct (async_all red (length ss) _ tr _ L _ B sched) as (S' & T & HS & H1 & H2 & H3). exists S'. split; [exact T|]. split; [exact HS|]. split; [|split; [exact H2|]].
  - intros r s Hs. rewrite (H1 r s Hs). apply nth_error_nth'. rewrite HL. destruct Hs as (p & Hp & _). rewrite <- HS. apply nth_error_Some. congruence.
  - intros parts Ep HF HN r s Hs. rewrite <- (nth_error_nth _ _ s0 Hs). apply (H3 parts Ep HF HN). rewrite <- HL. apply nth_error_Some. congruence.
Qed.
