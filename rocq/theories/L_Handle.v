From Verif Require Import Base M_Handle S_Handle.

(** ** counting *)
Definition b2n (b : bool) : nat := if b then 1 else 0.
Fixpoint countif {T} (f : T -> bool) (l : list T) : nat :=
  match l with [] => 0 | x :: l' => (b2n (f x) + countif f l')%nat end.

Lemma countif_app {T} (f : T -> bool) a b : countif f (a ++ b) = (countif f a + countif f b)%nat.
Proof. induction a as [|x a IH]; simpl; auto. rewrite IH. lia. Qed.
Lemma countif_upd {T} (f : T -> bool) l v x y : nth_error l v = Some y ->
  (countif f (upd l v x) + b2n (f y) = countif f l + b2n (f x))%nat.
Proof.
  revert v; induction l as [|z l IH]; intros [|v] H; simpl in *; try discriminate.
  - injection H as ->. lia.
  - specialize (IH v H). lia.
Qed.
Lemma countif_pos {T} (f : T -> bool) l v y : nth_error l v = Some y -> f y = true -> (0 < countif f l)%nat.
Proof.
  revert v; induction l as [|z l IH]; intros [|v] H Hf; simpl in *; try discriminate.
  - injection H as ->. rewrite Hf. cbn [b2n]. lia.
  - specialize (IH v H Hf). lia.
Qed.
Lemma countif_ex {T} (f : T -> bool) l : (0 < countif f l)%nat -> exists v y, nth_error l v = Some y /\ f y = true.
Proof.
  induction l as [|z l IH]; simpl; intros H; [lia|]. destruct (f z) eqn:E.
  - exists 0%nat, z. auto.
  - destruct IH as (v & y & H1 & H2); [cbn [b2n] in H; lia|]. exists (S v), y. auto.
Qed.
Lemma countif_zero {T} (f : T -> bool) l : Forall (fun x => f x = false) l -> countif f l = 0%nat.
Proof. induction 1 as [|x l H _ IH]; simpl; auto. now rewrite H, IH. Qed.

Lemma nth_error_upd_eq {T} (l : list T) i x : (i < length l)%nat -> nth_error (upd l i x) i = Some x.
Proof. revert i; induction l as [|y l IH]; intros [|i] H; simpl in *; try lia; auto. apply IH; lia. Qed.
Lemma nth_error_upd_neq {T} (l : list T) i j x : i <> j -> nth_error (upd l i x) j = nth_error l j.
Proof.
  revert i j; induction l as [|y l IH]; intros [|i] [|j] H; simpl; auto; try congruence.
Qed.
Lemma nth_error_lt {T} (l : list T) i y : nth_error l i = Some y -> (i < length l)%nat.
Proof. intros H. apply nth_error_Some. congruence. Qed.
Lemma nth_error_upd {T} (l : list T) i j x y : nth_error (upd l i x) j = Some y ->
  (i = j /\ y = x) \/ (i <> j /\ nth_error l j = Some y).
Proof.
  intros H. destruct (Nat.eq_dec i j) as [->|n].
  - left. split; auto. pose proof (nth_error_lt _ _ _ H) as L. rewrite upd_length in L.
    rewrite nth_error_upd_eq in H by auto. congruence.
  - right. rewrite nth_error_upd_neq in H by auto. auto.
Qed.
Lemma upd_upd {T} (l : list T) i x y : upd (upd l i x) i y = upd l i y.
Proof. revert i; induction l as [|z l IH]; intros [|i]; simpl; auto. now rewrite IH. Qed.
Lemma upd_same {T} (l : list T) i x : nth_error l i = Some x -> upd l i x = l.
Proof. revert i; induction l as [|z l IH]; intros [|i] H; simpl in *; try congruence. now rewrite IH. Qed.
Lemma upd_comm {T} (l : list T) i j x y : i <> j -> upd (upd l i x) j y = upd (upd l j y) i x.
Proof. revert i j; induction l as [|z l IH]; intros [|i] [|j] H; simpl; auto; try congruence. now rewrite IH by congruence. Qed.
Lemma upd_app_l {T} (l l' : list T) i x : (i < length l)%nat -> upd (l ++ l') i x = upd l i x ++ l'.
Proof. revert i; induction l as [|z l IH]; intros [|i] H; simpl in *; try lia; auto. now rewrite IH by lia. Qed.
Lemma upd_app_r {T} (l : list T) y x : upd (l ++ [y]) (length l) x = l ++ [x].
Proof. induction l as [|z l IH]; simpl; auto. now rewrite IH. Qed.

Lemma Forall2_upd {T U} (P : T -> U -> Prop) l l' v x y : Forall2 P l l' -> P x y -> Forall2 P (upd l v x) (upd l' v y).
Proof.
  intros H. revert v. induction H as [|a b l l' Hab Hl IH]; intros [|v] Hxy; simpl; constructor; auto.
Qed.
Lemma Forall2_nth_error {T U} (P : T -> U -> Prop) l l' v y : Forall2 P l l' -> nth_error l' v = Some y ->
  exists x, nth_error l v = Some x /\ P x y.
Proof.
  intros H. revert v. induction H as [|a b l l' Hab _ IH]; intros [|v] E; simpl in *; try discriminate.
  - injection E as <-. eauto.
  - auto.
Qed.
Lemma Forall2_nth_error_l {T U} (P : T -> U -> Prop) l l' v y : Forall2 P l l' -> nth_error l v = Some y ->
  exists x, nth_error l' v = Some x /\ P y x.
Proof.
  intros H. revert v. induction H as [|a b l l' Hab _ IH]; intros [|v] E; simpl in *; try discriminate.
  - injection E as <-. eauto.
  - auto.
Qed.

Section Proofs.
Context {A : Type}.
Variable (t : traits) (dflt zero : A).
Hypothesis Hok : traits_ok t.

Definition some_all (l : list (option A)) : Prop := Forall (fun c => c <> None) l.
Definition good (l : list (option A)) : Prop := t_tcopy t = false -> some_all l.

(** ** loops over cells *)
Lemma for_upto_ext {T} n (f g : nat -> T -> option T) s : (forall i s, (i < n)%nat -> f i s = g i s) -> for_upto n f s = for_upto n g s.
Proof.
  induction n as [|n IH]; intros H; simpl; auto. rewrite IH by auto.
  destruct (for_upto n g s); auto.
Qed.

Lemma get_block_live (H : heap A) b cs : nth_error H b = Some (Block true cs) -> get_block H b = Some cs.
Proof. unfold get_block. now intros ->. Qed.
Lemma read_live (H : heap A) b cs i : nth_error H b = Some (Block true cs) -> read_cell H b i = nth_error cs i.
Proof. intros E. unfold read_cell. now rewrite (get_block_live _ _ _ E). Qed.
Lemma write_live (H : heap A) b cs i c : nth_error H b = Some (Block true cs) -> (i < length cs)%nat ->
  write_cell H b i c = Some (upd H b (Block true (upd cs i c))).
Proof.
  intros E L. unfold write_cell. rewrite (get_block_live _ _ _ E).
  destruct (Nat.ltb_spec i (length cs)); [auto|lia].
Qed.
Lemma construct_live (H : heap A) b cs i v c : nth_error H b = Some (Block true cs) -> nth_error cs i = Some c ->
  (t_tcopy t = false -> c = None) -> construct t b i v H = Some (upd H b (Block true (upd cs i (Some v)))).
Proof.
  intros E Ei Hc. unfold construct. rewrite (read_live _ _ _ _ E), Ei. pose proof (nth_error_lt _ _ _ Ei) as L.
  destruct c as [x|].
  - destruct (t_tcopy t); [now apply write_live|]. specialize (Hc eq_refl). discriminate.
  - now apply write_live.
Qed.

(** filling the cells of a block from the front *)
Lemma firstn_S_nth {T} (l : list T) n x : nth_error l n = Some x -> firstn (S n) l = firstn n l ++ [x].
Proof.
  revert n; induction l as [|y l IH]; intros [|n] E; simpl in *; try discriminate; [now injection E as ->|].
  f_equal. now apply IH.
Qed.
Lemma upd_mid {T} (a b : list T) i x y : i = length a -> upd (a ++ y :: b) i x = (a ++ [x]) ++ b.
Proof. intros ->. rewrite <- app_assoc. induction a as [|z a IH]; simpl; auto. now rewrite IH. Qed.

Lemma fill_loop (g : nat -> heap A -> option (option A)) (f : nat -> heap A -> option (heap A)) b n l (H : heap A) cs :
  nth_error H b = Some (Block true cs) -> length cs = n -> length l = n ->
  (forall i h c cs', nth_error l i = Some c -> (forall o, o <> b -> nth_error h o = nth_error H o) ->
     nth_error h b = Some (Block true cs') -> cs' = firstn i l ++ skipn i cs -> (i < n)%nat ->
     f i h = Some (upd h b (Block true (upd cs' i c)))) ->
  for_upto n f H = Some (upd H b (Block true l)).
Proof.
  intros Eb Lc Ll Hf.
  assert (G : forall k, (k <= n)%nat -> for_upto k f H = Some (upd H b (Block true (firstn k l ++ skipn k cs)))).
  { induction k as [|k IH]; intros Hk.
    - cbn [for_upto firstn skipn app]. now rewrite upd_same.
    - cbn [for_upto]. rewrite IH by lia.
      assert (Ex : exists c, nth_error l k = Some c).
      { destruct (nth_error l k) eqn:E; [eauto|]. apply nth_error_None in E. lia. }
      destruct Ex as (c & Ec). pose proof (nth_error_lt _ _ _ Eb) as Lb.
      rewrite (Hf k _ c (firstn k l ++ skipn k cs)); auto; try lia.
      + rewrite upd_upd. do 3 f_equal.
        assert (Es : exists y, skipn k cs = y :: skipn (S k) cs).
        { destruct cs as [|d cs']; [simpl in *; lia|]. exists (nth k (d :: cs') d). apply skipn_cons_nth. lia. }
        destruct Es as (y & Es). rewrite Es, upd_mid by (rewrite firstn_length; lia).
        now rewrite (firstn_S_nth _ _ _ Ec).
      + intros o Ho. now rewrite nth_error_upd_neq by congruence.
      + now apply nth_error_upd_eq. }
  rewrite G by lia. rewrite <- Ll, firstn_all, Ll, <- Lc, skipn_all, app_nil_r. reflexivity.
Qed.

Lemma nth_error_app_len {T} (l l' : list T) i : nth_error (l ++ l') (length l + i) = nth_error l' i.
Proof. induction l; simpl; auto. Qed.

Lemma fill_cell_raw l (cs : list (option A)) k n c : length cs = n -> length l = n -> (k < n)%nat ->
  Forall (fun c => c = None) cs -> nth_error (firstn k l ++ skipn k cs) k = Some c -> c = None.
Proof.
  intros Lc Ll Hk Hr E.
  replace k with (length (firstn k l) + 0)%nat in E at 3 by (rewrite firstn_length; lia).
  rewrite nth_error_app_len in E.
  destruct (skipn k cs) as [|y r] eqn:Es; [discriminate|]. injection E as ->.
  assert (Hin : In c cs). { rewrite <- (firstn_skipn k cs), Es. apply in_or_app. right. now left. }
  now rewrite Forall_forall in Hr; apply Hr.
Qed.

Lemma repeat_all {T} (x : T) n : Forall (fun c => c = x) (repeat x n).
Proof. induction n; simpl; constructor; auto. Qed.

Lemma fill_index (l : list (option A)) cs k n : length cs = n -> length l = n -> (k < n)%nat ->
  exists c, nth_error (firstn k l ++ skipn k cs) k = Some c.
Proof.
  intros. destruct (nth_error (firstn k l ++ skipn k cs) k) eqn:E; [eauto|].
  apply nth_error_None in E. rewrite app_length, firstn_length, skipn_length in E. lia.
Qed.

(** constructing all elements of a raw block *)
Lemma construct_all (l : list A) b (H : heap A) : nth_error H b = Some (Block true (repeat None (length l))) ->
  for_upto (length l) (fun i h => do v <- nth_error l i; construct t b i v h) H = Some (upd H b (Block true (map Some l))).
Proof.
  intros Eb. apply (fill_loop (fun _ _ => None)) with (cs := repeat None (length l)); rewrite ?map_length, ?repeat_length; auto.
  intros i h c cs' Ec Ho Eh Ecs Hi. rewrite nth_error_map in Ec.
  destruct (nth_error l i) as [v|]; [injection Ec as <-|discriminate].
  destruct (fill_index (map Some l) (repeat None (length l)) i (length l)) as (c0 & E0); rewrite ?map_length, ?repeat_length; auto.
  rewrite <- Ecs in E0. apply (construct_live _ _ _ _ _ c0 Eh E0). intros _. subst cs'.
  eapply fill_cell_raw in E0; eauto; rewrite ?map_length, ?repeat_length; auto. apply repeat_all.
Qed.

Lemma construct_const n v b (H : heap A) : nth_error H b = Some (Block true (repeat None n)) ->
  for_upto n (fun i h => construct t b i v h) H = Some (upd H b (Block true (repeat (Some v) n))).
Proof.
  intros Eb.
  assert (E : repeat (Some v) n = map (@Some A) (repeat v n)). { clear Eb; induction n; simpl; congruence. }
  rewrite E. pose proof (construct_all (repeat v n) b H) as C. rewrite repeat_length in C. rewrite <- (C Eb).
  apply for_upto_ext. intros i s Hi. now rewrite (nth_error_repeat v Hi).
Qed.

(** copying a block into a raw one *)
Lemma memcpy_all l b src (H : heap A) n : nth_error H b = Some (Block true (repeat None n)) ->
  nth_error H src = Some (Block true l) -> src <> b -> n = length l ->
  memcpy b src n H = Some (upd H b (Block true l)).
Proof.
  intros Eb Es Hne ->. unfold memcpy.
  apply (fill_loop (fun _ _ => None)) with (cs := repeat None (length l)); rewrite ?repeat_length; auto.
  intros i h c cs' Ec Ho Eh Ecs Hi. rewrite (read_live h src l) by (now rewrite Ho). rewrite Ec.
  apply write_live; auto. subst cs'. rewrite app_length, firstn_length, skipn_length, repeat_length. lia.
Qed.
Lemma copy_all l b src (H : heap A) n : nth_error H b = Some (Block true (repeat None n)) ->
  nth_error H src = Some (Block true l) -> src <> b -> n = length l -> some_all l ->
  for_upto n (fun i h => do c <- read_cell h src i; do v <- c; construct t b i v h) H = Some (upd H b (Block true l)).
Proof.
  intros Eb Es Hne -> Hl.
  apply (fill_loop (fun _ _ => None)) with (cs := repeat None (length l)); rewrite ?repeat_length; auto.
  intros i h c cs' Ec Ho Eh Ecs Hi. rewrite (read_live h src l) by (now rewrite Ho). rewrite Ec.
  destruct c as [v|].
  - destruct (fill_index l (repeat None (length l)) i (length l)) as (c0 & E0); rewrite ?repeat_length; auto.
    rewrite <- Ecs in E0. apply (construct_live _ _ _ _ _ c0 Eh E0). intros _. subst cs'.
    eapply fill_cell_raw in E0; eauto; rewrite ?repeat_length; auto. apply repeat_all.
  - exfalso. apply nth_error_In in Ec. unfold some_all in Hl. rewrite Forall_forall in Hl. now apply (Hl None).
Qed.
(** destroying all elements *)
Lemma destroy_all l b (H : heap A) : nth_error H b = Some (Block true l) -> good l ->
  for_upto (length l) (fun i h => destroy t b i h) H = Some (upd H b (Block true (repeat None (length l)))).
Proof.
  intros Eb Hg.
  apply (fill_loop (fun _ _ => None)) with (cs := l); rewrite ?repeat_length; auto.
  intros i h c cs' Ec Ho Eh Ecs Hi. rewrite nth_error_repeat in Ec by auto. injection Ec as <-.
  assert (Ei : nth_error cs' i = nth_error l i).
  { subst cs'. replace i with (length (firstn i (@repeat (option A) None (length l))) + 0)%nat at 3
      by (rewrite firstn_length, repeat_length; lia).
    rewrite nth_error_app_len. rewrite <- (firstn_skipn i l) at 2.
    replace i with (length (firstn i l) + 0)%nat at 4 by (rewrite firstn_length; lia). now rewrite nth_error_app_len. }
  unfold destroy. rewrite (read_live _ _ _ _ Eh), Ei.
  assert (Lc : length cs' = length l). { subst cs'. rewrite app_length, firstn_length, skipn_length, repeat_length. lia. }
  destruct (nth_error l i) as [[v|]|] eqn:El.
  - apply write_live; auto. lia.
  - destruct (t_tcopy t) eqn:Ht.
    + rewrite (upd_same cs') by congruence. now rewrite (upd_same h).
    + exfalso. apply nth_error_In in El. specialize (Hg Ht). unfold some_all in Hg. rewrite Forall_forall in Hg. now apply (Hg None).
  - apply nth_error_None in El. lia.
Qed.

Lemma forallb_none n : forallb (fun c : option A => match c with None => true | Some _ => false end) (repeat None n) = true.
Proof. induction n; simpl; auto. Qed.

Lemma destruct_live l b (H : heap A) : nth_error H b = Some (Block true l) -> good l ->
  destruct_blk t (Some b, length l) H = Some (upd H b (Block false [])).
Proof.
  intros Eb Hg. unfold destruct_blk. cbn [fst snd]. pose proof (nth_error_lt _ _ _ Eb) as Lb.
  destruct (t_trivial t || t_complex t) eqn:E; cbn [negb].
  - unfold deallocate. rewrite (get_block_live _ _ _ Eb), Nat.eqb_refl.
    replace (t_tcopy t) with true; [reflexivity|]. destruct Hok as [H1 H2].
    apply orb_true_iff in E. destruct E as [E|E]; symmetry; auto.
  - rewrite (destroy_all _ _ _ Eb Hg). unfold deallocate.
    rewrite (get_block_live _ b (repeat None (length l))) by now apply nth_error_upd_eq.
    rewrite repeat_length, Nat.eqb_refl, forallb_none, orb_true_r. cbn [andb]. now rewrite upd_upd.
Qed.

(** ** constructors *)
Definition alloc_result (l : list (option A)) (H : heap A) : heap A * hheap :=
  match l with [] => (H, h_null) | _ => (H ++ [Block true l], HHeap (Some (length H)) (length l) None) end.

Lemma nth_error_new {T} (l : list T) x : nth_error (l ++ [x]) (length l) = Some x.
Proof. induction l; simpl; auto. Qed.

Lemma h_new_spec n i (H : heap A) : h_new t dflt zero n i H = Some (alloc_result (initial t dflt zero n i) H).
Proof.
  unfold h_new. destruct (Nat.eqb_spec n 0) as [->|Hn].
  - destruct i; reflexivity.
  - destruct n as [|n]; [congruence|].
    destruct i; cbn [initial]; unfold alloc_result; cbn [repeat];
      rewrite ?(app_comm_cons (repeat _ n)); try (unfold allocate, allocate_zero; cbn [length]; rewrite repeat_length; reflexivity).
    unfold allocate, allocate_zero. destruct (t_complex t) eqn:Ec; cbn [negb andb].
    + rewrite andb_false_r. cbn [length]. rewrite repeat_length. reflexivity.
    + rewrite andb_true_r. destruct (t_trivial t); cbn [negb].
      * cbn [length]. rewrite repeat_length. reflexivity.
      * rewrite (construct_const (S n)) by apply nth_error_new. rewrite upd_app_r. cbn [length repeat]. rewrite repeat_length. reflexivity.
Qed.

Lemma h_from_spec l (H : heap A) : h_from t dflt zero l H = Some (alloc_result (map Some l) H).
Proof.
  unfold h_from. rewrite h_new_spec. cbn [initial]. destruct l as [|a l]; [reflexivity|].
  unfold alloc_result at 1. cbn [length repeat map h_data].
  pose proof (construct_all (a :: l) (length H) (H ++ [Block true (repeat None (length (a :: l)))])) as C.
  cbn [length repeat] in C. rewrite C by apply nth_error_new. rewrite upd_app_r.
  unfold alloc_result. cbn [map length]. now rewrite map_length, repeat_length.
Qed.

Lemma h_copy_spec d n l (H : heap A) : shows H d n l -> good l -> h_copy t dflt zero d n H = Some (alloc_result l H).
Proof.
  intros [-> Hd] Hg. unfold h_copy. rewrite h_new_spec. cbn [initial].
  destruct l as [|a l]; [reflexivity|]. destruct d as [src|]; [|discriminate].
  unfold alloc_result at 1. cbn [length repeat h_data]. pose proof (nth_error_lt _ _ _ Hd) as Ls.
  set (H1 := H ++ [Block true (repeat None (length (a :: l)))]).
  change (H ++ [Block true (None :: repeat None (length l))]) with H1.
  assert (Ed : nth_error H1 (length H) = Some (Block true (repeat None (length (a :: l))))) by apply nth_error_new.
  assert (Es : nth_error H1 src = Some (Block true (a :: l))) by (unfold H1; now rewrite nth_error_app1).
  assert (Hne : src <> length H) by lia.
  change (S (length l)) with (length (a :: l)).
  destruct (t_tcopy t) eqn:Et.
  - rewrite (memcpy_all _ _ _ _ _ Ed Es Hne eq_refl). unfold H1. rewrite upd_app_r. unfold alloc_result. cbn [length]. now rewrite repeat_length.
  - rewrite (copy_all _ _ _ _ _ Ed Es Hne eq_refl (Hg Et)). unfold H1. rewrite upd_app_r. unfold alloc_result. cbn [length]. now rewrite repeat_length.
Qed.
End Proofs.
