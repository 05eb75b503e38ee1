(** Property C68: computing with short arrays of fixed length (shapes, strides, indices), and array_adapter. *)
From Coq Require Import String Ascii Ring_theory Ring InitialRing.
From Verif Require Import Base M_Loops M_Expr M_Print S_Print S_Blas L_Print P_Print M_Stdutil.
Local Open Scope list_scope.

Lemma skipn_twice {T} n : forall m (l : list T), skipn n (skipn m l) = skipn (n + m) l.
Proof. intros m. revert n. induction m as [|m IH]; intros n l; [now rewrite Nat.add_0_r|]. destruct l as [|x l]; [now rewrite !skipn_nil|]. rewrite Nat.add_succ_r. cbn [skipn]. apply IH. Qed.
(** a loop that writes g i at consecutive places from k *)
Lemma write_loop {T} (g : nat -> T) n : forall from k res, (k + n <= length res)%nat ->
  fold_left (fun s i => upd s (k + (i - from)) (g i)) (seq from n) res = firstn k res ++ map g (seq from n) ++ skipn (k + n) res.
Proof.
  induction n as [|n IH]; intros from k res H; cbn [seq fold_left map].
  - rewrite Nat.add_0_r. symmetry. apply firstn_skipn.
  - rewrite Nat.sub_diag, Nat.add_0_r.
    assert (Hu : upd res k (g from) = firstn k res ++ g from :: skipn (S k) res).
    { clear IH. revert k H. induction res as [|y res IHr]; intros k H; [cbn in H; lia|]. destruct k as [|k]; [reflexivity|]. cbn [upd firstn skipn app]. f_equal. apply IHr. cbn in H. lia. }
    assert (E : fold_left (fun s i => upd s (k + (i - from)) (g i)) (seq (S from) n) (upd res k (g from)) =
                fold_left (fun s i => upd s (S k + (i - S from)) (g i)) (seq (S from) n) (upd res k (g from))).
    { generalize (upd res k (g from)) as r. assert (Hs : forall i, In i (seq (S from) n) -> (k + (i - from) = S k + (i - S from))%nat) by (intros i Hi; apply in_seq in Hi; lia).
      revert Hs. generalize (seq (S from) n) as l. induction l as [|i l IHl]; intros Hs r; [reflexivity|]. cbn [fold_left]. rewrite (Hs i (or_introl eq_refl)). apply IHl. intros j Hj. apply Hs. right; exact Hj. }
    rewrite E, IH by (rewrite upd_length; lia). rewrite Hu.
    assert (Hk : length (firstn k res) = k) by (rewrite firstn_length; lia).
    rewrite firstn_app, Hk, firstn_firstn, Nat.min_r by lia. replace (S k - k)%nat with 1%nat by lia. cbn [firstn].
    rewrite <- app_assoc. f_equal. cbn [app]. f_equal. f_equal.
    rewrite skipn_app, Hk. rewrite (skipn_all2 (firstn k res)) by lia. cbn [app]. replace (S k + n - k)%nat with (S n) by lia. rewrite skipn_cons.
    rewrite skipn_twice. f_equal. lia.
Qed.
Lemma write_all {T} (f g : nat -> T) from to n r0 : (to - from = n)%nat ->
  length r0 = n -> (forall i, (from <= i < to)%nat -> f (i - from)%nat = g i) ->
  fold_left (fun s i => upd s (i - from) (g i)) (seq from n) r0 = map f (seq 0 n).
Proof.
  intros Hn H Hg. pose proof (write_loop g n from 0 r0) as E. cbn [plus firstn app] in E. rewrite E by lia. rewrite skipn_all2 by lia.
  rewrite app_nil_r. apply (nth_ext_len (f 0%nat)); [now rewrite !map_length, !seq_length|]. intros i Hi. rewrite map_length, seq_length in Hi.
  rewrite nth_map_seq by lia. rewrite (nth_map_lt _ _ _ _ 0%nat) by (rewrite seq_length; lia). rewrite seq_nth by lia. rewrite <- Hg by lia. f_equal. lia.
Qed.
Lemma init_repeat {T} n (v : T) : make_initialized_array n v = repeat v n.
Proof. unfold make_initialized_array. generalize 0%nat. induction n as [|n IH]; intros k; [reflexivity|]. cbn [seq map repeat]. rewrite IH. destruct k; reflexivity. Qed.
Lemma nth_seq_skip {T} (a : list T) d k : map (fun i => nth i a d) (seq k (length a - k)) = skipn k a.
Proof.
  apply (nth_ext_len d); [rewrite map_length, seq_length, skipn_length; reflexivity|]. intros i Hi. rewrite map_length, seq_length in Hi.
  rewrite (nth_map_lt _ _ _ _ 0%nat) by (rewrite seq_length; lia). rewrite seq_nth by lia. rewrite <- (firstn_skipn k a) at 1. rewrite app_nth2; rewrite firstn_length; [|lia]. f_equal. lia.
Qed.
Lemma nth_seq_first {T} (a : list T) d n : (n <= length a)%nat -> map (fun i => nth i a d) (seq 0 n) = firstn n a.
Proof.
  intros H. apply (nth_ext_len d); [rewrite map_length, seq_length, firstn_length; lia|]. intros i Hi. rewrite map_length, seq_length in Hi.
  rewrite nth_map_seq by lia. rewrite <- (firstn_skipn n a) at 1. rewrite app_nth1; [reflexivity|]. rewrite firstn_length. lia.
Qed.
Lemma for_int_shift {S} (b b' : nat -> S -> S) from to s : (forall i r, (from <= i < to)%nat -> b i r = b' i r) -> for_int from to b s = for_int from to b' s.
Proof.
  intros H. unfold for_int. assert (Hs : forall i, In i (seq from (to - from)) -> (from <= i < to)%nat) by (intros i Hi; apply in_seq in Hi; lia).
  revert s Hs. generalize (seq from (to - from)) as l. induction l as [|i l IH]; intros s Hs; [reflexivity|]. cbn [fold_left]. rewrite H by (apply Hs; left; reflexivity). apply IH. intros j Hj. apply Hs. right; exact Hj.
Qed.
(** what [for_int] with writes gives, in the form used below *)
Lemma for_write {T} (g : nat -> T) from to k res (h : nat -> nat) : (forall i, (from <= i < to)%nat -> h i = (k + (i - from))%nat) -> (k + (to - from) <= length res)%nat ->
  for_int from to (fun i s => upd s (h i) (g i)) res = firstn k res ++ map g (seq from (to - from)) ++ skipn (k + (to - from)) res.
Proof.
  intros Hh Hl. rewrite <- (write_loop g (to - from) from k res Hl). rewrite (for_int_shift _ (fun i s => upd s (k + (i - from)) (g i))); [reflexivity|]. intros i r Hi. now rewrite Hh.
Qed.

(** Appending, removing and joining do what they say, and T{} nowhere remains. *)
Theorem C68_lists : forall T (d : T) (a b : list T) (x : T),
  append d a x = a ++ [x] /\ front_append d a x = x :: a /\ join d a b = a ++ b /\ to_vector d a = a /\
  (a <> [] -> pop d a = removelast a /\ front_pop d a = tl a) /\
  (forall N, (N <= length a)%nat -> mpop d N a = firstn (length a - N) a /\ front_mpop d N a = skipn N a) /\
  (forall R v, make_initialized_array R v = repeat v R (A := T)).
Proof.
  intros T d a b x. split; [|split; [|split; [|split; [|split; [|split]]]]].
  - unfold append. rewrite init_repeat. rewrite (for_write (fun i => nth i a d) 0 (length a) 0 _ (fun i => i)) by (intros; rewrite ?repeat_length; lia).
    rewrite Nat.sub_0_r. cbn [firstn app plus]. rewrite map_seq_nth. rewrite repeat_app. rewrite skipn_app, repeat_length, Nat.sub_diag. cbn [skipn repeat]. rewrite skipn_all2 by (rewrite repeat_length; lia). cbn [app].
    clear. induction a as [|y a IH]; [reflexivity|]. cbn [app length upd]. now rewrite IH.
  - unfold front_append. rewrite init_repeat. rewrite (for_write (fun i => nth i a d) 0 (length a) 1 _ (fun i => (i + 1)%nat)) by (intros; rewrite ?upd_length, ?repeat_length; lia).
    rewrite Nat.sub_0_r, map_seq_nth. replace (length a + 1)%nat with (S (length a)) by lia. cbn [plus repeat upd firstn app]. rewrite skipn_cons. rewrite skipn_all2 by (rewrite repeat_length; lia). now rewrite app_nil_r.
  - unfold join. rewrite init_repeat. rewrite (for_write (fun i => nth i b d) 0 (length b) (length a) _ (fun i => (length a + i)%nat)).
    2: intros; lia.
    2: { rewrite (for_write (fun i => nth i a d) 0 (length a) 0 _ (fun i => i)) by (intros; rewrite ?repeat_length; lia). rewrite !app_length, map_length, seq_length, skipn_length, repeat_length. cbn [firstn length]. lia. }
    rewrite (for_write (fun i => nth i a d) 0 (length a) 0 _ (fun i => i)) by (intros; rewrite ?repeat_length; lia).
    rewrite !Nat.sub_0_r, !map_seq_nth. cbn [firstn app plus]. rewrite firstn_app, firstn_all, Nat.sub_diag. cbn [firstn]. rewrite app_nil_r. f_equal.
    rewrite skipn_all2; [apply app_nil_r|]. rewrite app_length, skipn_length, repeat_length. lia.
  - unfold to_vector. rewrite (for_write (fun i => nth i a d) 0 (length a) 0 _ (fun i => i)) by (intros; rewrite ?repeat_length; lia). rewrite Nat.sub_0_r, map_seq_nth. cbn [firstn app plus]. rewrite skipn_all2 by (rewrite repeat_length; lia). apply app_nil_r.
  - intros Ha. assert (Hl : (0 < length a)%nat) by (destruct a; [congruence|cbn; lia]). split.
    + unfold pop. rewrite init_repeat. rewrite (for_write (fun i => nth i a d) 0 (length a - 1) 0 _ (fun i => i)) by (intros; rewrite ?repeat_length; lia).
      rewrite Nat.sub_0_r. cbn [firstn app plus]. rewrite skipn_all2 by (rewrite repeat_length; lia). rewrite app_nil_r, nth_seq_first by lia. rewrite removelast_firstn_len. f_equal. lia.
    + unfold front_pop. rewrite init_repeat. rewrite (for_write (fun i => nth i a d) 1 (length a) 0 _ (fun i => (i - 1)%nat)) by (intros; rewrite ?repeat_length; lia).
      cbn [firstn app plus]. rewrite skipn_all2 by (rewrite repeat_length; lia). rewrite app_nil_r, nth_seq_skip. destruct a; reflexivity.
  - intros N HN. split.
    + unfold mpop. rewrite init_repeat. rewrite (for_write (fun i => nth i a d) 0 (length a - N) 0 _ (fun i => i)) by (intros; rewrite ?repeat_length; lia).
      rewrite Nat.sub_0_r. cbn [firstn app plus]. rewrite skipn_all2 by (rewrite repeat_length; lia). rewrite app_nil_r, nth_seq_first by lia. reflexivity.
    + unfold front_mpop. rewrite init_repeat. rewrite (for_write (fun i => nth i a d) N (length a) 0 _ (fun i => (i - N)%nat)) by (intros; rewrite ?repeat_length; lia).
      cbn [firstn app plus]. rewrite skipn_all2 by (rewrite repeat_length; lia). rewrite app_nil_r, nth_seq_skip. reflexivity.
  - intros R v. apply init_repeat.
Qed.
Print Assumptions C68_lists.

(** So what is appended can be removed again, and joined arrays can be separated. *)
Theorem C68_round_trip : forall T (d : T) (a b : list T) (x : T),
  pop d (append d a x) = a /\ front_pop d (front_append d a x) = a /\ mpop d (length b) (join d a b) = a /\ front_mpop d (length a) (join d a b) = b.
Proof.
  intros T d a b x. destruct (C68_lists T d a b x) as (Ha & Hf & Hj & _).
  destruct (C68_lists T d (a ++ [x]) b x) as (_ & _ & _ & _ & Hp & _). destruct (C68_lists T d (x :: a) b x) as (_ & _ & _ & _ & Hp' & _).
  destruct (C68_lists T d (a ++ b) b x) as (_ & _ & _ & _ & _ & Hm & _).
  rewrite Ha, Hf, Hj. split; [|split; [|split]].
  - rewrite (proj1 (Hp ltac:(destruct a; discriminate))). apply removelast_last.
  - rewrite (proj2 (Hp' ltac:(discriminate))). reflexivity.
  - rewrite (proj1 (Hm (length b) ltac:(rewrite app_length; lia))). rewrite app_length. replace (length a + length b - length b)%nat with (length a) by lia.
    rewrite firstn_app, firstn_all, Nat.sub_diag. apply app_nil_r.
  - rewrite (proj2 (Hm (length a) ltac:(rewrite app_length; lia))). rewrite skipn_app, skipn_all, Nat.sub_diag. reflexivity.
Qed.
Print Assumptions C68_round_trip.

(** make_std_array converts every element *)
Theorem C68_convert : forall T U (d : T) (conv : U -> T) du (a : list U), make_std_array d conv du a = map conv a.
Proof.
  intros T U d conv du a. unfold make_std_array. rewrite init_repeat. rewrite (for_write (fun i => conv (nth i a du)) 0 (length a) 0 _ (fun i => i)) by (intros; rewrite ?repeat_length; lia).
  rewrite Nat.sub_0_r. cbn [firstn app plus]. rewrite skipn_all2 by (rewrite repeat_length; lia). rewrite app_nil_r. rewrite <- map_map, map_seq_nth. reflexivity.
Qed.
Print Assumptions C68_convert.

(** Arithmetic is elementwise; no element of the result is left uninitialised. *)
Theorem C68_arithmetic : forall T (d : T) (A : arith T) (a b : list T) (s : T), length a = length b ->
  let elementwise op := map (fun p => Some (op (fst p) (snd p))) (combine a b) in
  array_plus d A a b = elementwise (v_add A) /\ array_minus d A a b = elementwise (v_sub A) /\ array_times d A a b = elementwise (v_mul A) /\
  array_neg d A a = map (fun x => Some (v_opp A x)) a /\ array_scale d A s a = map (fun x => Some (v_mul A s x)) a.
Proof.
  intros T d A a b s Hl el.
  assert (H2 : forall op, array_op2 d op a b = el op).
  { intros op. unfold array_op2, el. rewrite (for_write (fun i => Some (op (nth i a d) (nth i b d))) 0 (length a) 0 _ (fun i => i)) by (intros; rewrite ?repeat_length; lia).
    rewrite Nat.sub_0_r. cbn [firstn app plus]. rewrite skipn_all2 by (rewrite repeat_length; lia). rewrite app_nil_r. apply (nth_ext_len None).
    - rewrite !map_length, seq_length, combine_length. lia.
    - intros i Hi. rewrite map_length, seq_length in Hi. rewrite nth_map_seq by lia. rewrite (nth_map_lt _ _ _ _ (d, d)) by (rewrite combine_length; lia). rewrite combine_nth by exact Hl. reflexivity. }
  assert (H1 : forall op, array_op1 d op a = map (fun x => Some (op x)) a).
  { intros op. unfold array_op1. rewrite (for_write (fun i => Some (op (nth i a d))) 0 (length a) 0 _ (fun i => i)) by (intros; rewrite ?repeat_length; lia).
    rewrite Nat.sub_0_r. cbn [firstn app plus]. rewrite skipn_all2 by (rewrite repeat_length; lia). rewrite app_nil_r. rewrite <- (map_map (fun i => nth i a d) (fun x => Some (op x))), map_seq_nth. reflexivity. }
  repeat split; (apply H2 || apply H1).
Qed.
Print Assumptions C68_arithmetic.

Lemma fold_tail {T} (op : T -> T -> T) (g : nat -> T) R s : (0 < R)%nat -> for_int 1 R (fun i r => op r (g i)) s = fold_left op (map g (seq 1 (R - 1))) s.
Proof. intros _. unfold for_int. revert s. generalize (seq 1 (R - 1)) as l. induction l as [|i l IH]; intros s; [reflexivity|]. cbn [fold_left map]. apply IH. Qed.
Lemma tail_map {T} (a : list T) d x l : a = x :: l -> map (fun i => nth i a d) (seq 1 (length a - 1)) = l.
Proof. intros ->. rewrite nth_seq_skip. reflexivity. Qed.

(** Sums and products: in order from the left, starting with the first element; *)
Theorem C68_fold : forall T (d : T) (A : arith T) (x : T) (l m : list T) (y : T), length l = length m ->
  array_sum d A (x :: l) = fold_left (v_add A) l x /\ array_product d A (x :: l) = Some (fold_left (v_mul A) l x) /\
  dot_product d A (x :: l) (y :: m) = fold_left (v_add A) (map (fun p => v_mul A (fst p) (snd p)) (combine l m)) (v_mul A x y).
Proof.
  intros T d A x l m y Hl. unfold array_sum, array_product, dot_product. cbn [length]. pose proof (tail_map (x :: l) d x l eq_refl) as Ht. cbn [length] in Ht. split; [|split].
  - rewrite (fold_tail (v_add A) (fun i => nth i (x :: l) d)) by lia. rewrite Ht. reflexivity.
  - rewrite (fold_tail (v_mul A) (fun i => nth i (x :: l) d)) by lia. rewrite Ht. reflexivity.
  - rewrite (fold_tail (v_add A) (fun i => v_mul A (nth i (x :: l) d) (nth i (y :: m) d))) by lia. cbn [nth]. f_equal.
    apply (nth_ext_len (v_mul A d d)); [rewrite !map_length, seq_length, combine_length; lia|]. intros i Hi. rewrite map_length, seq_length in Hi.
    rewrite (nth_map_lt _ _ _ _ 0%nat) by (rewrite seq_length; lia). rewrite seq_nth by lia. cbn [plus nth]. rewrite (nth_map_lt _ _ _ _ (d, d)) by (rewrite combine_length; lia). rewrite combine_nth by exact Hl. reflexivity.
Qed.
Print Assumptions C68_fold.
(** so over every ring they are the usual ones, where T{} is zero. *)
Theorem C68_ring : forall T (A : arith T), is_ring A -> forall (a b : list T), length a = length b ->
  array_sum (v_zero A) A a = fold_right (v_add A) (v_zero A) a /\
  (a <> [] -> array_product (v_zero A) A a = Some (fold_right (v_mul A) (v_one A) a)) /\
  dot_product (v_zero A) A a b = fold_right (v_add A) (v_zero A) (map (fun p => v_mul A (fst p) (snd p)) (combine a b)).
Proof.
  intros T A HR a b Hl.
  assert (Hs : forall l x, fold_left (v_add A) l x = v_add A x (fold_right (v_add A) (v_zero A) l)).
  { induction l as [|y l IH]; intros x; cbn [fold_left fold_right].
    - rewrite (Radd_comm HR). symmetry. apply (Radd_0_l HR).
    - rewrite IH. symmetry. apply (Radd_assoc HR). }
  assert (Hp : forall l x, fold_left (v_mul A) l x = v_mul A x (fold_right (v_mul A) (v_one A) l)).
  { induction l as [|y l IH]; intros x; cbn [fold_left fold_right].
    - rewrite (Rmul_comm HR). symmetry. apply (Rmul_1_l HR).
    - rewrite IH. symmetry. apply (Rmul_assoc HR). }
  destruct a as [|x l], b as [|y m]; try discriminate Hl; [repeat split; congruence|]. injection Hl as Hl.
  destruct (C68_fold T (v_zero A) A x l m y Hl) as (H1 & H2 & H3). rewrite H1, H2, H3, Hs, Hp, Hs. repeat split; reflexivity.
Qed.
Print Assumptions C68_ring.

(** Text: "(a b c)"; and arrays print alike exactly if they are equal. *)
Theorem C68_text : forall T (d : T) (show : T -> text) (a : list T), array_to_string d show a = lit "(" ++ joined (lit " ") (map show a) ++ lit ")".
Proof.
  intros T d show a. unfold array_to_string. rewrite app_assoc. f_equal. unfold for_int. rewrite Nat.sub_0_r.
  assert (H : forall n, (n <= length a)%nat -> fold_left (fun s i => s ++ match i with O => [] | S _ => lit " " end ++ show (nth i a d)) (seq 0 n) (lit "(") = lit "(" ++ joined (lit " ") (map show (firstn n a))).
  { induction n as [|n IH]; intros Hn; [reflexivity|]. rewrite seq_S, fold_left_app, IH by lia. cbn [fold_left plus]. rewrite <- app_assoc. f_equal.
    assert (E : firstn (S n) a = firstn n a ++ [nth n a d]).
    { clear IH. revert a Hn. induction n as [|n IHn]; intros [|y a] Hn; cbn in Hn; try lia; [reflexivity|].
      change (firstn (S (S n)) (y :: a)) with (y :: firstn (S n) a). change (firstn (S n) (y :: a)) with (y :: firstn n a). cbn [nth app]. f_equal. apply IHn. lia. }
    rewrite E, map_app. cbn [map]. rewrite joined_snoc. destruct n as [|n]; [reflexivity|]. destruct a as [|y a]; [cbn in Hn; lia|]. reflexivity. }
  rewrite H by lia. now rewrite firstn_all.
Qed.
Print Assumptions C68_text.
Lemma blank_read l : forall l' s s', Forall plain l -> Forall plain l' -> joined (lit " ") l ++ lit ")" ++ s = joined (lit " ") l' ++ lit ")" ++ s' -> l = l' /\ s = s'.
Proof.
  assert (Hd : forall t q s, exists c s2, joined (lit " ") (t :: q) ++ lit ")" ++ s = t ++ c :: s2 /\ special c = true /\ (c = " "%char <-> q <> [])).
  { intros t [|t2 q] s.
    - exists ")"%char, s. split; [reflexivity|]. split; [reflexivity|]. split; [discriminate|congruence].
    - exists " "%char, (joined (lit " ") (t2 :: q) ++ lit ")" ++ s). split; [|split; [reflexivity|split; [discriminate|reflexivity]]].
      change (joined (lit " ") (t :: t2 :: q)) with (t ++ lit " " ++ joined (lit " ") (t2 :: q)). rewrite <- !app_assoc. reflexivity. }
  induction l as [|t l IH]; intros l' s s' Hl Hl' E.
  - destruct l' as [|t' l']; [cbn in E; injection E as E; auto|]. exfalso. destruct (Hd t' l' s') as (c & s2 & E2 & _). rewrite E2 in E.
    destruct (plain_head t' (c :: s2) (Forall_inv Hl')) as (c' & u & Eh & Hc). rewrite Eh in E. cbn in E. injection E as E _. subst c'. discriminate.
  - destruct l' as [|t' l'].
    + exfalso. destruct (Hd t l s) as (c & s2 & E2 & _). rewrite E2 in E.
      destruct (plain_head t (c :: s2) (Forall_inv Hl)) as (c' & u & Eh & Hc). rewrite Eh in E. cbn in E. injection E as E _. subst c'. discriminate.
    + destruct (Hd t l s) as (c & s2 & E2 & Hc & Hb). destruct (Hd t' l' s') as (c' & s2' & E2' & Hc' & Hb'). pose proof E as E0. rewrite E2, E2' in E.
      destruct (cut t t' c c' s2 s2' E (proj2 (Forall_inv Hl)) (proj2 (Forall_inv Hl')) Hc Hc') as (-> & <- & <-).
      destruct l as [|u l], l' as [|u' l'].
      * cbn [joined] in E0. apply app_inv_head in E0. injection E0 as ->. auto.
      * destruct (proj1 Hb (proj2 Hb' ltac:(discriminate)) eq_refl).
      * destruct (proj1 Hb' (proj2 Hb ltac:(discriminate)) eq_refl).
      * change (joined (lit " ") (t' :: u :: l)) with (t' ++ lit " " ++ joined (lit " ") (u :: l)) in E0. change (joined (lit " ") (t' :: u' :: l')) with (t' ++ lit " " ++ joined (lit " ") (u' :: l')) in E0.
        rewrite <- !(app_assoc t') in E0. apply app_inv_head in E0. rewrite <- !(app_assoc (lit " ")) in E0. apply app_inv_head in E0.
        destruct (IH (u' :: l') s s' (Forall_inv_tail Hl) (Forall_inv_tail Hl') E0) as [-> ->]. auto.
Qed.
Theorem C68_text_injective : forall T (d : T) (show : T -> text), legible show -> forall a b, array_to_string d show a = array_to_string d show b <-> a = b.
Proof.
  intros T d show [Hp Hi] a b. split; [|now intros ->]. rewrite !C68_text. intros E. apply app_inv_head in E.
  assert (Hf : forall l, Forall plain (map show l)) by (intros l; apply Forall_forall; intros t Ht; apply in_map_iff in Ht; destruct Ht as (z & <- & _); apply Hp).
  destruct (blank_read (map show a) (map show b) [] [] (Hf a) (Hf b)) as [E1 _]; [rewrite !app_nil_r; exact E|].
  clear -E1 Hi. revert b E1. induction a as [|x a IH]; intros [|y b] E; try discriminate E; [reflexivity|]. injection E as E1 E2. f_equal; [apply Hi; exact E1|apply IH; exact E2].
Qed.
Print Assumptions C68_text_injective.

(** An adapter has the shape given to it, the product of its extents as size, and the values of the function as elements; it is an expression that reads no memory. *)
Theorem C68_adapter : forall U V (conv : U -> Z) du (shape : list U) (f : list Z -> V) (A : arith Z), is_ring A -> shape <> [] ->
  let x := make_adapter conv du shape f in
  ad_shape x = map conv shape /\ (forall idx, adapter_call x idx = f idx) /\ (v_zero A = 0 -> adapter_size A x = Some (fold_right (v_mul A) (v_one A) (map conv shape))).
Proof.
  intros U V conv du shape f A HR Hs x. split; [|split].
  - apply C68_convert.
  - reflexivity.
  - intros Hz. unfold adapter_size, x, make_adapter, ad_shape. rewrite C68_convert. rewrite <- Hz. apply (C68_ring Z A HR (map conv shape) (map conv shape) eq_refl). destruct shape; [congruence|discriminate].
Qed.
Print Assumptions C68_adapter.

Example C68_example :
  let A := Arith Z 0 1 Z.opp Z.add Z.sub Z.mul Z.div in
  is_ring A /\ append 0 [1; 2] 3 = [1; 2; 3] /\ front_mpop 0 2 [4; 5; 6] = [6] /\ join 0 [1] [2; 3] = [1; 2; 3] /\
  array_minus 0 A [5; 5] [1; 2] = [Some 4; Some 3] /\ dot_product 0 A [2; 3; 4] [1; 10; 100] = 432 /\ array_product 0 A [2; 3; 4] = Some 24 /\
  array_product 0 A [] = None /\ string_of_list_ascii (array_to_string 0 show_int [3; -4; 5]) = "(3 -4 5)"%string /\ legible show_int.
Proof.
  cbv zeta. split; [exact InitialRing.Zth|]. split; [reflexivity|]. split; [reflexivity|]. split; [reflexivity|]. split; [reflexivity|]. split; [reflexivity|]. split; [reflexivity|]. split; [reflexivity|]. split; [reflexivity|]. exact C63_integers.
Qed.
