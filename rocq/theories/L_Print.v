(** Lemmas on printed text. *)
From Coq Require Import String Ascii.
From Verif Require Import Base M_Perm M_IdxMap M_Slice M_Loops M_Assign M_Expr S_Layout S_Loops S_Assign M_RectStr S_RectStr M_Print S_Print L_IdxMap L_Loops L_Assign L_RectStr L_Blas L_Blas3 L_Lapack2.
Local Open Scope list_scope.

Lemma joined_snoc sep l t : joined sep (l ++ [t]) = match l with [] => t | _ => joined sep l ++ sep ++ t end.
Proof.
  induction l as [|x l IH]; [reflexivity|]. cbn [app]. destruct l as [|y l]; [reflexivity|]. change (joined sep (x :: (y :: l) ++ [t])) with (x ++ sep ++ joined sep ((y :: l) ++ [t])). rewrite IH.
  change (joined sep (x :: y :: l)) with (x ++ sep ++ joined sep (y :: l)). now rewrite <- !app_assoc.
Qed.
Lemma fold_joined (g : Z -> text) n : fold_left (fun out i => out ++ (if 0 <? i then lit "," else []) ++ g i) (zseq n) [] = joined (lit ",") (map g (zseq n)).
Proof.
  destruct (Z.leb_spec 0 n) as [Hn|Hn]; [|rewrite zseq_nil by lia; reflexivity]. pattern n. apply sum_to_ind; [reflexivity| |exact Hn]. intros k Hk IH. rewrite zseq_succ by lia. rewrite fold_left_app, map_app, IH. cbn [fold_left map]. rewrite joined_snoc.
  destruct (Z.ltb_spec 0 k) as [Hk0|Hk0].
  - destruct (map g (zseq k)) as [|x l] eqn:E; [|reflexivity]. apply (f_equal (@length text)) in E. rewrite map_length, zseq_length in E. cbn in E. lia.
  - assert (k = 0) as -> by lia. reflexivity.
Qed.
Lemma fold_rows (g : Z -> text) n : fold_left (fun out i => out ++ (if i =? 0 then lit "[" else lit " [") ++ g i ++ lit "]" ++ (if i =? n - 1 then [] else nl)) (zseq n) []
  = joined (nl ++ lit " ") (map (fun i => bracketed (g i)) (zseq n)).
Proof.
  destruct (Z.leb_spec 0 n) as [Hn|Hn]; [|rewrite zseq_nil by lia; reflexivity].
  assert (H : forall k, 0 <= k -> k <= n -> fold_left (fun out i => out ++ (if i =? 0 then lit "[" else lit " [") ++ g i ++ lit "]" ++ (if i =? n - 1 then [] else nl)) (zseq k) []
    = joined (nl ++ lit " ") (map (fun i => bracketed (g i)) (zseq k)) ++ (if (0 <? k) && (k <? n) then nl else [])).
  { intros k Hk. pattern k. apply sum_to_ind; [reflexivity| |exact Hk]. clear k Hk. intros k Hk IH Hkn. rewrite zseq_succ by lia. rewrite fold_left_app, map_app, IH by lia. cbn [fold_left map]. rewrite joined_snoc.
    assert (T : (if k =? n - 1 then [] else nl) = (if (0 <? k + 1) && (k + 1 <? n) then nl else [])) by (destruct (Z.eqb_spec k (n - 1)); destruct (Z.ltb_spec 0 (k + 1)); destruct (Z.ltb_spec (k + 1) n); cbn [andb]; auto; lia).
    rewrite T. set (tl := if (0 <? k + 1) && (k + 1 <? n) then nl else []).
    destruct (Z.eqb_spec k 0) as [->|Hk0].
    - cbn [Z.ltb Z.compare andb]. change (zseq 0) with (@nil Z). cbn [map joined app]. unfold bracketed. rewrite <- !app_assoc. reflexivity.
    - destruct (Z.ltb_spec 0 k); [|lia]. destruct (Z.ltb_spec k n); [|lia]. cbn [andb].
      destruct (map (fun i => bracketed (g i)) (zseq k)) as [|x l] eqn:E; [apply (f_equal (@length text)) in E; rewrite map_length, zseq_length in E; cbn in E; lia|].
      unfold bracketed. change (lit " [") with (lit " " ++ lit "["). rewrite <- !app_assoc. reflexivity. }
  rewrite H by lia. destruct (Z.ltb_spec n n); [lia|]. rewrite andb_false_r. apply app_nil_r.
Qed.

(** ** the text of arrays *)
Definition text1 (l : list text) : text := bracketed (joined (lit ",") l).
Definition text2d (rows : list (list text)) : text := nl ++ bracketed (joined (nl ++ lit " ") (map text1 rows)).

Lemma print1_text {V} (show : V -> text) v m n : truthful (v_lay v) -> im_len (v_lay v) = [n] -> print1 show v m = text1 (map show (row n (fun i => m (cell v [i])))).
Proof.
  intros HT Hl. unfold print1, text1, bracketed, row. rewrite Hl. change (nthZ [n] 0) with n. rewrite (fold_joined (fun i => show (m (elem v [i])))). do 3 f_equal. rewrite map_map. apply map_ext_in. intros i Hi. apply zseq_In in Hi. rewrite elem_cell_in; auto. now apply (in_view1 v n).
Qed.
Lemma print2_text {V} (show : V -> text) v m r c : truthful (v_lay v) -> im_len (v_lay v) = [r; c] ->
  print2 show v m = text2d (map (fun i => map show (row c (fun j => m (cell v [i; j])))) (zseq r)).
Proof.
  intros HT Hl. unfold print2, text2d, bracketed, row. rewrite Hl. change (nthZ [r; c] 0) with r. change (nthZ [r; c] 1) with c. do 2 f_equal.
  rewrite (fold_rows (fun i => fold_left (fun out j => out ++ (if 0 <? j then lit "," else []) ++ show (m (elem v [i; j]))) (zseq c) [])). f_equal. f_equal. rewrite map_map. apply map_ext_in. intros i Hi. apply zseq_In in Hi. unfold text1. f_equal.
  rewrite (fold_joined (fun j => show (m (elem v [i; j])))). f_equal. rewrite map_map. apply map_ext_in. intros j Hj. apply zseq_In in Hj. rewrite elem_cell_in; auto. now apply (in_view2 v r c).
Qed.

(** ** reading text back *)
Definition ordinary (t : text) : Prop := Forall (fun c => special c = false) t.
Lemma cut u : forall u' c c' s s', u ++ c :: s = u' ++ c' :: s' -> ordinary u -> ordinary u' -> special c = true -> special c' = true -> u = u' /\ c = c' /\ s = s'.
Proof.
  induction u as [|x u IH]; intros [|y u'] c c' s s' E Hu Hu' Hc Hc'; cbn [app] in E; injection E as E1 E2.
  - auto.
  - inversion Hu' as [|a b H1 H2]; subst. congruence.
  - inversion Hu as [|a b H1 H2]; subst. congruence.
  - inversion Hu as [|a b H1 H2]; inversion Hu' as [|a' b' H1' H2']; subst. destruct (IH u' c c' s s') as (-> & -> & ->); auto.
Qed.
Lemma plain_head t s : plain t -> exists c u, t ++ s = c :: u /\ special c = false.
Proof. intros [Hn Hf]. destruct t as [|c t]; [contradiction|]. exists c, (t ++ s). split; [reflexivity|]. now inversion Hf. Qed.
Lemma joined_head t l s : exists s2, joined (lit ",") (t :: l) ++ lit "]" ++ s = t ++ s2.
Proof. destruct l as [|t2 l]; eexists; [reflexivity|]. change (joined (lit ",") (t :: t2 :: l)) with (t ++ lit "," ++ joined (lit ",") (t2 :: l)). rewrite <- !app_assoc. reflexivity. Qed.
Lemma read1 l : forall l' s s', Forall plain l -> Forall plain l' -> joined (lit ",") l ++ lit "]" ++ s = joined (lit ",") l' ++ lit "]" ++ s' -> l = l' /\ s = s'.
Proof.
  induction l as [|t l IH]; intros l' s s' Hl Hl' E.
  - destruct l' as [|t' l']; [cbn in E; injection E as E; auto|]. exfalso. inversion Hl' as [|a b H1 H2]; subst. destruct (joined_head t' l' s') as (s2 & E2).
    rewrite E2 in E. destruct (plain_head t' s2 H1) as (c & u & Eh & Hc). rewrite Eh in E. cbn in E. injection E as E _. subst c. discriminate.
  - destruct l' as [|t' l'].
    + exfalso. inversion Hl as [|a b H1 H2]; subst. destruct (joined_head t l s) as (s2 & E2).
      rewrite E2 in E. destruct (plain_head t s2 H1) as (c & u & Eh & Hc). rewrite Eh in E. cbn in E. injection E as E _. subst c. discriminate.
    + inversion Hl as [|a b H1 H2]; inversion Hl' as [|a' b' H1' H2']; subst. destruct l as [|t2 l], l' as [|t2' l'].
      * cbn [joined lit list_ascii_of_string app] in E. destruct (cut t t' _ _ _ _ E (proj2 H1) (proj2 H1') eq_refl eq_refl) as (-> & _ & ->). auto.
      * change (joined (lit ",") (t' :: t2' :: l')) with (t' ++ lit "," ++ joined (lit ",") (t2' :: l')) in E. rewrite <- !app_assoc in E. cbn [joined lit list_ascii_of_string app] in E.
        destruct (cut t t' _ _ _ _ E (proj2 H1) (proj2 H1') eq_refl eq_refl) as (_ & D & _). discriminate.
      * change (joined (lit ",") (t :: t2 :: l)) with (t ++ lit "," ++ joined (lit ",") (t2 :: l)) in E. rewrite <- !app_assoc in E. cbn [joined lit list_ascii_of_string app] in E.
        destruct (cut t t' _ _ _ _ E (proj2 H1) (proj2 H1') eq_refl eq_refl) as (_ & D & _). discriminate.
      * change (joined (lit ",") (t' :: t2' :: l')) with (t' ++ lit "," ++ joined (lit ",") (t2' :: l')) in E. change (joined (lit ",") (t :: t2 :: l)) with (t ++ lit "," ++ joined (lit ",") (t2 :: l)) in E.
        rewrite <- !app_assoc in E. change (lit ",") with [","%char] in E at 1 3. cbn [app] in E.
        destruct (cut t t' _ _ _ _ E (proj2 H1) (proj2 H1') eq_refl eq_refl) as (-> & _ & E'). destruct (IH (t2' :: l') s s' H2 H2' E') as (-> & ->). auto.
Qed.
Lemma read_text1 l l' s s' : Forall plain l -> Forall plain l' -> text1 l ++ s = text1 l' ++ s' -> l = l' /\ s = s'.
Proof. intros Hl Hl' E. unfold text1, bracketed in E. rewrite <- !app_assoc in E. apply app_inv_head in E. exact (read1 l l' s s' Hl Hl' E). Qed.
Lemma read_rows rows : forall rows' s s', Forall (Forall plain) rows -> Forall (Forall plain) rows' ->
  joined (nl ++ lit " ") (map text1 rows) ++ lit "]" ++ s = joined (nl ++ lit " ") (map text1 rows') ++ lit "]" ++ s' -> rows = rows' /\ s = s'.
Proof.
  assert (Hd : forall r l s, exists s2, joined (nl ++ lit " ") (map text1 (r :: l)) ++ lit "]" ++ s = text1 r ++ s2) by (intros r [|r2 l] s; eexists; [reflexivity|cbn [map]; change (joined (nl ++ lit " ") (text1 r :: text1 r2 :: map text1 l)) with (text1 r ++ (nl ++ lit " ") ++ joined (nl ++ lit " ") (map text1 (r2 :: l))); rewrite <- !app_assoc; reflexivity]).
  induction rows as [|r rows IH]; intros rows' s s' Hl Hl' E.
  - destruct rows' as [|r' rows']; [cbn in E; injection E as E; auto|]. exfalso. destruct (Hd r' rows' s') as (s2 & E2). rewrite E2 in E. discriminate.
  - destruct rows' as [|r' rows']; [exfalso; destruct (Hd r rows s) as (s2 & E2); rewrite E2 in E; discriminate|].
    inversion Hl as [|a b H1 H2]; inversion Hl' as [|a' b' H1' H2']; subst. destruct rows as [|r2 rows], rows' as [|r2' rows'].
    + cbn [map joined] in E. destruct (read_text1 _ _ _ _ H1 H1' E) as (-> & E'). injection E' as ->. auto.
    + exfalso. cbn [map] in E. change (joined (nl ++ lit " ") (text1 r' :: text1 r2' :: map text1 rows')) with (text1 r' ++ (nl ++ lit " ") ++ joined (nl ++ lit " ") (map text1 (r2' :: rows'))) in E. rewrite <- !app_assoc in E. cbn [joined] in E.
      destruct (read_text1 _ _ _ _ H1 H1' E) as (_ & E'). discriminate.
    + exfalso. cbn [map] in E. change (joined (nl ++ lit " ") (text1 r :: text1 r2 :: map text1 rows)) with (text1 r ++ (nl ++ lit " ") ++ joined (nl ++ lit " ") (map text1 (r2 :: rows))) in E. rewrite <- !app_assoc in E. cbn [joined] in E.
      destruct (read_text1 _ _ _ _ H1 H1' E) as (_ & E'). discriminate.
    + cbn [map] in E. change (joined (nl ++ lit " ") (text1 r' :: text1 r2' :: map text1 rows')) with (text1 r' ++ (nl ++ lit " ") ++ joined (nl ++ lit " ") (map text1 (r2' :: rows'))) in E.
      change (joined (nl ++ lit " ") (text1 r :: text1 r2 :: map text1 rows)) with (text1 r ++ (nl ++ lit " ") ++ joined (nl ++ lit " ") (map text1 (r2 :: rows))) in E. rewrite <- !(app_assoc (text1 _)) in E.
      destruct (read_text1 _ _ _ _ H1 H1' E) as (-> & E'). rewrite <- !(app_assoc (nl ++ lit " ")) in E'. apply app_inv_head in E'. destruct (IH (r2' :: rows') s s' H2 H2' E') as (-> & ->). auto.
Qed.
Lemma read_text2d rows rows' s s' : Forall (Forall plain) rows -> Forall (Forall plain) rows' -> text2d rows ++ s = text2d rows' ++ s' -> rows = rows' /\ s = s'.
Proof. intros Hl Hl' E. unfold text2d, bracketed in E. rewrite <- !app_assoc in E. apply app_inv_head in E. apply app_inv_head in E. exact (read_rows rows rows' s s' Hl Hl' E). Qed.

(** ** expressions *)
Section Expr.
Context {V : Type} (show : V -> text) (HS : legible show) (m : mem V) (fuel fuel' : nat).
Lemma shown l : Forall plain (map show l).
Proof. apply Forall_forall. intros t Ht. apply in_map_iff in Ht. destruct Ht as (x & <- & _). apply HS. Qed.
Lemma map_show_inj l l' : map show l = map show l' -> l = l'.
Proof.
  revert l'. induction l as [|x l IH]; intros [|y l'] E; cbn [map] in E; try discriminate; [reflexivity|]. injection E as E1 E2. f_equal; [now apply HS|now apply IH].
Qed.
Lemma row_inj {W} n (f g : Z -> W) : row n f = row n g -> forall i, 0 <= i < n -> f i = g i.
Proof.
  intros E i Hi. unfold row in E. assert (H : forall (h : Z -> W) d, nth (Z.to_nat i) (map h (zseq n)) d = h i).
  { intros h d. rewrite (nth_map_lt _ _ _ _ 0) by (rewrite zseq_length; lia). f_equal. rewrite nth_zseq by lia. lia. }
  rewrite <- (H f (f i)), <- (H g (f i)). now rewrite E.
Qed.
Lemma print1_read v w n n' s s' : truthful (v_lay v) -> truthful (v_lay w) -> im_len (v_lay v) = [n] -> im_len (v_lay w) = [n'] -> print1 show v m ++ s = print1 show w m ++ s' -> same_array m v w /\ s = s'.
Proof.
  intros Tv Tw Lv Lw E. rewrite (print1_text show v m n), (print1_text show w m n') in E by auto. destruct (read_text1 _ _ _ _ (shown _) (shown _) E) as [E1 Es]. split; [|exact Es]. apply map_show_inj in E1.
  assert (Hn : n = n').
  { pose proof (f_equal (@length V) E1) as H. unfold row in H. rewrite !map_length, !zseq_length in H. destruct Tv as [(_ & _ & _ & Hv & _) _]. destruct Tw as [(_ & _ & _ & Hw & _) _]. rewrite Lv in Hv. rewrite Lw in Hw. inversion Hv; inversion Hw; subst. lia. }
  subst n'. split; [congruence|]. intros idx Hi. destruct (in_view1_inv v n idx Lv Hi) as (i & -> & Hi'). exact (row_inj n _ _ E1 i Hi').
Qed.
Lemma print2_read v w r c r' c' s s' : truthful (v_lay v) -> truthful (v_lay w) -> im_len (v_lay v) = [r; c] -> im_len (v_lay w) = [r'; c'] -> 1 <= r -> print2 show v m ++ s = print2 show w m ++ s' -> same_array m v w /\ s = s'.
Proof.
  intros Tv Tw Lv Lw Hr E. rewrite (print2_text show v m r c), (print2_text show w m r' c') in E by auto.
  assert (P : forall k c (f : Z -> Z -> V), Forall (Forall plain) (map (fun i => map show (row c (f i))) (zseq k))) by (intros k q f; apply Forall_forall; intros t Ht; apply in_map_iff in Ht; destruct Ht as (i & <- & _); apply shown).
  destruct (read_text2d _ _ _ _ (P r c _) (P r' c' _) E) as [E1 Es]. split; [|exact Es].
  assert (Hv : 0 <= r /\ 0 <= c) by (destruct Tv as [(_ & _ & _ & H & _) _]; rewrite Lv in H; inversion H as [|a b H1 H2]; inversion H2; subst; auto).
  assert (Hw : 0 <= r' /\ 0 <= c') by (destruct Tw as [(_ & _ & _ & H & _) _]; rewrite Lw in H; inversion H as [|a b H1 H2]; inversion H2; subst; auto).
  assert (r' = r) as -> by (pose proof (f_equal (@length (list text)) E1) as H; rewrite !map_length, !zseq_length in H; lia).
  assert (Ei : forall i, 0 <= i < r -> row c (fun j => m (cell v [i; j])) = row c' (fun j => m (cell w [i; j]))) by (intros i Hi; apply map_show_inj; exact (row_inj r (fun i => map show (row c (fun j => m (cell v [i; j])))) (fun i => map show (row c' (fun j => m (cell w [i; j])))) E1 i Hi)).
  assert (c' = c) as -> by (pose proof (f_equal (@length V) (Ei 0 ltac:(lia))) as H; unfold row in H; rewrite !map_length, !zseq_length in H; lia).
  split; [congruence|]. intros idx Hi. destruct (in_view2_inv v r c idx Lv Hi) as (i & j & -> & Hi' & Hj). exact (row_inj c _ _ (Ei i Hi') j Hj).
Qed.

(** the text of an expression starts with ordinary characters and an opening bracket, parenthesis or newline *)
Definition opens (t : text) : Prop := exists u c s, t = u ++ c :: s /\ ordinary u /\ (c = "["%char \/ c = "("%char \/ c = "010"%char).
Lemma rank_len v k : rank (v_lay v) = k -> length (im_len (v_lay v)) = k.
Proof. intros <-. reflexivity. Qed.
Lemma leaf_cases v : printable (@ELeaf V AlgA v) -> (exists n, im_len (v_lay v) = [n] /\ forall f, print_array show f v m = Some (print1 show v m)) \/
  (exists r c, im_len (v_lay v) = [r; c] /\ 1 <= r /\ forall f, print_array show f v m = Some (print2 show v m)).
Proof.
  intros [HT [Hr|[Hr H1]]]; pose proof (rank_len v _ Hr) as Hl.
  - left. destruct (im_len (v_lay v)) as [|n [|]] eqn:E; try discriminate. exists n. split; [reflexivity|]. intros f. unfold print_array. now rewrite Hr.
  - right. destruct (im_len (v_lay v)) as [|r [|c [|]]] eqn:E; try discriminate. exists r, c. split; [reflexivity|]. split; [exact H1|]. intros f. unfold print_array. now rewrite Hr.
Qed.
Lemma printed e : printable e -> exists t, (forall f, print_expr show f e m = Some t) /\ opens t.
Proof.
  induction e as [alg v|a IH|o l IHl r IHr|o x r IHr|o l IHl x|f a]; cbn [printable]; intros H.
  - destruct (leaf_cases v H) as [(n & _ & E)|(r & c & _ & _ & E)]; eexists; (split; [intros f; apply E|]).
    + eexists [], "["%char, _. split; [reflexivity|]. split; [constructor|auto].
    + eexists [], "010"%char, _. split; [reflexivity|]. split; [constructor|auto].
  - destruct (IH H) as (t & E & u & c & s & -> & Hu & Hc). eexists. split; [intros f; cbn [print_expr]; rewrite E; reflexivity|]. exists ("-"%char :: u), c, s. split; [reflexivity|]. split; [now constructor|exact Hc].
  - destruct H as [H1 H2]. destruct (IHl H1) as (t1 & E1 & _). destruct (IHr H2) as (t2 & E2 & _). eexists. split; [intros f; cbn [print_expr]; rewrite E1, E2; reflexivity|]. eexists [], "("%char, _. split; [reflexivity|]. split; [constructor|auto].
  - destruct (IHr H) as (t2 & E2 & _). eexists. split; [intros f; cbn [print_expr]; rewrite E2; reflexivity|]. eexists [], "("%char, _. split; [reflexivity|]. split; [constructor|auto].
  - destruct (IHl H) as (t2 & E2 & _). eexists. split; [intros f; cbn [print_expr]; rewrite E2; reflexivity|]. eexists [], "("%char, _. split; [reflexivity|]. split; [constructor|auto].
  - contradiction.
Qed.
Lemma not_scalar t x c s s' : opens t -> t ++ s = show x ++ c :: s' -> (c = " "%char \/ c = ")"%char) -> False.
Proof.
  intros (u & k & q & -> & Hu & Hk) E Hc. rewrite <- app_assoc in E. cbn [app] in E. destruct (cut _ _ _ _ _ _ E Hu (proj2 (proj1 HS x))) as (_ & D & _).
  - destruct Hk as [-> |[-> | ->]]; reflexivity.
  - destruct Hc as [-> | ->]; reflexivity.
  - subst k. destruct Hc as [-> | ->]; destruct Hk as [D|[D|D]]; discriminate.
Qed.
Lemma op_char_inj o o' : op_char o = op_char o' -> o = o'.
Proof. destruct o, o'; cbn; intros E; try reflexivity; discriminate. Qed.
Lemma scalar_read x y c s s' : show x ++ c :: s = show y ++ c :: s' -> special c = true -> x = y /\ s = s'.
Proof. intros E Hc. destruct (cut _ _ _ _ _ _ E (proj2 (proj1 HS x)) (proj2 (proj1 HS y)) Hc Hc) as (Ex & _ & Es). split; [now apply HS|exact Es]. Qed.

Lemma expr_read e : forall e' t t' s s', printable e -> printable e' -> print_expr show fuel e m = Some t -> print_expr show fuel' e' m = Some t' -> t ++ s = t' ++ s' -> same_expr m e e' /\ s = s'.
Proof.
  assert (N1 : forall v q, print1 show v m ++ q = "["%char :: tl (print1 show v m) ++ q) by reflexivity.
  assert (N2 : forall v q, print2 show v m ++ q = "010"%char :: tl (print2 show v m) ++ q) by reflexivity.
  induction e as [alg v|a IH|o l IHl r IHr|o x r IHr|o l IHl x|f a]; intros e' t t' s s' P P' E E' Q; cbn [printable] in P; [| | | | |contradiction].
  - (* array *) cbn [print_expr] in E. assert (Hv : exists c q, t ++ s = c :: q /\ (c = "["%char \/ c = "010"%char)).
    { destruct (leaf_cases v P) as [(n & _ & Ep)|(r & c & _ & _ & Ep)]; rewrite Ep in E; injection E as <-; eexists _, _; (split; [reflexivity|auto]). }
    destruct Hv as (c0 & q0 & Eq & Hc0). rewrite Eq in Q.
    destruct e' as [alg' w|a'|o' l' r'|o' x' r'|o' l' x'|f' a']; cbn [print_expr] in E'; cbn [printable] in P'.
    + destruct (leaf_cases v P) as [(n & Lv & Ep)|(r & c & Lv & Hr & Ep)]; rewrite Ep in E; injection E as <-; destruct (leaf_cases w P') as [(n' & Lw & Ep')|(r' & c' & Lw & Hr' & Ep')]; rewrite Ep' in E'; injection E' as <-; rewrite <- Eq in Q.
      * exact (print1_read v w n n' s s' (proj1 P) (proj1 P') Lv Lw Q).
      * rewrite N1, N2 in Q. discriminate.
      * rewrite N1, N2 in Q. discriminate.
      * exact (print2_read v w r c r' c' s s' (proj1 P) (proj1 P') Lv Lw Hr Q).
    + exfalso. destruct (print_expr show fuel' a' m); [|discriminate]. injection E' as <-. cbn [app] in Q. injection Q as Q _. destruct Hc0; subst; discriminate.
    + exfalso. destruct (print_expr show fuel' l' m), (print_expr show fuel' r' m); try discriminate. injection E' as <-. cbn in Q. injection Q as Q _. destruct Hc0; subst; discriminate.
    + exfalso. destruct (print_expr show fuel' r' m); try discriminate. injection E' as <-. cbn in Q. injection Q as Q _. destruct Hc0; subst; discriminate.
    + exfalso. destruct (print_expr show fuel' l' m); try discriminate. injection E' as <-. cbn in Q. injection Q as Q _. destruct Hc0; subst; discriminate.
    + contradiction.
  - (* minus *) cbn [print_expr] in E. destruct (print_expr show fuel a m) as [ta|] eqn:Ea; [|discriminate]. injection E as <-.
    destruct e' as [alg' w|a'|o' l' r'|o' x' r'|o' l' x'|f' a']; cbn [print_expr] in E'; cbn [printable] in P'; [exfalso| |exfalso|exfalso|exfalso|contradiction].
    + destruct (leaf_cases w P') as [(n & _ & Ep)|(r & c & _ & _ & Ep)]; rewrite Ep in E'; injection E' as <-; discriminate.
    + destruct (print_expr show fuel' a' m) as [ta'|] eqn:Ea'; [|discriminate]. injection E' as <-. cbn [app] in Q. injection Q as Q. cbn [same_expr]. exact (IH a' ta ta' s s' P P' eq_refl Ea' Q).
    + destruct (print_expr show fuel' l' m), (print_expr show fuel' r' m); try discriminate; injection E' as <-; discriminate.
    + destruct (print_expr show fuel' r' m); try discriminate; injection E' as <-; discriminate.
    + destruct (print_expr show fuel' l' m); try discriminate; injection E' as <-; discriminate.
  - (* two arrays *) cbn [print_expr] in E. destruct P as [Pl Pr]. destruct (printed l Pl) as (tl & El & Ol). destruct (printed r Pr) as (tr & Er & Or). rewrite El, Er in E. injection E as <-. cbn [lit list_ascii_of_string app] in Q. rewrite <- !app_assoc in Q. cbn [app] in Q. rewrite <- !app_assoc in Q. cbn [app] in Q.
    destruct e' as [alg' w|a'|o' l' r'|o' x' r'|o' l' x'|f' a']; cbn [print_expr] in E'; cbn [printable] in P'; [exfalso|exfalso| |exfalso|exfalso|contradiction].
    + destruct (leaf_cases w P') as [(n & _ & Ep)|(rr & c & _ & _ & Ep)]; rewrite Ep in E'; injection E' as <-; discriminate.
    + destruct (print_expr show fuel' a' m); [|discriminate]. injection E' as <-. discriminate.
    + destruct P' as [Pl' Pr']. destruct (printed l' Pl') as (tl' & El' & Ol'). destruct (printed r' Pr') as (tr' & Er' & Or'). rewrite El', Er' in E'. injection E' as <-. cbn [lit list_ascii_of_string app] in Q. rewrite <- !app_assoc in Q. cbn [app] in Q. rewrite <- !app_assoc in Q. cbn [app] in Q. injection Q as Q.
      destruct (IHl l' tl tl' _ _ Pl Pl' (El _) (El' _) Q) as [Hl Q']. injection Q' as Ho Q'. destruct (IHr r' tr tr' _ _ Pr Pr' (Er _) (Er' _) Q') as [Hr Q2]. injection Q2 as ->. cbn [same_expr]. split; [|reflexivity]. split; [now apply op_char_inj|auto].
    + destruct (printed r' P') as (tr' & Er' & Or'). rewrite Er' in E'. injection E' as <-. cbn [lit list_ascii_of_string app] in Q. rewrite <- !app_assoc in Q. cbn [app] in Q. injection Q as Q. exact (not_scalar tl x' _ _ _ Ol Q (or_introl eq_refl)).
    + destruct (printed l' P') as (tl' & El' & Ol'). rewrite El' in E'. injection E' as <-. cbn [lit list_ascii_of_string app] in Q. rewrite <- !app_assoc in Q. cbn [app] in Q. rewrite <- !app_assoc in Q. cbn [app] in Q. injection Q as Q.
      destruct (IHl l' tl tl' _ _ Pl P' (El _) (El' _) Q) as [Hl Q']. injection Q' as Ho Q'. exact (not_scalar tr x' _ _ _ Or Q' (or_intror eq_refl)).
  - (* scalar on the left *) cbn [print_expr] in E. destruct (printed r P) as (tr & Er & Or). rewrite Er in E. injection E as <-. cbn [lit list_ascii_of_string app] in Q. rewrite <- !app_assoc in Q. cbn [app] in Q. rewrite <- !app_assoc in Q. cbn [app] in Q.
    destruct e' as [alg' w|a'|o' l' r'|o' x' r'|o' l' x'|f' a']; cbn [print_expr] in E'; cbn [printable] in P'; [exfalso|exfalso|exfalso| |exfalso|contradiction].
    + destruct (leaf_cases w P') as [(n & _ & Ep)|(rr & c & _ & _ & Ep)]; rewrite Ep in E'; injection E' as <-; discriminate.
    + destruct (print_expr show fuel' a' m); [|discriminate]. injection E' as <-. discriminate.
    + destruct P' as [Pl' Pr']. destruct (printed l' Pl') as (tl' & El' & Ol'). destruct (printed r' Pr') as (tr' & Er' & Or'). rewrite El', Er' in E'. injection E' as <-. cbn [lit list_ascii_of_string app] in Q. rewrite <- !app_assoc in Q. cbn [app] in Q. injection Q as Q. exact (not_scalar tl' x _ _ _ Ol' (eq_sym Q) (or_introl eq_refl)).
    + destruct (printed r' P') as (tr' & Er' & Or'). rewrite Er' in E'. injection E' as <-. cbn [lit list_ascii_of_string app] in Q. rewrite <- !app_assoc in Q. cbn [app] in Q. rewrite <- !app_assoc in Q. cbn [app] in Q. injection Q as Q. destruct (scalar_read _ _ _ _ _ Q eq_refl) as [-> Q']. injection Q' as Ho Q'.
      destruct (IHr r' tr tr' _ _ P P' (Er _) (Er' _) Q') as [Hr Q2]. injection Q2 as ->. cbn [same_expr]. split; [|reflexivity]. split; [now apply op_char_inj|auto].
    + destruct (printed l' P') as (tl' & El' & Ol'). rewrite El' in E'. injection E' as <-. cbn [lit list_ascii_of_string app] in Q. rewrite <- !app_assoc in Q. cbn [app] in Q. injection Q as Q. exact (not_scalar tl' x _ _ _ Ol' (eq_sym Q) (or_introl eq_refl)).
  - (* scalar on the right *) cbn [print_expr] in E. destruct (printed l P) as (tl & El & Ol). rewrite El in E. injection E as <-. cbn [lit list_ascii_of_string app] in Q. rewrite <- !app_assoc in Q. cbn [app] in Q. rewrite <- !app_assoc in Q. cbn [app] in Q.
    destruct e' as [alg' w|a'|o' l' r'|o' x' r'|o' l' x'|f' a']; cbn [print_expr] in E'; cbn [printable] in P'; [exfalso|exfalso|exfalso|exfalso| |contradiction].
    + destruct (leaf_cases w P') as [(n & _ & Ep)|(rr & c & _ & _ & Ep)]; rewrite Ep in E'; injection E' as <-; discriminate.
    + destruct (print_expr show fuel' a' m); [|discriminate]. injection E' as <-. discriminate.
    + destruct P' as [Pl' Pr']. destruct (printed l' Pl') as (tl' & El' & Ol'). destruct (printed r' Pr') as (tr' & Er' & Or'). rewrite El', Er' in E'. injection E' as <-. cbn [lit list_ascii_of_string app] in Q. rewrite <- !app_assoc in Q. cbn [app] in Q. rewrite <- !app_assoc in Q. cbn [app] in Q. injection Q as Q.
      destruct (IHl l' tl tl' _ _ P Pl' (El _) (El' _) Q) as [Hl Q']. injection Q' as Ho Q'. exact (not_scalar tr' x _ _ _ Or' (eq_sym Q') (or_intror eq_refl)).
    + destruct (printed r' P') as (tr' & Er' & Or'). rewrite Er' in E'. injection E' as <-. cbn [lit list_ascii_of_string app] in Q. rewrite <- !app_assoc in Q. cbn [app] in Q. injection Q as Q. exact (not_scalar tl x' _ _ _ Ol Q (or_introl eq_refl)).
    + destruct (printed l' P') as (tl' & El' & Ol'). rewrite El' in E'. injection E' as <-. cbn [lit list_ascii_of_string app] in Q. rewrite <- !app_assoc in Q. cbn [app] in Q. rewrite <- !app_assoc in Q. cbn [app] in Q. injection Q as Q.
      destruct (IHl l' tl tl' _ _ P P' (El _) (El' _) Q) as [Hl Q']. injection Q' as Ho Q'. destruct (scalar_read _ _ _ _ _ Q' eq_refl) as [-> ->]. cbn [same_expr]. split; [|reflexivity]. split; [now apply op_char_inj|auto].
Qed.
End Expr.
