(** C63: what operator<< writes for arrays and expressions. *)
From Coq Require Import String Ascii DecimalString.
From Verif Require Import Base M_Perm M_IdxMap M_Slice M_Loops M_Assign M_Expr M_RectStr S_Layout S_Loops S_Assign S_RectStr S_Expr M_Print S_Print
  L_Perm L_IdxMap L_Slice L_Layout L_Loops L_Assign L_Blas L_Blas3 L_RectStr L_Print P_Layout P_Loops.
Local Open Scope list_scope.

(** A vector is printed as [a,b,c]: its elements in index order, whatever its layout. *)
Theorem C63_rank1 : forall V (show : V -> text) fuel v m n, truthful (v_lay v) -> im_len (v_lay v) = [n] ->
  print_array show fuel v m = Some (bracketed (joined (lit ",") (map show (row n (fun i => m (cell v [i])))))).
Proof. intros V show fuel v m n T L. unfold print_array. replace (rank (v_lay v)) with 1%nat by (unfold rank; now rewrite L). f_equal. exact (print1_text show v m n T L). Qed.
Print Assumptions C63_rank1.

(** A matrix is printed on a new line as [[a,b] [c,d]], one row per line, whatever its layout. *)
Theorem C63_rank2 : forall V (show : V -> text) fuel v m r c, truthful (v_lay v) -> im_len (v_lay v) = [r; c] ->
  print_array show fuel v m = Some (nl ++ bracketed (joined (nl ++ lit " ")
    (map (fun i => bracketed (joined (lit ",") (map show (row c (fun j => m (cell v [i; j])))))) (zseq r)))).
Proof.
  intros V show fuel v m r c T L. unfold print_array. replace (rank (v_lay v)) with 2%nat by (unfold rank; now rewrite L). f_equal. rewrite (print2_text show v m r c T L). unfold text2d. do 3 f_equal. now rewrite map_map.
Qed.
Print Assumptions C63_rank2.

Lemma iterate_more fuel : forall k it e l, iterate fuel it e = Some l -> iterate (k + fuel) it e = Some l.
Proof.
  induction fuel as [|fuel IH]; intros k it e l E.
  - cbn [iterate] in E. destruct (grid_eqb it e) eqn:G; [|discriminate]. destruct k as [|k]; cbn [plus iterate]; rewrite G; exact E.
  - rewrite Nat.add_succ_r. cbn [iterate] in E |- *. destruct (grid_eqb it e); [exact E|]. destruct (iterate fuel (grid_incr it) e) as [q|] eqn:F; [|discriminate]. now rewrite (IH k _ _ _ F).
Qed.
Lemma fold_first {V} (show : V -> text) (f : Z -> V) l : forall out,
  fst (fold_left (fun '(out, first) o => (out ++ (if first : bool then [] else lit ",") ++ show (f o), false)) l (out, false)) = out ++ concat (map (fun o => lit "," ++ show (f o)) l).
Proof.
  induction l as [|o l IH]; intros out; cbn [fold_left map concat]; [now rewrite app_nil_r|]. rewrite IH. now rewrite <- !app_assoc.
Qed.
Lemma joined_concat sep l : forall t, joined sep (t :: l) = t ++ concat (map (fun t => sep ++ t) l).
Proof.
  induction l as [|u l IH]; intros t; [cbn; now rewrite app_nil_r|]. change (joined sep (t :: u :: l)) with (t ++ sep ++ joined sep (u :: l)). rewrite IH. cbn [map concat]. now rewrite <- !app_assoc.
Qed.
Lemma printn_text {V} (show : V -> text) fuel v (m : mem V) l : iterate fuel (make_iterator (v_lay v) false) (make_iterator (v_lay v) true) = Some l ->
  printn show fuel v m = Some (bracketed (joined (lit ",") (map (fun o => show (m (v_base v + o))) l))).
Proof.
  intros E. unfold printn. rewrite E. unfold bracketed. do 3 f_equal. destruct l as [|o l]; [reflexivity|]. cbn [fold_left map]. rewrite (fold_first show (fun o => m (v_base v + o))), joined_concat, map_map. reflexivity.
Qed.

(** An array of higher rank is printed as one bracket with all its elements in the order of its layout (the last entry of the
    stride order fastest), each once. *)
Theorem C63_rank_n : forall V (show : V -> text) k v m, truthful (v_lay v) -> (2 < rank (v_lay v))%nat -> zero_extents_harmless (v_lay v) ->
  exists L, lists_in_stride_order (v_lay v) L /\ NoDup L /\ (forall idx, In idx L <-> in_view v idx) /\
  print_array show (k + Z.to_nat (prodZ (im_len (v_lay v)))) v m = Some (bracketed (joined (lit ",") (map (fun idx => show (m (cell v idx))) L))).
Proof.
  intros V show k v m T HR Hz. pose proof (truthful_wf _ T) as W. exists (order_list (v_lay v)).
  split; [now apply order_list_spec|]. split; [now apply order_list_NoDup|]. split; [now apply order_list_In|].
  pose proof (array_iteration _ W (truthful_flags _ T) (harmless_cases _ W Hz)) as E. apply (iterate_more _ k) in E.
  unfold print_array. destruct (rank (v_lay v)) as [|[|[|q]]] eqn:R; try lia. rewrite <- size_prodZ. rewrite (printn_text show _ v m _ E). do 3 f_equal. now rewrite map_map.
Qed.
Print Assumptions C63_rank_n.

(** ** the text can be read back *)
Lemma row_ext {W} n (f g : Z -> W) : (forall i, 0 <= i < n -> f i = g i) -> row n f = row n g.
Proof. intros E. unfold row. apply map_ext_in. intros i Hi. apply zseq_In in Hi. auto. Qed.
Lemma leaf_same {V} (show : V -> text) v w m fuel : printable (@ELeaf V AlgA v) -> printable (@ELeaf V AlgA w) -> same_array m v w -> print_array show fuel v m = print_array show fuel w m.
Proof.
  intros [Tv Rv] [Tw _] [Hl Hm]. destruct Rv as [Rv|[Rv _]]; apply rank_len in Rv.
  - destruct (im_len (v_lay v)) as [|n [|]] eqn:E; try discriminate. rewrite (C63_rank1 V show fuel v m n Tv E), (C63_rank1 V show fuel w m n Tw (eq_sym Hl)). do 4 f_equal. apply row_ext. intros i Hi. apply Hm. now apply (in_view1 v n).
  - destruct (im_len (v_lay v)) as [|r [|c [|]]] eqn:E; try discriminate. rewrite (C63_rank2 V show fuel v m r c Tv E), (C63_rank2 V show fuel w m r c Tw (eq_sym Hl)). do 4 f_equal. apply map_ext_in. intros i Hi. apply zseq_In in Hi. do 3 f_equal. apply row_ext. intros j Hj. apply Hm. apply (in_view2 v r c); auto.
Qed.
Lemma expr_same {V} (show : V -> text) (m : mem V) fuel e : forall e', printable e -> printable e' -> same_expr m e e' -> print_expr show fuel e m = print_expr show fuel e' m.
Proof.
  induction e as [alg v|a IH|o l IHl r IHr|o x r IHr|o l IHl x|f a]; intros [alg' w|a'|o' l' r'|o' x' r'|o' l' x'|f' a'] P P' S; cbn [printable same_expr] in P, P', S; try contradiction; cbn [print_expr].
  - now apply leaf_same.
  - now rewrite (IH a' P P' S).
  - destruct S as (-> & S1 & S2). now rewrite (IHl l' (proj1 P) (proj1 P') S1), (IHr r' (proj2 P) (proj2 P') S2).
  - destruct S as (-> & -> & S2). now rewrite (IHr r' P P' S2).
  - destruct S as (-> & S1 & ->). now rewrite (IHl l' P P' S1).
Qed.

(** Vectors, and matrices that have rows, can be read back from what is printed: the texts are equal exactly if the ranks, shapes
    and elements are equal, for all layouts, provided that the elements' texts can be told apart. *)
Theorem C63_readable : forall V (show : V -> text) fuel v w m, legible show -> truthful (v_lay v) -> truthful (v_lay w) ->
  (forall x, x = v \/ x = w -> rank (v_lay x) = 1%nat \/ rank (v_lay x) = 2%nat /\ 1 <= nthZ (im_len (v_lay x)) 0) ->
  (print_array show fuel v m = print_array show fuel w m <-> same_array m v w).
Proof.
  intros V show fuel v w m HS Tv Tw HR. assert (Pv : printable (@ELeaf V AlgA v)) by (split; auto). assert (Pw : printable (@ELeaf V AlgA w)) by (split; auto). split; [|now apply leaf_same].
  intros E. destruct (printed show m _ Pv) as (t & Et & _). destruct (printed show m _ Pw) as (t' & Et' & _). pose proof (Et fuel) as E1. pose proof (Et' fuel) as E2. cbn [print_expr] in E1, E2. rewrite E1, E2 in E. injection E as E.
  exact (proj1 (expr_read show HS m fuel fuel _ _ t t' [] [] Pv Pw E1 E2 (f_equal (fun t => t ++ []) E))).
Qed.
Print Assumptions C63_readable.

(** The same for expressions: the text shows how the expression was built, so that for example (a + b) - c, a + (b - c), a scalar
    and an array operand, or operands of different shapes are never confused. *)
Theorem C63_expressions : forall V (show : V -> text) fuel m e e', legible show -> printable e -> printable e' ->
  print_expr show fuel e m <> None /\ (print_expr show fuel e m = print_expr show fuel e' m <-> same_expr m e e').
Proof.
  intros V show fuel m e e' HS P P'. destruct (printed show m _ P) as (t & Et & _). destruct (printed show m _ P') as (t' & Et' & _). split; [rewrite Et; discriminate|]. split; [|now apply expr_same].
  intros E. rewrite Et, Et' in E. injection E as E. exact (proj1 (expr_read show HS m fuel fuel _ _ t t' [] [] P P' (Et _) (Et' _) (f_equal (fun t => t ++ []) E))).
Qed.
Print Assumptions C63_expressions.

(** ** integers are legible *)
Lemma digits_plain s : all_digits s = true -> Forall (fun c => special c = false /\ c <> "-"%char) (lit s).
Proof.
  induction s as [|c s IH]; cbn [all_digits]; intros H; [constructor|]. apply andb_true_iff in H. destruct H as [Hc Hs]. constructor; [|now apply IH].
  unfold is_digit in Hc. destruct c as [[] [] [] [] [] [] [] []]; cbn in Hc; try discriminate Hc; split; try reflexivity; discriminate.
Qed.
Lemma lit_inj s s' : lit s = lit s' -> s = s'.
Proof. intros E. rewrite <- (string_of_list_ascii_of_string s), <- (string_of_list_ascii_of_string s'). exact (f_equal string_of_list_ascii E). Qed.
Lemma lit_digits n : lit (to_string n) <> [] /\ Forall (fun c => special c = false /\ c <> "-"%char) (lit (to_string n)).
Proof.
  destruct (to_string_writes n) as (Hd & _ & H0). split; [|now apply digits_plain]. destruct (to_string n); [contradiction|discriminate].
Qed.
Lemma show_int_inj x y : show_int x = show_int y -> x = y.
Proof.
  unfold show_int. fold (to_string (Z.to_nat (Z.abs x))). fold (to_string (Z.to_nat (Z.abs y))). intros E.
  assert (Hd : forall n s, lit (to_string n) = "-"%char :: s -> False) by (intros n s Hs; destruct (lit_digits n) as [_ H]; rewrite Hs in H; inversion H as [|c l [_ Hc]]; now apply Hc).
  destruct (Z.ltb_spec x 0) as [Hx|Hx], (Z.ltb_spec y 0) as [Hy|Hy]; cbn [app] in E.
  - injection E as E. apply lit_inj, to_string_inj in E. lia.
  - exfalso. exact (Hd _ _ (eq_sym E)).
  - exfalso. exact (Hd _ _ E).
  - apply lit_inj, to_string_inj in E. lia.
Qed.
Theorem C63_integers : legible show_int.
Proof.
  split; [|apply show_int_inj]. intros x. unfold show_int. fold (to_string (Z.to_nat (Z.abs x))). destruct (lit_digits (Z.to_nat (Z.abs x))) as [H0 H]. assert (H' : Forall (fun c => special c = false) (lit (to_string (Z.to_nat (Z.abs x))))) by (apply (Forall_impl _ (fun c Hc => proj1 Hc) H)). split.
  - destruct (x <? 0); cbn [app]; [discriminate|exact H0].
  - destruct (x <? 0); cbn [app]; [constructor; [reflexivity|exact H']|exact H'].
Qed.
Print Assumptions C63_integers.

(** ** examples *)
Definition ex63 (so : list nat) (len str : list Z) (base : Z) : view := View (IdxMap len str so (repeat 0 (length len)) LP_none) base.
Definition shown {V} (show : V -> text) (fuel : nat) (v : view) (m : mem V) : option string := option_map string_of_list_ascii (print_array show fuel v m).
Lemma ex63_truthful so len str base : wf (IdxMap len str so (repeat 0 (length len)) LP_none) -> truthful (v_lay (ex63 so len str base)).
Proof. intros W. split; [exact W|]. split; [discriminate|]. intros H. discriminate. Qed.
Ltac ex63_wf := apply ex63_truthful; unfold wf; cbn; repeat split; try lia; try (repeat constructor; lia); try reflexivity.

(** a reversed vector, and a matrix in Fortran order, whose cell a holds a - 3 *)
Example C63_example : truthful (v_lay (ex63 [0%nat] [3] [-2] 4)) /\ truthful (v_lay (ex63 [1; 0]%nat [2; 3] [1; 2] 0)) /\
  shown show_int 0 (ex63 [0%nat] [3] [-2] 4) (fun a => a - 3) = Some "[1,-1,-3]"%string /\
  shown show_int 0 (ex63 [1; 0]%nat [2; 3] [1; 2] 0) (fun a => a - 3) = Some "
[[-3,-1,1]
 [-2,0,2]]"%string.
Proof. repeat split; try discriminate; try reflexivity; cbn; try lia; repeat constructor; try lia; try (cbn; intuition lia). Qed.

(** ** where the text does not identify the array *)
(** Arrays of rank 3 and more are printed in memory order: the text of a fresh array does not depend on its stride order, only on
    the cells. *)
Theorem C63_memory_order_refuted : forall V (show : V -> text) so se p junk shape base m, is_order (length shape) so ->
  length junk = length shape -> length se = length shape -> Forall (fun l => 0 <= l) shape -> (2 < length shape < 16)%nat ->
  let v := View (idx_map_of_shape so se p junk shape) base in zero_extents_harmless (v_lay v) ->
  print_array show (Z.to_nat (size (v_lay v))) v m = Some (bracketed (joined (lit ",") (map (fun k => show (m (base + k))) (zseq (size (v_lay v)))))).
Proof.
  intros V show so se p junk shape base m Ho Lj Lse Hnn HR v Hz. pose proof (C15_fresh_memory_order so se p junk shape Ho Lj Lse Hnn ltac:(lia) Hz) as E.
  unfold print_array. assert (R : rank (v_lay v) = length shape) by reflexivity. rewrite R. destruct (length shape) as [|[|[|q]]] eqn:EL; try lia. exact (printn_text show _ v m _ E).
Qed.
Print Assumptions C63_memory_order_refuted.
(** so a C-ordered and a Fortran-ordered array with different elements are printed alike, and two with equal elements are not *)
Definition ex63_c : view := ex63 [0; 1; 2]%nat [2; 2; 2] [4; 2; 1] 0.
Definition ex63_f (base : Z) : view := ex63 [2; 1; 0]%nat [2; 2; 2] [1; 2; 4] base.
Definition ex63_mem : mem Z := fun a => if a <? 8 then a else 4 * ((a - 8) mod 2) + 2 * ((a - 8) / 2 mod 2) + (a - 8) / 4.
Example C63_memory_order_example :
  ~ same_array ex63_mem ex63_c (ex63_f 0) /\ shown show_int 8 ex63_c ex63_mem = shown show_int 8 (ex63_f 0) ex63_mem /\
  same_array ex63_mem ex63_c (ex63_f 8) /\ shown show_int 8 ex63_c ex63_mem = Some "[0,1,2,3,4,5,6,7]"%string /\ shown show_int 8 (ex63_f 8) ex63_mem = Some "[0,4,2,6,1,5,3,7]"%string.
Proof.
  split; [|split; [|split; [|split]]]; try (vm_compute; reflexivity).
  - intros [_ H]. specialize (H [1; 0; 0] ltac:(repeat constructor; lia)). vm_compute in H. discriminate.
  - split; [reflexivity|]. intros idx Hi. unfold in_view, valid_idx, in_range in Hi. cbn in Hi. inversion Hi as [|i a l1 l2 Hi1 Hi2]; subst. inversion Hi2 as [|j b l3 l4 Hj1 Hj2]; subst. inversion Hj2 as [|k c l5 l6 Hk1 Hk2]; subst. inversion Hk2; subst. unfold inr in Hi1, Hj1, Hk1.
    assert (Ci : i = 0 \/ i = 1) by lia. assert (Cj : j = 0 \/ j = 1) by lia. assert (Ck : k = 0 \/ k = 1) by lia. destruct Ci as [-> | ->], Cj as [-> | ->], Ck as [-> | ->]; reflexivity.
Qed.

(** a matrix without rows is printed without its number of columns *)
Theorem C63_no_rows_refuted : forall V (show : V -> text) fuel v m c, truthful (v_lay v) -> im_len (v_lay v) = [0; c] ->
  print_array show fuel v m = Some (nl ++ lit "[]").
Proof. intros V show fuel v m c T L. now rewrite (C63_rank2 V show fuel v m 0 c T L). Qed.
Print Assumptions C63_no_rows_refuted.
Example C63_no_rows_example : truthful (v_lay (ex63 [0; 1]%nat [0; 3] [3; 1] 0)) /\ truthful (v_lay (ex63 [0; 1]%nat [0; 5] [5; 1] 0)).
Proof. repeat split; try discriminate; try reflexivity; cbn; try lia; repeat constructor; lia. Qed.

(** the value of an array of rank 0 is not printed *)
Theorem C63_rank0_refuted : forall V (show : V -> text) fuel v m, rank (v_lay v) = 0%nat -> print_array show fuel v m = Some [].
Proof. intros V show fuel v m R. unfold print_array. now rewrite R. Qed.
Print Assumptions C63_rank0_refuted.

(** printing a view of rank 3 or more with an extent zero that is not the slowest one never ends *)
Theorem C63_zero_extent_refuted : forall V (show : V -> text) fuel v m, truthful (v_lay v) -> (2 < rank (v_lay v))%nat -> ~ zero_extents_harmless (v_lay v) ->
  size (v_lay v) = 0 /\ print_array show fuel v m = None.
Proof.
  intros V show fuel v m T HR Hz. pose proof (truthful_wf _ T) as W. destruct (harmful_cases _ W Hz) as (H1 & H2 & H3). split; [exact H3|].
  unfold print_array. destruct (rank (v_lay v)) as [|[|[|q]]]; try lia. unfold printn. now rewrite (array_iteration_stuck _ W H1 H2 H3).
Qed.
Print Assumptions C63_zero_extent_refuted.
Example C63_zero_extent_example : truthful (v_lay (ex63 [0; 1; 2]%nat [2; 0; 3] [12; 3; 1] 0)) /\ ~ zero_extents_harmless (v_lay (ex63 [0; 1; 2]%nat [2; 0; 3] [12; 3; 1] 0)).
Proof.
  split; [repeat split; try discriminate; try reflexivity; cbn; try lia; repeat constructor; lia|].
  intros [[H|H]|[H|H]]; [discriminate|discriminate|discriminate|]. specialize (H 1%nat ltac:(cbn; lia)). cbn in H. lia.
Qed.

(** (a + b) - c and a + (b - c); -(a) * 2 *)
Example C63_expressions_example : let a := @ELeaf Z AlgA (ex63 [0%nat] [2] [1] 0) in let b := @ELeaf Z AlgA (ex63 [0%nat] [2] [-1] 5) in
  printable (EBin OpMinus (EBin OpPlus a b) a) /\ printable (EScalR OpTimes (ENeg a) 2) /\
  option_map string_of_list_ascii (print_expr show_int 0 (EBin OpMinus (EBin OpPlus a b) a) (fun k => k)) = Some "(([0,1] + [5,4]) - [0,1])"%string /\
  option_map string_of_list_ascii (print_expr show_int 0 (EBin OpPlus a (EBin OpMinus b a)) (fun k => k)) = Some "([0,1] + ([5,4] - [0,1]))"%string /\
  option_map string_of_list_ascii (print_expr show_int 0 (EScalR OpTimes (ENeg a) 2) (fun k => k)) = Some "(-[0,1] * 2)"%string.
Proof. repeat split; try discriminate; try reflexivity; cbn; try lia; repeat constructor; lia. Qed.
