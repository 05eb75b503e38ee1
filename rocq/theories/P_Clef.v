(** C40, C41, C42: lazy expressions, lazy assignment and lazy sums. *)
From Verif Require Import Base M_Perm M_IdxMap M_Slice M_Loops M_Assign M_Clef S_Layout S_Assign S_Clef
  L_Perm L_IdxMap L_Loops L_Assign L_Transform L_Clef L_Clef2 L_Clef3.

(** ** C40: evaluation is substitution.  [x] is an expression object [o] of the program; evaluating it with bindings gives an
    expression whose value, in every environment, is that of [x] with the bound placeholders standing for what they are
    bound to (values, references to objects, or other lazy expressions). *)
Theorem C40_substitution : forall V (h : heap V) k o (x : node V) pairs x', h_exp h o = Some x -> no_temporary x -> bindings_for pairs x ->
  eval k h (Some o) [] pairs x = Ret x' -> forall e, value h e x' = value h (bound h e pairs) x.
Proof.
  intros V h k o x pairs x' Ho NT B H e. assert (HT : forall k r, In (k, r) pairs -> no_temporary r) by (intros; now apply B with (k := k0)).
  assert (HL : located h (Some o) [] x) by (intros q E; injection E as <-; exists x; split; [exact Ho|reflexivity]).
  rewrite value_bound by auto. rewrite value_true by (eapply eval_no_tmp; eauto).
  apply sim_val. eapply eval_sound; [exact H|exact HL|]. now apply bindings_bf.
Qed.

(** Binding some of the placeholders of an operator expression succeeds whenever the expression has a value for some
    values of the others; exactly the other placeholders are left. *)
Theorem C40_partly_bound : forall V (h : heap V) k o (x : node V) pairs e v, h_exp h o = Some x -> no_temporary x -> function_free x ->
  NoDup (keys pairs) -> (forall n r, In (n, r) pairs -> is_plain r /\ no_temporary r) -> (height x <= k)%nat ->
  value h (bound h e pairs) x = Ret v ->
  exists x', eval k h (Some o) [] pairs x = Ret x' /\ value h e x' = Ret v /\
    (forall n, In n (free x') <-> In n (free x) /\ ~ In n (keys pairs)) /\ ((exists n, In n (free x')) -> ~ is_plain x').
Proof.
  intros V h k o x pairs e v Ho NT FF ND HP Hk HV.
  assert (HL : located h (Some o) [] x) by (intros q E; injection E as <-; exists x; split; [exact Ho|reflexivity]).
  assert (HT : forall k r, In (k, r) pairs -> no_temporary r) by (intros; now apply HP with (n := k0)).
  assert (HP' : all_plain pairs) by (intros n r Hn; now apply HP with (n := n)).
  pose proof HV as HV'. rewrite value_bound in HV by auto.
  destruct (eval_complete_ff k h (Some o) [] pairs x e v) as (x' & Hx & [G1 G2 G3 G4] & FF'); auto.
  exists x'. split; [exact Hx|]. split; [|split; [exact G2|]].
  - rewrite <- HV'. eapply C40_substitution; eauto. destruct (function_free_binders x FF) as [Eb Es].
    split; [auto|]. split; [auto|]. split; [rewrite Eb; intros n []|]. intros n r Hn. destruct (HP n r Hn) as [Hp Ht]. split; [|auto]. destruct r; try destruct Hp; exact I.
  - intros [n Hn]. apply G4. apply G2 in Hn. destruct Hn as [Hn Hk']. destruct (all_bound pairs x) eqn:E; [|reflexivity]. elim Hk'. rewrite all_bound_iff in E. auto.
Qed.

(** Binding all of them gives the value. *)
Theorem C40_all_bound : forall V (h : heap V) k o (x : node V) pairs v, h_exp h o = Some x -> no_temporary x -> function_free x ->
  NoDup (keys pairs) -> (forall n r, In (n, r) pairs -> is_plain r /\ no_temporary r) -> (forall n, In n (free x) -> In n (keys pairs)) -> (height x <= k)%nat ->
  value h (bound h nothing pairs) x = Ret v ->
  exists x', eval k h (Some o) [] pairs x = Ret x' /\ is_plain x' /\ value h nothing x' = Ret v.
Proof.
  intros V h k o x pairs v Ho NT FF ND HP HA Hk HV.
  assert (HL : located h (Some o) [] x) by (intros q E; injection E as <-; exists x; split; [exact Ho|reflexivity]).
  assert (HT : forall k r, In (k, r) pairs -> no_temporary r) by (intros; now apply HP with (n := k0)).
  assert (HP' : all_plain pairs) by (intros n r Hn; now apply HP with (n := n)).
  destruct (C40_partly_bound V h k o x pairs nothing v) as (x' & Hx & Hv & _ & _); auto. exists x'. split; [exact Hx|]. split; [|exact Hv].
  rewrite value_bound in HV by auto. destruct (eval_complete_ff k h (Some o) [] pairs x nothing v) as (x2 & Hx2 & [G1 G2 G3 G4] & FF'); auto.
  rewrite Hx in Hx2. injection Hx2 as <-. apply G3. now apply all_bound_iff.
Qed.

(** Binding some placeholders first and the others in a second evaluation of the resulting expression (the object [o1]) gives the
    same value as binding all at once, while the first expression object is alive. *)
Theorem C40_in_steps : forall V (h : heap V) k o o1 (x : node V) p1 p2 v, h_exp h o = Some x -> h_exp h o1 = None -> no_temporary x -> function_free x ->
  NoDup (keys (p1 ++ p2)) -> (forall n r, In (n, r) (p1 ++ p2) -> is_plain r /\ no_temporary r) -> (forall n, In n (free x) -> In n (keys (p1 ++ p2))) ->
  (height x <= k)%nat -> value h (bound h nothing (p1 ++ p2)) x = Ret v ->
  exists x1 x2, eval k h (Some o) [] p1 x = Ret x1 /\ eval k (with_exp h o1 x1) (Some o1) [] p2 x1 = Ret x2 /\
    is_plain x2 /\ value (with_exp h o1 x1) nothing x2 = Ret v.
Proof.
  intros V h k o o1 x p1 p2 v Ho Ho1 NT FF ND HP HA Hk HV.
  assert (KE : keys (p1 ++ p2) = keys p1 ++ keys p2) by apply map_app. rewrite KE in ND, HA.
  assert (ND1 : NoDup (keys p1)).
  { clear - ND. induction (keys p1) as [|a l IH]; [constructor|]. cbn [app] in ND. inversion ND as [|? ? Ha ND']; subst. constructor; [|auto]. intros H. apply Ha. apply in_or_app. now left. }
  assert (ND2 : NoDup (keys p2)).
  { clear - ND. induction (keys p1) as [|a l IH]; [exact ND|]. cbn [app] in ND. inversion ND; auto. }
  assert (HP1 : forall n r, In (n, r) p1 -> is_plain r /\ no_temporary r) by (intros; apply HP with (n := n); apply in_or_app; now left).
  assert (HP2 : forall n r, In (n, r) p2 -> is_plain r /\ no_temporary r) by (intros; apply HP with (n := n); apply in_or_app; now right).
  assert (HT1 : forall n r, In (n, r) p1 -> no_temporary r) by (intros; now apply HP1 with (n := n)).
  assert (HT2 : forall n r, In (n, r) p2 -> no_temporary r) by (intros; now apply HP2 with (n := n)).
  assert (HT12 : forall n r, In (n, r) (p1 ++ p2) -> no_temporary r) by (intros; now apply HP with (n := n)).
  assert (PV : forall hh r e e', is_plain r -> val (V := V) true hh e r = val true hh e' r) by (intros hh r e e' H; destruct r; try destruct H; reflexivity).
  (* first evaluation, in the environment of the second bindings *)
  assert (HV1 : value h (bound h (bound h nothing p2) p1) x = Ret v).
  { rewrite <- HV. rewrite !value_bound by auto. rewrite value_val in HV.
    assert (E2 : forall n, bound h nothing p2 n = bnd true h nothing p2 n) by (apply bound_val; auto).
    apply val_free. intros n Hn. destruct (key_cases p1 n) as [(i & r & Hi)|Hn1].
    - apply nth_error_In in Hi. rewrite (bnd_in true h _ p1 n r) by auto. rewrite (bnd_in true h _ (p1 ++ p2) n r); [|unfold keys in *; rewrite map_app; auto|apply in_or_app; now left].
      apply PV. now apply HP1 with (n := n).
    - rewrite (bnd_out true h _ p1 n) by auto. rewrite E2. destruct (key_cases p2 n) as [(i & r & Hi)|Hn2].
      + apply nth_error_In in Hi. rewrite (bnd_in true h _ p2 n r) by auto. rewrite (bnd_in true h _ (p1 ++ p2) n r); [reflexivity|unfold keys in *; rewrite map_app; auto|apply in_or_app; now right].
      + rewrite !bnd_out; auto. unfold keys in *. rewrite map_app. intros H. apply in_app_or in H. tauto. }
  destruct (C40_partly_bound V h k o x p1 (bound h nothing p2) v) as (x1 & Hx1 & Hv1 & Hf1 & _); auto.
  set (h' := with_exp h o1 x1). assert (HLE : heap_le h h') by now apply with_exp_le.
  assert (HL : located h (Some o) [] x) by (intros q E; injection E as <-; exists x; split; [exact Ho|reflexivity]).
  pose proof (eval_no_tmp _ _ _ _ _ _ _ Hx1 NT HT1) as NT1.
  assert (FFH : function_free x1 /\ (height x1 <= height x)%nat).
  { rewrite value_bound in HV1 by auto. destruct (eval_complete_ff k h (Some o) [] p1 x (bound h nothing p2) v) as (x1' & Hx1' & [G1 _ _ _] & FF'); auto.
    - intros n r Hn. now apply HP1 with (n := n).
    - rewrite Hx1 in Hx1'. injection Hx1' as <-. auto. }
  destruct FFH as [FF1 Hh1].
  assert (Hv2 : value h' (bound h' nothing p2) x1 = Ret v).
  { rewrite value_val in Hv1 |- *. eapply val_heap; [exact HLE| |exact Hv1]. intros n u. unfold bound.
    destruct (find (fun q => Nat.eqb (fst q) n) p2) as [[n' r]|] eqn:E; [|auto]. rewrite !value_val. intros H. eapply val_heap; [exact HLE| |exact H]. discriminate. }
  destruct (C40_all_bound V h' k o1 x1 p2 v) as (x2 & Hx2 & Hp2 & Hv2'); auto.
  - cbn [h' with_exp h_exp]. now rewrite Nat.eqb_refl.
  - intros n Hn. apply Hf1 in Hn. destruct Hn as [Hn Hnk]. apply HA in Hn. apply in_app_or in Hn. tauto.
  - lia.
  - exists x1, x2. auto.
Qed.

(** A function object made of an expression, [make_function(b, is...)], called with values gives the value of the expression with
    the placeholders standing for the arguments. *)
Theorem C40_function : forall V (h : heap V) k o (b : node V) is args v, h_exp h o = Some (NFun b is) -> no_temporary b -> function_free b ->
  NoDup is -> length args = length is -> Forall (fun a => is_plain a /\ no_temporary a) args -> (forall n, In n (free b) -> In n is) -> (height b <= k)%nat ->
  value h (bound h nothing (combine is args)) b = Ret v ->
  exists x', call_fun k h (Some o) (NFun b is) args = Ret x' /\ is_plain x' /\ value h nothing x' = Ret v.
Proof.
  intros V h k o b is args v Ho NT FF ND Hl HA HF Hk HV. cbn [call_fun]. rewrite Hl, Nat.eqb_refl. set (pairs := combine is args) in *.
  assert (KE : keys pairs = is) by now apply keys_combine.
  assert (HP : forall n r, In (n, r) pairs -> is_plain r /\ no_temporary r) by (intros n r Hn; apply in_combine_r in Hn; rewrite Forall_forall in HA; auto).
  assert (HT : forall n r, In (n, r) pairs -> no_temporary r) by (intros n r Hn; now apply HP with (n := n)).
  assert (HP' : all_plain pairs) by (intros n r Hn; now apply HP with (n := n)).
  assert (HL : located h (Some o) [0%nat] b) by (intros q E; injection E as <-; exists (NFun b is); split; [exact Ho|reflexivity]).
  assert (NDk : NoDup (keys pairs)) by now rewrite KE.
  rewrite value_bound in HV by auto. destruct (eval_complete_ff k h (Some o) [0%nat] pairs b nothing v) as (x' & Hx & [G1 G2 G3 G4] & _); auto.
  exists x'. split; [exact Hx|]. split; [apply G3, all_bound_iff; intros n Hn; rewrite KE; auto|].
  rewrite value_true by (eapply eval_no_tmp; eauto). rewrite <- HV. apply sim_val. eapply eval_sound; [exact Hx|exact HL|]. now apply bf_ff.
Qed.

(** A function of a function: evaluating [make_function(make_function(b, ys...), xs...)] on arguments gives a function of the [ys] whose body
    has, in every environment, the value of [b] with the [xs] standing for the arguments. *)
Theorem C40_curried : forall V (h : heap V) k o (b : node V) xs ys args x', h_exp h o = Some (NFun (NFun b ys) xs) -> no_temporary b -> length args = length xs ->
  bindings_for (combine xs args) (NFun b ys) -> call_fun k h (Some o) (NFun (NFun b ys) xs) args = Ret x' ->
  exists b', x' = NFun b' ys /\ no_temporary b' /\ forall e, value h e b' = value h (bound h e (combine xs args)) b.
Proof.
  intros V h k o b xs ys args x' Ho NT Hl B H. cbn [call_fun] in H. rewrite Hl, Nat.eqb_refl in H.
  assert (HL : located h (Some o) [0%nat] (NFun b ys)) by (intros q E; injection E as <-; eexists; split; [exact Ho|reflexivity]).
  assert (HT : forall k r, In (k, r) (combine xs args) -> no_temporary r) by (intros; now apply B with (k := k0)).
  pose proof (eval_no_tmp _ _ _ _ _ _ _ H NT HT) as NT'. pose proof (eval_sound _ _ _ _ _ _ _ H HL (bindings_bf _ _ B)) as HS. destruct HS as (b' & -> & HS).
  exists b'. split; [reflexivity|]. split; [exact NT'|]. intros e. rewrite value_bound by auto. rewrite value_true by auto. now apply sim_val.
Qed.

(** *** examples: integers, lists of integers as arrays and as domains *)
Inductive ex := EI (z : Z) | EL (l : list Z).
Definition ex_ops : ops ex := {|
  o_bin := fun b x y => match b, x, y with
                        | BPlus, EI a, EI c => Ret (EI (a + c)) | BMinus, EI a, EI c => Ret (EI (a - c)) | BTimes, EI a, EI c => Ret (EI (a * c))
                        | BLess, EI a, EI c => Ret (EI (if a <? c then 1 else 0)) | _, _, _ => Stuck end;
  o_un := fun u x => match u, x with UNegate, EI a => Ret (EI (- a)) | _, _ => Stuck end;
  o_call := fun f args => match f, args with EL l, [EI i] => match nth_error l (Z.to_nat i) with Some z => Ret (EI z) | None => Stuck end | _, _ => Stuck end;
  o_sub := fun _ _ => Stuck;
  o_true := fun x => match x with EI a => Ret (negb (a =? 0)) | _ => Stuck end;
  o_dom := fun x => match x with EL l => Ret (map EI l) | _ => Stuck end;
  o_int := EI |}.
(** x_ + 2 * y_ + a(z_), where a is the named object 0 *)
Definition ex_expr : node ex := NExpr (TBin BPlus) [NExpr (TBin BPlus) [NPh 0; NExpr (TBin BTimes) [NVal (EI 2); NPh 1]]; NExpr TFunction [NRef (RObj 0); NPh 2]].
Definition ex_heap : heap ex := Heap ex_ops (fun a => match a with 0%nat => Some (EL [10; 20; 30]) | _ => None end) (fun o => match o with 0%nat => Some ex_expr | _ => None end).
Example C40_example : h_exp ex_heap 0 = Some ex_expr /\ no_temporary ex_expr /\ function_free ex_expr /\
  value ex_heap (bound ex_heap nothing [(2%nat, NVal (EI 1)); (0%nat, NVal (EI 5)); (1%nat, NVal (EI 7))]) ex_expr = Ret (EI 39) /\
  eval 5 ex_heap (Some 0%nat) [] [(2%nat, NVal (EI 1)); (0%nat, NVal (EI 5)); (1%nat, NVal (EI 7))] ex_expr = Ret (NVal (EI 39)).
Proof. split; [reflexivity|]. split; [repeat split|]. split; [repeat split|]. split; reflexivity. Qed.
(** x_ bound to the lazy expression y_ - 1 *)
Example C40_example_lazy : let r := NExpr (TBin BMinus) [NPh 1; NVal (EI 1)] in bindings_for [(0%nat, r)] ex_expr /\
  exists x', eval 5 ex_heap (Some 0%nat) [] [(0%nat, r)] ex_expr = Ret x' /\
    value ex_heap (bound ex_heap nothing [(1%nat, NVal (EI 7)); (2%nat, NVal (EI 0))]) x' = Ret (EI 30).
Proof.
  intros r. split.
  - split; [repeat constructor; intros []|]. split; [repeat split|]. split; [intros n []|]. intros k q [E|[]]. injection E as <- <-. split; repeat split.
  - eexists. split; reflexivity.
Qed.
Example C40_example_function : call_fun 5 (with_exp ex_heap 1 (NFun ex_expr [1; 0; 2]%nat)) (Some 1%nat) (NFun ex_expr [1; 0; 2]%nat) [NVal (EI 7); NVal (EI 5); NVal (EI 1)] = Ret (NVal (EI 39)).
Proof. reflexivity. Qed.
Example C40_example_curried : exists b', call_fun 6 (with_exp ex_heap 1 (NFun (NFun ex_expr [0; 2]%nat) [1%nat])) (Some 1%nat) (NFun (NFun ex_expr [0; 2]%nat) [1%nat]) [NVal (EI 7)] = Ret (NFun b' [0; 2]%nat) /\
  value (with_exp ex_heap 1 (NFun (NFun ex_expr [0; 2]%nat) [1%nat])) (bound ex_heap nothing [(0%nat, NVal (EI 5)); (2%nat, NVal (EI 1))]) b' = Ret (EI 39).
Proof. eexists. split; reflexivity. Qed.

(** *** what does not hold *)
(** Partial evaluation of a temporary expression gives an expression with references to values stored in the temporary: when
    the temporary is gone, evaluating the rest has no defined result. *)
Theorem C40_temporary_refuted : exists (h : heap ex) o o1 (x x1 : node ex) p1 p2,
  h_exp h o = Some x /\ value h (bound h nothing (p1 ++ p2)) x = Ret (EI 39) /\
  eval 5 h (Some o) [] p1 x = Ret x1 /\
  eval 5 (with_exp h o1 x1) (Some o1) [] p2 x1 = Ret (NVal (EI 39)) /\
  eval 5 (with_exp (without_exp h o) o1 x1) (Some o1) [] p2 x1 = Stuck.
Proof.
  exists ex_heap, 0%nat, 1%nat, ex_expr. eexists. exists [(0%nat, NVal (EI 5)); (2%nat, NVal (EI 1))], [(1%nat, NVal (EI 7))].
  split; [reflexivity|]. split; [reflexivity|]. split; [reflexivity|]. split; reflexivity.
Qed.
(** The same placeholder bound twice: neither of the two values is used, but that of a third binding. *)
Theorem C40_duplicate_refuted : exists (h : heap ex) (x : node ex), h_exp h 0%nat = Some x /\
  eval 5 h (Some 0%nat) [] [(0%nat, NVal (EI 1)); (0%nat, NVal (EI 2)); (1%nat, NVal (EI 3))] x = Ret (NVal (EI 3)) /\ x = NPh 0.
Proof.
  exists (Heap ex_ops (fun _ => None) (fun _ => Some (NPh 0))), (NPh 0). repeat split; reflexivity.
Qed.
(** Evaluating a function object with a binding for its own parameter replaces the parameter in the body: [x_ >> x_] becomes a constant function. *)
Theorem C40_parameter_refuted : exists (h : heap ex) f, h_exp h 0%nat = Some (NFun (NPh 0) [0%nat]) /\
  eval 5 h (Some 0%nat) [] [(0%nat, NVal (EI 5))] (NFun (NPh 0) [0%nat]) = Ret f /\ call_fun 5 h None f [NVal (EI 7)] = Ret (NRef (RTmp (EI 5))) /\
  call_fun 5 h (Some 0%nat) (NFun (NPh 0) [0%nat]) [NVal (EI 7)] = Ret (NVal (EI 7)).
Proof.
  exists (Heap ex_ops (fun _ => None) (fun _ => Some (NFun (NPh 0) [0%nat]))). eexists. repeat split; reflexivity.
Qed.
(** ... and a binding [y_ = x_] in a function of [x_] is captured: [x_ >> x_ + y_] becomes [x_ >> x_ + x_]. *)
Theorem C40_capture_refuted : exists (h : heap ex) (b : node ex), h_exp h 0%nat = Some (NFun b [0%nat]) /\ b = NExpr (TBin BPlus) [NPh 0; NPh 1] /\
  eval 5 h (Some 0%nat) [] [(1%nat, NPh 0)] (NFun b [0%nat]) = Ret (NFun (NExpr (TBin BPlus) [NPh 0; NPh 0]) [0%nat]).
Proof.
  exists (Heap ex_ops (fun _ => None) (fun _ => Some (NFun (NExpr (TBin BPlus) [NPh 0; NPh 1]) [0%nat]))). eexists. repeat split; reflexivity.
Qed.

(** ** C41: lazy assignment *)
(** [A(i_, j_, ...) << rhs] stores in every element the value of the right hand side at its indices and changes nothing else.  [f m idx] is
    that value when the memory is [m]; at [idx] it may depend on the element [idx] of [A] itself, but on no other element of [A]. *)
Theorem C41_fill : forall V (ok : V -> Prop) (H : mem V -> heap V) k (dst : view) is (rhs : node V) (f : mem V -> list Z -> V) m,
  usable (v_lay dst) -> length is = rank (v_lay dst) -> is <> [] -> NoDup is -> function_free rhs -> no_temporary rhs ->
  (forall n, In n (free rhs) -> In n is) -> (height rhs <= k)%nat ->
  (forall m idx, (forall a, ok (m a)) -> in_view dst idx -> value (H m) (index_env (h_ops (H m)) is idx) rhs = Ret (f m idx) /\ ok (f m idx)) ->
  reads_own_element dst f -> (forall a, ok (m a)) ->
  exists m', lazy_assign k H dst is rhs m = Ret m' /\ holds dst m' (f m) /\ unchanged_outside dst m m'.
Proof.
  intros V ok H k dst is rhs f m U Hl Hne ND FF NT HF Hk HV HR Hm. unfold lazy_assign. rewrite all_different_nodup by auto. unfold clef_auto_assign. rewrite for_each_fold.
  eexists. split.
  - apply (fold_out (fun m x => bind (call_fun k (H m) None (NFun rhs is) (map (fun i => NVal (o_int (h_ops (H m)) i)) x)) (fun r =>
       bind (read (H m) r) (fun v => Ret (mset m (elem dst x) v)))) (fun m idx => mset m (cell dst idx) (f m idx)) (fun m => forall a, ok (m a))); [exact Hm|].
    intros m1 idx Hm1 Hi. apply all_idx_In in Hi. assert (Hv : in_view dst idx) by exact Hi. destruct (HV m1 idx Hm1 Hv) as [HV1 HV2]. split.
    + assert (Hll : length idx = length is). { rewrite Hl. unfold rank. clear - Hi. induction Hi; cbn [length]; congruence. }
      destruct (call_complete k (H m1) rhs is idx nothing (f m1 idx)) as (r & Hr & _ & Hrd & _); auto.
      { rewrite <- value_true by auto. exact HV1. }
      rewrite Hr. cbn [bind]. rewrite Hrd. cbn [bind]. rewrite (elem_cell_in dst idx); [reflexivity|apply U|exact Hv].
    + intros a. unfold mset. match goal with |- context [Z.eqb ?x ?y] => destruct (Z.eqb x y) end; auto.
  - apply (write_view dst (all_idx (im_len (v_lay dst))) f m); auto using all_idx_NoDup. intros; apply all_idx_In.
Qed.
(** An assignment is rejected at compile time if the first placeholder is repeated, and never if all are different. *)
Theorem C41_check : forall V (H : mem V -> heap V) k (dst : view) i is (rhs : node V) m,
  (In i is -> lazy_assign k H dst (i :: is) rhs m = Stuck) /\ (NoDup (i :: is) -> all_different (i :: is) = true).
Proof.
  intros V H k dst i is rhs m. split.
  - intros Hi. unfold lazy_assign. now rewrite all_different_first.
  - intros ND. apply all_different_nodup; [discriminate|auto].
Qed.
(** Other repetitions are not noticed: A(i_, j_, j_, k_, l_) << j_ is accepted, and gives an element the value of its last index. *)
Definition ex_dst5 : view := View (idx_map_of_shape [0; 1; 2; 3; 4]%nat [0; 0; 0; 0; 0] LP_contiguous [0; 0; 0; 0; 0] [1; 2; 2; 1; 3]) 0.
Definition ex_ints (m : mem ex) : heap ex := Heap ex_ops (fun _ => None) (fun _ => None).
Theorem C41_repeated_refuted : exists m', lazy_assign 5 ex_ints ex_dst5 [0; 1; 1; 2; 3]%nat (NPh 1) (fun _ => EI 0) = Ret m' /\
  in_view ex_dst5 [0; 1; 0; 0; 2] /\ m' (cell ex_dst5 [0; 1; 0; 0; 2]) = EI 2.
Proof.
  eexists. split; [vm_compute; reflexivity|]. split; [|vm_compute; reflexivity]. repeat constructor; lia.
Qed.
(** If the right hand side reads other elements of the array the result depends on the order of the loop: A(i_, j_) << A(j_, i_) does not transpose. *)
Definition ex_dst2 : view := View (idx_map_of_shape [0; 1]%nat [0; 0] LP_contiguous [0; 0] [2; 2]) 0.
Definition ex_self (m : mem ex) : heap ex :=
  Heap {| o_bin := o_bin ex_ops; o_un := o_un ex_ops; o_sub := o_sub ex_ops; o_true := o_true ex_ops; o_dom := o_dom ex_ops; o_int := EI;
          o_call := fun f args => match args with [EI i; EI j] => Ret (m (elem ex_dst2 [i; j])) | _ => Stuck end |}
       (fun _ => Some (EI 0)) (fun _ => None).
Theorem C41_aliasing_refuted : exists m m', lazy_assign 5 ex_self ex_dst2 [0; 1]%nat (NExpr TFunction [NRef (RObj 0); NPh 1; NPh 0]) m = Ret m' /\
  m (cell ex_dst2 [0; 1]) = EI 1 /\ m (cell ex_dst2 [1; 0]) = EI 2 /\ m' (cell ex_dst2 [0; 1]) = EI 2 /\ m' (cell ex_dst2 [1; 0]) = EI 2.
Proof. exists EI. eexists. split; [vm_compute; reflexivity|]. repeat split. Qed.
(** A(i_, j_) << 10 * i_ + A(i_, j_) *)
Example C41_example : let rhs := NExpr (TBin BPlus) [NExpr (TBin BTimes) [NVal (EI 10); NPh 3]; NExpr TFunction [NRef (RObj 0); NPh 3; NPh 1]] in
  usable (v_lay ex_dst2) /\
  exists f, (forall m idx, (forall a, exists z, m a = EI z) -> in_view ex_dst2 idx ->
      value (ex_self m) (index_env (h_ops (ex_self m)) [3; 1]%nat idx) rhs = Ret (f m idx) /\ exists z, f m idx = EI z) /\ reads_own_element ex_dst2 f /\
  exists m', lazy_assign 5 ex_self ex_dst2 [3; 1]%nat rhs EI = Ret m' /\ map m' [0; 1; 2; 3] = [EI 0; EI 1; EI 12; EI 13].
Proof.
  intros rhs. assert (U : usable (v_lay ex_dst2)) by (apply (new_array_usable [0; 1]%nat 0 [2; 2]); [apply perm_check_ok; reflexivity|repeat constructor; lia|cbn [length]; lia]). split; [exact U|].
  exists (fun m idx => match m (cell ex_dst2 idx) with EI z => EI (10 * nthZ idx 0 + z) | EL _ => EI 0 end). split; [|split].
  - intros m idx Hm Hi. pose proof (elem_cell_in ex_dst2 idx (proj1 U) Hi) as HC. unfold in_view, valid_idx in Hi. change (im_len (v_lay ex_dst2)) with [2; 2] in Hi.
    inversion Hi as [|i ? l1 ? H1 Hi1]; subst. inversion Hi1 as [|j ? l2 ? H2 Hi2]; subst. inversion Hi2; subst.
    destruct (Hm (cell ex_dst2 [i; j])) as (z & Hz). rewrite Hz. split; [|eauto].
    assert (E : value (ex_self m) (index_env (h_ops (ex_self m)) [3; 1]%nat [i; j]) rhs = bind (Ret (m (elem ex_dst2 [i; j]))) (fun v => o_bin ex_ops BPlus (EI (10 * i)) v)) by reflexivity.
    rewrite E, HC, Hz. reflexivity.
  - intros idx m1 m2 Hi H. rewrite (H (cell ex_dst2 idx)) by now left. reflexivity.
  - eexists. split; [vm_compute; reflexivity|reflexivity].
Qed.

(** Nested std::vectors: [v[i_][j_]... << rhs] stores in every element the value of the right hand side at its positions. *)
Theorem C41_vectors : forall V (h : heap V) k is (rhs : node V) (x : vec V) (f : list Z -> V), is <> [] -> NoDup is -> function_free rhs -> no_temporary rhs ->
  (forall n, In n (free rhs) -> In n is) -> (height rhs + length is <= k)%nat -> vec_depth (length is) x ->
  (forall idx, length idx = length is -> value h (index_env (h_ops h) is idx) rhs = Ret (f idx)) ->
  exists x', lazy_assign_vec k h x is rhs = Ret x' /\
    forall idx, vec_at x' idx = match vec_at x idx with Some _ => Some (f (map Z.of_nat idx)) | None => None end.
Proof.
  intros V h k is rhs x f Hne ND FF NT HF Hk HD HV. apply assign_vec_spec; auto. intros idx Hl. rewrite <- value_true by auto. auto.
Qed.
Example C41_vectors_example : let x := VVec [VVec [VElem (EI 0); VElem (EI 0)]; VVec []; VVec [VElem (EI 0)]] in vec_depth 2 x /\
  lazy_assign_vec 6 (ex_ints EI) x [1; 0]%nat (NExpr (TBin BPlus) [NExpr (TBin BTimes) [NPh 1; NVal (EI 10)]; NPh 0]) =
  Ret (VVec [VVec [VElem (EI 0); VElem (EI 1)]; VVec []; VVec [VElem (EI 20)]]).
Proof. split; [repeat split|reflexivity]. Qed.

(** ** C42: lazy sums *)
(** [sum(f, i_ = D1, j_ = D2, ...)] has, in every environment, the value of the nested sum: of [f] over [D1], of that over [D2], ... *)
Theorem C42_sum : forall V (h : heap V) k (f : node V) l x, no_shadowing f -> no_temporary f -> domains_for l f -> sum_many k h f l = Ret x ->
  forall e, value h e x = value h e (nested_sum f l).
Proof.
  intros V h k f l x NS NT (ND & HD) H e.
  destruct (sum_many_sound k h l f x H NS NT ND) as [HV HT]. { intros n d Hin. destruct (HD n d Hin) as (_ & A & B & C). auto. }
  rewrite value_true by auto. rewrite HV. symmetry. apply value_true.
  assert (HDT : forall n d, In (n, d) l -> no_temporary d) by (intros n d Hin; now apply HD in Hin). clear - NT HDT. revert f NT.
  induction l as [|[n d] l IH]; intros f NT; cbn [nested_sum fold_left fst snd]; auto. apply IH.
  - intros m d' Hin. apply (HDT m). now right.
  - cbn [no_temporary fold_right]. split; [auto|]. split; [|exact I]. apply (HDT n). now left.
Qed.
(** A sum of an operator expression that depends on the summation indices only is evaluated at once; the result is the value of the nested sum. *)
Theorem C42_value : forall V (h : heap V) k (f : node V) l v, function_free f -> no_temporary f -> domains_for l f -> l <> [] ->
  (forall n, In n (free f) -> In n (keys l)) -> (height f + 2 * length l <= k)%nat ->
  value h nothing (nested_sum f l) = Ret v ->
  exists x, sum_many k h f l = Ret x /\ is_plain x /\ value h nothing x = Ret v.
Proof.
  intros V h k f l v FF NT HD Hne HF Hk HV. destruct (function_free_binders f FF) as [Eb Es].
  assert (LS : lazy_sums f).
  { assert (H64 : forall n, In n (free f) -> (n < 64)%nat). { intros n Hn. apply HF in Hn. apply in_map_iff in Hn. destruct Hn as [[m d] [<- Hin]]. now apply HD in Hin. }
    assert (HS : value h nothing (nested_sum f l) <> Stuck) by congruence.
    destruct HD as [_ HD]. 
    assert (HV' : val true h nothing (nested_sum f l) = Ret v).
    { rewrite <- HV. symmetry. apply value_true. assert (HDT : forall n d, In (n, d) l -> no_temporary d) by (intros n d Hin; now apply HD in Hin). clear - NT HDT. revert f NT.
      induction l as [|[n d] l IH]; intros f NT; cbn [nested_sum fold_left fst snd]; auto. apply IH.
      - intros m d' Hin. apply (HDT m). now right.
      - cbn [no_temporary fold_right]. split; [auto|]. split; [|exact I]. apply (HDT n). now left. }
    destruct (nested_inner h l f nothing v HV') as (e' & v' & Hf). clear - H64 FF Hf. revert e' v' Hf.
    induction f as [w|r|n|t l IH|b is IH] using node_ind'; intros e' v' Hf; try exact I.
    - apply H64. now left.
    - cbn [function_free] in FF. rewrite fold_and_Forall in FF. assert (Ht : t <> TSum).
      { intros ->. rewrite val_expr in Hf. destruct (sum_shape TSum l) as [[[b n] d]|] eqn:E.
        - apply sum_shape_some in E. destruct E as [_ ->]. inversion FF as [|? ? F _]; subst. destruct F.
        - apply bind_ret in Hf. destruct Hf as (vs & _ & Hf). discriminate. }
      enough (HA : Forall lazy_sums l) by (destruct t; try (cbn [lazy_sums]; now apply fold_and_Forall); now elim Ht).
      rewrite val_expr in Hf. destruct (sum_shape t l) as [[[b n] d]|] eqn:E; [apply sum_shape_some in E; destruct E; contradiction|].
      apply bind_ret in Hf. destruct Hf as (vs & Hvs & _). rewrite Forall_forall in IH, FF |- *. intros c Hc.
      destruct (children_values _ _ _ _ Hvs c Hc) as (u & Hu). eapply IH; eauto. intros m Hm. apply H64. cbn [free]. apply in_flat_map. eauto.
    - destruct FF. }
  assert (HVt : val true h nothing (nested_sum f l) = Ret v).
  { rewrite <- HV. symmetry. apply value_true. destruct HD as [_ HD]. assert (HDT : forall n d, In (n, d) l -> no_temporary d) by (intros n d Hin; now apply HD in Hin). clear - NT HDT. revert f NT.
      induction l as [|[n d] l IH]; intros f NT; cbn [nested_sum fold_left fst snd]; auto. apply IH.
      - intros m d' Hin. apply (HDT m). now right.
      - cbn [no_temporary fold_right]. split; [auto|]. split; [|exact I]. apply (HDT n). now left. }
  destruct (sum_many_complete h l k f nothing v Hk LS Es NT HD HVt) as (x & Hx & LSx & HFx & HPx).
  exists x. split; [exact Hx|]. split.
  - destruct (HPx Hne) as [HP|[q Hq]]; [exact HP|]. apply HFx in Hq. destruct Hq as [Hq1 Hq2]. elim Hq2. auto.
  - rewrite (C42_sum V h k f l x Es NT HD Hx). exact HV.
Qed.
(** A sum left lazy, inside any operator expression, is evaluated when the last placeholder is bound, one binding at a time. *)
Theorem C42_lazy_sum : forall V (h : heap V) k o (x : node V) n r v, h_exp h o = Some x -> lazy_sums x -> no_shadowing x -> no_temporary x ->
  (n < 64)%nat -> is_plain r -> no_temporary r -> ~ In n (binders x) -> (forall m, In m (free x) -> m = n) -> (height x <= k)%nat ->
  value h (bound h nothing [(n, r)]) x = Ret v ->
  exists x', eval k h (Some o) [] [(n, r)] x = Ret x' /\ is_plain x' /\ value h nothing x' = Ret v.
Proof.
  intros V h k o x n r v Ho LS NS NT Hn Hr NTr NB HF Hk HV.
  assert (HL : located h (Some o) [] x) by (intros q E; injection E as <-; exists x; split; [exact Ho|reflexivity]).
  assert (HT : forall k r', In (k, r') [(n, r)] -> no_temporary r') by (intros k' r' [E|[]]; injection E as <- <-; auto).
  pose proof HV as HV'. rewrite value_bound in HV by auto.
  destruct (eval_complete_sums k h (Some o) [] n r x nothing v) as (x' & Hx & [G1 G2 G3 G4] & LS'); auto.
  exists x'. split; [exact Hx|]. split; [apply G3, all_bound_iff; intros m Hm; rewrite (HF m Hm); now left|].
  rewrite <- HV'. eapply C40_substitution; eauto. split; [repeat constructor; intros []|]. split; [auto|]. split.
  - intros m Hm. split; [intros [<-|[]]; auto|]. intros k' r' [E|[]]. injection E as <- <-. destruct (plain_free r Hr) as [-> _]. intros [].
  - intros k' r' [E|[]]. injection E as <- <-. split; [|auto]. destruct r; try destruct Hr; exact I.
Qed.
(** A sum over an empty domain never gives a value: with a summand that depends on the index only it throws at once, and no evaluation of an
    expression in which such a sum occurs gives a value. *)
Theorem C42_empty_domain : forall V (h : heap V) k (f : node V) n d dv, lazy_sums f -> (n < 64)%nat -> is_plain d -> no_temporary d -> (forall m, In m (free f) -> m = n) ->
  value h nothing d = Ret dv -> o_dom (h_ops h) dv = Ret [] ->
  sum1 k h f (n, d) = Raise /\ forall e, value h e (NExpr TSum [NFun f [n]; d]) = Raise.
Proof.
  intros V h k f n d dv LS Hn Hd NTd HF Hdv HD.
  assert (Hd' : forall e, value h e d = Ret dv) by (intros e; rewrite <- Hdv; destruct d; try destruct Hd; reflexivity).
  split.
  - destruct (ph_set_fun f n LS Hn) as (z & Ez & Hz).
    assert (z = 0). { assert (B0 : bits 0 []) by (split; [lia|intros q; rewrite Z.testbit_0_l; split; [discriminate|intros []]]).
      apply (bits_eq _ _ _ _ Hz B0). intros q. split; [|intros []]. intros H. apply in_free_fun in H. destruct H as [H1 H2]. now elim H2; apply HF. }
    subst z. assert (EL : is_any_lazy [NFun f [n]; d] = Some false).
    { unfold is_any_lazy. cbn [map any_of is_lazy]. rewrite Ez. cbn [obind]. destruct d; try destruct Hd; reflexivity. }
    unfold sum1. rewrite EL. unfold operation. rewrite EL. rewrite (plain_read h nothing d Hd), <- value_true, Hdv by auto. cbn [bind]. rewrite HD. reflexivity.
  - intros e. cbn [value]. rewrite Hd'. cbn [bind]. rewrite HD. reflexivity.
Qed.
Theorem C42_empty_no_value : forall V (h : heap V) k o (x : node V) pairs x', h_exp h o = Some x -> no_temporary x -> bindings_for pairs x ->
  value h (bound h nothing pairs) x = Raise -> eval k h (Some o) [] pairs x = Ret x' -> ~ is_plain x'.
Proof.
  intros V h k o x pairs x' Ho NT B HV H HP. pose proof (C40_substitution V h k o x pairs x' Ho NT B H nothing) as E. rewrite HV in E.
  destruct x' as [v|r| | |]; try destruct HP; cbn [value] in E; [discriminate|]. destruct r; cbn [lookup_ref deref] in E; try discriminate.
  - destruct (h_obj h a); discriminate.
  - destruct (h_exp h o0) as [y|]; [|discriminate]. destruct (part y p) as [[]|]; discriminate.
Qed.
(** A sum left lazy is not evaluated if, together with its placeholder, others are bound that the summand does not contain: all placeholders
    are bound, but the result is still an expression (and stays one for ever). *)
Definition ex_sum : node ex := NExpr TSum [NFun (NExpr (TBin BTimes) [NPh 0; NPh 1]) [0%nat]; NVal (EL [1; 2; 3])].
Definition ex_sum_plus : node ex := NExpr (TBin BPlus) [ex_sum; NPh 2].
Theorem C42_extra_binding_refuted : exists (h : heap ex) x',
  h_exp h 0%nat = Some ex_sum_plus /\ value h (bound h nothing [(1%nat, NVal (EI 2)); (2%nat, NVal (EI 5))]) ex_sum_plus = Ret (EI 17) /\
  eval 9 h (Some 0%nat) [] [(1%nat, NVal (EI 2)); (2%nat, NVal (EI 5))] ex_sum_plus = Ret x' /\ ~ is_plain x' /\ free x' = [].
Proof.
  exists (Heap ex_ops (fun _ => None) (fun _ => Some ex_sum_plus)). eexists. split; [reflexivity|]. split; [reflexivity|]. split; [vm_compute; reflexivity|]. split; [intros []|reflexivity].
Qed.
(** The placeholders of the library's own literals (i_, j_, ..., numbered from the largest int downwards) cannot be summation indices: the
    program does not compile. *)
Theorem C42_literal_refuted : forall (h : heap ex) k n d, (64 <= n)%nat -> sum1 k h (NPh n) (n, d) = Stuck.
Proof.
  intros h k n d Hn. unfold sum1, is_any_lazy. cbn [map any_of is_lazy ph_set ph_filter]. unfold ph_bit. destruct (Nat.ltb_spec n 64); [lia|]. reflexivity.
Qed.
Example C42_example : let h := Heap ex_ops (fun _ => None) (fun _ => None) in let f := NExpr (TBin BPlus) [NExpr (TBin BTimes) [NVal (EI 10); NPh 3]; NPh 5] in
  let l := [(3%nat, NVal (EL [1; 2])); (5%nat, NVal (EL [7; 8; 9]))] in
  function_free f /\ domains_for l f /\ value h nothing (nested_sum f l) = Ret (EI 138) /\ sum_many 8 h f l = Ret (NVal (EI 138)).
Proof.
  intros h f l. split; [repeat split|]. split; [|split; reflexivity]. split; [repeat constructor; cbn; intuition discriminate|].
  intros n d [E|[E|[]]]; injection E as <- <-; (split; [lia|]); (split; [exact I|]); (split; [exact I|]); intros [].
Qed.
Example C42_example_lazy : let h := Heap ex_ops (fun _ => None) (fun _ => Some ex_sum) in lazy_sums ex_sum /\ sum1 8 h (NExpr (TBin BTimes) [NPh 0; NPh 1]) (0%nat, NVal (EL [1; 2; 3])) = Ret ex_sum /\
  eval 8 h (Some 0%nat) [] [(1%nat, NVal (EI 2))] ex_sum = Ret (NVal (EI 12)).
Proof.
  intros h. split; [|split; vm_compute; reflexivity]. cbn [ex_sum lazy_sums fold_right]. repeat split; try lia. exists 1%nat. now left.
Qed.

Print Assumptions C40_substitution.
Print Assumptions C40_partly_bound.
Print Assumptions C40_all_bound.
Print Assumptions C40_in_steps.
Print Assumptions C40_function.
Print Assumptions C40_curried.
Print Assumptions C40_temporary_refuted.
Print Assumptions C40_duplicate_refuted.
Print Assumptions C40_parameter_refuted.
Print Assumptions C40_capture_refuted.
Print Assumptions C41_fill.
Print Assumptions C41_check.
Print Assumptions C41_repeated_refuted.
Print Assumptions C41_aliasing_refuted.
Print Assumptions C41_vectors.
Print Assumptions C42_sum.
Print Assumptions C42_value.
Print Assumptions C42_lazy_sum.
Print Assumptions C42_empty_domain.
Print Assumptions C42_empty_no_value.
Print Assumptions C42_extra_binding_refuted.
Print Assumptions C42_literal_refuted.
