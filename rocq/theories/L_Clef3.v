(** Lemmas for lazy sums, lazy assignment to arrays and to vectors. *)
From Verif Require Import Base M_Perm M_IdxMap M_Loops M_Assign M_Clef S_Layout S_Assign S_Clef L_Loops L_Assign L_Clef L_Clef2.

Section L.
Context {V : Type}.
Notation node := (node V). Notation heap := (heap V). Notation env := (@env V).
Implicit Types (x c : node) (h : heap) (e : env) (pairs : list (nat * node)).

(** ** values in larger heaps *)
Definition heap_le h h' : Prop :=
  h_ops h = h_ops h' /\ (forall a, h_obj h a = h_obj h' a) /\ forall q y, h_exp h q = Some y -> h_exp h' q = Some y.
Lemma with_exp_le h o x : h_exp h o = None -> heap_le h (with_exp h o x).
Proof.
  intros H. split; [reflexivity|]. split; [reflexivity|]. intros q y Hq. cbn [with_exp h_exp]. destruct (Nat.eqb_spec q o) as [->|]; congruence.
Qed.
Lemma val_heap tmp h h' x : heap_le h h' -> forall e e' v, (forall n u, e n = Ret u -> e' n = Ret u) -> val tmp h e x = Ret v -> val tmp h' e' x = Ret v.
Proof.
  intros (HO & HB & HX).
  assert (HD : forall r v, deref h r = Ret v -> deref h' r = Ret v).
  { intros [a|o p|w] v; cbn [deref]; auto.
    - now rewrite HB.
    - destruct (h_exp h o) eqn:E; [|discriminate]. now rewrite (HX _ _ E). }
  enough (H : (forall e e' v, (forall n u, e n = Ret u -> e' n = Ret u) -> val tmp h e x = Ret v -> val tmp h' e' x = Ret v) /\
    match x with NFun b _ => (forall e e' v, (forall n u, e n = Ret u -> e' n = Ret u) -> val tmp h e b = Ret v -> val tmp h' e' b = Ret v) | _ => True end) by apply H.
  induction x as [v0|r|n|t l IH|b is IH] using node_ind'; (split; [|auto]); try exact I.
  - auto.
  - intros e e' v _ H. cbn [val] in *. unfold vref in *. destruct tmp; [auto|]. destruct r as [a|o p|w]; [exact (HD (RObj a) v H)|exact (HD (RLeaf o p) v H)|discriminate].
  - intros e e' v H Hv. cbn [val] in *. auto.
  - intros e e' v He. rewrite !val_expr. destruct (sum_shape t l) as [[[b n] d]|] eqn:Es.
    + apply sum_shape_some in Es. destruct Es as [-> ->]. inversion IH as [|? ? [_ IHb] IH']; subst. inversion IH' as [|? ? [IHd _] _]; subst.
      unfold sum_value. intros H. apply bind_ret in H. destruct H as (dv & Hd & H). rewrite (IHd _ _ _ He Hd). cbn [bind]. rewrite <- HO.
      apply bind_ret in H. destruct H as (xs & Hxs & H). rewrite Hxs. cbn [bind]. destruct xs as [|a xs]; [discriminate|].
      apply bind_ret in H. destruct H as (ys & Hys & H). rewrite (sequence_of (map (fun v => val tmp h' (update e' n (Ret v)) b) (a :: xs)) ys); [exact H|].
      apply sequence_ret in Hys. rewrite Forall2_map_l in Hys |- *. eapply Forall2_impl_in; [|exact Hys]. intros u y _ _ Hu. cbn beta in *.
      eapply IHb; [|exact Hu]. intros m w. unfold update. destruct (Nat.eqb m n); auto.
    + intros H. apply bind_ret in H. destruct H as (vs & Hvs & H). rewrite (sequence_of (map (val tmp h' e') l) vs); [now rewrite <- HO|].
      apply sequence_ret in Hvs. rewrite Forall2_map_l in Hvs |- *. eapply Forall2_impl_in; [|exact Hvs]. intros u y Hu _ Hy. cbn beta in *.
      rewrite Forall_forall in IH. eapply IH; eauto.
  - intros e e' v _ H. discriminate H.
  - apply IH.
Qed.

(** ** from the specification's vocabulary *)
Lemma bindings_bf pairs x : bindings_for pairs x -> bf pairs x.
Proof. intros (A & B & C & D). split; [auto|]. split; [auto|]. split; [auto|]. intros; now apply (D k r). Qed.
Lemma bound_val h e pairs : (forall k r, In (k, r) pairs -> no_temporary r) -> forall n, bound h e pairs n = bnd true h e pairs n.
Proof.
  intros H n. unfold bound, bnd. destruct (find (fun q => Nat.eqb (fst q) n) pairs) as [[k r]|] eqn:E; [|reflexivity].
  apply find_some in E. destruct E as [E _]. now rewrite value_val, val_temporary by eauto.
Qed.
Lemma value_bound h e pairs x : (forall k r, In (k, r) pairs -> no_temporary r) -> no_temporary x ->
  value h (bound h e pairs) x = val true h (bnd true h e pairs) x.
Proof. intros H N. rewrite value_val, <- (val_temporary h x N). apply val_free. intros n _. now apply bound_val. Qed.
Lemma value_true h e x : no_temporary x -> value h e x = val true h e x.
Proof. intros N. now rewrite value_val, val_temporary. Qed.

(** ** sums *)
Lemma sum1_sound k h f n d x : sum1 k h f (n, d) = Ret x -> no_shadowing f -> ~ In n (binders f) -> no_temporary f -> no_temporary d ->
  (forall e, val true h e x = val true h e (NExpr TSum [NFun f [n]; d])) /\ no_temporary x.
Proof.
  intros H NS NB NT ND. unfold sum1 in H. destruct (is_any_lazy [NFun f [n]; d]) as [[|]|]; try discriminate.
  - injection H as <-. split; [reflexivity|]. cbn [no_temporary fold_right]. auto.
  - split; [|eapply operation_no_tmp; [exact H|]; repeat constructor; auto].
    apply (operation_val _ _ _ _ _ H). intros b m d' Es v r Hr e. apply sum_shape_some in Es. destruct Es as [_ E]. injection E as <- <- <-.
    assert (HL : located h None [] f) by (intros o Ho; discriminate).
    assert (HB : bf [(n, NVal v)] f).
    { split; [repeat constructor; intros []|]. split; [auto|]. split.
      - intros q Hq. split; [intros [<-|[]]; auto|]. intros k' r' [E|[]]. injection E as <- <-. intros [].
      - intros k' r' [E|[]]. injection E as <- <-. exact I. }
    rewrite (sim_val _ _ _ _ (eval_sound _ _ _ _ _ _ _ Hr HL HB)). apply val_free. intros q _. apply bnd_single.
Qed.
Lemma sum1_complete k h f n d e v : (height f <= k)%nat -> lazy_sums f -> (n < 64)%nat -> is_plain d -> no_shadowing f -> ~ In n (binders f) ->
  val true h e (NExpr TSum [NFun f [n]; d]) = Ret v ->
  exists x, sum1 k h f (n, d) = Ret x /\ lazy_sums x /\ no_shadowing x /\ incl (binders x) (n :: binders f) /\ (height x <= S (S (height f)))%nat /\
    (forall q, In q (free x) <-> In q (free f) /\ q <> n) /\ (is_plain x \/ exists q, In q (free x)).
Proof.
  intros Hh LS Hn Hd NS NB HV. destruct (ph_set_fun f n LS Hn) as (z & Ez & Hz).
  assert (EL : is_any_lazy [NFun f [n]; d] = Some (negb (z =? 0))).
  { unfold is_any_lazy. cbn [map any_of is_lazy]. rewrite Ez. cbn [obind]. destruct d; try destruct Hd; cbn -[Z.eqb]; now rewrite orb_false_r. }
  unfold sum1. rewrite EL. destruct (Z.eqb_spec z 0) as [->|Hne]; cbn [negb].
  - assert (HF0 : forall q, In q (free f) -> q = n).
    { intros q Hq. destruct (Nat.eq_dec q n); auto. destruct Hz as [_ Hz]. assert (Ht : Z.testbit 0 (Z.of_nat q) = true) by (apply Hz, in_free_fun; auto). rewrite Z.testbit_0_l in Ht. discriminate. }
    rewrite val_expr in HV. cbn [sum_shape] in HV. unfold sum_value in HV. apply bind_ret in HV. destruct HV as (dv & Hdv & HV). apply bind_ret in HV. destruct HV as (xs & Hxs & HV).
    destruct xs as [|x0 xs]; [discriminate|]. apply bind_ret in HV. destruct HV as (ys & Hys & HT). apply sequence_ret in Hys. rewrite Forall2_map_l in Hys.
    assert (Hcall : Forall2 (fun a y => bind (eval k h None [] [(n, NVal a)] f) (read h) = Ret y) (x0 :: xs) ys).
    { eapply Forall2_impl_in; [|exact Hys]. intros a y _ _ Hy. cbn beta in Hy.
      assert (Hy' : val true h (bnd true h e [(n, NVal a)]) f = Ret y). { rewrite <- Hy. apply val_free. intros q _. apply bnd_single. }
      assert (HLn : located h None [] f) by (intros o Ho; discriminate).
      destruct (eval_complete_sums k h None [] n (NVal a) f e y) as (b3 & Eb3 & Gb3 & Lb3); auto; [exact I|].
      rewrite Eb3. cbn [bind]. assert (Pb3 : is_plain b3). { apply Gb3. apply all_bound_iff. intros q Hq. rewrite (HF0 q Hq). now left. }
      rewrite (plain_read h e) by auto. rewrite <- Hy'. apply sim_val. eapply eval_sound; [exact Eb3|exact HLn|].
      split; [repeat constructor; intros []|]. split; [auto|]. split.
      + intros q Hq. split; [intros [<-|[]]; auto|]. intros k' r' [E|[]]. injection E as <- <-. intros [].
      + intros k' r' [E|[]]. injection E as <- <-. exact I. }
    unfold operation. rewrite EL. cbn [Z.eqb negb]. rewrite (plain_read h e d Hd), Hdv. cbn [bind]. rewrite Hxs. cbn [bind]. rewrite (total_domain _ _ _ _ _ Hcall HT). cbn [bind].
    eexists. split; [reflexivity|]. split; [exact I|]. split; [exact I|]. split; [intros q []|]. split; [cbn [height]; lia|].
    split; [|left; exact I]. intros q. cbn [free]. split; [intros []|]. intros [Hq Hne]. elim Hne. auto.
  - eexists. split; [reflexivity|]. assert (HX : exists m, In m (free (NFun f [n]))).
    { destruct (free (NFun f [n])) as [|m l] eqn:E; [|exists m; now left]. elim Hne. apply (bits_eq z 0 [] []); [exact Hz| |tauto].
      split; [lia|]. intros m. rewrite Z.testbit_0_l. split; [discriminate|intros []]. }
    split; [cbn [lazy_sums]; auto|]. split.
    { cbn [no_shadowing fold_right]. split; [split; [intros m [<-|[]]; auto|auto]|]. split; [destruct d; try destruct Hd; exact I|exact I]. }
    split. { cbn [binders flat_map app]. rewrite app_nil_r. destruct d; try destruct Hd; cbn [binders]; rewrite app_nil_r; apply incl_refl. }
    split. { cbn [height map fold_right]. destruct (plain_free d Hd) as [_ ->]. pose proof (height_pos f). lia. }
    split.
    + intros q. rewrite <- in_free_fun. change (free (NExpr TSum [NFun f [n]; d])) with (free (NFun f [n]) ++ free d ++ []).
      destruct (plain_free d Hd) as [-> _]. cbn [app]. now rewrite app_nil_r.
    + right. destruct HX as [m Hm]. exists m. cbn [free flat_map]. apply in_or_app. now left.
Qed.

(** a binding list none of whose domains uses a placeholder leaves values alone *)
Lemma nested_sum_ext h l : forall x y, (forall e, val true h e x = val true h e y) -> forall e, val true h e (nested_sum x l) = val true h e (nested_sum y l).
Proof.
  induction l as [|[n d] l IH]; intros x y H e; cbn [nested_sum fold_left fst snd] in *; auto. apply IH. intros e'. rewrite !val_expr. cbn [sum_shape]. now apply sum_value_ext.
Qed.
Lemma sum_many_sound k h l : forall f x, sum_many k h f l = Ret x -> no_shadowing f -> no_temporary f -> NoDup (keys l) ->
  (forall n d, In (n, d) l -> is_plain d /\ no_temporary d /\ ~ In n (binders f)) ->
  (forall e, val true h e x = val true h e (nested_sum f l)) /\ no_temporary x.
Proof.
  induction l as [|[n d] l IH]; intros f x H NS NT ND HD; cbn [sum_many] in H.
  - injection H as <-. split; auto.
  - apply bind_ret in H. destruct H as (f' & Hf & H). destruct (HD n d (or_introl eq_refl)) as (Hd & Hdt & Hb). unfold keys in ND; cbn [map fst] in ND. inversion ND as [|? ? Hn ND']; subst.
    destruct (sum1_sound _ _ _ _ _ _ Hf NS Hb NT Hdt) as [Hv Ht].
    assert (HS : no_shadowing f' /\ incl (binders f') (n :: binders f)).
    { unfold sum1 in Hf. assert (HX : no_shadowing (NExpr TSum [NFun f [n]; d]) /\ incl (binders (NExpr TSum [NFun f [n]; d])) (n :: binders f)).
      { split.
        - cbn [no_shadowing fold_right]. split; [split; [intros m [<-|[]]; auto|auto]|]. split; [destruct d; try destruct Hd; exact I|exact I].
        - cbn [binders flat_map app]. rewrite app_nil_r. destruct d; try destruct Hd; cbn [binders]; rewrite app_nil_r; apply incl_refl. }
      destruct HX as [HX1 HX2]. destruct (is_any_lazy [NFun f [n]; d]) as [[|]|]; try discriminate.
      - injection Hf as <-. auto.
      - apply operation_shape in Hf. destruct Hf as (I1 & N1 & _). split; [|eapply incl_tran; eauto]. apply N1. cbn [no_shadowing] in HX1. now apply fold_and_Forall in HX1. }
    destruct HS as [NS' I'].
    destruct (IH f' x H NS' Ht ND') as [IH1 IH2].
    { intros m d' Hin. destruct (HD m d' (or_intror Hin)) as (A & B & C). split; [auto|]. split; [auto|]. intros Hm. apply I' in Hm. destruct Hm as [<-|Hm]; [|auto].
      apply Hn. apply in_map_iff. exists (n, d'). auto. }
    split; [|exact IH2]. intros e. rewrite IH1. cbn [nested_sum fold_left fst snd]. apply nested_sum_ext. exact Hv.
Qed.

(** if a nested sum has a value, so has the innermost one, in some environment *)
Lemma nested_inner h l : forall x e v, val true h e (nested_sum x l) = Ret v -> exists e' v', val true h e' x = Ret v'.
Proof.
  induction l as [|[n d] l IH]; intros x e v H; cbn [nested_sum fold_left fst snd] in H; [eauto|].
  destruct (IH _ _ _ H) as (e1 & v1 & H1). rewrite val_expr in H1. cbn [sum_shape] in H1. unfold sum_value in H1.
  apply bind_ret in H1. destruct H1 as (dv & _ & H1). apply bind_ret in H1. destruct H1 as (xs & _ & H1). destruct xs as [|x0 xs]; [discriminate|].
  apply bind_ret in H1. destruct H1 as (ys & Hys & _). apply sequence_ret in Hys. inversion Hys as [|? y0 ? ? Hy0 _]; subst. eauto.
Qed.
Lemma sum_many_complete h l : forall k f e v, (height f + 2 * length l <= k)%nat -> lazy_sums f -> no_shadowing f -> no_temporary f -> domains_for l f ->
  val true h e (nested_sum f l) = Ret v ->
  exists x, sum_many k h f l = Ret x /\ lazy_sums x /\ (forall q, In q (free x) <-> In q (free f) /\ ~ In q (keys l)) /\
    (l <> [] -> is_plain x \/ exists q, In q (free x)).
Proof.
  induction l as [|[n d] l IH]; intros k f e v Hk LS NS NT (ND & HD) HV; cbn [sum_many].
  - exists f. split; [reflexivity|]. split; [exact LS|]. split; [intros q; cbn [keys map In]; tauto|]. intros H; now elim H.
  - destruct (HD n d (or_introl eq_refl)) as (Hn & Hd & Hdt & Hb). cbn [length] in Hk. unfold keys in ND; cbn [map fst] in ND. inversion ND as [|? ? Hnk ND']; subst.
    cbn [nested_sum fold_left fst snd] in HV. destruct (nested_inner h l _ e v HV) as (e1 & v1 & H1).
    destruct (sum1_complete k h f n d e1 v1) as (f' & Hf & LS' & NS' & I' & Hh' & HF' & HP'); auto; [lia|].
    destruct (sum1_sound _ _ _ _ _ _ Hf NS Hb NT Hdt) as [Hv Ht]. rewrite Hf. cbn [bind].
    destruct (IH k f' e v) as (x & Hx & LSx & HFx & HPx); auto.
    + lia.
    + split; [exact ND'|]. intros m d' Hin. destruct (HD m d' (or_intror Hin)) as (A & B & C & D). split; [auto|]. split; [auto|]. split; [auto|].
      intros Hm. apply I' in Hm. destruct Hm as [<-|Hm]; [|auto]. apply Hnk. apply in_map_iff. exists (n, d'). auto.
    + rewrite <- HV. apply (nested_sum_ext h l). exact Hv.
    + exists x. split; [exact Hx|]. split; [exact LSx|]. split.
      * intros q. rewrite HFx, HF'. unfold keys. cbn [map fst In]. split; [intros [[A B] C]; split; [auto|intros [D|D]; auto]|intros [A B]; split; [split; [tauto|intros ->; tauto]|tauto]].
      * intros _. destruct l as [|q l]; [|apply HPx; discriminate]. cbn [sum_many] in Hx. injection Hx as <-. exact HP'.
Qed.
(** ** lazy assignment *)
Lemma all_different_nodup is : is <> [] -> NoDup is -> all_different is = true.
Proof.
  destruct is as [|i0 is]; intros H ND; [now elim H|]. inversion ND as [|? ? Hi _]; subst. unfold all_different.
  enough (E : fold_right (fun i acc => (Z.of_nat i - Z.of_nat i0) * acc) 1 is <> 0) by (destruct (Z.eqb_spec (fold_right (fun i acc => (Z.of_nat i - Z.of_nat i0) * acc) 1 is) 0); [contradiction|reflexivity]).
  clear H ND. induction is as [|i is IH]; cbn [fold_right]; [lia|]. apply Z.neq_mul_0. split.
  - intros E. apply Hi. left. lia.
  - apply IH. intros H. apply Hi. now right.
Qed.
Lemma all_different_first i0 is : In i0 is -> all_different (i0 :: is) = false.
Proof.
  intros H. unfold all_different. enough (E : fold_right (fun i acc => (Z.of_nat i - Z.of_nat i0) * acc) 1 is = 0) by (rewrite E; reflexivity).
  induction is as [|i is IH]; [destruct H|]. cbn [fold_right]. destruct H as [->|H]; [lia|]. rewrite IH by auto. lia.
Qed.
Lemma keys_combine {B} (is : list nat) (l : list B) : length l = length is -> map fst (combine is l) = is.
Proof. revert l; induction is as [|i is IH]; intros [|b l] H; try discriminate; [reflexivity|]. cbn [combine map fst]. f_equal. apply IH. now injection H. Qed.
Lemma find_combine_map (f : Z -> node) is idx n :
  find (fun q : nat * node => Nat.eqb (fst q) n) (combine is (map f idx)) = option_map (fun q => (fst q, f (snd q))) (find (fun q : nat * Z => Nat.eqb (fst q) n) (combine is idx)).
Proof.
  revert idx; induction is as [|i is IH]; intros [|z idx]; [reflexivity|reflexivity|reflexivity|]. cbn [map combine find fst]. destruct (Nat.eqb i n); [reflexivity|apply IH].
Qed.
Lemma index_bnd h e (o : ops V) is idx n : In n is -> length idx = length is ->
  bnd true h e (combine is (map (fun i => NVal (o_int o i)) idx)) n = index_env o is idx n.
Proof.
  intros Hn Hl. unfold bnd, index_env. rewrite (find_combine_map (fun i => NVal (o_int o i))).
  destruct (find (fun q => Nat.eqb (fst q) n) (combine is idx)) as [[k z]|] eqn:E; [reflexivity|].
  exfalso. rewrite <- (keys_combine is idx Hl) in Hn. apply in_map_iff in Hn. destruct Hn as [[k z] [<- Hin]].
  pose proof (List.find_none _ _ E _ Hin) as Hf. cbn [fst] in Hf. rewrite Nat.eqb_refl in Hf. discriminate.
Qed.
Lemma call_complete k h b is idx e v : (height b <= k)%nat -> function_free b -> NoDup is -> length idx = length is -> (forall n, In n (free b) -> In n is) ->
  val true h (index_env (h_ops h) is idx) b = Ret v ->
  exists r, call_fun k h None (NFun b is) (map (fun i => NVal (o_int (h_ops h) i)) idx) = Ret r /\ is_plain r /\ read h r = Ret v /\ val true h e r = Ret v.
Proof.
  intros Hk FF ND Hl HF HV. cbn [call_fun]. rewrite map_length, Hl, Nat.eqb_refl.
  set (pairs := combine is (map (fun i => NVal (o_int (h_ops h) i)) idx)).
  assert (KE : keys pairs = is) by (apply keys_combine; now rewrite map_length).
  assert (HP : all_plain pairs). { intros n r Hin. apply in_combine_r in Hin. apply in_map_iff in Hin. destruct Hin as (z & <- & _). exact I. }
  assert (HLn : located h None [] b) by (intros o Ho; discriminate).
  assert (NDk : NoDup (keys pairs)) by now rewrite KE.
  assert (HV' : val true h (bnd true h e pairs) b = Ret v). { rewrite <- HV. apply val_free. intros n Hn. apply index_bnd; auto. }
  destruct (eval_complete_ff k h None [] pairs b e v) as (r & Hr & HG & _); auto. exists r. split; [exact Hr|].
  assert (HPr : is_plain r). { apply HG. apply all_bound_iff. intros n Hn. rewrite KE. auto. }
  split; [exact HPr|].
  assert (Hrv : val true h e r = Ret v). { rewrite <- HV'. apply sim_val. eapply eval_sound; [exact Hr|exact HLn|]. now apply bf_ff. }
  split; [|exact Hrv]. now rewrite (plain_read h e).
Qed.

Lemma fold_out {S A : Type} (step : S -> A -> out S) (step' : S -> A -> S) (P : S -> Prop) L : forall s, P s ->
  (forall s a, P s -> In a L -> step s a = Ret (step' s a) /\ P (step' s a)) ->
  fold_left (fun st a => bind st (fun s => step s a)) L (Ret s) = Ret (fold_left step' L s).
Proof.
  induction L as [|a L IH]; intros s Hs H; [reflexivity|]. cbn [fold_left]. change (bind (Ret s) (fun s0 => step s0 a)) with (step s a).
  destruct (H s a Hs (or_introl eq_refl)) as [E HP]. rewrite E. apply IH; auto. intros s' a' Hs' Ha'. apply H; auto. now right.
Qed.

(** ** vectors *)
Lemma chain_cons i is (b : node) : chain (i :: is) b = NFun (chain is b) [i]. Proof. reflexivity. Qed.
Lemma eval_chain h i v : forall is k p (b : node) e u, (height b + length is <= k)%nat -> function_free b -> ~ In i is ->
  val true h (bnd true h e [(i, NVal v)]) b = Ret u ->
  exists b', eval k h None p [(i, NVal v)] (chain is b) = Ret (chain is b') /\ function_free b' /\ good [(i, NVal v)] b b' /\
    (forall e', val true h e' b' = val true h (update e' i (Ret v)) b).
Proof.
  assert (HVV : forall e' w, val true h (bnd true h e' [(i, NVal v)]) w = val true h (update e' i (Ret v)) w).
  { intros e' w. apply val_free. intros q _. apply bnd_single. }
  assert (HP : all_plain [(i, NVal v)]) by (intros n r [E|[]]; injection E as <- <-; exact I).
  assert (ND : NoDup (keys [(i, NVal v)])) by (repeat constructor; intros []).
  induction is as [|j is IH]; intros k p b e u Hk FF Hi HV.
  - cbn [chain fold_right length] in *. rewrite Nat.add_0_r in Hk. assert (HLn : located h None p b) by (intros o Ho; discriminate).
    destruct (eval_complete_ff k h None p [(i, NVal v)] b e u) as (b' & Hb & HG & HF); auto. exists b'. split; [exact Hb|]. split; [auto|]. split; [auto|].
    intros e'. rewrite <- HVV. apply sim_val. eapply eval_sound; [exact Hb|exact HLn|]. now apply bf_ff.
  - rewrite !chain_cons. destruct k as [|k]; [cbn [length] in Hk; lia|]. cbn [length] in Hk. cbn [eval].
    destruct (IH k (p ++ [0%nat]) b e u) as (b' & Hb & HF & HG & HV'); auto; [lia|intros H; apply Hi; now right|]. rewrite Hb. cbn [bind].
    destruct is as [|j' is].
    + cbn [chain fold_right]. destruct b' as [v'|r|n|t l|b' is']; try (eexists; split; [reflexivity|]; split; [exact HF|]; split; [exact HG|exact HV']; fail).
      assert (Hd : deref h r = Ret u). { specialize (HV' e). cbn [val vref] in HV'. rewrite HV', <- HVV. exact HV. }
      rewrite Hd. cbn [bind]. exists (NVal u). split; [reflexivity|]. split; [exact I|]. split.
      * destruct HG as [G1 G2 G3 G4]. split; auto.
      * intros e'. rewrite <- HV'. cbn [val vref]. now rewrite Hd.
    + exists b'. rewrite chain_cons. split; [reflexivity|]. auto.
Qed.

Lemma index_env_cons (o : ops V) i is z idx n : index_env o (i :: is) (z :: idx) n = update (index_env o is idx) i (Ret (o_int o z)) n.
Proof. unfold index_env, update. cbn [combine find fst]. rewrite Nat.eqb_sym. destruct (Nat.eqb n i); reflexivity. Qed.

Lemma assign_vec_spec h : forall is k (b : node) (x : vec V) (f : list Z -> V), is <> [] -> NoDup is -> (height b + length is <= k)%nat -> function_free b ->
  (forall n, In n (free b) -> In n is) -> vec_depth (length is) x ->
  (forall idx, length idx = length is -> val true h (index_env (h_ops h) is idx) b = Ret (f idx)) ->
  exists x' : vec V, assign_vec k h x (chain is b) = Ret x' /\
    forall idx, vec_at x' idx = match vec_at x idx with Some _ => Some (f (map Z.of_nat idx)) | None => None end.
Proof.
  induction is as [|i is IH]; intros k b x f Hne ND Hk FF HF HD HV; [now elim Hne|]. clear Hne. inversion ND as [|? ? Hi ND']; subst.
  cbn [length vec_depth] in HD. destruct x as [v|l]; [destruct HD|]. rewrite fold_and_Forall in HD. rewrite chain_cons.
  set (go := fix go (j : nat) (l : list (vec V)) : list (out (vec V)) :=
    match l with
    | [] => []
    | y :: l => bind (call_fun k h None (NFun (chain is b) [i]) [NVal (o_int (h_ops h) (Z.of_nat j))]) (fun r =>
                match r with
                | NFun _ _ => assign_vec k h y r
                | _ => match y with VElem _ => bind (read h r) (fun v => Ret (VElem v)) | VVec _ => Stuck end
                end) :: go (S j) l
    end).
  assert (HG : forall l j, Forall (vec_depth (length is)) l -> exists l', sequence (go j l) = Ret l' /\ length l' = length l /\
     forall q y y', nth_error l q = Some y -> nth_error l' q = Some y' ->
       forall idx, vec_at y' idx = match vec_at y idx with Some _ => Some (f (Z.of_nat (j + q) :: map Z.of_nat idx)) | None => None end).
  { clear HD l. induction l as [|y l IHl]; intros j HD; [exists []; split; [reflexivity|]; split; [reflexivity|]; intros [|q] y y' H; discriminate|].
    inversion HD as [|? ? Hy HD']; subst. destruct (IHl (S j) HD') as (l' & El & Ll & Hl).
    assert (HY : exists y', bind (call_fun k h None (NFun (chain is b) [i]) [NVal (o_int (h_ops h) (Z.of_nat j))]) (fun r =>
                match r with
                | NFun _ _ => assign_vec k h y r
                | _ => match y with VElem _ => bind (read h r) (fun v => Ret (VElem v)) | VVec _ => Stuck end
                end) = Ret y' /\ forall idx, vec_at y' idx = match vec_at y idx with Some _ => Some (f (Z.of_nat j :: map Z.of_nat idx)) | None => None end).
    { cbn [call_fun length Nat.eqb combine].
      destruct (eval_chain h i (o_int (h_ops h) (Z.of_nat j)) is k [] b (index_env (h_ops h) is (repeat 0 (length is))) (f (Z.of_nat j :: repeat 0 (length is)))) as (b' & Eb & FFb & Gb & Vb); auto.
      { cbn [length] in Hk. lia. }
      { rewrite <- (HV (Z.of_nat j :: repeat 0 (length is))); [|cbn [length]; now rewrite repeat_length]. apply val_free. intros n _. rewrite bnd_single. symmetry. apply index_env_cons. }
      rewrite Eb. cbn [bind].
      assert (HFb : forall n, In n (free b') -> In n is).
      { intros n Hn. destruct Gb as [_ G _ _]. apply G in Hn. destruct Hn as [Hn Hk']. destruct (HF n Hn) as [E|H]; auto. elim Hk'. left. auto. }
      assert (HVb : forall idx, length idx = length is -> val true h (index_env (h_ops h) is idx) b' = Ret (f (Z.of_nat j :: idx))).
      { intros idx Hl'. rewrite Vb, <- (HV (Z.of_nat j :: idx)) by (cbn [length]; now rewrite Hl'). apply val_free. intros n _. symmetry. apply index_env_cons. }
      destruct is as [|i2 is].
      - cbn [chain fold_right]. cbn [length vec_depth] in Hy. destruct y as [v|?]; [|destruct Hy].
        assert (Pb : is_plain b'). { apply Gb. apply all_bound_iff. intros n Hn. destruct (HF n Hn) as [E|[]]. left. auto. }
        assert (Rb : read h b' = Ret (f [Z.of_nat j])) by (rewrite (plain_read h (index_env (h_ops h) [] [])) by auto; now apply HVb).
        exists (VElem (f [Z.of_nat j])). split.
        + destruct b'; try destruct Pb; rewrite Rb; reflexivity.
        + intros [|q idx]; reflexivity.
      - rewrite chain_cons. rewrite <- chain_cons. destruct (IH k b' y (fun idx => f (Z.of_nat j :: idx))) as (y' & Ey & Hy'); auto; [discriminate| |].
        + cbn [length] in *. destruct Gb as [G _ _ _]. lia.
        + exists y'. split; [exact Ey|]. exact Hy'. }
    destruct HY as (y' & Ey & Hy'). exists (y' :: l'). cbn [go]. fold go. cbn [sequence]. rewrite Ey. cbn [bind]. rewrite El. split; [reflexivity|]. split; [cbn [length]; now rewrite Ll|].
    intros [|q] z z' Hz Hz' idx; cbn [nth_error] in Hz, Hz'.
    - injection Hz as <-. injection Hz' as <-. rewrite Nat.add_0_r. apply Hy'.
    - replace (j + S q)%nat with (S j + q)%nat by lia. eapply Hl; eauto. }
  destruct (HG l 0%nat HD) as (l' & El & Ll & Hl). exists (VVec l'). split.
  - cbn [assign_vec]. fold go. rewrite El. reflexivity.
  - intros [|q idx]; [reflexivity|]. cbn [vec_at map]. destruct (nth_error l q) as [y|] eqn:E1.
    + destruct (nth_error l' q) as [y'|] eqn:E2.
      * apply (Hl q y y' E1 E2 idx).
      * apply nth_error_None in E2. assert (q < length l)%nat by (apply nth_error_Some; congruence). lia.
    + destruct (nth_error l' q) as [y'|] eqn:E2; [|reflexivity]. apply nth_error_None in E1. assert (q < length l')%nat by (apply nth_error_Some; congruence). lia.
Qed.
End L.
