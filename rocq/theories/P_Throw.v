(** C71: exceptions thrown by the constructors of elements. *)
From Verif Require Import Base M_Perm M_IdxMap S_Layout M_Loops M_Handle S_Handle M_Array S_Array L_Handle L_Own L_Run L_Array M_Throw S_Throw L_Throw.

(** Programs in which constructions of elements throw, and which catch what they can: while the specification goes on, so does the program.  Every array whose last
    resize did not fail has the shape and the elements it should have; every live block belongs to one variable, except one block for every resize that failed. *)
Theorem C71_exceptions : forall (A : Type) (t : traits) (dflt zero : A) so pr junk n (p : list (aop (A := A) * option nat)) s broken,
  traits_ok t -> is_order (length so) so -> (0 < length so < 16)%nat -> length junk = length so ->
  x_history t dflt zero so (repeat None n) [] p = Goes s broken ->
  exists w leaked, a_run_x t dflt zero so pr junk (a_start so pr junk n) p = Done w
    /\ (forall v, (v < length s)%nat -> match aval_of s v with
                                        | Some a => (~ In v broken -> looks_like so (layout_default so pr junk) w v a) /\ exists h, getv (w_h (aw_w w)) v = Some h
                                        | None => getv (w_h (aw_w w)) v = None
                                        end)
    /\ memory_but leaked w /\ NoDup leaked /\ length leaked = failed_resizes t dflt zero so (repeat None n) [] p.
Proof.
  intros A t dflt zero so pr junk n p s broken Ht Hso Hr Hj Hp.
  destruct (x_run_sim t dflt zero so pr junk Ht Hso Hr Hj p [] [] _ _ s broken (x_start t so pr junk n) (NoDup_nil _) Hp) as (w & L & E & X & ND & Len).
  exists w, L. split; [exact E|]. split; [exact (x_looks t so pr junk Hso Hr Hj L broken w s X)|]. split; [exact (x_memory t so pr junk Hr Hj L broken w s X)|]. split; [exact ND|]. cbn [length] in Len. lia.
Qed.

(** If no resize fails nothing is lost, whatever else throws. *)
Theorem C71_no_leak : forall (A : Type) (t : traits) (dflt zero : A) so pr junk n (p : list (aop (A := A) * option nat)) s broken,
  traits_ok t -> is_order (length so) so -> (0 < length so < 16)%nat -> length junk = length so ->
  x_history t dflt zero so (repeat None n) [] p = Goes s broken -> failed_resizes t dflt zero so (repeat None n) [] p = 0%nat ->
  exists w, a_run_x t dflt zero so pr junk (a_start so pr junk n) p = Done w /\ memory_exact w.
Proof.
  intros A t dflt zero so pr junk n p s broken Ht Hso Hr Hj Hp H0. destruct (C71_exceptions A t dflt zero so pr junk n p s broken Ht Hso Hr Hj Hp) as (w & L & E & _ & (M1 & _ & M2) & _ & Len).
  rewrite H0 in Len. destruct L; [|discriminate]. exists w. split; [exact E|]. split; [|exact M2]. intros b. rewrite M1. cbn [In]. tauto.
Qed.

(** An exception in a constructor of an array, or in the assignment of an expression, ends the program. *)
Theorem C71_terminates : forall (A : Type) (t : traits) (dflt zero : A) so pr junk n (p : list (aop (A := A) * option nat)),
  traits_ok t -> is_order (length so) so -> (0 < length so < 16)%nat -> length junk = length so ->
  x_history t dflt zero so (repeat None n) [] p = Ends -> a_run_x t dflt zero so pr junk (a_start so pr junk n) p = Terminated.
Proof.
  intros A t dflt zero so pr junk n p Ht Hso Hr Hj Hp. exact (x_run_ends t dflt zero so pr junk Ht Hso Hr Hj p [] [] _ _ (x_start t so pr junk n) Hp).
Qed.

(** Element types without constructors that run code: no statement throws, the program does what C52 says. *)
Theorem C71_plain_types : forall (A : Type) (t : traits) (dflt zero : A) so (p : list (aop (A := A) * option nat)) s,
  t_trivial t || t_complex t = true -> t_tcopy t = true -> a_history t dflt zero so s (map fst p) <> None ->
  exists s', x_history t dflt zero so s [] p = Goes s' [] /\ a_history t dflt zero so s (map fst p) = Some s' /\ failed_resizes t dflt zero so s [] p = 0%nat.
Proof.
  intros A t dflt zero so p s H1 H2. revert s. induction p as [|[o k] p IH]; intros s Hp; cbn [map fst a_history x_history failed_resizes] in *; [exists s; auto|].
  unfold x_step. destruct (a_step t dflt zero so s o) as [s1|] eqn:E; [|congruence].
  assert (Eu : existsb (fun x => existsb (Nat.eqb x) []) (uses o) = false) by (induction (uses o); auto). rewrite Eu.
  assert (Ec : constructs t s o = 0%nat).
  { unfold constructs, resize_constructs, default_runs, copy_runs. rewrite H1, H2. cbn [negb]. destruct o; auto; destruct (aval_of s v); auto. }
  assert (Et : match k with Some k0 => Nat.ltb k0 (constructs t s o) | None => false end = false) by (destruct k as [k|]; [rewrite Ec; now destruct k|reflexivity]).
  rewrite Et. assert (Em : mended o [] = []) by (unfold mended; now destruct (target o)). rewrite Em. destruct (IH s1 Hp) as (s' & K1 & K2 & K3). exists s'. rewrite K3. auto.
Qed.

(** What a failed resize leaves, at any point of any program: the new shape, the old storage with all its elements, and a block that belongs to nobody with the
    elements constructed so far. *)
Theorem C71_resize_leaves : forall (A : Type) (t : traits) (dflt zero : A) so pr junk n (p : list (aop (A := A) * option nat)) s broken v a sh k,
  traits_ok t -> is_order (length so) so -> (0 < length so < 16)%nat -> length junk = length so ->
  x_history t dflt zero so (repeat None n) [] p = Goes s broken ->
  aval_of s v = Some a -> shape_ok so sh = true -> (k < resize_constructs t a sh)%nat ->
  exists w w', a_run_x t dflt zero so pr junk (a_start so pr junk n) p = Done w /\ a_exec_x t dflt zero so pr junk w (AResize v sh) k = Thrown w'
    /\ im_len (lay_of so pr junk w' v) = sh /\ w_h (aw_w w') = w_h (aw_w w)
    /\ m_heap (w_mem (aw_w w')) = m_heap (w_mem (aw_w w)) ++ [Block true (repeat (Some dflt) k ++ repeat None (volume sh - k))].
Proof.
  intros A t dflt zero so pr junk n p s broken v a sh k Ht Hso Hr Hj Hp Hv Hs Hk.
  destruct (x_run_sim t dflt zero so pr junk Ht Hso Hr Hj p [] [] _ _ s broken (x_start t so pr junk n) (NoDup_nil _) Hp) as (w & L & E & X & _ & _).
  destruct (x_resize t dflt zero so pr junk Ht Hr Hj L broken w s v a sh k X Hv Hs Hk) as (w' & E' & X' & K1 & K2). exists w, w'. repeat split; auto.
  assert (El : lay_of so pr junk w' v = layout so pr junk sh).
  { cbn [a_exec_x] in E'. destruct (getv (w_h (aw_w w)) v); [|discriminate].
    destruct (_ && _) in E'; [|destruct (a_exec t dflt zero so pr junk w (AResize v sh)); discriminate]. destruct (new_thrown _ _ _ _ _); [|discriminate]. injection E' as <-.
    unfold lay_of. cbn [with_heap set_lay aw_lay]. apply nth_upd_eq. destruct X as (w0 & (i & I) & (_ & Hl & _)). rewrite Hl, (ar_lenl _ _ _ _ _ _ _ I). eapply aval_lt; eauto. }
  rewrite El. reflexivity.
Qed.

(** The array is not lost: resized to a shape with as many elements as it had, it has its old elements. *)
Theorem C71_recover : forall (A : Type) (t : traits) (dflt zero : A) so pr junk n (p : list (aop (A := A) * option nat)) s v shv l sh k sh',
  traits_ok t -> is_order (length so) so -> (0 < length so < 16)%nat -> length junk = length so ->
  x_history t dflt zero so (repeat None n) [] p = Goes s [] ->
  aval_of s v = Some (AVal shv (Some l)) -> shape_ok so sh = true -> (k < resize_constructs t (AVal shv (Some l)) sh)%nat ->
  shape_ok so sh' = true -> volume sh' = length l ->
  exists w, a_run_x t dflt zero so pr junk (a_start so pr junk n) (p ++ [(AResize v sh, Some k); (AResize v sh', None)]) = Done w
    /\ looks_like so (layout_default so pr junk) w v (AVal sh' (Some l)).
Proof.
  intros A t dflt zero so pr junk n p s v shv l sh k sh' Ht Hso Hr Hj Hp Hv Hs Hk Hs' Hl.
  assert (App : forall p s0 br0 s1 br1 q, x_history t dflt zero so s0 br0 p = Goes s1 br1 -> x_history t dflt zero so s0 br0 (p ++ q) = x_history t dflt zero so s1 br1 q).
  { clear. intros p. induction p as [|[o k] p IH]; intros s0 br0 s1 br1 q E; cbn [x_history app] in *; [now injection E as <- <-|]. destruct (x_step t dflt zero so s0 br0 o k); try discriminate. now apply IH. }
  assert (Hh : x_history t dflt zero so (repeat None n) [] (p ++ [(AResize v sh, Some k); (AResize v sh', None)]) = Goes (upd s v (Some (AVal sh' (Some l)))) []).
  { rewrite (App _ _ _ _ _ _ Hp). cbn [x_history]. unfold x_step at 1. cbn [a_step uses existsb constructs]. rewrite Hv, Hs. apply Nat.ltb_lt in Hk. rewrite Hk.
    unfold x_step. cbn [a_step uses existsb mended target]. rewrite Hv, Hs'. cbn [remove]. destruct (Nat.eq_dec v v); [|congruence].
    do 3 f_equal. unfold resized. cbn [av_cells]. rewrite Hl, Nat.eqb_refl. reflexivity. }
  destruct (C71_exceptions A t dflt zero so pr junk n _ _ _ Ht Hso Hr Hj Hh) as (w & L & E & Look & _). exists w. split; [exact E|].
  pose proof (aval_lt _ _ _ Hv) as Lv. specialize (Look v). rewrite upd_length, aval_upd, Nat.eqb_refl in Look by exact Lv. apply Look; [exact Lv|]. intros [].
Qed.

(** *** where the code fails *)
(** x = y on arrays with a throwing copy constructor destroys elements that were never constructed, for every program, type and element that throws. *)
Theorem C71_copy_assignment_refuted : forall (A : Type) (t : traits) (dflt zero : A) so pr junk n (p : list (aop (A := A) * option nat)) s broken v x a k,
  traits_ok t -> is_order (length so) so -> (0 < length so < 16)%nat -> length junk = length so -> t_tcopy t = false ->
  x_history t dflt zero so (repeat None n) [] p = Goes s broken -> aval_of s x = Some a -> (k < count_of (Some a))%nat ->
  a_run_x t dflt zero so pr junk (a_start so pr junk n) (p ++ [(AAssignCopy v x, Some k)]) = Undefined.
Proof.
  intros A t dflt zero so pr junk n p s broken v x a k Ht Hso Hr Hj Hc Hp Hx Hk.
  destruct (x_run_sim t dflt zero so pr junk Ht Hso Hr Hj p [] [] _ _ s broken (x_start t so pr junk n) (NoDup_nil _) Hp) as (w & L & E & X & _ & _).
  assert (App : forall p w0 q, a_run_x t dflt zero so pr junk w0 p = Done w -> a_run_x t dflt zero so pr junk w0 (p ++ q) = a_run_x t dflt zero so pr junk w q).
  { clear. intros p. induction p as [|[o k] p IH]; intros w0 q E; cbn [a_run_x app] in *; [now injection E as <-|]. destruct (match k with Some _ => _ | None => _ end); try discriminate; now apply IH. }
  rewrite (App _ _ _ E). cbn [a_run_x a_exec_x]. destruct (xrel_handle t so pr junk Hr Hj L broken w s x a X Hx) as (h & -> & -> & _). rewrite Hc. apply Nat.ltb_lt in Hk as Hk'. rewrite Hk'. cbn [negb andb].
  now rewrite copy_thrown_none.
Qed.

Definition ex_obj := Traits false false false.
Definition ex_run n p := a_run_x ex_obj 0%nat 0%nat [0%nat] LP_contiguous [0] (a_start [0%nat] LP_contiguous [0] n) p.
(** After a failed resize element 3 of an array that says it has five is outside its storage. *)
Theorem C71_resize_refuted : exists w h b, ex_run 1 [(AFrom 0 [3] (fun i => Z.to_nat (nthZ i 0)), None); (AResize 0 [5], Some 2%nat)] = Done w
  /\ im_len (lay_of [0%nat] LP_contiguous [0] w 0) = [5] /\ getv (w_h (aw_w w)) 0 = Some h /\ h_size h = 3%nat /\ h_data h = Some b
  /\ read_cell (m_heap (w_mem (aw_w w))) b (offset (lay_of [0%nat] LP_contiguous [0] w 0) [3]) = None.
Proof. eexists _, _, _. repeat split; vm_compute; reflexivity. Qed.
(** The block the resize had allocated is not released when the program is done with all arrays. *)
Theorem C71_leak_refuted : exists w, ex_run 1 [(AFrom 0 [3] (fun i => Z.to_nat (nthZ i 0)), None); (AResize 0 [5], Some 2%nat); (AEnd 0, None)] = Done w
  /\ getv (w_h (aw_w w)) 0 = None /\ exists b, nth_error (m_heap (w_mem (aw_w w))) b = Some (Block true [Some 0; Some 0; None; None; None]%nat).
Proof. eexists. repeat split; [vm_compute; reflexivity..|]. exists 1%nat. vm_compute. reflexivity. Qed.

(** Non-vacuity: two failing resizes, one of them made good, one array left broken and then assigned. *)
Example C71_example : let f i := Z.to_nat (nthZ i 0) in
  let p := [(AFrom 0 [3] f, Some 3%nat); (AShape 1 [2], None); (AResize 0 [5], Some 2%nat); (AResize 1 [4], Some 0%nat); (AResize 0 [3], Some 0%nat); (ACopy 2 0, None)] in
  x_history ex_obj 0%nat 0%nat [0%nat] (repeat None 3) [] p
  = Goes [Some (AVal [3] (Some [Some 0; Some 1; Some 2]%nat)); Some (AVal [2] (Some [Some 0; Some 0]%nat)); Some (AVal [3] (Some [Some 0; Some 1; Some 2]%nat))] [1%nat]
  /\ failed_resizes ex_obj 0%nat 0%nat [0%nat] (repeat None 3) [] p = 2%nat.
Proof. vm_compute. split; reflexivity. Qed.
Example C71_ends_example : x_history ex_obj 0%nat 0%nat [0%nat] (repeat None 2) [] [(AShape 0 [3], None); (ACopy 1 0, Some 1%nat)] = Ends.
Proof. vm_compute. reflexivity. Qed.
Example C71_copy_example : ex_run 2 [(AShape 0 [3], None); (AShape 1 [1], None); (AAssignCopy 1 0, Some 2%nat)] = Undefined.
Proof. vm_compute. reflexivity. Qed.

Print Assumptions C71_exceptions.
Print Assumptions C71_no_leak.
Print Assumptions C71_terminates.
Print Assumptions C71_plain_types.
Print Assumptions C71_resize_leaves.
Print Assumptions C71_recover.
Print Assumptions C71_copy_assignment_refuted.
Print Assumptions C71_resize_refuted.
Print Assumptions C71_leak_refuted.
