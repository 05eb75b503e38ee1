(** Threads with arrays: the trees of single accesses do what the functions of M_Array do, and touch only what they may. *)
From Verif Require Import Base M_Perm L_Perm M_IdxMap S_Layout L_IdxMap M_Slice L_Slice L_Layout M_Loops S_Loops L_Loops M_Handle S_Handle L_Handle L_Own L_Run M_Array S_Array L_Array M_Threads S_Threads L_Sched.

Section Link.
Context {A : Type}.
Variable (t : traits) (dflt zero : A) (so : list nat) (pr : layout_prop) (junk : list Z).
Notation heap := (list (block A)).
Notation run_act := (run_act t zero).
Notation eff := (eff t zero).
Notation t_exec := (t_exec t dflt so pr junk).
Notation lay := (layout so pr junk).
Notation dl := (layout_default so pr junk).

(** *** one thread against M_Handle *)
Lemma eff_construct b i v h : eff (t_construct t b i v) h = construct t b i v h.
Proof.
  unfold L_Sched.eff, t_construct, construct. cbn [L_Sched.run_act]. destruct (read_cell h b i) as [[c|]|]; auto.
  - destruct (t_tcopy t); cbn [L_Sched.run_act]; auto. now destruct (write_cell h b i (Some v)).
  - cbn [L_Sched.run_act]. now destruct (write_cell h b i (Some v)).
Qed.
Lemma eff_destroy b i h : eff (t_destroy t b i) h = destroy t b i h.
Proof.
  unfold L_Sched.eff, t_destroy, destroy. cbn [L_Sched.run_act]. destruct (read_cell h b i) as [[c|]|]; auto.
  - cbn [L_Sched.run_act]. now destruct (write_cell h b i None).
  - destruct (t_tcopy t); reflexivity.
Qed.
Lemma for_upto_ext {T} n (f g : nat -> T -> option T) s : (forall i x, f i x = g i x) -> for_upto n f s = for_upto n g s.
Proof. intros E. induction n as [|n IH]; cbn [for_upto]; auto. rewrite IH. destruct (for_upto n g s); auto. Qed.
Lemma eff_constructs n b v h : eff (loop n (fun i => t_construct t b i v)) h = for_upto n (fun i h => construct t b i v h) h.
Proof. rewrite eff_loop. apply for_upto_ext. intros. apply eff_construct. Qed.
Lemma run_seq {T} (a : act A unit) (b : act A T) h : run_act (bind a (fun _ => b)) h = match eff a h with Some h' => run_act b h' | None => None end.
Proof. rewrite run_bind, run_unit. now destruct (eff a h). Qed.
Lemma run_new n i h : run_act (t_new t dflt n i) h = h_new t dflt zero n i h.
Proof.
  unfold t_new, h_new. destruct (Nat.eqb n 0); [reflexivity|]. destruct i; [reflexivity|reflexivity|]. cbn [L_Sched.run_act]. rewrite run_seq.
  unfold allocate, allocate_zero. destruct (t_complex t).
  - rewrite andb_false_r. reflexivity.
  - rewrite andb_true_r. destruct (negb (t_trivial t)); [|reflexivity]. rewrite eff_constructs. destruct (for_upto n _ _); reflexivity.
Qed.
Lemma run_copy d n h : run_act (t_copy t dflt d n) h = h_copy t dflt zero d n h.
Proof.
  unfold t_copy, h_copy. rewrite run_bind, run_new. destruct (h_new t dflt zero n Raw h) as [[h1 x]|]; auto.
  destruct (h_data x) as [b|]; [|reflexivity]. destruct d as [src|]; [|reflexivity]. rewrite run_seq. destruct (t_tcopy t); rewrite eff_loop.
  - unfold memcpy. rewrite (for_upto_ext n _ (fun i h => match read_cell h src i with Some c => write_cell h b i c | None => None end)); [destruct (for_upto n _ h1); reflexivity|].
    intros i x0. unfold L_Sched.eff. cbn [L_Sched.run_act]. destruct (read_cell x0 src i) as [c|]; auto. now destruct (write_cell x0 b i c).
  - rewrite (for_upto_ext n _ (fun i h => match read_cell h src i with Some c => match c with Some v => construct t b i v h | None => None end | None => None end)); [destruct (for_upto n _ h1); reflexivity|].
    intros i x0. unfold L_Sched.eff at 1. cbn [L_Sched.run_act]. destruct (read_cell x0 src i) as [[v|]|]; auto. fold (eff (t_construct t b i v) x0). apply eff_construct.
Qed.
Lemma eff_drop x h : eff (t_drop t x) h = if is_null x then Some h else destruct_blk t (h_data x, h_size x) h.
Proof.
  unfold t_drop, is_null, destruct_blk. cbn [fst snd]. destruct (h_data x) as [b|]; [|reflexivity]. rewrite eff_seq.
  destruct (negb (t_trivial t || t_complex t)).
  - rewrite eff_loop. rewrite (for_upto_ext _ _ (fun i h => destroy t b i h)) by (intros; apply eff_destroy). destruct (for_upto _ _ h) as [h1|]; auto.
    unfold L_Sched.eff. cbn [L_Sched.run_act]. now destruct (deallocate t b (h_size x) h1).
  - unfold L_Sched.eff. cbn [L_Sched.run_act]. now destruct (deallocate t b (h_size x) h).
Qed.
Lemma eff_write d i a c wh ws h : write_elem t d i a (World (Mem h c) wh ws) = match eff (t_write t d i a) h with Some h' => Some (World (Mem h' c) wh ws) | None => None end.
Proof.
  unfold write_elem, t_write. destruct d as [b|]; [|reflexivity]. unfold L_Sched.eff. cbn [L_Sched.run_act w_mem m_heap]. destruct (read_cell h b i) as [y|]; auto.
  destruct (match y with Some _ => true | None => t_tcopy t end); [|reflexivity]. cbn [L_Sched.run_act]. now destruct (write_cell h b i (Some a)).
Qed.

(** *** handles that are not shared *)
Notation uns := (Forall (fun x => match x with Some h => h_sptr h = None | None => True end)).
Lemma eta_handle h : h_sptr h = None -> h = HHeap (h_data h) (h_size h) None.
Proof. destruct h; cbn. now intros ->. Qed.
Lemma move_assign_uns c wh ws h v x : uns wh -> (v < length wh)%nat -> (x < length wh)%nat ->
  move_assign t (World (Mem h c) wh ws) v x
  = match getv wh v with
    | Some hv => match eff (t_drop t hv) h with
                 | Some h1 => match getv wh x with
                              | Some hx => Some (World (Mem h1 c) (upd (upd wh v (Some hx)) x (Some h_null)) ws)
                              | None => None
                              end
                 | None => None
                 end
    | None => None
    end.
Proof.
  intros U Lv Lx. unfold move_assign. cbn [w_h w_mem m_heap]. destruct (getv wh v) as [hv|] eqn:Ev; auto.
  pose proof (unshared_get _ _ _ U Ev) as Sv. rewrite Sv, eff_drop. cbn [andb negb].
  replace (if negb (is_null hv) then destruct_blk t (h_data hv, h_size hv) h else Some h) with (if is_null hv then Some h else destruct_blk t (h_data hv, h_size hv) h) by now destruct (is_null hv).
  destruct (if is_null hv then Some h else destruct_blk t (h_data hv, h_size hv) h) as [h1|]; auto.
  unfold set_h, set_heap, set_mem. cbn [w_h w_mem m_ctrl w_s]. destruct (getv wh x) as [hx|] eqn:Ex; auto. pose proof (unshared_get _ _ _ U Ex) as Sx.
  rewrite <- (eta_handle hx Sx).
  assert (G : forall y, getv (upd wh v (Some y)) v = Some y) by (intros y; unfold getv; now rewrite nth_error_upd_eq).
  destruct (Nat.eqb_spec v x) as [->|Hn].
  - rewrite G. cbn [w_h w_mem w_s]. rewrite G, Sx. reflexivity.
  - rewrite getv_upd_neq, Ex by auto. cbn [w_h w_mem w_s sptr_release]. unfold getv.
    rewrite nth_error_upd_eq by now rewrite !upd_length. cbn [h_sptr]. rewrite Sx, <- (eta_handle hx Sx), !upd_upd. reflexivity.
Qed.
Lemma copy_assign_uns c wh ws h v x : uns wh -> (v < length wh)%nat ->
  copy_assign t dflt zero (World (Mem h c) wh ws) v x
  = match getv wh x with
    | Some hx => match h_copy t dflt zero (h_data hx) (h_size hx) h with
                 | Some (h1, y) => match getv wh v with
                                   | Some hv => match eff (t_drop t hv) h1 with Some h2 => Some (World (Mem h2 c) (upd wh v (Some y)) ws) | None => None end
                                   | None => None
                                   end
                 | None => None
                 end
    | None => None
    end.
Proof.
  intros U Lv. unfold copy_assign. cbn [w_h w_mem m_heap m_ctrl w_s]. destruct (getv wh x) as [hx|] eqn:Ex; auto.
  destruct (h_copy t dflt zero (h_data hx) (h_size hx) h) as [[h1 y]|] eqn:Ec; auto. pose proof (h_copy_unshared t dflt zero _ _ _ _ _ Ec) as Sy.
  rewrite move_assign_uns; [|apply Forall_app; auto|rewrite app_length; lia|rewrite app_length; cbn; lia].
  unfold getv at 1. rewrite nth_error_app1 by auto. fold (getv wh v). destruct (getv wh v) as [hv|] eqn:Ev; auto.
  destruct (eff (t_drop t hv) h1) as [h2|]; auto. unfold getv at 1. rewrite nth_error_app2, Nat.sub_diag by lia. cbn [nth_error].
  cbn [w_h w_mem w_s]. unfold getv at 1. rewrite nth_error_upd_eq by (rewrite upd_length, app_length; cbn; lia).
  unfold h_destroy. cbn [h_sptr is_null h_data negb andb sptr_release m_heap m_ctrl w_mem]. f_equal. f_equal.
  rewrite upd_app_l by auto. rewrite <- (upd_length wh v (Some y)), upd_app_r. rewrite (upd_length wh v (Some y)). rewrite firstn_app, upd_length, Nat.sub_diag, firstn_O, app_nil_r.
  rewrite firstn_all2 by (rewrite ?upd_length; lia). reflexivity.
Qed.

(** *** statements against M_Array *)
Definition mkw (c : list ctrl) (ws : list (option hshared)) (h : heap) (p : priv) : aworld A := AWorld (World (Mem h c) (p_h p) ws) (p_lay p).
Lemma eff_fold L (body : list Z -> act A unit) : forall a0 h,
  eff (fold_left (fun a idx => bind a (fun _ => body idx)) L a0) h
  = fold_left (fun o idx => match o with Some h => eff (body idx) h | None => None end) L (eff a0 h).
Proof. induction L as [|idx L IH]; intros a0 h; cbn [fold_left]; auto. rewrite IH, eff_seq. reflexivity. Qed.
Lemma fold_none {T U} L (f : T -> U -> option T) : fold_left (fun o x => match o with Some h => f h x | None => None end) L None = None.
Proof. induction L; cbn [fold_left]; auto. Qed.
(** loops over worlds whose body acts on the memory only *)
Lemma fold_world {W U} (mk : heap -> W) (F : W -> U -> option W) (G : heap -> U -> option heap) L :
  (forall h x, In x L -> F (mk h) x = match G h x with Some h' => Some (mk h') | None => None end) -> forall h,
  fold_left (fun o x => match o with Some w => F w x | None => None end) L (Some (mk h))
  = match fold_left (fun o x => match o with Some h => G h x | None => None end) L (Some h) with Some h' => Some (mk h') | None => None end.
Proof.
  induction L as [|x L IH]; intros HF h; cbn [fold_left]; auto. rewrite HF by now left. destruct (G h x) as [h'|].
  - apply IH. intros; apply HF; now right.
  - now rewrite !fold_none.
Qed.

Record psane (p : priv) : Prop := { ps_uns : uns (p_h p); ps_len : length (p_h p) = S (length (p_lay p)); ps_tmp : nth_error (p_h p) (length (p_lay p)) = Some None }.

Lemma resize_link c ws h p v sh w' : psane p -> (v < length (p_lay p))%nat -> a_resize t dflt zero so pr junk (mkw c ws h p) v sh = Some w' ->
  exists h' p', run_act (t_resize t dflt so pr junk p v sh) h = Some (h', p') /\ w' = mkw c ws h' p' /\ p_lay p' = upd (p_lay p) v (lay sh) /\
    (forall u, u <> v -> nth_error (p_h p') u = nth_error (p_h p) u).
Proof.
  intros P Lv. unfold a_resize, t_resize, t_get. cbn [set_lay mkw aw_w aw_lay w_h]. destruct (getv (p_h p) v) as [hv|] eqn:Ev; [|discriminate].
  destruct (is_null hv || negb (Nat.eqb (h_size hv) (nelem (lay sh)))) eqn:Eb.
  - unfold on_sto, tmp, set_lay, mkw. cbn [aw_w aw_lay run exec w_mem m_heap]. rewrite upd_length. rewrite run_bind, run_new.
    destruct (h_new t dflt zero (nelem (lay sh)) Default h) as [[h1 x]|] eqn:En; [|discriminate]. cbn [new_var].
    assert (Sx : h_sptr x = None).
    { rewrite h_new_spec in En. pose proof (unshared_alloc (initial t dflt zero (nelem (lay sh)) Default) h) as U. destruct (alloc_result _ h) as [h1' x']. injection En as <- <-. exact U. }
    unfold set_h, set_heap. cbn [w_h w_mem w_s m_ctrl]. pose proof (ps_len _ P) as PL.
    rewrite move_assign_uns; [|apply unshared_upd; auto using ps_uns|rewrite upd_length; lia|rewrite upd_length; lia].
    rewrite getv_upd_neq, Ev by lia. rewrite run_seq. destruct (eff (t_drop t hv) h1) as [h2|] eqn:Ed; [|discriminate].
    unfold getv. rewrite nth_error_upd_eq by lia. cbn [exec w_h w_mem w_s]. unfold getv. rewrite nth_error_upd_eq by (rewrite !upd_length; lia).
    unfold h_destroy. cbn [h_sptr is_null h_data negb andb sptr_release m_heap m_ctrl w_mem h_null]. unfold set_mem, set_h. cbn [w_mem w_h w_s].
    intros E. injection E as <-. eexists _, _. split; [reflexivity|]. split; [|split; [reflexivity|]].
    + unfold mkw, set_var. cbn [p_h p_lay]. f_equal. f_equal. rewrite upd_upd, (upd_comm _ v) by lia. rewrite upd_upd. f_equal. apply upd_same. apply (ps_tmp _ P).
    + intros u Hu. cbn [set_var p_h]. apply nth_error_upd_neq. congruence.
  - intros E. injection E as <-. eexists _, _. split; [reflexivity|]. auto.
Qed.
Lemma assign_link c ws h p v L (fv : list Z -> A) w' : 
  fold_left (fun o idx => match o with Some w => on_sto t dflt zero w [WriteH v (offset (lay_of so pr junk w v) idx) (fv idx)] | None => None end) L (Some (mkw c ws h p)) = Some w' ->
  exists h', eff (fold_left (fun a idx => bind a (fun _ => bind (Done (fv idx)) (fun y => t_get p v (fun hv => t_write t (h_data hv) (offset (t_lay so pr junk p v) idx) y)))) L (Done tt)) h = Some h' /\ w' = mkw c ws h' p.
Proof.
  intros E. rewrite eff_fold. 
  rewrite (fold_world (fun h => mkw c ws h p) _ (fun h idx => eff (t_get p v (fun hv => t_write t (h_data hv) (offset (t_lay so pr junk p v) idx) (fv idx))) h)) in E.
  - cbn [bind]. unfold L_Sched.eff at 2. cbn [L_Sched.run_act]. destruct (fold_left _ L (Some h)) as [h'|]; [|discriminate]. injection E as <-. eauto.
  - intros h0 idx _. unfold on_sto, mkw, t_get, lay_of, t_lay. cbn [aw_w aw_lay run exec w_h]. destruct (getv (p_h p) v) as [hv|]; [|reflexivity].
    rewrite eff_write. destruct (eff _ h0); reflexivity.
Qed.

Theorem exec_link c ws h p o w' : psane p -> a_exec t dflt zero so pr junk (mkw c ws h p) o = Some w' ->
  (forall v, In v (match o with AEmpty v | AShape v _ | AZeros v _ | AFrom v _ _ | AAssignExpr v _ _ | AResize v _ | AWrite v _ _ | AEnd v => [v]
                   | ACopy v x | AMove v x | AAssignCopy v x | AAssignMove v x => [v; x] end) -> (v < length (p_lay p))%nat) ->
  exists h' p', run_act (t_exec p (TOp o)) h = Some (h', p') /\ w' = mkw c ws h' p'.
Proof.
  intros P E Hl. pose proof (ps_len _ P) as PL. pose proof (ps_uns _ P) as PU.
  destruct o as [v|v sh|v sh|v sh f|v x|v x|v x|v x|v sh f|v sh|v idx a|v]; cbn [a_exec M_Threads.t_exec] in *.
  - unfold on_sto in E. cbn in E. injection E as <-. eexists _, _. split; reflexivity.
  - unfold on_sto in E. cbn [set_lay mkw aw_w aw_lay run exec w_mem m_heap] in E. rewrite run_bind, run_new. destruct (h_new t dflt zero (nelem (lay sh)) Default h) as [[h1 x]|]; [|discriminate].
    cbn in E. injection E as <-. eexists _, _. split; reflexivity.
  - unfold on_sto in E. cbn [set_lay mkw aw_w aw_lay run exec w_mem m_heap] in E. rewrite run_bind, run_new. destruct (h_new t dflt zero (nelem (lay sh)) Zero h) as [[h1 x]|]; [|discriminate].
    cbn in E. injection E as <-. eexists _, _. split; reflexivity.
  - unfold a_from, on_sto in E. cbn [set_lay mkw aw_w aw_lay run exec w_mem m_heap] in E. rewrite run_bind, run_new. destruct (h_new t dflt zero (nelem (lay sh)) Raw h) as [[h1 x]|]; [|discriminate].
    cbn [new_var aw_w aw_lay] in E. unfold set_h, set_heap in E. cbn [w_mem w_h w_s m_ctrl] in E. unfold construct_loop in E. rewrite for_each_fold in E. rewrite run_seq, for_each_fold, eff_fold.
    specialize (Hl v (or_introl eq_refl)).
    rewrite (fold_world (fun h => World (Mem h c) (upd (p_h p) v (Some x)) ws) _ (fun h idx => eff (match h_data x with Some b => t_construct t b (offset (lay sh) idx) (f idx) | None => Wrong end) h)) in E.
    + unfold L_Sched.eff at 2. cbn [L_Sched.run_act]. destruct (fold_left _ _ (Some h1)) as [h'|]; [|discriminate]. injection E as <-. eexists _, _. split; reflexivity.
    + intros h0 idx _. cbn [w_h w_mem m_heap]. unfold getv. rewrite nth_error_upd_eq by lia. destruct (h_data x) as [b|]; [|reflexivity]. rewrite eff_construct. destruct (construct _ _ _ _ h0); reflexivity.
  - unfold on_sto in E. cbn [set_lay mkw aw_w aw_lay run exec w_mem w_h m_heap] in E. unfold t_get. destruct (getv (p_h p) x) as [hx|]; [|discriminate]. rewrite run_bind, run_copy.
    destruct (h_copy t dflt zero (h_data hx) (h_size hx) h) as [[h1 y]|]; [|discriminate]. cbn in E. injection E as <-. eexists _, _. split; reflexivity.
  - unfold on_sto in E. cbn [set_lay mkw aw_w aw_lay run exec w_mem w_h m_heap] in E. unfold move_ctor in E. cbn [w_h] in E. unfold t_get. destruct (getv (p_h p) x) as [hx|]; [|discriminate].
    cbn in E. injection E as <-. eexists _, _. split; reflexivity.
  - unfold on_sto in E. cbn [set_lay mkw aw_w aw_lay run exec] in E. rewrite copy_assign_uns in E; [|auto|specialize (Hl v (or_introl eq_refl)); lia]. unfold t_get.
    destruct (getv (p_h p) x) as [hx|]; [|discriminate]. rewrite run_bind, run_copy. destruct (h_copy t dflt zero (h_data hx) (h_size hx) h) as [[h1 y]|]; [|discriminate].
    destruct (getv (p_h p) v) as [hv|]; [|discriminate]. rewrite run_seq. destruct (eff (t_drop t hv) h1) as [h2|]; [|discriminate]. injection E as <-. eexists _, _. split; reflexivity.
  - unfold on_sto in E. cbn [set_lay mkw aw_w aw_lay run exec] in E.
    rewrite move_assign_uns in E; [|auto|specialize (Hl v (or_introl eq_refl)); lia|specialize (Hl x (or_intror (or_introl eq_refl))); lia]. unfold t_get.
    destruct (getv (p_h p) v) as [hv|]; [|discriminate]. rewrite run_seq. destruct (eff (t_drop t hv) h) as [h2|]; [|discriminate].
    destruct (getv (p_h p) x) as [hx|]; [|discriminate]. injection E as <-. eexists _, _. split; reflexivity.
  - destruct (a_resize t dflt zero so pr junk (mkw c ws h p) v sh) as [w1|] eqn:Er; [|discriminate].
    destruct (resize_link c ws h p v sh w1 P (Hl v (or_introl eq_refl)) Er) as (h1 & p1 & R1 & -> & _). rewrite run_bind, R1. unfold assign_loop in E. rewrite for_each_fold in E.
    destruct (assign_link c ws h1 p1 v _ f w' E) as (h2 & R2 & ->). unfold t_assign. rewrite run_seq, for_each_fold.
    change (im_len (t_lay so pr junk p1 v)) with (im_len (lay_of so pr junk (mkw c ws h1 p1) v)). rewrite R2. eexists _, _. split; reflexivity.
  - destruct (resize_link c ws h p v sh w' P (Hl v (or_introl eq_refl)) E) as (h1 & p1 & R1 & -> & _). eexists _, _. split; [exact R1|reflexivity].
  - unfold on_sto in E. cbn [mkw aw_w aw_lay run exec w_h] in E. unfold t_get. destruct (getv (p_h p) v) as [hv|]; [|discriminate]. rewrite eff_write in E. rewrite run_seq.
    change (offset (lay_of so pr junk (mkw c ws h p) v) idx) with (offset (t_lay so pr junk p v) idx) in E. destruct (eff _ h) as [h1|]; [|discriminate]. injection E as <-. eexists _, _. split; reflexivity.
  - unfold on_sto in E. cbn [mkw aw_w aw_lay run exec w_h] in E. unfold t_get. destruct (getv (p_h p) v) as [hv|] eqn:Ev; [|discriminate].
    pose proof (unshared_get _ _ _ PU Ev) as Sv. unfold h_destroy in E. cbn [w_mem m_heap m_ctrl] in E. rewrite Sv in E. cbn [andb sptr_release] in E. rewrite run_seq, eff_drop.
    replace (if negb (is_null hv) then destruct_blk t (h_data hv, h_size hv) h else Some h) with (if is_null hv then Some h else destruct_blk t (h_data hv, h_size hv) h) in E by now destruct (is_null hv).
    destruct (if is_null hv then _ else _) as [h1|]; [|discriminate]. injection E as <-. eexists _, _. split; reflexivity.
Qed.
End Link.
