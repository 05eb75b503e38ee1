(** C69: whole programs of arrays and views mean what the index-based semantics of S_Program says. *)
From Verif Require Import Base M_Perm L_Perm M_IdxMap M_Slice M_Loops M_Assign M_Expr M_Transform M_Blas M_Program S_Layout S_Loops S_Assign S_Expr S_Blas S_Program
  L_IdxMap L_Slice L_Layout L_Loops L_Assign L_Expr L_Transform L_Blas L_Program L_Program2.

(** ** construction (C55) *)
(** An array made from an array-like object, whether its elements are assigned or constructed in place: it has the shape and the
    values of the object, and nothing else changes. *)
Theorem C55_construct {V} (checks trivial : bool) (so : list nat) (base : Z) (shape : list Z) (r : rhs V) (m : mem V) : is_order (length shape) so -> possible_shape shape ->
  (forall src, r = RMem src -> truthful (v_lay src) /\ im_len (v_lay src) = shape) ->
  (forall i m1 m2, in_range i shape -> (forall a, ~ base <= a < base + prodZ shape -> m1 a = m2 a) -> rhs_value r m1 i = rhs_value r m2 i) ->
  exists a m', array_of_ndarray checks trivial so base shape r m = (a, Some m') /\ im_len (v_lay a) = shape /\ usable (v_lay a) /\
    (forall c, is_cell_of a c <-> base <= c < base + prodZ shape) /\ (forall i, in_range i shape -> m' (elem a i) = rhs_value r m i) /\ (forall c, ~ base <= c < base + prodZ shape -> m' c = m c).
Proof.
  intros Ho Hps Hm Hl. destruct (construct_spec checks trivial so base shape r m Ho Hps Hm Hl) as (m' & E & Hh & Hu). destruct Hps as [Hs Hr]. pose proof (new_array_usable so base shape Ho Hs Hr) as U.
  exists (new_array so base shape), m'. split; [exact E|]. split; [reflexivity|]. split; [exact U|]. split; [intros c; now apply new_array_cells|]. split.
  - intros i Hi. rewrite (elem_cell_in _ _ (usable_truthful _ U) Hi). now apply Hh.
  - intros c Hc. apply Hu. intros C. apply Hc. now apply new_array_cells in C.
Qed.
Print Assumptions C55_construct.

(** ** C69 *)
(** Every legal program runs to its end, in debug and release builds, for every element type and every sound allocator, whatever
    memory contains at the start.  Afterwards each variable whose array still exists has the shape and, at every index tuple, the
    value of the index-based meaning.  Memory that was never given to an array or to a temporary of the library is unchanged. *)
Theorem C69_programs {V} (A : arith V) (checks trivial : bool) (alloc : cworld V -> Z -> Z) (p : list (pstmt V)) (m0 : mem V) :
  zero_neutral A -> sound_allocator alloc -> legal_run A (AState [] []) p ->
  exists w, crun A checks trivial alloc (CWorld m0 [] [] []) p = Some w /\
    let s := arun A (AState [] []) p in
    length (cw_vars w) = length (as_var s) /\
    (forall x, live s x -> im_len (v_lay (snd (cvar w x))) = av_shape (var s x) /\ fst (cvar w x) = av_alg (var s x) /\
       forall i, in_range i (av_shape (var s x)) -> cw_mem w (elem (snd (cvar w x)) i) = read A s x i) /\
    (forall a, (forall b, In b (cw_blocks w ++ cw_temps w) -> ~ in_block b a) -> cw_mem w a = m0 a).
Proof.
  intros HZ HA HL.
  assert (G : forall p s w, rel s w -> legal_run A s p -> exists w', crun A checks trivial alloc w p = Some w' /\ rel (arun A s p) w' /\
     (forall a, (forall b, In b (cw_blocks w' ++ cw_temps w') -> ~ in_block b a) -> cw_mem w' a = cw_mem w a) /\
     (forall b, In b (cw_blocks w ++ cw_temps w) -> exists b', In b' (cw_blocks w' ++ cw_temps w') /\ forall a, in_block b a -> in_block b' a)).
  { clear p HL. induction p as [|st p IH]; intros s w R HL; cbn [crun arun].
    - exists w. split; [reflexivity|]. split; [exact R|]. split; [reflexivity|]. intros b Hb. exists b. auto.
    - destruct HL as [H1 H2]. destruct (step_rel A checks trivial alloc s w st HZ HA R H1) as (w1 & -> & R1 & F1 & K1). destruct (IH _ _ R1 H2) as (w2 & E2 & R2 & F2 & K2).
      exists w2. split; [exact E2|]. split; [exact R2|]. split.
      + intros a Ha. rewrite (F2 a Ha). apply F1. intros b Hb B. destruct (K2 b Hb) as (b' & Hb' & S). apply (Ha b' Hb'). now apply S.
      + intros b Hb. destruct (K1 b Hb) as (b1 & Hb1 & S1). destruct (K2 b1 Hb1) as (b2 & Hb2 & S2). exists b2. auto. }
  assert (R0 : rel (AState [] []) (CWorld m0 [] [] [])).
  { split; cbn [as_arr as_var cw_blocks cw_vars cw_mem length]; auto; try (intros k; destruct k; discriminate). intros x Hx. inversion Hx. }
  destruct (G p _ _ R0 HL) as (w & E & R & F & _). exists w. split; [exact E|]. cbv zeta. split; [symmetry; apply (rel_vlen _ _ R)|]. split; [|exact F].
  intros x Lx. destruct (live_usable _ w x R Lx) as [U El]. split; [exact El|]. split; [apply (rel_var _ _ R x (proj1 Lx))|]. intros i Hi.
  rewrite (elem_cell_in _ _ (usable_truthful _ U)); [now apply live_read|]. unfold in_view, valid_idx. now rewrite El.
Qed.
Print Assumptions C69_programs.

(** The windows of the meaning are the intended ones: a slice has the positions its ranges allow, and shows the parent's elements
    at the chosen indices; permuting indices permutes extents alike. *)
Theorem C69_windows (ex : list arg) (shape j : list Z) : steps_nonzero ex -> count_ell ex = 0%nat -> length ex = length shape ->
  (in_range j (window_shape ex shape) <-> view_pos ex shape j).
Proof.
  intros Hs. revert shape j. induction ex as [|a ex IH]; intros [|l shape] j H0 HL; try discriminate.
  - cbn [window_shape view_pos]. split; [intros H; now inversion H|intros ->; constructor].
  - assert (Hs' : steps_nonzero ex) by (intros r Hr; apply Hs; now right). injection HL as HL.
    assert (Hc : forall b, is_ellipsis b = false -> count_ell (b :: ex) = count_ell ex) by (intros b Hb; unfold count_ell; cbn [filter]; now rewrite Hb).
    assert (IN : forall n (j : list Z) ns, in_range j (n :: ns) <-> match j with x :: j' => 0 <= x < n /\ in_range j' ns | [] => False end).
    { intros n k ns. split; [intros H; inversion H; subst; auto|]. destruct k as [|x k]; [tauto|]. intros [H1 H2]. now constructor. }
    destruct a as [i|r| |]; cbn [window_shape view_pos].
    + now apply IH.
    + rewrite IN. destruct j as [|x j]; [tauto|]. rewrite (IH Hs' shape j) by auto. rewrite positions_get by (apply Hs; now left).
      rewrite in_range_arg_spec by (apply Hs; now left). tauto.
    + rewrite IN. destruct j as [|x j]; [tauto|]. rewrite (IH Hs' shape j) by auto. tauto.
    + unfold count_ell in H0. cbn [filter is_ellipsis length] in H0. discriminate.
Qed.
Print Assumptions C69_windows.
Theorem C69_permuted (p : list nat) (shape j : list Z) : possible_shape shape -> is_order (length shape) p -> length j = length shape ->
  (in_range j (permuted_shape p shape) <-> in_range (in_order 0 p j) shape).
Proof.
  intros [Hs Hr] Hp L. rewrite (permuted_shape_transpose (length shape)) by auto.
  set (m := idx_map_of_shape (identity (length shape)) (repeat 0 (length shape)) LP_contiguous (repeat 0 (length shape)) shape).
  assert (W : wf m) by (apply fresh_wf; auto using repeat_length; apply is_perm_identity). rewrite in_order_apply. exact (transpose_valid p m j W Hp L).
Qed.
Print Assumptions C69_permuted.

(** ** independence of layouts, builds, allocators and old memory *)
(** the same statement, up to the stride order of the new array *)
Definition same_but_order {V} (st st' : pstmt V) : Prop :=
  match st, st' with
  | PNew g _ sh f, PNew g' _ sh' f' => g = g' /\ sh = sh' /\ f = f'
  | PCopy g _ e, PCopy g' _ e' => g = g' /\ e = e'
  | _, _ => st = st'
  end.
Definition arr_sim {V} (a a' : aarray V) : Prop := aa_shape a = aa_shape a' /\ aa_alive a = aa_alive a' /\ forall i, aa_val a i = aa_val a' i.
(** ... and the same variables, up to the order and the gaps of their elements *)
Definition shown (v : avar) := (av_alg v, av_arr v, av_shape v, av_at v, (av_whole v, av_forward v)).
Definition sim {V} (s s' : astate V) : Prop := map shown (as_var s) = map shown (as_var s') /\ Forall2 arr_sim (as_arr s) (as_arr s').
Lemma sim_nth {V} (s s' : astate V) k d : sim s s' -> arr_sim (nth k (as_arr s) d) (nth k (as_arr s') d).
Proof.
  intros [_ H]. revert k. induction H as [|a a' l l' Ha Hl IH]; intros [|k]; cbn [nth]; auto; repeat split.
Qed.
Lemma sim_shown {V} (s s' : astate V) x : sim s s' -> shown (var s x) = shown (var s' x).
Proof. intros [E _]. unfold var. now rewrite <- !(map_nth shown), E. Qed.
Lemma sim_parts {V} (s s' : astate V) x : sim s s' -> av_alg (var s x) = av_alg (var s' x) /\ av_arr (var s x) = av_arr (var s' x) /\ av_shape (var s x) = av_shape (var s' x) /\
  av_at (var s x) = av_at (var s' x) /\ av_whole (var s x) = av_whole (var s' x) /\ av_forward (var s x) = av_forward (var s' x).
Proof. intros S. pose proof (sim_shown s s' x S) as E. unfold shown in E. injection E as -> -> -> -> -> ->. repeat split. Qed.
Ltac parts S x := destruct (sim_parts _ _ x S) as (-> & -> & -> & -> & -> & ->) || (let P1 := fresh in let P2 := fresh in let P3 := fresh in let P4 := fresh in let P5 := fresh in let P6 := fresh in
  destruct (sim_parts _ _ x S) as (P1 & P2 & P3 & P4 & P5 & P6); rewrite ?P1, ?P2, ?P3, ?P4, ?P5, ?P6; clear P1 P2 P3 P4 P5 P6).
Lemma sim_read {V} (A : arith V) s s' x i : sim s s' -> read A s x i = read A s' x i.
Proof. intros S. unfold read. parts S x. apply (sim_nth s s' _ _ S). Qed.
Lemma sim_algebra {V} (s s' : astate V) e : sim s s' -> algebra_of s e = algebra_of s' e.
Proof. intros S. induction e as [x|a IH|op l IHl r IHr|op c r IHr|op l IHl c|f a IH|f a IHa b IHb]; cbn [algebra_of]; auto; [now parts S x|now rewrite IHa, IHb]. Qed.
Lemma sim_value {V} (A : arith V) s s' e i : sim s s' -> value A s e i = value A s' e i.
Proof.
  intros S. induction e as [x|a IH|op l IHl r IHr|op c r IHr|op l IHl c|f a IH|f a IHa b IHb]; cbn [value]; rewrite ?(sim_algebra s s' _ S); try congruence. now apply sim_read.
Qed.
Lemma sim_shape {V} (s s' : astate V) e : sim s s' -> shape_of s e = shape_of s' e.
Proof. intros S. unfold shape_of. now parts S (hd 0%nat (vars_of e)). Qed.
Lemma Forall2_upd {X} (P : X -> X -> Prop) l l' k x x' : Forall2 P l l' -> P x x' -> Forall2 P (upd l k x) (upd l' k x').
Proof. intros H Hx. revert k. induction H as [|a a' l l' Ha Hl IH]; intros [|k]; cbn [upd]; constructor; auto. Qed.
Lemma sim_overwrite {V} (A : arith V) s s' x g g' : sim s s' -> (forall i, g i = g' i) -> sim (overwrite A s x g) (overwrite A s' x g').
Proof.
  intros S Hg. destruct (sim_nth s s' (av_arr (var s x)) (no_arr (v_zero A)) S) as (E1 & E2 & E3). unfold overwrite. destruct (sim_parts s s' x S) as (_ & P2 & P3 & P4 & _). rewrite <- P2, <- P3, <- P4. split; cbn [as_var as_arr]; [apply S|].
  apply Forall2_upd; [apply S|]. split; [exact E1|]. split; [exact E2|]. intros i. cbn [aa_val]. destruct (find _ _); auto.
Qed.
Lemma sim_add {V} (s s' : astate V) g so so' sh f f' : sim s s' -> (forall i, f i = f' i) -> sim (add_array s g so sh f) (add_array s' g so' sh f').
Proof.
  intros [E H] Hf. unfold add_array. split; cbn [as_var as_arr].
  - rewrite !map_app, E. cbn [map]. unfold shown. cbn [av_alg av_arr av_shape av_at av_whole av_forward]. assert (EL : length (as_arr s) = length (as_arr s')) by (clear -H; induction H; cbn [length]; auto). now rewrite EL.
  - apply Forall2_app; auto. constructor; [|constructor]. split; [reflexivity|]. split; [reflexivity|exact Hf].
Qed.
Lemma map_upd {X Y} (f : X -> Y) l k x : map f (upd l k x) = upd (map f l) k (f x).
Proof. revert k; induction l as [|y l IH]; intros [|k]; cbn [upd map]; auto. now rewrite IH. Qed.
Lemma sim_step {V} (A : arith V) s s' st st' : sim s s' -> same_but_order st st' -> sim (astep A s st) (astep A s' st').
Proof.
  intros S H.
  destruct st as [alg so shape f|alg so e|k|x args|x p|x shape|x idx val|x val|x e|op x e|x y|x y|x y|fr k x e|e f|e f], st' as [alg' so' shape' f'|alg' so' e'|k'|x' args'|x' p'|x' shape'|x' idx' val'|x' val'|x' e'|op' x' e'|x' y'|x' y'|x' y'|fr' k' x' e'|e' f'|e' f'];
    cbn [same_but_order] in H; try discriminate; cbn [astep].
  - destruct H as (<- & <- & <-). now apply sim_add.
  - destruct H as (<- & <-). rewrite (sim_shape s s' e S). apply sim_add; auto. intros i. now apply sim_value.
  - injection H as <-. destruct (sim_nth s s' k (no_arr (v_zero A)) S) as (E1 & E2 & E3). split; cbn [as_var as_arr]; [apply S|]. apply Forall2_upd; [apply S|]. split; [exact E1|]. split; [reflexivity|exact E3].
  - injection H as <- <-. unfold add_var. split; cbn [as_var as_arr]; [|apply S]. rewrite !map_app, (proj1 S). cbn [map]. unfold shown at 2 4. cbn [av_alg av_arr av_shape av_at av_whole av_forward]. now parts S x.
  - injection H as <- <-. unfold add_var. split; cbn [as_var as_arr]; [|apply S]. rewrite !map_app, (proj1 S). cbn [map]. unfold shown at 2 4. cbn [av_alg av_arr av_shape av_at av_whole av_forward]. now parts S x.
  - injection H as <- <-. unfold add_var. split; cbn [as_var as_arr]; [|apply S]. rewrite !map_app, (proj1 S). cbn [map]. unfold shown at 2 4. cbn [av_alg av_arr av_shape av_at av_whole av_forward]. now parts S x.
  - injection H as <- <- <-. apply sim_overwrite; auto. intros i. now rewrite (sim_read A s s' x i S).
  - injection H as <- <-. destruct (sim_parts s s' x S) as (P1 & _). rewrite <- P1. now apply sim_overwrite.
  - injection H as <- <-. apply sim_overwrite; auto. intros i. now apply sim_value.
  - injection H as <- <- <-. apply sim_overwrite; auto. intros i. now rewrite (sim_read A s s' x i S), (sim_value A s s' e i S).
  - injection H as <- <-. split; cbn [as_var as_arr]; [|apply S]. rewrite !map_upd, (proj1 S). unfold shown. cbn [av_alg av_arr av_shape av_at av_whole av_forward]. parts S x. now parts S y.
  - injection H as <- <-. split; cbn [as_var as_arr]; [|apply S]. rewrite !map_upd, (proj1 S). unfold shown. cbn [av_alg av_arr av_shape av_at av_whole av_forward]. parts S x. now parts S y.
  - injection H as <- <-. apply sim_overwrite; [|intros i; now apply sim_read]. apply sim_overwrite; auto. intros i. now apply sim_read.
  - injection H as <- <- <- <-. destruct (sim_nth s s' k (no_arr (v_zero A)) S) as (E1 & E2 & E3). assert (EL : length (as_arr s) = length (as_arr s')) by (destruct S as [_ S]; clear -S; induction S; cbn [length]; auto).
    split; cbn [as_var as_arr].
    + rewrite !map_upd, (proj1 S). unfold shown. cbn [av_alg av_arr av_shape av_at av_whole av_forward]. rewrite (sim_shape s s' e S), EL. now parts S x.
    + apply Forall2_app; [apply Forall2_upd; [apply S|]; split; [exact E1|split; [reflexivity|exact E3]]|]. constructor; [|constructor]. split; [now apply sim_shape|]. split; [reflexivity|]. intros i. now apply sim_value.
  - injection H as <- <-. rewrite (sim_shape s s' e S), (sim_shape s s' f S). apply sim_add; auto. intros i. apply sum_to_ext. intros l _. now rewrite (sim_value A s s' e _ S), (sim_value A s s' f _ S).
  - injection H as <- <-. rewrite (sim_shape s s' e S). apply sim_add; auto. intros i. apply sum_to_ext. intros l _. now rewrite (sim_value A s s' e _ S), (sim_value A s s' f _ S).
Qed.
(** Two runs of a program whose arrays are stored in different orders, in different builds, with different allocators and from
    different initial memories, show the same values through every variable. *)
Theorem C69_independent {V} (A : arith V) (checks checks' trivial trivial' : bool) (alloc alloc' : cworld V -> Z -> Z) (p p' : list (pstmt V)) (m0 m0' : mem V) (w w' : cworld V) :
  zero_neutral A -> sound_allocator alloc -> sound_allocator alloc' -> legal_run A (AState [] []) p -> legal_run A (AState [] []) p' -> Forall2 same_but_order p p' ->
  crun A checks trivial alloc (CWorld m0 [] [] []) p = Some w -> crun A checks' trivial' alloc' (CWorld m0' [] [] []) p' = Some w' ->
  forall x, live (arun A (AState [] []) p) x ->
    im_len (v_lay (snd (cvar w x))) = im_len (v_lay (snd (cvar w' x))) /\
    forall i, in_range i (im_len (v_lay (snd (cvar w x)))) -> cw_mem w (elem (snd (cvar w x)) i) = cw_mem w' (elem (snd (cvar w' x)) i).
Proof.
  intros HZ HA HA' HL HL' Hs E E' x Lx.
  destruct (C69_programs A checks trivial alloc p m0 HZ HA HL) as (w1 & E1 & _ & P1 & _). rewrite E in E1. injection E1 as <-.
  destruct (C69_programs A checks' trivial' alloc' p' m0' HZ HA' HL') as (w1 & E1 & _ & P2 & _). rewrite E' in E1. injection E1 as <-.
  assert (S : sim (arun A (AState [] []) p) (arun A (AState [] []) p')).
  { clear -Hs. assert (G : forall s s', sim s s' -> sim (arun A s p) (arun A s' p')); [|apply G; split; constructor]. induction Hs as [|st st' p p' H1 H2 IH]; intros s s' S; cbn [arun]; auto. apply IH. now apply sim_step. }
  assert (Lx' : live (arun A (AState [] []) p') x).
  { destruct Lx as [Hx (a & Ha & La)]. pose proof (f_equal (@length _) (proj1 S)) as EL. rewrite !map_length in EL. split; [now rewrite <- EL|]. destruct (sim_parts _ _ x S) as (_ & S2 & _). rewrite <- S2. destruct S as [_ S]. revert Ha La. generalize (av_arr (var (arun A (AState [] []) p) x)). revert S. clear.
    intros S n. revert n. induction S as [|b b' l l' Hb Hl IH]; intros [|n]; cbn [nth_error]; try discriminate.
    - intros H La. injection H as <-. exists b'. split; auto. destruct Hb as (_ & <- & _). exact La.
    - apply IH. }
  destruct (P1 x Lx) as (L1 & _ & V1). destruct (P2 x Lx') as (L2 & _ & V2). destruct (sim_parts _ _ x S) as (_ & _ & P3 & _). rewrite L1, L2, <- P3. split; [reflexivity|]. intros i Hi. rewrite (V1 i Hi), (V2 i); [now apply sim_read|]. now rewrite <- P3.
Qed.
Print Assumptions C69_independent.

(** ** a sound allocator exists *)
Definition past_the_end (bs : list cblock) : Z := fold_right (fun b e => Z.max (cb_base b + prodZ (im_len (cb_lay b))) e) 0 bs.
Lemma past_all bs b : In b bs -> cb_base b + prodZ (im_len (cb_lay b)) <= past_the_end bs.
Proof. induction bs as [|c bs IH]; [intros []|]. cbn [past_the_end fold_right]. intros [->|H]; [lia|]. specialize (IH H). unfold past_the_end in IH. lia. Qed.
(** behind all arrays that still exist: memory of destroyed arrays is used again *)
Definition bump {V} (w : cworld V) (_ : Z) : Z := past_the_end (filter cb_alive (cw_blocks w)).
Theorem C69_bump_sound {V} : @sound_allocator V bump.
Proof. intros w n b a Hb Al B. unfold bump, in_block in *. pose proof (past_all (filter cb_alive (cw_blocks w)) b) as P. rewrite filter_In in P. specialize (P (conj Hb Al)). lia. Qed.
Print Assumptions C69_bump_sound.

(** a program that meets the hypotheses: an array in Fortran order, a reversed column window, a transposed view, a copy made from
    an expression, writes through views, an exchange, a destroyed array whose memory is used again *)
Definition Zar : arith Z := Arith Z 0 1 Z.opp Z.add Z.sub Z.mul Z.div.
Definition ex_fun (i : list Z) : Z := match i with [a; b] => 10 * a + b | _ => 0 end.
Definition ex_prog (so : list nat) : list (pstmt Z) :=
  [PNew AlgA so [2; 3] ex_fun;                                       (* x0 *)
   PSlice 0 [AAll; ARange (Range 2 (-1) (-1))];                      (* x1: columns reversed *)
   PPermute 0 [1; 0]%nat;                                            (* x2: transposed *)
   PCopy AlgA [0; 1]%nat (PBin OpPlus (PVar 1) (PScalL OpTimes 2 (PVar 0)));   (* x3 *)
   PWrite 2 [2; 1] 99;                                               (* x0(1,2) = 99 *)
   PReshape 3 [6];                                                   (* x4 *)
   PCompound OpPlus 0 (PVar 3);                                      (* x0 += x3 *)
   PDeepSwap 1 3;
   PDestroy 1;
   PNew AlgA [0]%nat [5] (fun _ => 7)].                              (* x5, where x3 was *)
Lemma ex_so so : so = [0; 1]%nat \/ so = [1; 0]%nat -> is_order 2 so.
Proof. intros [->| ->]; [apply Permutation_refl|apply perm_swap]. Qed.
Lemma live_check {V} (s : astate V) x : Nat.ltb x (length (as_var s)) && match nth_error (as_arr s) (av_arr (var s x)) with Some a => aa_alive a | None => false end = true <-> live s x.
Proof.
  unfold live. rewrite andb_true_iff, Nat.ltb_lt. split; intros [H1 H2]; (split; [exact H1|]).
  - destruct (nth_error _ _) as [a|]; [|discriminate]. exists a. auto.
  - destruct H2 as (a & -> & H). exact H.
Qed.
Ltac ex_live := apply live_check; vm_compute; reflexivity.
Ltac ex_lt := apply Nat.ltb_lt; vm_compute; reflexivity.
Ltac ex_shape x sh := let s := match goal with |- context [var ?s x] => s end in replace (av_shape (var s x)) with sh.
Lemma ex_legal so : so = [0; 1]%nat \/ so = [1; 0]%nat -> legal_run Zar (AState [] []) (ex_prog so).
Proof.
  intros Hso. unfold ex_prog. cbn [legal_run].
  split; [split; [split; [repeat constructor; lia|cbn; lia]|now apply ex_so]|].
  split; [|split; [|split; [|split; [|split; [|split; [|split; [|split; [|split; [|exact I]]]]]]]]]; cbn [legal].
  - split; [destruct Hso as [->| ->]; ex_lt|]. ex_shape 0%nat [2; 3]; [|destruct Hso as [->| ->]; vm_compute; reflexivity]. cbv zeta. cbn [length].
    split; [left; split; reflexivity|]. split; [intros r [H|[H|[]]]; [discriminate|injection H as <-; cbn; lia]|]. split.
    + constructor; [exact I|]. constructor; [|constructor]. intros x [Hx H]. cbn -[Z.add Z.mul Z.gt] in *. lia.
    + exists AAll. split; [now left|reflexivity].
  - split; [destruct Hso as [->| ->]; ex_lt|]. ex_shape 0%nat [2; 3]; [|destruct Hso as [->| ->]; vm_compute; reflexivity]. apply perm_swap.
  - split; [|split].
    + intros x Hx. cbn [vars_of app] in Hx. destruct Hx as [<-|[<-|[]]]; (split; [destruct Hso as [->| ->]; ex_live|destruct Hso as [->| ->]; vm_compute; reflexivity]).
    + cbn [element_wise]. auto.
    + unfold shape_of. cbn [vars_of app hd]. ex_shape 1%nat [2; 3]; [|destruct Hso as [->| ->]; vm_compute; reflexivity]. apply Permutation_refl.
  - split; [destruct Hso as [->| ->]; ex_live|]. ex_shape 2%nat [3; 2]; [|destruct Hso as [->| ->]; vm_compute; reflexivity]. constructor; [unfold inr; lia|]. constructor; [unfold inr; lia|]. constructor.
  - split; [destruct Hso as [->| ->]; ex_lt|]. split; [split; [repeat constructor; lia|cbn; lia]|]. split; [destruct Hso as [->| ->]; vm_compute; reflexivity|]. split; destruct Hso as [->| ->]; vm_compute; reflexivity.
  - split; [destruct Hso as [->| ->]; ex_live|]. split; [intros x [<-|[]]; split; [destruct Hso as [->| ->]; ex_live|destruct Hso as [->| ->]; vm_compute; reflexivity]|]. split; [cbn [element_wise]; auto|].
    intros y [<-|[]] E. exfalso. revert E. destruct Hso as [->| ->]; vm_compute; discriminate.
  - split; [destruct Hso as [->| ->]; ex_live|]. split; [destruct Hso as [->| ->]; ex_live|]. split; [destruct Hso as [->| ->]; vm_compute; reflexivity|]. intros E. exfalso. revert E. destruct Hso as [->| ->]; vm_compute; discriminate.
  - destruct (proj2 (proj1 (live_check (arun Zar (AState [] []) (firstn 8 (ex_prog so))) 3) ltac:(destruct Hso as [->| ->]; vm_compute; reflexivity))) as (a & Ha & La). exists a. split; [|exact La].
    rewrite <- Ha. destruct Hso as [->| ->]; reflexivity.
  - split; [split; [repeat constructor; lia|cbn; lia]|apply Permutation_refl].
Qed.
Example C69_example so : so = [0; 1]%nat \/ so = [1; 0]%nat ->
  legal_run Zar (AState [] []) (ex_prog so) /\
  let s := arun Zar (AState [] []) (ex_prog so) in
  live s 0 /\ live s 1 /\ live s 2 /\ ~ live s 3 /\ ~ live s 4 /\ live s 5 /\
  map (read Zar s 0) [[0; 0]; [0; 1]; [0; 2]; [1; 0]; [1; 1]; [1; 2]] = [4; 3; 2; 34; 33; 32] /\ read Zar s 1 [1; 0] = 32 /\ read Zar s 2 [0; 1] = 34 /\ read Zar s 5 [4] = 7 /\
  match crun Zar true true bump (CWorld (fun _ => 0) [] [] []) (ex_prog so) with
  | Some w => map (cw_mem w) (if Nat.eqb (hd 0%nat so) 0 then [0; 1; 2; 3; 4; 5; 6; 7; 8; 9; 10] else [0; 2; 4; 1; 3; 5; 6; 7; 8; 9; 10]) = [4; 3; 2; 34; 33; 32; 7; 7; 7; 7; 7]
  | None => False
  end.
Proof.
  intros Hso. split; [now apply ex_legal|]. cbv zeta.
  do 3 (split; [destruct Hso as [->| ->]; ex_live|]).
  split; [intros H; apply live_check in H; revert H; destruct Hso as [->| ->]; vm_compute; discriminate|].
  split; [intros H; apply live_check in H; revert H; destruct Hso as [->| ->]; vm_compute; discriminate|].
  split; [destruct Hso as [->| ->]; ex_live|].
  split; [destruct Hso as [->| ->]; vm_compute; reflexivity|]. split; [destruct Hso as [->| ->]; vm_compute; reflexivity|]. split; [destruct Hso as [->| ->]; vm_compute; reflexivity|].
  split; [destruct Hso as [->| ->]; vm_compute; reflexivity|]. destruct Hso as [->| ->]; vm_compute; reflexivity.
Qed.
(** What the conditions exclude: assigning to a window an expression that reads the same elements in another order (here the
    reversed elements) gives other values than the meaning, [a = a(range reversed)]; see also C17_overlap_refuted. *)
Definition crossed_prog : list (pstmt Z) :=
  [PNew AlgA [0]%nat [3] (fun i => hd 0 i); PSlice 0 [ARange (Range 2 (-1) (-1))]; PAssign 0 (PVar 1)].
Theorem C69_crossed_refuted : exists s w, s = arun Zar (AState [] []) crossed_prog /\ crun Zar true true bump (CWorld (fun _ => 0) [] [] []) crossed_prog = Some w /\
  live s 0 /\ read Zar s 0 [2] = 0 /\ cw_mem w (elem (snd (cvar w 0)) [2]) = 2.
Proof. eexists. destruct (crun Zar true true bump (CWorld (fun _ => 0) [] [] []) crossed_prog) as [w|] eqn:E; [|vm_compute in E; discriminate]. exists w. split; [reflexivity|]. split; [reflexivity|]. split; [ex_live|]. split; [reflexivity|].
  vm_compute in E. injection E as <-. reflexivity. Qed.
Print Assumptions C69_crossed_refuted.

(** Assignments that give an array another shape (in the same memory, and in new memory), and one that replaces its memory although it reads it. *)
Definition reassign_prog (so : list nat) : list (pstmt Z) :=
  [PNew AlgA so [2; 3] ex_fun; PNew AlgA [0; 1]%nat [3; 2] (fun i => 100 + ex_fun i);
   PReassign false 0 0 (PScalR OpTimes (PVar 1) 2);                    (* x0 = x1 * 2: shape [3; 2], in the memory it has *)
   PReassign true 2 0 (PBin OpPlus (PVar 0) (PVar 1));                (* x0 = array{x0 + x1} *)
   PDestroy 1; PNew AlgA so [1; 2] ex_fun;                           (* x2 *)
   PReassign false 3 0 (PVar 2)].                                    (* x0 = x2: other memory *)
Lemma reassign_legal so : so = [0; 1]%nat \/ so = [1; 0]%nat -> legal_run Zar (AState [] []) (reassign_prog so).
Proof.
  intros Hso. unfold reassign_prog. cbn [legal_run]. split; [split; [split; [repeat constructor; lia|cbn; lia]|now apply ex_so]|].
  split; [split; [split; [repeat constructor; lia|cbn; lia]|apply ex_so; auto]|].
  split; [|split; [|split; [|split; [|split; [|exact I]]]]]; cbn [legal].
  - split; [destruct Hso as [->| ->]; ex_live|]. do 2 (split; [destruct Hso as [->| ->]; vm_compute; reflexivity|]).
    split; [intros x [<-|[]]; split; [destruct Hso as [->| ->]; ex_live|destruct Hso as [->| ->]; vm_compute; reflexivity]|]. split; [cbn [element_wise]; auto|]. split; [destruct Hso as [->| ->]; vm_compute; reflexivity|].
    intros _ y [<-|[]]. destruct Hso as [->| ->]; vm_compute; discriminate.
  - split; [destruct Hso as [->| ->]; ex_live|]. do 2 (split; [destruct Hso as [->| ->]; vm_compute; reflexivity|]).
    split; [intros x [<-|[<-|[]]]; (split; [destruct Hso as [->| ->]; ex_live|destruct Hso as [->| ->]; vm_compute; reflexivity])|]. split; [cbn [element_wise]; auto|]. split; [destruct Hso as [->| ->]; vm_compute; reflexivity|]. discriminate.
  - destruct (proj2 (proj1 (live_check (arun Zar (AState [] []) (firstn 4 (reassign_prog so))) 1) ltac:(destruct Hso as [->| ->]; vm_compute; reflexivity))) as (a & Ha & La). exists a. split; [|exact La].
    rewrite <- Ha. destruct Hso as [->| ->]; vm_compute; reflexivity.
  - split; [split; [repeat constructor; lia|cbn; lia]|now apply ex_so].
  - split; [destruct Hso as [->| ->]; ex_live|]. do 2 (split; [destruct Hso as [->| ->]; vm_compute; reflexivity|]).
    split; [intros x [<-|[]]; split; [destruct Hso as [->| ->]; ex_live|destruct Hso as [->| ->]; vm_compute; reflexivity]|]. split; [cbn [element_wise]; auto|]. split; [destruct Hso as [->| ->]; vm_compute; reflexivity|].
    intros _ y [<-|[]]. destruct Hso as [->| ->]; vm_compute; discriminate.
Qed.
Example C69_reassign_example so : so = [0; 1]%nat \/ so = [1; 0]%nat ->
  legal_run Zar (AState [] []) (reassign_prog so) /\
  match crun Zar true true bump (CWorld (fun _ => 0) [] [] []) (firstn 4 (reassign_prog so)) with
  | Some w => map (fun i => cw_mem w (elem (snd (cvar w 0)) i)) [[0; 0]; [0; 1]; [1; 0]; [1; 1]; [2; 0]; [2; 1]] = [300; 303; 330; 333; 360; 363]
  | None => False end /\
  match crun Zar true true bump (CWorld (fun _ => 0) [] [] []) (reassign_prog so) with
  | Some w => map (fun i => cw_mem w (elem (snd (cvar w 0)) i)) [[0; 0]; [0; 1]] = [0; 1] | None => False end.
Proof. intros Hso. split; [now apply reassign_legal|]. destruct Hso as [->| ->]; vm_compute; auto. Qed.

(** Without the condition that a resized array is not read on the right: [a = transpose(a)] with [a] of shape 2 x 3 (the number of elements stays, so the
    memory does) overwrites elements before it has read them. *)
Definition transpose_prog : list (pstmt Z) := [PNew AlgA [0; 1]%nat [2; 3] ex_fun; PPermute 0 [1; 0]%nat; PReassign false 0 0 (PVar 1)].
Theorem C69_transpose_refuted : exists s w, s = arun Zar (AState [] []) transpose_prog /\ crun Zar true true bump (CWorld (fun _ => 0) [] [] []) transpose_prog = Some w /\
  live s 0 /\ av_shape (var s 0) = [3; 2] /\ read Zar s 0 [1; 0] = 1 /\ cw_mem w (elem (snd (cvar w 0)) [1; 0]) = 10.
Proof. eexists. destruct (crun Zar true true bump (CWorld (fun _ => 0) [] [] []) transpose_prog) as [w|] eqn:E; [|vm_compute in E; discriminate]. exists w. split; [reflexivity|]. split; [reflexivity|]. split; [ex_live|]. split; [reflexivity|]. split; [reflexivity|].
  vm_compute in E. injection E as <-. reflexivity. Qed.
Print Assumptions C69_transpose_refuted.

(** Products: of two matrices stored in the same or in different orders, and of a matrix with a column of another one, which is a view; the product is
    then transposed in place of another array. *)
Definition product_prog (so : list nat) : list (pstmt Z) :=
  [PNew AlgM so [2; 3] ex_fun; PNew AlgM [0; 1]%nat [3; 2] ex_fun;      (* x0, x1 *)
   PMatmul (PVar 0) (PVar 1);                                           (* x2 = x0 * x1 *)
   PSlice 1 [AAll; ALong 1];                                            (* x3: the second column of x1, a vector *)
   PMatvec (PVar 0) (PVar 3);                                           (* x4 = x0 * x3 *)
   PPermute 2 [1; 0]%nat;                                               (* x5: x2 transposed *)
   PWrite 5 [0; 1] 7;                                                   (* x2(1, 0) = 7 *)
   PMatmul (PVar 2) (PVar 0);                                           (* x6 = x2 * x0 *)
   PSlice 0 [AAll; ARange (Range 0 2 1)];                               (* x7: the first two columns of x0 *)
   PMatmul (PVar 7) (PVar 5);                                           (* x8 = x7 * x5, two views *)
   PMatmul (PBin OpMinus (PVar 5) (PVar 2)) (PScalR OpTimes (PVar 7) 2);  (* x9 = (x5 - x2) * (x7 * 2), two expressions *)
   PMatvec (PNeg (PVar 7)) (PBin OpPlus (PVar 4) (PVar 4))].            (* x10 = -x7 * (x4 + x4) *)
Lemma Zar_ring : is_ring Zar.
Proof. exact Zth. Qed.
Ltac ex_gaps := match goal with |- Forall _ ?l => let l' := eval vm_compute in l in replace l with l' by (vm_compute; reflexivity); repeat (constructor; [unfold int_range; lia|]); constructor end.
Ltac ex_product Hso := split; [exact Zar_ring|]; do 2 (split; [destruct Hso as [->| ->]; vm_compute; reflexivity|]); split; [cbn [element_wise]; auto|]; split; [cbn [element_wise]; auto|];
  repeat match goal with |- adjacent _ _ /\ _ => split; [destruct Hso as [->| ->]; first [exact I|split; [vm_compute; reflexivity|ex_gaps]]|] end.
Ltac ex_shaped Hso := intros x Hx; cbn [vars_of app] in Hx; repeat destruct Hx as [<-|Hx]; [..|destruct Hx]; (split; [destruct Hso as [->| ->]; ex_live|destruct Hso as [->| ->]; vm_compute; reflexivity]).
Lemma product_legal so : so = [0; 1]%nat \/ so = [1; 0]%nat -> legal_run Zar (AState [] []) (product_prog so).
Proof.
  intros Hso. unfold product_prog. cbn [legal_run]. split; [split; [split; [repeat constructor; lia|cbn; lia]|now apply ex_so]|].
  split; [split; [split; [repeat constructor; lia|cbn; lia]|apply ex_so; auto]|].
  assert (RG : is_ring Zar) by exact Zar_ring. assert (I2 : int_range 2) by (unfold int_range; lia). assert (I3 : int_range 3) by (unfold int_range; lia).
  split; [|split; [|split; [|split; [|split; [|split; [|split; [|split; [|split; [|split; [|exact I]]]]]]]]]]; cbn [legal].
  - ex_product Hso. exists 2, 3, 2. do 2 (split; [ex_shaped Hso|]). repeat split; auto; lia.
  - split; [destruct Hso as [->| ->]; ex_lt|]. ex_shape 1%nat [3; 2]; [|destruct Hso as [->| ->]; vm_compute; reflexivity]. cbv zeta. cbn [length].
    split; [left; split; reflexivity|]. split; [intros r [H|[H|[]]]; discriminate|]. split.
    + constructor; [exact I|]. constructor; [|constructor]. cbn. lia.
    + exists AAll. split; [now left|reflexivity].
  - ex_product Hso. exists 2, 3. do 2 (split; [ex_shaped Hso|]). repeat split; auto; lia.
  - split; [destruct Hso as [->| ->]; ex_lt|]. ex_shape 2%nat [2; 2]; [|destruct Hso as [->| ->]; vm_compute; reflexivity]. apply perm_swap.
  - split; [destruct Hso as [->| ->]; ex_live|]. ex_shape 5%nat [2; 2]; [|destruct Hso as [->| ->]; vm_compute; reflexivity]. constructor; [unfold inr; lia|]. constructor; [unfold inr; lia|]. constructor.
  - ex_product Hso. exists 2, 2, 3. do 2 (split; [ex_shaped Hso|]). repeat split; auto; lia.
  - split; [destruct Hso as [->| ->]; ex_lt|]. ex_shape 0%nat [2; 3]; [|destruct Hso as [->| ->]; vm_compute; reflexivity]. cbv zeta. cbn [length].
    split; [left; split; reflexivity|]. split; [intros r [H|[H|[]]]; [discriminate|injection H as <-; cbn; lia]|]. split.
    + constructor; [exact I|]. constructor; [|constructor]. intros x [Hx H]. cbn -[Z.add Z.mul Z.gt] in *. lia.
    + exists AAll. split; [now left|reflexivity].
  - ex_product Hso. exists 2, 2, 2. do 2 (split; [ex_shaped Hso|]). repeat split; auto; lia.
  - ex_product Hso. exists 2, 2, 2. do 2 (split; [ex_shaped Hso|]). repeat split; auto; lia.
  - ex_product Hso. exists 2, 2. do 2 (split; [ex_shaped Hso|]). repeat split; auto; lia.
Qed.
Example C69_product_example so : so = [0; 1]%nat \/ so = [1; 0]%nat ->
  legal_run Zar (AState [] []) (product_prog so) /\
  match crun Zar true true bump (CWorld (fun _ => 0) [] [] []) (product_prog so) with
  | Some w => map (fun i => cw_mem w (elem (snd (cvar w 2)) i)) [[0; 0]; [0; 1]; [1; 0]; [1; 1]] = [50; 53; 7; 383] /\
              map (fun i => cw_mem w (elem (snd (cvar w 4)) i)) [[0]; [1]] = [53; 383] /\
              map (fun i => cw_mem w (elem (snd (cvar w 6)) i)) [[0; 0]; [0; 1]; [1; 2]] = [530; 633; 4610] /\
              map (fun i => cw_mem w (elem (snd (cvar w 8)) i)) [[0; 0]; [0; 1]; [1; 0]; [1; 1]] = [53; 383; 1083; 4283] /\
              map (fun i => cw_mem w (elem (snd (cvar w 9)) i)) [[0; 0]; [0; 1]; [1; 0]; [1; 1]] = [-920; -1012; 0; 92] /\
              map (fun i => cw_mem w (elem (snd (cvar w 10)) i)) [[0]; [1]] = [-766; -9486] /\
              im_so (v_lay (snd (cvar w 8))) = (if Nat.eqb (hd 0%nat so) 0 then [0; 1]%nat else [1; 0]%nat)
  | None => False end.
Proof. intros Hso. split; [now apply product_legal|]. destruct Hso as [->| ->]; vm_compute; repeat split. Qed.
