(** C76: memory shared by C++ and Python is released exactly when its last owner is gone. *)
From Verif Require Import Base M_PyOwn S_PyOwn L_PyOwn L_PyOwn2.

(** Every legal program (S_PyOwn) of arrays, shared handles, views and NumPy arrays that share, copy, move, slice, write and release in
    any order runs without use of freed memory, double release or negative count; afterwards (so after every prefix, too) all
    variables show what they should, a block is allocated exactly when an array, a shared handle or a name of Python refers to it,
    and nothing is left when no owner is. *)
Theorem C76_ownership (A : Type) (nh ns nv np : nat) (p : list (op (A := A))) (s : ideal A) :
  ideal_run (ideal_start nh ns nv np) p = Some s ->
  exists w, run (start nh ns nv np) p = Some w /\ same_contents w s /\ exactly_live w s /\ nothing_left w s.
Proof.
  intros E. destruct (run_rel p _ _ _ (start_rel nh ns nv np) E) as (w & Ew & R). exists w. split; [exact Ew|]. split; [now apply rel_contents|]. split; [now apply rel_exactly|now apply rel_nothing].
Qed.

Lemma ideal_run_app {A} (p q : list (op (A := A))) : forall s, ideal_run s (p ++ q) = match ideal_run s p with Some s1 => ideal_run s1 q | None => None end.
Proof. induction p as [|o p IH]; intros s; cbn; [reflexivity|]. destruct (ideal_step s o); auto. Qed.
Lemma run_app {A} (p q : list (op (A := A))) : forall w, run w (p ++ q) = match run w p with Some w1 => run w1 q | None => None end.
Proof. induction p as [|o p IH]; intros w; cbn; [reflexivity|]. destruct (exec w o); auto. Qed.

(** An array given to Python: whatever legal program ran before, the NumPy array shows the elements of the C++ array after that array is
    destroyed, and after any legal program that does not write to these elements and does not delete the name. *)
Theorem C76_outlives (A : Type) (nh ns nv np v q : nat) (p p' : list (op (A := A))) (s s' : ideal A) (l : list A) :
  ideal_run (ideal_start nh ns nv np) p = Some s -> contents s (at_ (i_h s) v) = Some l -> unused (i_p s) q = true ->
  ideal_run (put_h (put_p s q (at_ (i_h s) v)) v Dead) p' = Some s' -> at_ (i_p s') q = at_ (i_h s) v -> contents s' (at_ (i_p s') q) = Some l ->
  exists w o n d b, run (start nh ns nv np) (p ++ [ToPy q v; End v] ++ p') = Some w /\
    nth_error (w_p w) q = Some (Some o) /\ nth_error (m_obj (w_mem w)) o = Some (OArray n d b) /\ shows (w_mem w) d l.
Proof.
  intros E El Hq E' Ea El'. pose proof (contents_alive _ _ _ _ El) as Hv.
  assert (Hp : ideal_run (ideal_start nh ns nv np) (p ++ [ToPy q v; End v] ++ p') = Some s').
  { rewrite ideal_run_app, E. cbn [app ideal_run ideal_step]. rewrite Hq, Hv. cbn [andb put_p i_h]. now rewrite Hv. }
  destruct (C76_ownership A nh ns nv np _ _ Hp) as (w & Ew & (_ & _ & Hc & _) & _).
  destruct (Hc q (contents_alive _ _ _ _ El')) as (o & n & d & b & l' & H1 & H2 & H3 & H4). rewrite El' in H3. injection H3 as <-. exists w, o, n, d, b. auto.
Qed.

(** The legality rules on views are needed.  A view of an array knows the array as a variable: when that was moved from, the NumPy array
    made of the view keeps nothing alive, although another array owned the memory when it was made. *)
Theorem C76_parent_moved_refuted :
  exists p w, run (start (A := Z) 3 0 1 1) p = Some w /\ getv (w_p w) 0 <> None /\ (exists o n b t, getv (w_p w) 0 = Some o /\ nth_error (m_obj (w_mem w)) o = Some (OArray n (Some b) t) /\ nth_error (m_blk (w_mem w)) b = Some None)
  /\ run (start 3 0 1 1) (p ++ [FromPy 2 0]) = None
  /\ (exists w0, run (start 3 0 1 1) (firstn 4 p) = Some w0 /\ skipn 4 p = [End 1] /\ exists o n b t l, getv (w_p w0) 0 = Some o /\ nth_error (m_obj (w_mem w0)) o = Some (OArray n (Some b) t) /\ nth_error (m_blk (w_mem w0)) b = Some (Some l)).
Proof.
  exists [New 0 [7]; MakeView 0 0; MoveH 1 0; ViewToPy 0 0; End 1]. eexists. split; [reflexivity|]. split; [discriminate|]. split; [exists 1%nat, 1%nat, 0%nat; eexists; repeat split; reflexivity|]. split; [reflexivity|].
  eexists. split; [reflexivity|]. split; [reflexivity|]. exists 1%nat, 1%nat, 0%nat. eexists _, _. repeat split; reflexivity.
Qed.
(** A view of a NumPy array does not keep it alive. *)
Theorem C76_python_view_refuted :
  exists p w, run (start (A := Z) 0 0 1 1) p = Some w /\ (exists b, getv (w_v w) 0 = Some (BView (Some b) None) /\ nth_error (m_blk (w_mem w)) b = Some None) /\ run (start 0 0 1 1) (p ++ [WriteV 0 0 5]) = None.
Proof. exists [PyNew 0 [7]; ViewOfPy 0 0; PyDel 0]. eexists. split; [reflexivity|]. split; [exists 0%nat; split; reflexivity|reflexivity]. Qed.
(** A view of a view has no parent and can never be given to Python: the attempt throws and changes nothing. *)
Theorem C76_view_of_view (A : Type) (w w1 w2 : world A) (u x q : nat) :
  exec w (SubView u x) = Some w1 -> (u < length (w_v w))%nat -> exec w1 (ViewToPy q u) = Some w2 -> w2 = w1.
Proof.
  cbn [exec]. destruct (getv (w_v w) x) as [vx|]; [|discriminate]. intros [= <-] Hu. unfold getv. cbn [w_v set_v]. rewrite nth_upd_eq by exact Hu. cbn [v_parent]. congruence.
Qed.

(** ** examples *)
(** given to Python twice, the C++ array destroyed, one name deleted, a slice taken, the other deleted: the slice keeps the memory, with
    what was written in between by C++ and Python *)
Definition session : list (op (A := Z)) :=
  [New 0 [1; 2; 3]; ToPy 0 0; WriteH 0 1 20; ToPy 1 0; Share 0 0; End 0; PyWrite 1 2 30; PyDel 0; PySlice 0 1; PyDel 1; WriteS 0 0 10; EndS 0].
Example C76_ex_legal : exists s, ideal_run (ideal_start 2 2 1 2) session = Some s /\ contents s (at_ (i_p s) 0) = Some [10; 20; 30] /\ owners s = [Dead; Dead; Dead; Dead; Ref 0; Dead].
Proof. eexists. split; [reflexivity|]. split; reflexivity. Qed.
Example C76_ex_run : option_map (fun w => m_blk (w_mem w)) (run (start 2 2 1 2) session) = Some [Some [10; 20; 30]].
Proof. reflexivity. Qed.
(** ... and with the slice the last object goes *)
Example C76_ex_end : option_map (fun w => (m_blk (w_mem w), map count (m_obj (w_mem w)))) (run (start 2 2 1 2) (session ++ [PyDel 0])) = Some ([None], [0; 0; 0; 0; 0; 0]%nat).
Proof. reflexivity. Qed.
(** a NumPy array in a shared handle of C++, which outlives the name of Python; a copy into an array *)
Example C76_ex_foreign : option_map (fun w => m_blk (w_mem w)) (run (start (A := Z) 1 2 1 1) [PyNew 0 [1; 2]; Foreign 0 0; FromPy 0 0; CopySS 1 0; PyDel 0; EndS 0; WriteS 1 0 9]) = Some [Some [9; 2]; Some [1; 2]]
  /\ option_map (fun w => m_blk (w_mem w)) (run (start (A := Z) 1 2 1 1) [PyNew 0 [1; 2]; Foreign 0 0; FromPy 0 0; CopySS 1 0; PyDel 0; EndS 0; WriteS 1 0 9; EndS 1]) = Some [None; Some [1; 2]].
Proof. split; reflexivity. Qed.
Example C76_ex_outlives : exists s s', ideal_run (ideal_start 1 0 0 1) [New 0 [4; 5]] = Some s /\ contents s (at_ (i_h s) 0) = Some [4; 5] /\ unused (i_p s) 0 = true /\
  ideal_run (put_h (put_p s 0 (at_ (i_h s) 0)) 0 Dead) [New 0 [6]; End 0] = Some s' /\ at_ (i_p s') 0 = at_ (i_h s) 0 /\ contents s' (at_ (i_p s') 0) = Some [4; 5].
Proof. eexists _, _. repeat split; reflexivity. Qed.
(** views: written through while an owner is there, whoever it is; assigned arrays release what they had *)
Example C76_ex_views : option_map (fun w => m_blk (w_mem w)) (run (start (A := Z) 2 0 2 1) [New 0 [1; 2]; New 1 [3]; MakeView 0 0; SubView 1 0; AssignMove 1 0; WriteV 1 0 8; ToPy 0 1; End 1; WriteV 0 1 9]) = Some [Some [8; 9]; None].
Proof. reflexivity. Qed.

Print Assumptions C76_ownership.
Print Assumptions C76_outlives.
Print Assumptions C76_parent_moved_refuted.
Print Assumptions C76_python_view_refuted.
Print Assumptions C76_view_of_view.
