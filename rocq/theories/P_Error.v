(** C79: what the message of an error says. *)
From Coq Require Import Ascii String.
From Verif Require Import Base M_Error S_Error L_Error.
Local Open Scope nat_scope.

(** Every program whose objects are given pieces as S_Error.ideal_step allows (in any order, copies and calls of what() in between) runs
    without touching a released or destroyed object, and what() of each object shows its pieces in order, then the closing line; objects
    that were destroyed, and only these, are gone. *)
Theorem C79_message p s : ideal_run [] p = Some s ->
  exists w, run start p = Some w /\ List.length (w_err w) = List.length s /\
  (forall x, get w x = None <-> note_of s x = None) /\
  (forall x n, note_of s x = Some n -> exists w1 b, what w x = Some (w1, b) /\ block w1 b = Some (shown (n_text n))).
Proof.
  intros H. destruct (run_good p start [] s good_start H) as (w & Hw & G & _). exists w. split; [exact Hw|].
  split; [exact (g_len _ _ G)|]. split; [exact (g_alive _ _ G)|].
  intros x n Hn. destruct (good_what w s x n G Hn) as (w1 & H1 & _ & B1 & _). eauto.
Qed.

(** The text what() returned can be read, and is the same, until the object is asked again or destroyed: whatever else the program does. *)
Theorem C79_pointer p s x n q s1 : ideal_run [] p = Some s -> note_of s x = Some n -> ideal_run s q = Some s1 ->
  forallb (fun o => negb (ends o x)) q = true ->
  exists w w1 b w2, run start p = Some w /\ what w x = Some (w1, b) /\ run w1 q = Some w2 /\ block w2 b = Some (shown (n_text n)).
Proof.
  intros H Hn Hq F. destruct (run_good p start [] s good_start H) as (w & Hw & G & _).
  destruct (good_what w s x n G Hn) as (w1 & H1 & G1 & B1 & _).
  destruct (run_good q w1 s s1 G1 Hq) as (w2 & H2 & _ & K2).
  exists w, w1, (List.length (w_mem w)), w2. repeat (split; [assumption|]).
  assert (E : exists e, get w1 x = Some e /\ e_what e = Some (List.length (w_mem w))).
  { revert H1. unfold what. destruct (get w x) as [e|] eqn:Hx; [|discriminate]. cbv zeta.
    destruct (release _ _) as [w3|] eqn:Hr; [|discriminate]. intros [= <-].
    assert (E3 : w_err w3 = w_err w).
    { revert Hr. unfold release. destruct (e_what e) as [c|]; [|intros [= <-]; reflexivity]. destruct (block _ c); [|discriminate]. intros [= <-]. reflexivity. }
    exists (Error (e_acc e) (Some (List.length (w_mem w)))). split; [|reflexivity]. rewrite get_look in *. unfold set. cbn [w_err].
    rewrite E3, look_upd, Nat.eqb_refl by congruence. reflexivity. }
  destruct E as (e & He & Ee). exact (K2 x _ _ e F He Ee B1).
Qed.

(** No memory is left over: when all objects are destroyed, all texts are released; at any time, a text is kept only for an object that is
    alive, one for each. *)
Theorem C79_memory p s : ideal_run [] p = Some s ->
  exists w, run start p = Some w /\
  (forall b, block w b <> None -> exists x e, get w x = Some e /\ e_what e = Some b) /\
  (forall x y e f b, get w x = Some e -> get w y = Some f -> e_what e = Some b -> e_what f = Some b -> x = y) /\
  ((forall x, note_of s x = None) -> forall b, block w b = None).
Proof.
  intros H. destruct (run_good p start [] s good_start H) as (w & Hw & G & _). exists w. split; [exact Hw|].
  split; [exact (g_back _ _ G)|]. split; [exact (g_one _ _ G)|].
  intros N b. destruct (block w b) as [t|] eqn:Hb; auto. destruct (g_back _ _ G b) as (x & e & Hx & _); [congruence|].
  specialize (N x). apply (g_alive _ _ G) in N. congruence.
Qed.

(** *** The macros *)
Lemma ideal_run_app p q : forall s, ideal_run s (p ++ q) = match ideal_run s p with Some s1 => ideal_run s1 q | None => None end.
Proof. induction p as [|o p IH]; intros s; cbn [app ideal_run]; auto. destruct (ideal_step s o); auto. Qed.
Lemma note_last (s : notes) a : note_of (s ++ [a]) (List.length s) = a.
Proof. rewrite note_look, look_app, Nat.eqb_refl. reflexivity. Qed.
Lemma upd_last {T} (s : list T) a b : upd (s ++ [a]) (List.length s) b = s ++ [b].
Proof. induction s as [|c s IH]; cbn; congruence. Qed.
Lemma adds l : forall (s : notes) t, ideal_run (s ++ [Some (Note t true)]) (map (Add (List.length s)) l) = Some (s ++ [Some (Note (t ++ concat l) true)]).
Proof.
  induction l as [|u l IH]; intros s t; cbn [map ideal_run concat].
  - now rewrite app_nil_r.
  - cbn [ideal_step]. rewrite note_last. cbn [n_open n_text]. rewrite upd_last, IH, <- app_assoc. reflexivity.
Qed.
Lemma copy_drop (s : notes) t o : ideal_run (s ++ [Some (Note t o)]) [Copy (List.length s); Drop (List.length s)] = Some (s ++ [None; Some (Note t (empty t))]).
Proof.
  cbn [ideal_run ideal_step]. rewrite note_last. cbn [n_text].
  assert (E : forall a, note_of ((s ++ [Some (Note t o)]) ++ [a]) (List.length s) = Some (Note t o)).
  { intros a. rewrite note_look, look_app. destruct (Nat.eqb_spec (List.length s) (List.length (s ++ [Some (Note t o)]))) as [B|_].
    - rewrite app_length in B. cbn in B. lia.
    - exact (note_last s _). }
  rewrite E. rewrite <- app_assoc. cbn [app]. f_equal.
  assert (U : forall a b c : option note, upd (s ++ [a; b]) (List.length s) c = s ++ [c; b]).
  { intros a b c. clear. induction s as [|d s IH]; cbn; congruence. }
  apply U.
Qed.
Lemma ideal_throw s file line l :
  ideal_run s (throw_error (List.length s) file line l) =
  Some (s ++ [None; Some (Note (lit "Error at " ++ file ++ lit " : " ++ line ++ newline :: newline :: concat l) false)]).
Proof.
  unfold throw_error. rewrite ideal_run_app. cbn [ideal_run ideal_step]. rewrite ideal_run_app, adds, copy_drop. reflexivity.
Qed.
(** NDA_RUNTIME_ERROR << pieces, at any point of a program: the temporary is gone, and the exception that is caught says where it was thrown
    and all pieces; the other objects are as before. *)
Theorem C79_throw p s file line pieces : ideal_run [] p = Some s ->
  exists w, run start (p ++ throw_error (List.length s) file line pieces) = Some w /\
  get w (List.length s) = None /\
  (exists w1 b, what w (S (List.length s)) = Some (w1, b) /\
     block w1 b = Some (lit "Error at " ++ file ++ lit " : " ++ line ++ newline :: newline :: concat pieces ++ newline :: lit ".. Error occurred on node ")) /\
  (forall x n, note_of s x = Some n -> exists w1 b, what w x = Some (w1, b) /\ block w1 b = Some (shown (n_text n))).
Proof.
  intros H.
  assert (R : ideal_run [] (p ++ throw_error (List.length s) file line pieces) =
    Some (s ++ [None; Some (Note (lit "Error at " ++ file ++ lit " : " ++ line ++ newline :: newline :: concat pieces) false)])).
  { rewrite ideal_run_app, H. apply ideal_throw. }
  destruct (C79_message _ _ R) as (w & Hw & _ & Ha & Hm). exists w. split; [exact Hw|].
  match type of R with _ = Some (s ++ [None; Some ?m]) => set (nt := m) in * end.
  assert (N : forall x, note_of (s ++ [None; Some nt]) x = if Nat.eqb x (S (List.length s)) then Some nt else note_of s x).
  { intros x. change [None; Some nt] with ([None] ++ [Some nt]). rewrite app_assoc, note_look, !look_app, app_length. cbn [List.length].
    rewrite Nat.add_1_r. destruct (Nat.eqb x (S (List.length s))); auto. destruct (Nat.eqb_spec x (List.length s)) as [->|]; auto.
    rewrite note_look, look_end. reflexivity. }
  split; [|split].
  - apply Ha. rewrite N. destruct (Nat.eqb_spec (List.length s) (S (List.length s))) as [B|_]; [lia|]. rewrite note_look. apply look_end.
  - destruct (Hm (S (List.length s)) nt) as (w1 & b & H1 & H2); [rewrite N, Nat.eqb_refl; reflexivity|].
    exists w1, b. split; [exact H1|]. rewrite H2. unfold shown, nt. cbn [n_text]. f_equal.
    repeat (rewrite <- ?app_assoc; cbn [app]; f_equal). 
  - intros x n Hx. apply Hm. rewrite N. destruct (Nat.eqb_spec x (S (List.length s))) as [->|]; auto.
    exfalso. revert Hx. unfold note_of. rewrite (proj2 (nth_error_None _ _)) by lia. discriminate.
Qed.
(** NDA_ASSERT2(X, pieces) and NDA_ASSERT(X) do nothing if the condition holds; otherwise the exception says where, the condition and the pieces. *)
Theorem C79_assert p s file line x pieces holds : ideal_run [] p = Some s ->
  (exists w, run start (p ++ nda_assert2 holds (List.length s) file line x pieces) = Some w /\
     if holds then run start p = Some w
     else exists w1 b, what w (S (List.length s)) = Some (w1, b) /\
       block w1 b = Some (lit "Error at " ++ file ++ lit " : " ++ line ++ newline :: newline :: x ++ newline :: lit " " ++ concat pieces ++ newline :: lit ".. Error occurred on node ")) /\
  (exists w, run start (p ++ nda_assert holds (List.length s) file line x) = Some w /\
     if holds then run start p = Some w
     else exists w1 b, what w (S (List.length s)) = Some (w1, b) /\
       block w1 b = Some (lit "Error at " ++ file ++ lit " : " ++ line ++ newline :: newline :: x ++ newline :: lit ".. Error occurred on node ")).
Proof.
  intros H. destruct holds; cbn [nda_assert nda_assert2].
  - rewrite app_nil_r. destruct (C79_message p s H) as (w & Hw & _). split; exists w; auto.
  - split.
    + destruct (C79_throw p s file line (x :: (newline :: lit " ") :: pieces) H) as (w & Hw & _ & (w1 & b & H1 & H2) & _).
      exists w. split; [exact Hw|]. exists w1, b. split; [exact H1|]. rewrite H2. cbn [concat]. rewrite <- !app_assoc. reflexivity.
    + destruct (C79_throw p s file line [x] H) as (w & Hw & _ & (w1 & b & H1 & H2) & _).
      exists w. split; [exact Hw|]. exists w1, b. split; [exact H1|]. rewrite H2. cbn [concat]. rewrite app_nil_r. reflexivity.
Qed.

(** *** Where the claim fails *)
(** what is added to a copy with a text (hence to an exception that was caught) replaces the beginning of the text *)
Theorem C79_copy_refuted (t s : text) : t <> [] ->
  ideal_run [] [New; Add 0 t; Copy 0; Add 1 s] = None /\
  exists w w1 b, run start [New; Add 0 t; Copy 0; Add 1 s] = Some w /\ what w 1 = Some (w1, b) /\
    block w1 b = Some (shown (s ++ skipn (List.length s) t)).
Proof.
  intros Nt. split.
  - cbn. destruct t as [|c t]; [congruence|reflexivity].
  - do 3 eexists. split; [|split].
    + cbn [run step]. unfold append, copy, construct, start. cbn -[stream_write lit]. reflexivity.
    + unfold what. cbn -[stream_write lit s_text]. reflexivity.
    + rewrite block_look. cbn [w_mem set]. unfold look. cbn -[stream_write lit s_text]. f_equal. rewrite out_text. f_equal.
      rewrite write_new. unfold stream_of, stream_write. cbn -[lit skipn]. reflexivity.
Qed.
(** the text of the first what() is released by the second one *)
Theorem C79_pointer_refuted (t : text) :
  exists w w1 b w2 c, run start [New; Add 0 t] = Some w /\ what w 0 = Some (w1, b) /\ what w1 0 = Some (w2, c) /\ block w2 b = None.
Proof. do 5 eexists. repeat (split; [cbn -[stream_write lit]; reflexivity|]). reflexivity. Qed.

(** *** Cases that meet the hypotheses *)
Example C79_ex : exists s, ideal_run [] [New; Add 0 (lit "a"); What 0; Copy 0; Add 0 (lit "b"); New; What 1; Drop 0; Copy 2; Add 3 (lit "c")] = Some s /\
  s = [None; Some (Note (lit "a") false); Some (Note [] true); Some (Note (lit "c") true)].
Proof. eexists. split; vm_compute; reflexivity. Qed.
Example C79_ex_throw :
  match run start ([New; Add 0 (lit "x")] ++ nda_assert2 false 1 (lit "f.cpp") (lit "12") (lit "n > 0") [lit "n = "; lit "-1"]) with
  | Some w => match what w 2 with Some (w1, b) => block w1 b | None => None end
  | None => None
  end = Some (lit "Error at f.cpp : 12" ++ [newline; newline] ++ lit "n > 0" ++ [newline] ++ lit " n = -1" ++ [newline] ++ lit ".. Error occurred on node ").
Proof. vm_compute. reflexivity. Qed.
Example C79_ex_pointer : exists s n s1, ideal_run [] [New; Add 0 (lit "a"); New; What 1] = Some s /\ note_of s 0 = Some n /\
  ideal_run s [Add 0 (lit "b"); What 1; Copy 0; What 2; Drop 1] = Some s1 /\
  forallb (fun o => negb (ends o 0)) [Add 0 (lit "b"); What 1; Copy 0; What 2; Drop 1] = true.
Proof. do 3 eexists. vm_compute. repeat split. Qed.

Print Assumptions C79_message.
Print Assumptions C79_pointer.
Print Assumptions C79_memory.
Print Assumptions C79_throw.
Print Assumptions C79_assert.
Print Assumptions C79_copy_refuted.
Print Assumptions C79_pointer_refuted.
