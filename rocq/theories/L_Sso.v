From Verif Require Import Base M_Handle S_Handle L_Handle M_Sso S_Sso.

Section Proofs.
Context {A : Type}.
Variable (t : traits) (dflt zero : A) (cap : nat).
Hypothesis Hok : traits_ok t.

Definition covers (l cs : list (option A)) : Prop := Forall2 (fun s c => s = None \/ s = c) l cs.
Definition raw (cs : list (option A)) : Prop := t_tcopy t = false -> Forall (fun c => c = None) cs.

Lemma covers_length l cs : covers l cs -> length l = length cs.
Proof. induction 1; simpl; auto. Qed.
Lemma covers_refl l : covers l l.
Proof. induction l; constructor; auto. Qed.
Lemma covers_none n cs : n = length cs -> covers (repeat None n) cs.
Proof. intros ->. induction cs; simpl; constructor; auto. Qed.
Lemma covers_upd l cs i c : covers l cs -> covers (upd l i c) (upd cs i c).
Proof. intros H. apply Forall2_upd; auto. Qed.
Lemma covers_nth l cs i a : covers l cs -> nth_error l i = Some (Some a) -> nth_error cs i = Some (Some a).
Proof.
  intros H E. destruct (Forall2_nth_error_l _ _ _ _ _ H E) as (c & Ec & [Hc|Hc]); congruence.
Qed.
Lemma good_upd (l : list (option A)) i (a : A) : good t l -> good t (upd l i (Some a)).
Proof.
  intros H E. specialize (H E). unfold some_all in *. rewrite Forall_forall in *. intros c Hc.
  apply In_nth_error in Hc. destruct Hc as (j & Hj). apply nth_error_upd in Hj. destruct Hj as [[_ ->]|[_ Hj]]; [congruence|].
  apply nth_error_In in Hj. auto.
Qed.

(** ** ownership *)
Definition use (b : nat) (o : option sso) : nat :=
  match o with
  | None => 0
  | Some q => (b2n (Nat.eqb (q_buf q) b)
               + match q_data q with Some d => b2n (negb (Nat.eqb d (q_buf q)) && Nat.eqb d b) | None => 0 end)%nat
  end.
Fixpoint suse (b : nat) (l : list (option sso)) : nat := match l with [] => 0 | o :: l' => (use b o + suse b l')%nat end.
Definition live01 (H : heap A) (b : nat) : nat := match nth_error H b with Some blk => b2n (b_live blk) | None => 0 end.

Lemma suse_upd b l v x y : nth_error l v = Some y -> (suse b (upd l v x) + use b y = suse b l + use b x)%nat.
Proof.
  revert v; induction l as [|z l IH]; intros [|v] H; simpl in *; try discriminate.
  - injection H as ->. lia.
  - specialize (IH v H). lia.
Qed.
Lemma suse_le b l v y : nth_error l v = Some y -> (use b y <= suse b l)%nat.
Proof.
  revert v; induction l as [|z l IH]; intros [|v] H; simpl in *; try discriminate.
  - injection H as ->. lia.
  - specialize (IH v H). lia.
Qed.
Lemma suse_two b l u v x y : u <> v -> nth_error l u = Some x -> nth_error l v = Some y -> (use b x + use b y <= suse b l)%nat.
Proof.
  revert u v; induction l as [|z l IH]; intros [|u] [|v] N Hu Hv; simpl in *; try discriminate; try congruence.
  - injection Hu as ->. pose proof (suse_le b _ _ _ Hv). lia.
  - injection Hv as ->. pose proof (suse_le b _ _ _ Hu). lia.
  - assert (N' : u <> v) by congruence. specialize (IH u v N' Hu Hv). lia.
Qed.
Lemma suse_ex b l : (0 < suse b l)%nat -> exists v y, nth_error l v = Some y /\ (0 < use b y)%nat.
Proof.
  induction l as [|z l IH]; simpl; intros H; [lia|]. destruct (Nat.eq_dec (use b z) 0) as [E|E].
  - destruct IH as (v & y & H1 & H2); [lia|]. exists (S v), y. auto.
  - exists 0%nat, z. split; auto. lia.
Qed.
Lemma live01_le H b : (live01 H b <= 1)%nat.
Proof. unfold live01. destruct (nth_error H b) as [[[] ?]|]; simpl; auto. Qed.
Lemma live01_live H b cs : nth_error H b = Some (Block true cs) -> live01 H b = 1%nat.
Proof. unfold live01. now intros ->. Qed.
Lemma live01_upd H b b' blk : (b < length H)%nat -> live01 (upd H b blk) b' = if Nat.eqb b b' then b2n (b_live blk) else live01 H b'.
Proof.
  intros L. unfold live01. destruct (Nat.eqb_spec b b') as [<-|N]; [now rewrite nth_error_upd_eq|now rewrite nth_error_upd_neq].
Qed.
Lemma live01_app H blk b : live01 (H ++ [blk]) b = if Nat.eqb b (length H) then b2n (b_live blk) else live01 H b.
Proof.
  unfold live01. destruct (Nat.eqb_spec b (length H)) as [->|N]; [now rewrite nth_error_new|].
  destruct (Nat.ltb_spec b (length H)) as [L|L]; [now rewrite nth_error_app1|].
  rewrite (proj2 (nth_error_None H b)) by lia. rewrite (proj2 (nth_error_None (H ++ [blk]) b)); [easy|].
  rewrite app_length. simpl. lia.
Qed.
Lemma use_buf q : (0 < use (q_buf q) (Some q))%nat.
Proof. unfold use. rewrite Nat.eqb_refl. simpl. lia. Qed.
Lemma use_data q d : q_data q = Some d -> (0 < use d (Some q))%nat.
Proof.
  intros E. unfold use. rewrite E. destruct (Nat.eqb_spec d (q_buf q)) as [->|N]; [rewrite Nat.eqb_refl; simpl; lia|].
  rewrite Nat.eqb_refl. simpl. lia.
Qed.
Lemma use_inv b q : (0 < use b (Some q))%nat -> q_buf q = b \/ q_data q = Some b.
Proof.
  unfold use. destruct (Nat.eqb_spec (q_buf q) b) as [E|E]; auto. destruct (q_data q) as [d|]; [|simpl; lia].
  destruct (Nat.eqb_spec d b) as [->|N]; auto. rewrite andb_false_r. simpl. lia.
Qed.

(** ** one variable *)
Definition okq (H : heap A) (q : sso) (l : list (option A)) : Prop :=
  exists bc, nth_error H (q_buf q) = Some (Block true bc) /\ length bc = cap /\ q_size q = length l /\
  ((l = [] /\ q_data q = None /\ raw bc)
   \/ (l <> [] /\ (length l <= cap)%nat /\ q_data q = Some (q_buf q) /\
       exists l1 l2, bc = l1 ++ l2 /\ covers l l1 /\ good t l1 /\ raw l2)
   \/ ((cap < length l)%nat /\ raw bc /\ exists b cs, q_data q = Some b /\ b <> q_buf q /\
       nth_error H b = Some (Block true cs) /\ covers l cs /\ good t cs)).
Definition okv (H : heap A) (o : option sso) (x : option (list (option A))) : Prop :=
  match o, x with None, None => True | Some q, Some l => okq H q l | _, _ => False end.

Lemma okv_frame H H' o x : (forall b, (0 < use b o)%nat -> nth_error H' b = nth_error H b) -> okv H o x -> okv H' o x.
Proof.
  destruct o as [q|], x as [l|]; simpl; auto. intros F (bc & Eb & Lb & Es & Hc).
  exists bc. rewrite (F _ (use_buf q)). split; [|split; [|split]]; auto.
  destruct Hc as [Hc|[Hc|(L & R & b & cs & Ed & N & Ec & C & G)]]; [now left|now right; left|].
  right; right. split; [|split]; auto. exists b, cs. rewrite (F _ (use_data _ _ Ed)). auto.
Qed.

Definition Rel (H : heap A) (wv : list (option sso)) (s : list (option (list (option A)))) : Prop :=
  length wv = length s
  /\ (forall v o x, nth_error wv v = Some o -> nth_error s v = Some x -> okv H o x)
  /\ (forall b, suse b wv = live01 H b).

Lemma Rel_get H wv s v l : Rel H wv s -> nth_error s v = Some (Some l) -> exists q, nth_error wv v = Some (Some q) /\ okq H q l.
Proof.
  intros (L & V & _) E. destruct (nth_error wv v) as [o|] eqn:Eo.
  - specialize (V _ _ _ Eo E). destruct o as [q|]; [eauto|contradiction].
  - apply nth_error_None in Eo. apply nth_error_lt in E. lia.
Qed.
Lemma Rel_none H wv s v : Rel H wv s -> nth_error s v = Some None -> nth_error wv v = Some None.
Proof.
  intros (L & V & _) E. destruct (nth_error wv v) as [o|] eqn:Eo.
  - specialize (V _ _ _ Eo E). destruct o as [q|]; [contradiction|auto].
  - apply nth_error_None in Eo. apply nth_error_lt in E. lia.
Qed.

Lemma Rel_update H wv s v old H' o x : Rel H wv s -> nth_error wv v = Some old ->
  (forall b, (b < length H)%nat -> use b old = 0%nat -> nth_error H' b = nth_error H b) ->
  okv H' o x ->
  (forall b, (live01 H' b + use b old = live01 H b + use b o)%nat) ->
  Rel H' (upd wv v o) (upd s v x).
Proof.
  intros (L & V & U) Eo F Hv Hu. split; [|split].
  - now rewrite !upd_length.
  - intros u o' x' Ho' Hx'. apply nth_error_upd in Ho'. apply nth_error_upd in Hx'.
    destruct Ho' as [[<- ->]|[N Ho']], Hx' as [[E ->]|[N' Hx']]; auto; try congruence.
    apply (okv_frame H); [|eauto]. intros b Hb. pose proof (suse_two b wv v u old o' N Eo Ho') as S2.
    rewrite U in S2. pose proof (live01_le H b) as L1. apply F; [|lia].
    destruct (Nat.ltb_spec b (length H)) as [Q|Q]; auto. unfold live01 in S2. rewrite (proj2 (nth_error_None H b)) in S2 by auto. lia.
  - intros b. pose proof (suse_upd b wv v o old Eo) as S1. specialize (Hu b). specialize (U b). lia.
Qed.

(** ** loops *)
Lemma fill_prefix (f : nat -> heap A -> option (heap A)) b n (l : list (option A)) (H : heap A) cs :
  nth_error H b = Some (Block true cs) -> (n <= length cs)%nat -> length l = n ->
  (forall i h c, nth_error l i = Some c -> (forall o, o <> b -> nth_error h o = nth_error H o) ->
     nth_error h b = Some (Block true (firstn i l ++ skipn i cs)) -> (i < n)%nat ->
     f i h = Some (upd h b (Block true (upd (firstn i l ++ skipn i cs) i c)))) ->
  for_upto n f H = Some (upd H b (Block true (l ++ skipn n cs))).
Proof.
  intros Eb Lc Ll Hf.
  assert (G : forall k, (k <= n)%nat -> for_upto k f H = Some (upd H b (Block true (firstn k l ++ skipn k cs)))).
  { induction k as [|k IH]; intros Hk.
    - cbn [for_upto firstn skipn app]. now rewrite upd_same.
    - cbn [for_upto]. rewrite IH by lia.
      assert (Ex : exists c, nth_error l k = Some c).
      { destruct (nth_error l k) eqn:E; [eauto|]. apply nth_error_None in E. lia. }
      destruct Ex as (c & Ec). pose proof (nth_error_lt _ _ _ Eb) as Lb.
      rewrite (Hf k _ c); auto; try lia.
      + rewrite upd_upd. do 3 f_equal.
        assert (Es : exists y, skipn k cs = y :: skipn (S k) cs).
        { destruct cs as [|d cs']; [simpl in *; lia|]. exists (nth k (d :: cs') d). apply skipn_cons_nth. lia. }
        destruct Es as (y & Es). rewrite Es, upd_mid by (rewrite firstn_length; lia).
        now rewrite (firstn_S_nth _ _ _ Ec).
      + intros o Ho. now rewrite nth_error_upd_neq by congruence.
      + now apply nth_error_upd_eq. }
  rewrite G by lia. rewrite <- Ll, firstn_all. reflexivity.
Qed.

Lemma mid_nth (l cs : list (option A)) i : (i <= length l)%nat -> nth_error (firstn i l ++ skipn i cs) i = nth_error cs i.
Proof.
  intros L. assert (E : length (firstn i l) = i) by (rewrite firstn_length; lia).
  rewrite nth_error_app2, E, Nat.sub_diag by lia. clear L E. revert i. induction cs as [|c cs IH]; intros [|i]; try reflexivity. apply IH.
Qed.
Lemma mid_length (l cs : list (option A)) i : (i <= length l)%nat -> (i <= length cs)%nat ->
  length (firstn i l ++ skipn i cs) = length cs.
Proof. intros. rewrite app_length, firstn_length, skipn_length. lia. Qed.
Lemma raw_nth cs i c : raw cs -> nth_error cs i = Some c -> t_tcopy t = false -> c = None.
Proof. intros R E T. specialize (R T). rewrite Forall_forall in R. apply R. eapply nth_error_In; eauto. Qed.
Lemma raw_app a b : raw a -> raw b -> raw (a ++ b).
Proof. intros Ha Hb T. apply Forall_app. auto. Qed.
Lemma raw_none n : raw (repeat None n).
Proof. intros _. apply repeat_all. Qed.
Lemma raw_skipn n cs : raw cs -> raw (skipn n cs).
Proof. intros H T. specialize (H T). rewrite <- (firstn_skipn n cs) in H. apply Forall_app in H. tauto. Qed.
Lemma raw_firstn n cs : raw cs -> raw (firstn n cs).
Proof. intros H T. specialize (H T). rewrite <- (firstn_skipn n cs) in H. apply Forall_app in H. tauto. Qed.
Lemma good_nth (l : list (option A)) i c : good t l -> nth_error l i = Some c -> t_tcopy t = false -> exists a, c = Some a.
Proof.
  intros G E T. specialize (G T). unfold some_all in G. rewrite Forall_forall in G. destruct c as [a|]; [eauto|].
  exfalso. apply (G None); auto. eapply nth_error_In; eauto.
Qed.
Lemma raw_all cs : raw cs -> (t_tcopy t || forallb (fun c : option A => match c with None => true | Some _ => false end) cs) = true.
Proof.
  intros R. destruct (t_tcopy t) eqn:E; auto. simpl. specialize (R E). apply forallb_forall. rewrite Forall_forall in R.
  intros c Hc. now rewrite (R c Hc).
Qed.

(** constructing [l] in the first cells of a block *)
Lemma construct_prefix (g : nat -> option A) l b cs (H : heap A) : nth_error H b = Some (Block true cs) ->
  (length l <= length cs)%nat -> raw cs -> (forall i, (i < length l)%nat -> nth_error l i = g i) ->
  for_upto (length l) (fun i h => do a <- g i; construct t b i a h) H
  = Some (upd H b (Block true (map Some l ++ skipn (length l) cs))).
Proof.
  intros Eb Lc R Hg. apply fill_prefix; auto; [now rewrite map_length|].
  intros i h c Ec Ho Eh Hi. rewrite nth_error_map in Ec. rewrite <- Hg by auto.
  destruct (nth_error l i) as [a|]; [injection Ec as <-|discriminate].
  destruct (nth_error cs i) as [c0|] eqn:E0; [|apply nth_error_None in E0; lia].
  apply (construct_live t _ _ _ _ _ c0 Eh).
  - rewrite mid_nth by (rewrite map_length; lia). auto.
  - intros T. eapply raw_nth; eauto.
Qed.
(** copying the first elements of another block *)
Lemma copy_prefix l rest d s cs (H : heap A) : nth_error H d = Some (Block true cs) ->
  nth_error H s = Some (Block true (l ++ rest)) -> s <> d -> (length l <= length cs)%nat -> raw cs -> good t l ->
  for_upto (length l) (fun i h => copy_elem t (Some d) (Some s) i h) H
  = Some (upd H d (Block true (l ++ skipn (length l) cs))).
Proof.
  intros Ed Es N Lc R G. apply fill_prefix; auto.
  intros i h c Ec Ho Eh Hi. unfold copy_elem. rewrite (read_live h s (l ++ rest)) by (now rewrite Ho).
  rewrite nth_error_app1, Ec by auto. destruct (t_tcopy t) eqn:T.
  - apply write_live; auto. rewrite mid_length; lia.
  - destruct (good_nth _ _ _ G Ec T) as (a & ->).
    destruct (nth_error cs i) as [c0|] eqn:E0; [|apply nth_error_None in E0; lia].
    apply (construct_live t _ _ _ _ _ c0 Eh).
    + rewrite mid_nth by lia. auto.
    + intros _. eapply raw_nth; eauto.
Qed.
(** copying onto itself *)
Lemma copy_self d cs n (H : heap A) : nth_error H d = Some (Block true cs) -> (n <= length cs)%nat -> t_tcopy t = true ->
  for_upto n (fun i h => copy_elem t (Some d) (Some d) i h) H = Some H.
Proof.
  intros Ed Ln T. induction n as [|n IH]; [reflexivity|]. cbn [for_upto]. rewrite IH by lia.
  unfold copy_elem. rewrite T, (read_live _ _ _ _ Ed).
  destruct (nth_error cs n) as [c|] eqn:E; [|apply nth_error_None in E; lia].
  rewrite (write_live _ _ _ _ _ Ed) by lia. now rewrite (upd_same cs), (upd_same H).
Qed.
(** destroying the first elements *)
Lemma destroy_prefix l rest b (H : heap A) : nth_error H b = Some (Block true (l ++ rest)) -> good t l ->
  for_upto (length l) (fun i h => destroy t b i h) H = Some (upd H b (Block true (repeat None (length l) ++ rest))).
Proof.
  intros Eb G.
  assert (Es : rest = skipn (length l) (l ++ rest)).
  { rewrite skipn_app, skipn_all, Nat.sub_diag. reflexivity. }
  rewrite Es at 1. apply fill_prefix; auto; rewrite ?repeat_length, ?app_length; auto; [lia|].
  intros i h c Ec Ho Eh Hi. rewrite nth_error_repeat in Ec by auto. injection Ec as <-.
  unfold destroy. rewrite (read_live _ _ _ _ Eh), mid_nth by (rewrite repeat_length; lia).
  rewrite nth_error_app1 by auto. destruct (nth_error l i) as [[a|]|] eqn:El.
  - apply write_live; auto. rewrite mid_length; rewrite ?repeat_length, ?app_length; lia.
  - destruct (t_tcopy t) eqn:T.
    + rewrite (upd_same (_ ++ _)); [now rewrite (upd_same h)|].
      rewrite mid_nth by (rewrite repeat_length; lia). now rewrite nth_error_app1.
    + destruct (good_nth _ _ _ G El T). discriminate.
  - apply nth_error_None in El. lia.
Qed.

(** ** variables *)
Lemma getv_eq (wv : list (option sso)) v q : nth_error wv v = Some (Some q) -> getv wv v = Some q.
Proof. unfold getv. now intros ->. Qed.
Lemma getv_upd (wv : list (option sso)) v q : (v < length wv)%nat -> getv (upd wv v (Some q)) v = Some q.
Proof. intros. apply getv_eq. now apply nth_error_upd_eq. Qed.
Lemma getv_upd_neq (wv : list (option sso)) u v o : u <> v -> getv (upd wv u o) v = getv wv v.
Proof. intros. unfold getv. now rewrite nth_error_upd_neq. Qed.

Lemma declare_rel H wv s v : Rel H wv s -> nth_error s v = Some None ->
  sso_declare cap (SWorld H wv) v
    = SWorld (H ++ [Block true (repeat None cap)]) (upd wv v (Some (Sso (length H) None 0)))
  /\ Rel (H ++ [Block true (repeat None cap)]) (upd wv v (Some (Sso (length H) None 0))) (upd s v (Some [])).
Proof.
  intros R E. split; [reflexivity|]. pose proof (Rel_none _ _ _ _ R E) as Eo.
  eapply Rel_update; eauto.
  - intros b Lb _. now rewrite nth_error_app1.
  - simpl. exists (repeat None cap). cbn [q_buf q_data q_size]. rewrite nth_error_new, repeat_length.
    split; [|split; [|split]]; auto. left. split; [|split]; auto. apply raw_none.
  - intros b. rewrite live01_app. cbn [use q_buf q_data b_live]. rewrite (Nat.eqb_sym (length H) b).
    destruct (Nat.eqb_spec b (length H)) as [->|N]; cbn [b2n]; [|lia].
    unfold live01. rewrite (proj2 (nth_error_None H (length H))); lia.
Qed.

Lemma clean_rel H wv s v q l : Rel H wv s -> nth_error wv v = Some (Some q) -> nth_error s v = Some (Some l) ->
  exists H', clean t cap (SWorld H wv) v = Some (SWorld H' (upd wv v (Some (Sso (q_buf q) None (q_size q)))))
             /\ Rel H' (upd wv v (Some (Sso (q_buf q) None 0))) (upd s v (Some []))
             /\ (t_trivial t = true -> (length l <= cap)%nat -> H' = H).
Proof.
  intros R Eq El. pose proof R as (_ & V & _). pose proof (V _ _ _ Eq El) as Hq. cbn [okv] in Hq.
  destruct Hq as (bc & Eb & Lb & Es & Hc). unfold clean. cbn [sw_v sw_heap]. rewrite (getv_eq _ _ _ Eq).
  pose proof (nth_error_lt _ _ _ Eq) as Lv. pose proof (nth_error_lt _ _ _ Eb) as Lbb.
  destruct Hc as [(-> & Ed & Rb)|[(Nl & Ll & Ed & l1 & l2 & -> & C & G & R2)|(Ll & Rb & b & cs & Ed & N & Ec & C & G)]]; rewrite Ed.
  - exists H. split; [|split]; auto.
    + destruct q as [qb qd qs]. cbn [q_buf q_data q_size] in *. subst qd. now rewrite upd_same.
    + eapply Rel_update; eauto.
      * exists bc. cbn [q_buf q_data q_size length]. split; [|split; [|split]]; auto.
      * intros b. cbn [use q_buf q_data]. rewrite Ed. lia.
  - assert (Lq : length l1 = q_size q). { rewrite Es. symmetry. now apply covers_length. }
    assert (On : on_heap cap q = false). { unfold on_heap. apply Nat.ltb_ge. lia. }
    rewrite On. destruct (t_trivial t) eqn:T.
    + assert (Tc : t_tcopy t = true) by (now apply (proj1 Hok)).
      exists H. cbn [negb lift sw_heap set_hp]. unfold set_data, set_v, set_hp. cbn [sw_v sw_heap]. rewrite (getv_eq _ _ _ Eq).
      split; [|split]; auto. eapply Rel_update; eauto.
      * exists (l1 ++ l2). cbn [q_buf q_data q_size length]. split; [|split; [|split]]; auto. left. split; [|split]; auto.
        intros Q. congruence.
      * intros b. cbn [use q_buf q_data]. rewrite Ed. rewrite Nat.eqb_refl. cbn [negb andb b2n]. lia.
    + cbn [negb]. unfold lift. cbn [sw_heap]. rewrite <- Lq, (destroy_prefix _ _ _ _ Eb G), Lq. cbn [set_hp sw_heap].
      unfold set_data, set_v, set_hp. cbn [sw_v sw_heap]. rewrite (getv_eq _ _ _ Eq).
      eexists. split; [reflexivity|split; [|congruence]]. eapply Rel_update; eauto.
      * intros b Lb' U. rewrite nth_error_upd_neq; auto. intros E. subst b. pose proof (use_buf q). lia.
      * exists (repeat None (q_size q) ++ l2). cbn [q_buf q_data q_size length]. rewrite nth_error_upd_eq by auto.
        split; [|split; [|split]]; auto.
        -- rewrite app_length, repeat_length. rewrite app_length in Lb. lia.
        -- left. split; [|split]; auto. apply raw_app; auto. apply raw_none.
      * intros b. cbn [use q_buf q_data]. rewrite Ed, Nat.eqb_refl. cbn [negb andb b2n]. rewrite live01_upd by auto.
        cbn [b_live b2n]. destruct (Nat.eqb_spec (q_buf q) b) as [<-|Nb]; [rewrite (live01_live _ _ _ Eb)|]; lia.
  - assert (Lq : length cs = q_size q). { rewrite Es. symmetry. now apply covers_length. }
    assert (On : on_heap cap q = true). { unfold on_heap. apply Nat.ltb_lt. lia. }
    rewrite On. pose proof (nth_error_lt _ _ _ Ec) as Lbc.
    set (cs' := if negb (t_trivial t) then repeat None (q_size q) else cs).
    assert (E1 : lift (SWorld H wv) (fun h => if negb (t_trivial t) then for_upto (q_size q) (fun i h => destroy t b i h) h else Some h)
                 = Some (SWorld (upd H b (Block true cs')) wv)).
    { unfold lift, cs'. cbn [sw_heap]. destruct (negb (t_trivial t)).
      - rewrite <- Lq. pose proof (destroy_prefix cs [] b H) as D. rewrite !app_nil_r in D. now rewrite D.
      - now rewrite (upd_same H). }
    rewrite E1. unfold lift. cbn [sw_heap set_hp sw_v]. unfold deallocate.
    rewrite (get_block_live _ b cs') by now apply nth_error_upd_eq.
    assert (L' : length cs' = q_size q). { unfold cs'. destruct (negb (t_trivial t)); [now rewrite repeat_length|auto]. }
    assert (R' : raw cs').
    { unfold cs'. destruct (t_trivial t) eqn:T; cbn [negb]; [|apply raw_none]. intros Q.
      pose proof (proj1 Hok T). congruence. }
    rewrite L', Nat.eqb_refl, (raw_all _ R'). cbn [andb]. rewrite upd_upd. unfold set_data, set_v, set_hp. cbn [sw_v sw_heap]. rewrite (getv_eq _ _ _ Eq).
    cbn [set_v sw_v sw_heap].
    eexists. split; [reflexivity|split; [|intros; lia]]. eapply Rel_update; eauto.
    + intros b' Lb' U. rewrite nth_error_upd_neq; auto. intros E. subst b'. pose proof (use_data _ _ Ed). lia.
    + exists bc. cbn [q_buf q_data q_size length]. rewrite nth_error_upd_neq by auto. split; [|split; [|split]]; auto.
    + intros b'. cbn [use q_buf q_data]. rewrite Ed. rewrite (proj2 (Nat.eqb_neq b (q_buf q)) N). cbn [negb andb].
      rewrite live01_upd by auto. cbn [b_live b2n].
      destruct (Nat.eqb_spec b b') as [<-|Nb]; cbn [b2n]; [rewrite (live01_live _ _ _ Ec)|]; lia.
Qed.

(** where [n] elements of a variable go *)
Definition room (H : heap A) (buf n : nat) : heap A * nat := if Nat.ltb cap n then allocate n H else (H, buf).

Lemma room_spec H wv s v buf n : Rel H wv s -> nth_error wv v = Some (Some (Sso buf None 0)) -> nth_error s v = Some (Some []) ->
  exists cs, nth_error (fst (room H buf n)) (snd (room H buf n)) = Some (Block true cs) /\ (n <= length cs)%nat /\ raw cs
  /\ (forall b, (b < length H)%nat -> nth_error (fst (room H buf n)) b = nth_error H b)
  /\ (forall b, (b < length H)%nat -> use b (Some (Sso buf None 0)) = 0%nat -> b <> snd (room H buf n))
  /\ (forall l l1, n = length l1 -> n <> 0%nat -> covers l l1 -> good t l1 ->
      Rel (upd (fst (room H buf n)) (snd (room H buf n)) (Block true (l1 ++ skipn n cs)))
          (upd wv v (Some (Sso buf (Some (snd (room H buf n))) n))) (upd s v (Some l))).
Proof.
  intros R Eq El. pose proof R as (_ & V & _). pose proof (V _ _ _ Eq El) as Hq. cbn [okv] in Hq.
  destruct Hq as (bc & Eb & Lb & Es & Hc). cbn [q_buf q_data q_size length] in *.
  destruct Hc as [(_ & _ & Rb)|[(Nl & _)|(Ll & _)]]; [|congruence|simpl in Ll; lia].
  pose proof (nth_error_lt _ _ _ Eb) as Lbb. unfold room. destruct (Nat.ltb_spec cap n) as [Q|Q]; unfold allocate; cbn [fst snd].
  - exists (repeat None n). rewrite nth_error_new, repeat_length.
    split; [|split; [|split; [|split; [|split]]]]; auto.
    + apply raw_none.
    + intros b Hb. now rewrite nth_error_app1.
    + intros b Hb _. lia.
    + intros l l1 -> N0 C G. rewrite upd_app_r. rewrite (skipn_all2 (repeat None (length l1))) by (now rewrite repeat_length). rewrite app_nil_r.
      eapply Rel_update; eauto.
      * intros b Hb _. now rewrite nth_error_app1.
      * exists bc. cbn [q_buf q_data q_size length]. rewrite nth_error_app1 by auto. pose proof (covers_length _ _ C) as Lc.
        split; [|split; [|split]]; auto. right; right. split; [lia|split; [auto|]].
        exists (length H), l1. rewrite nth_error_new. split; [|split; [|split; [|split]]]; auto. lia.
      * intros b. rewrite live01_app. cbn [use q_buf q_data b_live b2n].
        rewrite (proj2 (Nat.eqb_neq (length H) buf)) by lia. cbn [negb andb]. rewrite (Nat.eqb_sym (length H) b).
        destruct (Nat.eqb_spec b (length H)) as [->|Nb]; cbn [b2n]; [|lia].
        unfold live01. rewrite (proj2 (nth_error_None H (length H))); lia.
  - exists bc. split; [|split; [|split; [|split; [|split]]]]; auto; [lia| |].
    + intros b Hb U E. subst b. unfold use in U. cbn [q_buf q_data] in U. rewrite Nat.eqb_refl in U. simpl in U. lia.
    + intros l l1 -> N0 C G. pose proof (covers_length _ _ C) as Lc. eapply Rel_update; eauto.
      * intros b Hb U. rewrite nth_error_upd_neq; auto. intros E. subst b. unfold use in U. cbn [q_buf q_data] in U.
        rewrite Nat.eqb_refl in U. simpl in U. lia.
      * exists (l1 ++ skipn (length l1) bc). cbn [q_buf q_data q_size length]. rewrite nth_error_upd_eq by auto.
        split; [|split; [|split]]; auto.
        -- rewrite app_length, skipn_length. lia.
        -- right; left. split; [|split; [|split]]; auto; [|lia|].
           ++ intros ->. simpl in Lc. lia.
           ++ exists l1, (skipn (length l1) bc). split; [|split; [|split]]; auto. now apply raw_skipn.
      * intros b. cbn [use q_buf q_data]. rewrite Nat.eqb_refl. cbn [negb andb b2n]. rewrite live01_upd by auto. cbn [b_live b2n].
        destruct (Nat.eqb_spec buf b) as [<-|Nb]; cbn [b2n]; [rewrite (live01_live _ _ _ Eb)|]; lia.
Qed.

Lemma src_block H q l : okq H q l -> l <> [] -> exists sb l1 rest, q_data q = Some sb
  /\ nth_error H sb = Some (Block true (l1 ++ rest)) /\ covers l l1 /\ good t l1 /\ (t_tcopy t = true \/ l1 ++ rest = l1 \/ sb = q_buf q).
Proof.
  intros (bc & Eb & Lb & Es & Hc) Nl.
  destruct Hc as [(-> & _)|[(_ & Ll & Ed & l1 & l2 & -> & C & G & R2)|(Ll & Rb & b & cs & Ed & N & Ec & C & G)]]; [congruence| |].
  - exists (q_buf q), l1, l2. auto 10.
  - exists b, cs, []. rewrite app_nil_r. auto 10.
Qed.

Lemma other_block H wv s u v p q b : Rel H wv s -> u <> v -> nth_error wv u = Some (Some p) -> nth_error wv v = Some (Some q) ->
  (0 < use b (Some p))%nat -> use b (Some q) = 0%nat.
Proof.
  intros (_ & _ & U) N Eu Ev Hp. pose proof (suse_two b wv u v _ _ N Eu Ev) as S2. rewrite U in S2.
  pose proof (live01_le H b). lia.
Qed.
Lemma nth_lt_live (H : heap A) b cs : nth_error H b = Some (Block true cs) -> (b < length H)%nat.
Proof. apply nth_error_lt. Qed.

Lemma copy_into H wv s v x buf r l n : Rel H wv s -> nth_error wv v = Some (Some (Sso buf None 0)) -> nth_error s v = Some (Some []) ->
  x <> v -> nth_error wv x = Some (Some r) -> nth_error s x = Some (Some l) -> l <> [] -> n = length l ->
  exists H', copy_loop t (SWorld (fst (room H buf n)) (upd wv v (Some (Sso buf (Some (snd (room H buf n))) n)))) v x n
             = Some (SWorld H' (upd wv v (Some (Sso buf (Some (snd (room H buf n))) n))))
  /\ Rel H' (upd wv v (Some (Sso buf (Some (snd (room H buf n))) n))) (upd s v (Some l)).
Proof.
  intros R Eq El Nx Ex Elx Nl En. pose proof R as (_ & V & _). pose proof (V _ _ _ Ex Elx) as Hx. cbn [okv] in Hx.
  destruct (src_block _ _ _ Hx Nl) as (sb & l1 & rest & Ed & Esb & C & G & _).
  destruct (room_spec _ _ _ _ _ n R Eq El) as (cs & Ec & Ln & Rc & F & F2 & K).
  pose proof (covers_length _ _ C) as Lc. pose proof (nth_error_lt _ _ _ Esb) as Ls.
  pose proof (nth_error_lt _ _ _ Eq) as Lv.
  unfold copy_loop. cbn [sw_v]. rewrite getv_upd by auto. rewrite getv_upd_neq by auto. rewrite (getv_eq _ _ _ Ex), Ed.
  unfold lift. cbn [sw_heap q_data]. assert (En1 : n = length l1) by lia. 
  pose proof (copy_prefix l1 rest (snd (room H buf n)) sb cs (fst (room H buf n))) as CP. rewrite <- En1 in CP. rewrite CP.
  - eexists. split; [reflexivity|]. apply K; auto. intros Z. rewrite Z in En. destruct l; [congruence|discriminate].
  - auto.
  - rewrite F; auto.
  - apply F2; auto. eapply other_block with (u := x) (v := v); eauto. now apply use_data.
  - lia.
  - auto.
  - auto.
Qed.

Ltac sv := repeat (unfold lift, set_size, set_data, set_v, set_hp, allocate, allocate_zero; cbn [sw_v sw_heap q_buf q_data q_size fst snd negb];
  first [rewrite getv_upd by (rewrite ?upd_length; auto) | rewrite upd_upd]).

Lemma init_raw H wv v n m buf : nth_error wv v = Some (Some (Sso buf None m)) -> n <> 0%nat ->
  sso_init t dflt zero cap (SWorld H wv) v n Raw
  = Some (SWorld (fst (room H buf n)) (upd wv v (Some (Sso buf (Some (snd (room H buf n))) n)))).
Proof.
  intros Eq Nn. pose proof (nth_error_lt _ _ _ Eq) as Lv. unfold sso_init. rewrite (proj2 (Nat.eqb_neq n 0) Nn).
  unfold set_size at 1. cbn [sw_v]. rewrite (getv_eq _ _ _ Eq). sv. unfold on_heap. cbn [q_size]. unfold room.
  destruct (Nat.ltb cap n); cbn [negb]; sv; reflexivity.
Qed.

Lemma good_none n : t_tcopy t = true -> good t (@repeat (option A) None n).
Proof. intros T Q. congruence. Qed.
Lemma good_some n (a : A) : good t (repeat (Some a) n).
Proof. intros _. unfold some_all. rewrite Forall_forall. intros c Hc. apply repeat_spec in Hc. congruence. Qed.
Lemma good_map (l : list A) : good t (map Some l).
Proof. intros _. unfold some_all. rewrite Forall_forall. intros c Hc. apply in_map_iff in Hc. destruct Hc as (a & <- & _). congruence. Qed.

(** storing the same value in the first cells *)
Lemma write_prefix n (a : A) b cs (H : heap A) : nth_error H b = Some (Block true cs) -> (n <= length cs)%nat ->
  for_upto n (fun i h => write_cell h b i (Some a)) H = Some (upd H b (Block true (repeat (Some a) n ++ skipn n cs))).
Proof.
  intros Eb Lc. apply fill_prefix; auto; [now rewrite repeat_length|].
  intros i h c Ec Ho Eh Hi. rewrite nth_error_repeat in Ec by auto. injection Ec as <-.
  apply write_live; auto. rewrite mid_length; rewrite ?repeat_length; lia.
Qed.

Lemma room_buf H buf n : Nat.ltb cap n = false -> room H buf n = (H, buf).
Proof. unfold room. now intros ->. Qed.
Lemma room_heap H buf n : Nat.ltb cap n = true -> room H buf n = (H ++ [Block true (repeat None n)], length H).
Proof. unfold room. now intros ->. Qed.

Lemma map_rep {T U} (f : T -> U) a n : map f (repeat a n) = repeat (f a) n.
Proof. induction n; simpl; congruence. Qed.
Lemma init_rel H wv s v n i buf : Rel H wv s -> nth_error wv v = Some (Some (Sso buf None 0)) -> nth_error s v = Some (Some []) ->
  (match i with Default => true | _ => t_tcopy t end) = true ->
  exists H' wv', sso_init t dflt zero cap (SWorld H wv) v n i = Some (SWorld H' wv')
                 /\ Rel H' wv' (upd s v (Some (start_with t dflt zero n i))).
Proof.
  intros R Eq El Hi. pose proof (nth_error_lt _ _ _ Eq) as Lv.
  destruct (Nat.eq_dec n 0) as [->|Nn].
  { exists H, wv. split; [reflexivity|]. rewrite upd_same; auto. destruct i; auto. }
  destruct (room_spec _ _ _ _ _ n R Eq El) as (cs & Ec & Ln & Rc & F & F2 & K).
  assert (Kf : forall l1, n = length l1 -> covers (start_with t dflt zero n i) l1 -> good t l1 ->
     forall H', H' = upd (fst (room H buf n)) (snd (room H buf n)) (Block true (l1 ++ skipn n cs)) ->
     Rel H' (upd wv v (Some (Sso buf (Some (snd (room H buf n))) n))) (upd s v (Some (start_with t dflt zero n i)))).
  { intros l1 E1 C G H' ->. now apply K. }
  assert (Kraw : start_with t dflt zero n i = repeat None n -> t_tcopy t = true ->
     Rel (fst (room H buf n)) (upd wv v (Some (Sso buf (Some (snd (room H buf n))) n))) (upd s v (Some (start_with t dflt zero n i)))).
  { intros Es T. apply (Kf (firstn n cs)).
    - rewrite firstn_length. lia.
    - rewrite Es. apply covers_none. rewrite firstn_length. lia.
    - intros Q. congruence.
    - rewrite firstn_skipn. now rewrite upd_same. }
  destruct i; cbn [start_with].
  - rewrite (init_raw _ _ _ _ 0%nat buf) by auto. eexists _, _. split; [reflexivity|]. now apply Kraw.
  - unfold sso_init. rewrite (proj2 (Nat.eqb_neq n 0) Nn).
    unfold set_size at 1. cbn [sw_v]. rewrite (getv_eq _ _ _ Eq). sv. unfold on_heap. cbn [q_size]. destruct (Nat.ltb cap n) eqn:E; cbn [negb].
    + sv.
      eexists _, _. split; [reflexivity|]. rewrite (room_heap _ _ _ E) in *. cbn [fst snd] in *.
      rewrite nth_error_new in Ec. injection Ec as <-.
      apply (Kf (repeat (Some zero) n)); rewrite ?repeat_length; auto.
      * apply covers_refl.
      * apply good_some.
      * rewrite upd_app_r, skipn_all2 by (now rewrite repeat_length). now rewrite app_nil_r.
    + sv.
      rewrite (room_buf _ _ _ E) in *. cbn [fst snd] in *. rewrite (write_prefix _ _ _ _ _ Ec Ln).
      eexists _, _. split; [reflexivity|]. apply (Kf (repeat (Some zero) n)); rewrite ?repeat_length; auto.
      * apply covers_refl.
      * apply good_some.
  - unfold sso_init. rewrite (proj2 (Nat.eqb_neq n 0) Nn).
    unfold set_size at 1. cbn [sw_v]. rewrite (getv_eq _ _ _ Eq). sv. unfold on_heap. cbn [q_size].
    cbn [start_with] in Kf, Kraw.
    assert (Hctor : forall HH, nth_error HH (snd (room H buf n)) = Some (Block true cs) -> HH = fst (room H buf n) ->
        negb (t_trivial t) && negb (t_complex t) = true ->
        for_upto n (fun j h => construct t (snd (room H buf n)) j dflt h) HH
        = Some (upd (fst (room H buf n)) (snd (room H buf n)) (Block true (repeat (Some dflt) n ++ skipn n cs)))).
    { intros HH EH -> _. pose proof (construct_prefix (fun _ => Some dflt) (repeat dflt n) _ _ _ EH) as CP.
      rewrite repeat_length in CP. rewrite map_rep in CP. apply CP; auto.
      intros j Hj. now apply nth_error_repeat. }
    destruct (Nat.ltb cap n) eqn:E; cbn [negb].
    + rewrite (room_heap _ _ _ E) in *. cbn [fst snd] in *. rewrite nth_error_new in Ec. injection Ec as <-.
      destruct (t_complex t) eqn:Tc.
      * assert (T : t_tcopy t = true) by (now apply (proj2 Hok)).
        sv. rewrite andb_false_r.
        eexists _, _. split; [reflexivity|]. rewrite orb_true_r in *. apply (Kf (repeat (Some zero) n)); rewrite ?repeat_length; auto.
        -- apply covers_none. now rewrite repeat_length.
        -- apply good_some.
        -- rewrite upd_app_r, skipn_all2 by (now rewrite repeat_length). now rewrite app_nil_r.
      * sv.
        destruct (t_trivial t) eqn:Tt; cbn [negb andb orb] in *.
        -- eexists _, _. split; [reflexivity|]. apply Kraw; auto. now apply (proj1 Hok).
        -- rewrite Hctor by (auto; apply nth_error_new). eexists _, _. split; [reflexivity|].
           apply (Kf (repeat (Some dflt) n)); rewrite ?repeat_length; auto; [apply covers_refl|apply good_some].
    + rewrite (room_buf _ _ _ E) in *. cbn [fst snd] in *. sv.
      destruct (t_trivial t) eqn:Tt; cbn [negb andb orb] in *.
      * eexists _, _. split; [reflexivity|]. apply Kraw; auto. now apply (proj1 Hok).
      * destruct (t_complex t) eqn:Tc; cbn [negb andb orb] in *.
        -- eexists _, _. split; [reflexivity|]. apply Kraw; auto. now apply (proj2 Hok).
        -- rewrite Hctor by auto. eexists _, _. split; [reflexivity|].
           apply (Kf (repeat (Some dflt) n)); rewrite ?repeat_length; auto; [apply covers_refl|apply good_some].
Qed.

Lemma from_rel H wv s v l buf : Rel H wv s -> nth_error wv v = Some (Some (Sso buf None 0)) -> nth_error s v = Some (Some []) ->
  exists H' wv', sso_from t dflt zero cap (SWorld H wv) v l = Some (SWorld H' wv')
                 /\ Rel H' wv' (upd s v (Some (map Some l))).
Proof.
  intros R Eq El. pose proof (nth_error_lt _ _ _ Eq) as Lv. unfold sso_from. destruct l as [|a l].
  - cbn. rewrite (getv_eq _ _ _ Eq). cbn. exists H, wv. split; [reflexivity|]. now rewrite upd_same.
  - set (n := length (a :: l)).
    destruct (room_spec _ _ _ _ _ n R Eq El) as (cs & Ec & Ln & Rc & F & F2 & K).
    rewrite (init_raw _ _ _ _ 0%nat buf) by (auto; discriminate). cbn [sw_v]. rewrite getv_upd by auto. cbn [q_data].
    unfold lift. cbn [sw_heap]. pose proof (construct_prefix (nth_error (a :: l)) (a :: l) _ _ _ Ec) as CP.
    fold n in CP. rewrite CP by auto. eexists _, _. split; [reflexivity|].
    apply K; auto; try discriminate; [now rewrite map_length|apply covers_refl|apply good_map].
Qed.

Lemma copy_rel H wv s v x l buf : Rel H wv s -> nth_error wv v = Some (Some (Sso buf None 0)) -> nth_error s v = Some (Some []) ->
  x <> v -> nth_error s x = Some (Some l) ->
  exists H' wv', sso_copy_from t dflt zero cap (SWorld H wv) v x = Some (SWorld H' wv') /\ Rel H' wv' (upd s v (Some l)).
Proof.
  intros R Eq El Nx Elx. destruct (Rel_get _ _ _ _ _ R Elx) as (r & Ex & Hx).
  pose proof (nth_error_lt _ _ _ Eq) as Lv. unfold sso_copy_from. cbn [sw_v]. rewrite (getv_eq _ _ _ Ex).
  assert (Es : q_size r = length l) by (destruct Hx as (? & _ & _ & Es & _); auto). rewrite Es.
  destruct l as [|c l].
  - cbn [length]. unfold sso_init. cbn [Nat.eqb sw_v]. rewrite (getv_eq _ _ _ Eq). cbn [q_data]. exists H, wv. split; [reflexivity|].
    now rewrite upd_same.
  - rewrite (init_raw _ _ _ _ 0%nat buf) by (auto; discriminate). cbn [sw_v]. rewrite getv_upd by auto. cbn [q_data q_size].
    destruct (copy_into H wv s v x buf r (c :: l) (length (c :: l))) as (H' & E & R'); auto; [discriminate|].
    rewrite E. eauto.
Qed.

(** the rest of copy assignment after [clean], from another variable *)
Lemma copy_assign_rest H wv s v x l buf m : Rel H (upd wv v (Some (Sso buf None 0))) s -> (v < length wv)%nat ->
  nth_error s v = Some (Some []) -> x <> v -> nth_error s x = Some (Some l) ->
  exists H' wv', (do r <- getv (upd wv v (Some (Sso buf None m))) x;
     do w2 <- set_size (SWorld H (upd wv v (Some (Sso buf None m)))) v (q_size r);
     do q <- getv (sw_v w2) v;
     if Nat.eqb (q_size q) 0 then Some w2 else
     do w3 <- (if on_heap cap q then let '(h, b) := allocate (q_size q) (sw_heap w2) in set_data (set_hp w2 h) v (Some b)
               else set_data w2 v (Some (q_buf q)));
     copy_loop t w3 v x (q_size q)) = Some (SWorld H' wv') /\ Rel H' wv' (upd s v (Some l)).
Proof.
  intros R Lv El Nx Elx. destruct (Rel_get _ _ _ _ _ R Elx) as (r & Ex & Hx).
  rewrite nth_error_upd_neq in Ex by auto. rewrite getv_upd_neq by auto. rewrite (getv_eq _ _ _ Ex).
  unfold set_size. cbn [sw_v]. rewrite getv_upd by auto. unfold set_v at 1 2. cbn [sw_v sw_heap q_buf q_data]. rewrite upd_upd.
  rewrite getv_upd by auto. cbn [q_size q_buf].
  assert (Es : q_size r = length l) by (destruct Hx as (? & _ & _ & Es & _); auto). rewrite Es.
  destruct l as [|c l].
  - cbn [length Nat.eqb]. eexists _, _. split; [reflexivity|]. rewrite (upd_same s) by auto. exact R.
  - set (n := length (c :: l)). replace (Nat.eqb n 0) with false by reflexivity.
    match goal with |- context [match ?e with Some w3 => copy_loop _ w3 _ _ _ | None => None end] =>
      assert (E3 : e = Some (SWorld (fst (room H buf n)) (upd wv v (Some (Sso buf (Some (snd (room H buf n))) n))))) end.
    { unfold on_heap, room. cbn [q_size]. destruct (Nat.ltb cap n); sv; reflexivity. }
    rewrite E3.
    destruct (copy_into H (upd wv v (Some (Sso buf None 0))) s v x buf r (c :: l) n) as (H' & E & R'); auto; try discriminate.
    + now rewrite nth_error_upd_eq.
    + rewrite nth_error_upd_neq by auto; auto.
    + rewrite upd_upd in E, R'. rewrite E. eauto.
Qed.

(** emptying a variable of a trivially copyable type that keeps its elements in the buffer *)
Lemma forget_rel H wv s x r l : Rel H wv s -> nth_error wv x = Some (Some r) -> nth_error s x = Some (Some l) ->
  (l = [] \/ t_tcopy t = true) -> (length l <= cap)%nat ->
  Rel H (upd wv x (Some (Sso (q_buf r) None 0))) (upd s x (Some [])).
Proof.
  intros R Ex Elx Hl Lc. pose proof R as (_ & V & _). pose proof (V _ _ _ Ex Elx) as (bc & Eb & Lb & Es & Hc).
  assert (Hd : (q_data r = None /\ raw bc) \/ (q_data r = Some (q_buf r) /\ raw bc)).
  { destruct Hc as [(_ & Ed & Rb)|[(Nl & _ & Ed & l1 & l2 & -> & C & G & R2)|(Ll & _)]]; [auto| |lia].
    right. split; auto. intros T. destruct Hl as [->|Hl]; [now contradiction Nl|congruence]. }
  eapply Rel_update; eauto.
  - exists bc. cbn [q_buf q_data q_size length]. split; [|split; [|split]]; auto. left. split; [|split]; auto. tauto.
  - intros b. cbn [use q_buf q_data]. destruct Hd as [[-> _]|[-> _]]; [lia|]. rewrite Nat.eqb_refl. cbn [negb andb b2n]. lia.
Qed.

Lemma move_rest H wv s v x l buf m : Rel H (upd wv v (Some (Sso buf None 0))) s -> (v < length wv)%nat ->
  nth_error s v = Some (Some []) -> x <> v -> nth_error s x = Some (Some l) ->
  (t_tcopy t || negb (negb (Nat.eqb (length l) 0) && Nat.leb (length l) cap)) = true ->
  exists H' wv', sso_move_from t cap (SWorld H (upd wv v (Some (Sso buf None m)))) v x = Some (SWorld H' wv')
                 /\ Rel H' wv' (upd (upd s v (Some l)) x (Some [])).
Proof.
  intros R Lv El Nx Elx Hc. destruct (Rel_get _ _ _ _ _ R Elx) as (r & Ex & Hx).
  assert (Lx : (x < length wv)%nat). { pose proof (nth_error_lt _ _ _ Ex) as Q. now rewrite upd_length in Q. }
  rewrite nth_error_upd_neq in Ex by auto.
  unfold sso_move_from. cbn [sw_v]. rewrite getv_upd_neq by auto. rewrite (getv_eq _ _ _ Ex).
  unfold set_size at 1. cbn [sw_v]. rewrite getv_upd by auto. unfold set_v at 1 2 3 4 5. cbn [sw_v sw_heap q_buf q_data]. rewrite upd_upd.
  rewrite getv_upd by auto. cbn [q_size q_buf].
  assert (Es : q_size r = length l) by (destruct Hx as (? & _ & _ & Es & _); auto). rewrite Es.
  rewrite getv_upd_neq, (getv_eq _ _ _ Ex) by auto.
  set (n := length l). unfold on_heap. cbn [q_size]. destruct (Nat.ltb_spec cap n) as [Q|Q].
  - (* the block changes hands *)
    unfold set_data, set_size, set_v. cbn [sw_v sw_heap]. rewrite getv_upd by auto. cbn [q_buf q_size]. rewrite upd_upd. cbn [sw_v sw_heap].
    rewrite getv_upd_neq, (getv_eq _ _ _ Ex) by auto. cbn [sw_v sw_heap q_buf q_data q_size].
    rewrite getv_upd by (now rewrite upd_length). cbn [q_buf q_data]. rewrite upd_upd.
    eexists _, _. split; [reflexivity|].
    destruct Hx as (bc & Eb & Lb & _ & Hcase).
    destruct Hcase as [(-> & _)|[(_ & Ll & _)|(_ & Rb & b & cs & Ed & N & Ec & C & G)]]; [unfold n in Q; simpl in Q; lia|fold n in Ll; lia|].
    pose proof R as (LL & V & U). rewrite upd_length in LL. split; [|split].
    + now rewrite !upd_length.
    + intros u o y Ho Hy. apply nth_error_upd in Ho. apply nth_error_upd in Hy.
      destruct Ho as [[<- ->]|[Nu Ho]], Hy as [[E ->]|[Nu' Hy]]; try congruence.
      * exists bc. cbn [q_buf q_data q_size length]. split; [|split; [|split]]; auto.
      * apply nth_error_upd in Ho. apply nth_error_upd in Hy.
        destruct Ho as [[<- ->]|[Nv Ho]], Hy as [[E ->]|[Nv' Hy]]; try congruence.
        -- pose proof (V v (Some (Sso buf None 0)) (Some [])) as Vv. rewrite nth_error_upd_eq in Vv by auto.
           specialize (Vv eq_refl El). destruct Vv as (bv & Ebv & Lbv & _ & Hbv). cbn [q_buf q_data q_size length] in *.
           destruct Hbv as [(_ & _ & Rbv)|[(Nl & _)|(Ll & _)]]; [|congruence|lia].
           exists bv. cbn [q_buf q_data q_size]. split; [|split; [|split]]; auto. right; right. split; [lia|split; [auto|]].
           exists b, cs. split; [|split; [|split; [|split]]]; auto. intros Hbb. subst b.
           assert (Z : use buf (Some (Sso buf None 0)) = 0%nat).
           { eapply (other_block H _ _ x v r); eauto; [rewrite nth_error_upd_neq by auto; auto|now rewrite nth_error_upd_eq|now apply use_data]. }
           pose proof (use_buf (Sso buf None 0)) as Z'. cbn [q_buf] in Z'. lia.
        -- apply (V u); auto. rewrite nth_error_upd_neq by auto; auto.
    + intros b'. rewrite <- U.
      assert (Hbuf : b <> buf).
      { intros Hbb. subst b.
        assert (Z : use buf (Some (Sso buf None 0)) = 0%nat).
        { eapply (other_block H _ _ x v r); eauto; [rewrite nth_error_upd_neq by auto; auto|now rewrite nth_error_upd_eq|now apply use_data]. }
        pose proof (use_buf (Sso buf None 0)) as Z'. cbn [q_buf] in Z'. lia. }
      assert (EE : nth_error wv v = Some (nth v wv None)).
      { apply nth_error_nth'. auto. }
      pose proof (suse_upd b' wv v (Some (Sso buf None 0)) _ EE) as S1.
      pose proof (suse_upd b' wv v (Some (Sso buf (Some b) n)) _ EE) as S2.
      pose proof (suse_upd b' (upd wv v (Some (Sso buf (Some b) n))) x (Some (Sso (q_buf r) None 0)) (Some r)) as S3.
      rewrite nth_error_upd_neq in S3 by auto. specialize (S3 Ex).
      rewrite Ed. cbn [use q_buf q_data] in *. rewrite Ed in *.
      rewrite (proj2 (Nat.eqb_neq b (q_buf r)) N) in *. rewrite (proj2 (Nat.eqb_neq b buf) Hbuf) in *. cbn [negb andb] in *. lia.
  - (* the elements are copied *)
    destruct l as [|c l].
    + cbn [n length Nat.eqb negb]. unfold set_data, set_size, set_v. cbn [sw_v sw_heap].
      rewrite getv_upd_neq, (getv_eq _ _ _ Ex) by auto. cbn [sw_v sw_heap q_buf q_data q_size].
      rewrite getv_upd by (now rewrite upd_length). cbn [q_buf q_data]. rewrite upd_upd.
      eexists _, _. split; [reflexivity|]. rewrite (upd_same s v) by auto.
      apply (forget_rel H _ s x r []); auto. rewrite nth_error_upd_neq by auto; auto.
    + replace (Nat.eqb n 0) with false by reflexivity. cbn [negb].
      assert (T : t_tcopy t = true).
      { destruct (t_tcopy t); auto. cbn [orb] in Hc. fold n in Hc. replace (Nat.eqb n 0) with false in Hc by reflexivity.
        rewrite (proj2 (Nat.leb_le n cap) Q) in Hc. discriminate. }
      unfold set_data at 1. cbn [sw_v]. rewrite getv_upd by auto. unfold set_v at 1. cbn [sw_v sw_heap q_buf q_size]. rewrite upd_upd.
      destruct (copy_into H (upd wv v (Some (Sso buf None 0))) s v x buf r (c :: l) n) as (H' & E & R'); auto; try discriminate.
      * now rewrite nth_error_upd_eq.
      * rewrite nth_error_upd_neq by auto; auto.
      * rewrite upd_upd in E, R'. rewrite (room_buf H buf n) in E, R' by (now apply Nat.ltb_ge). cbn [fst snd] in E, R'. rewrite E.
        unfold set_data, set_size, set_v. cbn [sw_v sw_heap].
        rewrite getv_upd_neq, (getv_eq _ _ _ Ex) by auto. cbn [sw_v sw_heap q_buf q_data q_size].
        rewrite getv_upd by (now rewrite upd_length). cbn [q_buf q_data]. rewrite upd_upd.
        eexists _, _. split; [reflexivity|].
        apply (forget_rel H' _ _ x r (c :: l)); auto; rewrite nth_error_upd_neq by auto; auto.
Qed.

Lemma end_rel H wv s v l : Rel H wv s -> nth_error s v = Some (Some l) ->
  exists H' wv', sso_end t cap (SWorld H wv) v = Some (SWorld H' wv') /\ Rel H' wv' (upd s v None).
Proof.
  intros R El. destruct (Rel_get _ _ _ _ _ R El) as (q & Eq & Hq). pose proof (nth_error_lt _ _ _ Eq) as Lv.
  destruct (clean_rel _ _ _ _ _ _ R Eq El) as (H' & E & R' & _). unfold sso_end. rewrite E. cbn [sw_v]. rewrite getv_upd by auto.
  cbn [q_buf]. pose proof R' as (_ & V & _).
  pose proof (V v (Some (Sso (q_buf q) None 0)) (Some [])) as Vv. rewrite !nth_error_upd_eq in Vv; auto; [|now apply nth_error_lt in El].
  specialize (Vv eq_refl eq_refl). destruct Vv as (bv & Ebv & Lbv & _ & Hbv). cbn [q_buf q_data q_size length] in *.
  destruct Hbv as [(_ & _ & Rbv)|[(Nl & _)|(Ll & _)]]; [|congruence|lia].
  unfold lift. cbn [sw_heap]. unfold deallocate. rewrite (get_block_live _ _ _ Ebv), Lbv, Nat.eqb_refl, (raw_all _ Rbv). cbn [andb].
  unfold set_v, set_hp. cbn [sw_v sw_heap]. rewrite upd_upd. eexists _, _. split; [reflexivity|].
  pose proof (nth_error_lt _ _ _ Ebv) as Lb.
  pose proof (Rel_update H' (upd wv v (Some (Sso (q_buf q) None 0))) (upd s v (Some [])) v (Some (Sso (q_buf q) None 0))
     (upd H' (q_buf q) (Block false [])) None None R') as RU.
  rewrite !upd_upd in RU. apply RU.
  - now rewrite nth_error_upd_eq.
  - intros b _ Ub. rewrite nth_error_upd_neq; auto. intros Z. subst b.
    pose proof (use_buf (Sso (q_buf q) None 0)) as Z'. cbn [q_buf] in Z'. lia.
  - exact I.
  - intros b. rewrite live01_upd by auto. cbn [use q_buf q_data b_live b2n].
    destruct (Nat.eqb_spec (q_buf q) b) as [<-|Nb]; cbn [b2n]; [rewrite (live01_live _ _ _ Ebv)|]; lia.
Qed.

Lemma write_rel H wv s v l i a : Rel H wv s -> nth_error s v = Some (Some l) -> (i < length l)%nat ->
  exists H' wv', sso_write t (SWorld H wv) v i a = Some (SWorld H' wv') /\ Rel H' wv' (upd s v (Some (upd l i (Some a)))).
Proof.
  intros R El Hi. destruct (Rel_get _ _ _ _ _ R El) as (q & Eq & Hq).
  assert (Es : q_size q = length l) by (destruct Hq as (? & _ & _ & Es & _); auto).
  assert (Nl : l <> []) by (intros ->; simpl in Hi; lia).
  unfold sso_write. cbn [sw_v sw_heap]. rewrite (getv_eq _ _ _ Eq).
  destruct Hq as (bc & Eb & Lb & _ & Hc). pose proof (nth_error_lt _ _ _ Eb) as Lbb.
  destruct Hc as [(-> & _)|[(_ & Ll & Ed & l1 & l2 & -> & C & G & R2)|(Ll & Rb & b & cs & Ed & N & Ec & C & G)]]; [congruence| |];
    rewrite Ed; rewrite (proj2 (Nat.ltb_lt i (q_size q))) by lia; pose proof (covers_length _ _ C) as Lc.
  - rewrite (read_live _ _ _ _ Eb), nth_error_app1 by lia.
    destruct (nth_error l1 i) as [c|] eqn:E1; [|apply nth_error_None in E1; lia].
    assert (W : (if match c with Some _ => true | None => t_tcopy t end then lift (SWorld H wv) (fun h => write_cell h (q_buf q) i (Some a)) else None)
                = Some (SWorld (upd H (q_buf q) (Block true (upd l1 i (Some a) ++ l2))) wv)).
    { replace (match c with Some _ => true | None => t_tcopy t end) with true.
      - unfold lift. cbn [sw_heap]. rewrite (write_live _ _ _ _ _ Eb) by (rewrite app_length; lia). rewrite upd_app_l by lia. reflexivity.
      - destruct c; auto. destruct (t_tcopy t) eqn:T; auto. destruct (good_nth _ _ _ G E1 T). discriminate. }
    rewrite W. eexists _, _. split; [reflexivity|]. rewrite <- (upd_same wv v (Some q)) by auto.
    eapply Rel_update; eauto.
    + intros b _ U. rewrite nth_error_upd_neq; auto. intros Z. subst b. pose proof (use_buf q). lia.
    + exists (upd l1 i (Some a) ++ l2). rewrite nth_error_upd_eq by auto. rewrite app_length, !upd_length. rewrite app_length in Lb.
      split; [|split; [|split]]; auto. right; left. split; [|split; [|split]]; auto.
      * intros Z. apply (f_equal (@length _)) in Z. rewrite upd_length in Z. simpl in Z. lia.
      * exists (upd l1 i (Some a)), l2. split; [|split; [|split]]; auto; [now apply covers_upd|now apply good_upd].
    + intros b. rewrite live01_upd by auto. cbn [b_live b2n].
      destruct (Nat.eqb_spec (q_buf q) b) as [<-|Nb]; [rewrite (live01_live _ _ _ Eb)|]; lia.
  - rewrite (read_live _ _ _ _ Ec). destruct (nth_error cs i) as [c|] eqn:E1; [|apply nth_error_None in E1; lia].
    pose proof (nth_error_lt _ _ _ Ec) as Lbc.
    assert (W : (if match c with Some _ => true | None => t_tcopy t end then lift (SWorld H wv) (fun h => write_cell h b i (Some a)) else None)
                = Some (SWorld (upd H b (Block true (upd cs i (Some a)))) wv)).
    { replace (match c with Some _ => true | None => t_tcopy t end) with true.
      - unfold lift. cbn [sw_heap]. rewrite (write_live _ _ _ _ _ Ec) by lia. reflexivity.
      - destruct c; auto. destruct (t_tcopy t) eqn:T; auto. destruct (good_nth _ _ _ G E1 T). discriminate. }
    rewrite W. eexists _, _. split; [reflexivity|]. rewrite <- (upd_same wv v (Some q)) by auto.
    eapply Rel_update; eauto.
    + intros b' _ U. rewrite nth_error_upd_neq; auto. intros Z. subst b'. pose proof (use_data _ _ Ed). lia.
    + exists bc. rewrite nth_error_upd_neq by auto. rewrite upd_length. split; [|split; [|split]]; auto. right; right.
      split; [|split]; auto. exists b, (upd cs i (Some a)). rewrite nth_error_upd_eq by auto.
      split; [|split; [|split; [|split]]]; auto; [now apply covers_upd|now apply good_upd].
    + intros b'. rewrite live01_upd by auto. cbn [b_live b2n].
      destruct (Nat.eqb_spec b b') as [<-|Nb]; [rewrite (live01_live _ _ _ Ec)|]; lia.
Qed.

(** ** one statement, one program *)
Lemma fresh_inv (s : list (option (list (option A)))) v : fresh s v = true -> nth_error s v = Some None.
Proof. unfold fresh. destruct (nth_error s v) as [[]|]; congruence. Qed.
Lemma val_inv (s : list (option (list (option A)))) v l : val s v = Some l -> nth_error s v = Some (Some l).
Proof. unfold val. destruct (nth_error s v) as [x|]; congruence. Qed.

Lemma step_rel H wv s o s' : Rel H wv s -> careful t cap s o = true -> val_step t dflt zero s o = Some s' ->
  exists H' wv', sso_exec t dflt zero cap (SWorld H wv) o = Some (SWorld H' wv') /\ Rel H' wv' s'.
Proof.
  intros R Hc Hs. destruct o as [v|v n i|v l|v x|v x|v x|v x|v i a|v]; cbn [val_step sso_exec] in *.
  - destruct (fresh s v) eqn:F; [|discriminate]. injection Hs as <-. destruct (declare_rel _ _ _ _ R (fresh_inv _ _ F)) as (-> & R').
    eauto.
  - destruct (fresh s v) eqn:F; [|discriminate]. cbn [andb] in Hs.
    destruct (match i with Default => true | _ => t_tcopy t end) eqn:Hi; [|discriminate]. injection Hs as <-.
    destruct (declare_rel _ _ _ _ R (fresh_inv _ _ F)) as (-> & R'). pose proof (nth_error_lt _ _ _ (fresh_inv _ _ F)) as Ls.
    pose proof R as (LL & _). destruct (init_rel _ _ _ v n i (length H) R') as (H' & wv' & E & R''); auto.
    + rewrite nth_error_upd_eq; auto. lia.
    + now rewrite nth_error_upd_eq.
    + rewrite upd_upd in R''. eauto.
  - destruct (fresh s v) eqn:F; [|discriminate]. injection Hs as <-.
    destruct (declare_rel _ _ _ _ R (fresh_inv _ _ F)) as (-> & R'). pose proof (nth_error_lt _ _ _ (fresh_inv _ _ F)) as Ls.
    pose proof R as (LL & _). destruct (from_rel _ _ _ v l (length H) R') as (H' & wv' & E & R''); auto.
    + rewrite nth_error_upd_eq; auto. lia.
    + now rewrite nth_error_upd_eq.
    + rewrite upd_upd in R''. eauto.
  - destruct (fresh s v) eqn:F; [|discriminate]. destruct (val s x) as [l|] eqn:Vx; [|discriminate]. injection Hs as <-.
    apply fresh_inv in F. apply val_inv in Vx. assert (Nx : x <> v) by congruence.
    destruct (declare_rel _ _ _ _ R F) as (-> & R'). pose proof (nth_error_lt _ _ _ F) as Ls.
    pose proof R as (LL & _). destruct (copy_rel _ _ _ v x l (length H) R') as (H' & wv' & E & R''); auto.
    + rewrite nth_error_upd_eq; auto. lia.
    + now rewrite nth_error_upd_eq.
    + rewrite nth_error_upd_neq by auto; auto.
    + rewrite upd_upd in R''. eauto.
  - destruct (fresh s v) eqn:F; [|discriminate]. destruct (val s x) as [l|] eqn:Vx; [|discriminate]. injection Hs as <-.
    cbn [careful] in Hc. rewrite Vx in Hc.
    apply fresh_inv in F. apply val_inv in Vx. assert (Nx : x <> v) by congruence.
    destruct (declare_rel _ _ _ _ R F) as (-> & R'). pose proof (nth_error_lt _ _ _ F) as Ls.
    pose proof R as (LL & _). destruct (move_rest _ wv _ v x l (length H) 0 R') as (H' & wv' & E & R''); auto.
    + lia.
    + now rewrite nth_error_upd_eq.
    + rewrite nth_error_upd_neq by auto; auto.
    + rewrite upd_upd in R''. eauto.
  - destruct (val s v) as [lv|] eqn:Vv; [|discriminate]. destruct (val s x) as [l|] eqn:Vx; [|discriminate]. injection Hs as <-.
    cbn [careful] in Hc. rewrite Vv in Hc. apply val_inv in Vv. apply val_inv in Vx.
    destruct (Rel_get _ _ _ _ _ R Vv) as (q & Eq & Hq). pose proof (nth_error_lt _ _ _ Eq) as Lv. pose proof (nth_error_lt _ _ _ Vv) as Ls.
    destruct (clean_rel _ _ _ _ _ _ R Eq Vv) as (H' & E & R' & Same). unfold sso_copy_assign. rewrite E.
    destruct (Nat.eqb_spec v x) as [<-|Nx].
    + cbn [negb orb] in Hc. assert (l = lv) by congruence. subst l. cbn [sw_v]. rewrite getv_upd by auto. cbn [q_size].
      unfold set_size at 1. cbn [sw_v]. rewrite getv_upd by auto. unfold set_v at 1 2. cbn [sw_v sw_heap q_buf q_data]. rewrite upd_upd.
      rewrite getv_upd by auto. cbn [q_size q_buf].
      assert (Es : q_size q = length lv) by (destruct Hq as (? & _ & _ & Es & _); auto). rewrite Es.
      destruct lv as [|c lv].
      * cbn [length Nat.eqb]. eexists _, _. split; [reflexivity|]. exact R'.
      * set (n := length (c :: lv)) in *. replace (Nat.eqb n 0) with false in * by reflexivity. cbn [orb negb andb] in Hc.
        apply andb_true_iff in Hc. destruct Hc as [Tt Hl]. apply Nat.leb_le in Hl. rewrite (Same Tt Hl) in *.
        assert (T : t_tcopy t = true) by (now apply (proj1 Hok)).
        unfold on_heap. cbn [q_size]. rewrite (proj2 (Nat.ltb_ge cap n) Hl).
        sv. unfold copy_loop. sv. unfold lift. cbn [sw_heap q_data].
        destruct Hq as (bc & Eb & Lb & _ & Hcase). rewrite (copy_self _ bc n) by (auto; lia).
        eexists _, _. split; [reflexivity|]. unfold set_hp. cbn [sw_v].
        destruct Hcase as [(Z & _)|[(_ & _ & Ed & _)|(Ll & _)]]; [discriminate| |fold n in Ll; lia].
        assert (Eqq : q = Sso (q_buf q) (Some (q_buf q)) n). { destruct q as [a b d]. cbn [q_buf q_data q_size] in *. congruence. }
        rewrite <- Eqq. rewrite (upd_same wv), (upd_same s); auto.
    + destruct (copy_assign_rest H' wv _ v x l (q_buf q) (q_size q) R') as (H2 & wv2 & E2 & R2); auto.
      * now rewrite nth_error_upd_eq.
      * rewrite nth_error_upd_neq by auto; auto.
      * cbn [sw_v]. rewrite upd_upd in R2. eauto.
  - destruct (val s v) as [lv|] eqn:Vv; [|discriminate]. destruct (val s x) as [l|] eqn:Vx; [|discriminate]. injection Hs as <-.
    cbn [careful] in Hc. rewrite Vx in Hc. apply val_inv in Vv. apply val_inv in Vx.
    destruct (Rel_get _ _ _ _ _ R Vv) as (q & Eq & Hq). pose proof (nth_error_lt _ _ _ Eq) as Lv. pose proof (nth_error_lt _ _ _ Vv) as Ls.
    destruct (clean_rel _ _ _ _ _ _ R Eq Vv) as (H' & E & R' & Same). unfold sso_move_assign. rewrite E.
    destruct (Nat.eq_dec v x) as [<-|Nx].
    + assert (l = lv) by congruence. subst l.
      unfold sso_move_from. sv.
      assert (Es : q_size q = length lv) by (destruct Hq as (? & _ & _ & Es & _); auto). rewrite Es. unfold on_heap. cbn [q_size].
      destruct (Nat.ltb_spec cap (length lv)) as [Q|Q].
      * sv. eauto.
      * destruct lv as [|c lv].
        -- cbn [length Nat.eqb negb]. sv. eauto.
        -- set (n := length (c :: lv)) in *. replace (Nat.eqb n 0) with false in * by reflexivity. cbn [negb andb] in *.
           assert (T : t_tcopy t = true).
           { destruct (t_tcopy t); auto. cbn [orb] in Hc. rewrite (proj2 (Nat.leb_le n cap) Q) in Hc. discriminate. }
           unfold copy_loop. sv.
           pose proof R' as (_ & V' & _). pose proof (V' v (Some (Sso (q_buf q) None 0)) (Some [])) as Vv'.
           rewrite !nth_error_upd_eq in Vv' by auto. destruct (Vv' eq_refl eq_refl) as (bc & Eb & Lb & _).
           cbn [q_buf] in Eb. cbn [q_data]. rewrite (copy_self _ bc n) by (auto; lia). sv. eauto.
    + destruct (move_rest H' wv _ v x l (q_buf q) (q_size q) R') as (H2 & wv2 & E2 & R2); auto.
      * now rewrite nth_error_upd_eq.
      * rewrite nth_error_upd_neq by auto; auto.
      * rewrite upd_upd in R2. eauto.
  - destruct (val s v) as [l|] eqn:Vv; [|discriminate]. destruct (Nat.ltb_spec i (length l)) as [Hi|Hi]; [|discriminate]. injection Hs as <-.
    apply val_inv in Vv. eapply write_rel; eauto.
  - destruct (val s v) as [l|] eqn:Vv; [|discriminate]. injection Hs as <-. apply val_inv in Vv. eapply end_rel; eauto.
Qed.

Lemma run_rel p : forall H wv s s', Rel H wv s -> val_run t dflt zero cap s p = Some s' ->
  exists H' wv', sso_run t dflt zero cap (SWorld H wv) p = Some (SWorld H' wv') /\ Rel H' wv' s'.
Proof.
  induction p as [|o p IH]; intros H wv s s' R E; cbn [val_run sso_run] in *.
  - injection E as <-. eauto.
  - destruct (careful t cap s o) eqn:C; [|discriminate]. destruct (val_step t dflt zero s o) as [s1|] eqn:S1; [|discriminate].
    destruct (step_rel _ _ _ _ _ R C S1) as (H1 & wv1 & E1 & R1). rewrite E1. eauto.
Qed.

Lemma rel_start n : Rel [] (repeat None n) (repeat None n).
Proof.
  split; [|split].
  - now rewrite !repeat_length.
  - intros v o x Ho Hx. apply nth_error_In, repeat_spec in Ho. apply nth_error_In, repeat_spec in Hx. subst. exact I.
  - intros b. assert (E : suse b (repeat None n) = 0%nat) by (induction n; simpl; auto). rewrite E.
    unfold live01. destruct b; reflexivity.
Qed.

Lemma rel_values H wv s : Rel H wv s -> right_values (SWorld H wv) s.
Proof.
  intros R v. unfold val. cbn [sw_v sw_heap]. destruct (nth_error s v) as [[l|]|] eqn:E.
  - destruct (Rel_get _ _ _ _ _ R E) as (q & Eq & Hq). exists q. split; [now apply getv_eq|].
    pose proof Hq as (bc & Eb & Lb & Es & Hc). split; [auto|split].
    + split.
      * intros ->. destruct Hc as [(_ & Ed & _)|[(Nl & _)|(Ll & _)]]; [auto|congruence|simpl in Ll; lia].
      * intros Ed. destruct Hc as [(Hl & _)|[(_ & _ & Ed' & _)|(_ & _ & b & cs & Ed' & _)]]; [auto|congruence|congruence].
    + intros i a Ei. assert (Nl : l <> []) by (intros ->; destruct i; discriminate).
      destruct (src_block _ _ _ Hq Nl) as (sb & l1 & rest & Ed & Esb & C & _). exists sb. split; auto.
      rewrite (read_live _ _ _ _ Esb). pose proof (covers_nth _ _ _ _ C Ei) as E1. rewrite nth_error_app1; auto.
      eapply nth_error_lt; eauto.
  - unfold getv. now rewrite (Rel_none _ _ _ _ R E).
  - unfold getv. destruct R as (LL & _). rewrite (proj2 (nth_error_None wv v)); auto. apply nth_error_None in E. lia.
Qed.

Lemma rel_memory H wv s : Rel H wv s -> right_memory (SWorld H wv).
Proof.
  intros (_ & V & U) b. cbn [sw_v sw_heap]. split.
  - intros (cs & E). pose proof (U b) as Ub. rewrite (live01_live _ _ _ E) in Ub.
    destruct (suse_ex b wv) as (v & y & Ey & Hy); [lia|]. destruct y as [q|]; [|simpl in Hy; lia].
    exists v, q. split; [now apply getv_eq|]. now apply use_inv.
  - intros (v & q & Eq & Hb). unfold getv in Eq. destruct (nth_error wv v) as [[q'|]|] eqn:E; try discriminate. injection Eq as ->.
    assert (P : (0 < use b (Some q))%nat). { destruct Hb as [<-|Hb]; [apply use_buf|now apply use_data]. }
    pose proof (suse_le b _ _ _ E) as S1. rewrite U in S1. unfold live01 in S1.
    destruct (nth_error H b) as [[[] cs]|]; cbn [b_live b2n] in S1; [eauto|lia|lia].
Qed.
Lemma rel_disjoint H wv s : Rel H wv s -> disjoint (SWorld H wv).
Proof.
  intros R u v p q b N Eu Ev Hp Hq. cbn [sw_v] in *. unfold getv in Eu, Ev.
  destruct (nth_error wv u) as [[p'|]|] eqn:E1; try discriminate. injection Eu as ->.
  destruct (nth_error wv v) as [[q'|]|] eqn:E2; try discriminate. injection Ev as ->.
  assert (P : (0 < use b (Some p))%nat). { destruct Hp as [<-|Hp]; [apply use_buf|now apply use_data]. }
  assert (P2 : (0 < use b (Some q))%nat). { destruct Hq as [<-|Hq]; [apply use_buf|now apply use_data]. }
  pose proof (other_block _ _ _ _ _ _ _ _ R N E1 E2 P). lia.
Qed.

(** ** handle_stack *)
Lemma k_assign_other (H : heap A) d s cs l : nth_error H d = Some (Block true cs) -> nth_error H s = Some (Block true l) ->
  d <> s -> length cs = cap -> length l = cap -> raw cs -> good t l ->
  k_assign t cap H d s = Some (upd H d (Block true l)).
Proof.
  intros Ed Es N Lc Ll R G. unfold k_assign.
  pose proof (copy_prefix l [] d s cs H Ed) as CP. rewrite app_nil_r, Ll, skipn_all2, app_nil_r in CP by lia. apply CP; auto. lia.
Qed.
Lemma k_end_ok (H : heap A) d l : nth_error H d = Some (Block true l) -> length l = cap -> good t l ->
  k_end t cap H d = Some (upd H d (Block false [])).
Proof.
  intros Ed Ll G. unfold k_end. pose proof (nth_error_lt _ _ _ Ed) as Ld.
  destruct (t_trivial t) eqn:T; cbn [negb].
  - unfold deallocate. rewrite (get_block_live _ _ _ Ed), Ll, Nat.eqb_refl.
    now rewrite (proj1 Hok T).
  - pose proof (destroy_prefix l [] d H) as D. rewrite !app_nil_r, Ll in D. rewrite (D Ed G). unfold deallocate.
    rewrite (get_block_live _ d (repeat None cap)) by now apply nth_error_upd_eq.
    rewrite repeat_length, Nat.eqb_refl, (raw_all _ (raw_none cap)). cbn [andb]. now rewrite upd_upd.
Qed.
Lemma k_new_ok (H : heap A) : exists l, k_new t dflt cap H = Some (H ++ [Block true l], length H)
  /\ length l = cap /\ good t l /\ (t_trivial t || t_complex t = false -> l = repeat (Some dflt) cap).
Proof.
  unfold k_new, allocate. destruct (negb (t_trivial t) && negb (t_complex t)) eqn:E.
  - pose proof (construct_prefix (fun _ => Some dflt) (repeat dflt cap) (length H) (repeat None cap) (H ++ [Block true (repeat None cap)])) as CP.
    rewrite nth_error_new, !repeat_length, map_rep, skipn_all2, app_nil_r, upd_app_r in CP by (now rewrite repeat_length).
    rewrite CP; auto.
    + exists (repeat (Some dflt) cap). rewrite repeat_length. split; [|split; [|split]]; auto. apply good_some.
    + apply raw_none.
    + intros i Hi. now apply nth_error_repeat.
  - exists (repeat None cap). rewrite repeat_length. split; [|split; [|split]]; auto.
    + intros T. exfalso. destruct Hok as [H1 H2]. destruct (t_trivial t), (t_complex t); simpl in E; try discriminate;
        (rewrite H1 in T by auto) || (rewrite H2 in T by auto); discriminate.
    + intros T. destruct (t_trivial t), (t_complex t); discriminate.
Qed.
End Proofs.
