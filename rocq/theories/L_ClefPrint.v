(** Lemmas on printed lazy expressions. *)
From Coq Require Import String Ascii.
From Verif Require Import Base M_Perm M_IdxMap M_Loops M_Assign M_Clef M_Print S_Layout S_Assign S_Clef M_RectStr S_RectStr L_RectStr S_Print M_ClefPrint S_ClefPrint.
Local Open Scope list_scope.

(** ** the text of a written expression *)
Fixpoint render (w : written) : text :=
  match w with
  | WVal t => t
  | WPh n => print_ph n
  | WUn UNegate a => lit "-(" ++ render a ++ lit ")"
  | WUn u a => lit "(" ++ un_name u ++ lit " " ++ render a ++ lit ")"
  | WBin b x y => lit "(" ++ render x ++ lit " " ++ bin_name b ++ lit " " ++ render y ++ lit ")"
  | WIf c x y => lit "(" ++ render c ++ lit "?" ++ render x ++ lit " : " ++ render y ++ lit ")"
  | WCall l => lit "lambda(" ++ variadic_print (map render l) ++ lit ")"
  | WSub l => lit "lambda[" ++ variadic_print (map render l) ++ lit "]"
  | WLam is b => lit "lazy function : (" ++ variadic_print (map print_ph is) ++ lit ") --> " ++ render b
  end.
Fixpoint words (w : written) : Prop :=
  match w with
  | WVal t => word t
  | WPh _ => True
  | WUn _ a => words a
  | WBin _ x y => words x /\ words y
  | WIf c x y => words c /\ words x /\ words y
  | WCall l | WSub l => fold_right (fun c P => words c /\ P) True l
  | WLam _ b => words b
  end.
Fixpoint size (w : written) : nat :=
  match w with
  | WVal _ | WPh _ => 1
  | WUn _ a => S (size a)
  | WBin _ x y => S (size x + size y)
  | WIf c x y => S (size c + size x + size y)
  | WCall l | WSub l => S (fold_right (fun c n => size c + n)%nat 0%nat l)
  | WLam _ b => S (size b)
  end.

(** what may follow an expression in a text *)
Definition stop (r : text) : Prop :=
  match r with
  | [] => True
  | c :: s => match s with d :: _ => c = " "%char /\ d <> "f"%char | [] => False end \/ In c (lit ",)]?")
  end.

Lemma marks_stop r : stop r -> r = [] \/ exists c s, r = c :: s /\ mark c = true.
Proof.
  destruct r as [|c s]; [now left|]. intros H. right. exists c, s. split; [reflexivity|]. destruct H as [H|H].
  - destruct s as [|d s]; [contradiction|]. destruct H as [-> _]. reflexivity.
  - cbn in H. destruct H as [<-|[<-|[<-|[<-|[]]]]]; reflexivity.
Qed.
Definition unmarked (t : text) : Prop := Forall (fun c => mark c = false) t.

Lemma cut_stop u : forall u' r r', unmarked u -> unmarked u' -> stop r -> stop r' -> u ++ r = u' ++ r' -> u = u' /\ r = r'.
Proof.
  induction u as [|x u IH]; intros [|y u'] r r' Hu Hu' Hr Hr' E; cbn [app] in E.
  - auto.
  - exfalso. inversion Hu' as [|a b H1 H2]; subst. destruct (marks_stop _ Hr) as [D|(c & s & D & Hc)]; [discriminate|]. injection D as D _. congruence.
  - exfalso. inversion Hu as [|a b H1 H2]; subst. destruct (marks_stop _ Hr') as [D|(c & s & D & Hc)]; [discriminate|]. injection D as D _. congruence.
  - inversion Hu as [|a b H1 H2]; inversion Hu' as [|a' b' H1' H2']; subst. injection E as -> E. destruct (IH u' r r') as [-> ->]; auto.
Qed.
(** a word is not taken for other notation *)
Lemma cut_word t : forall w c s r, unmarked t -> unmarked w -> mark c = true -> t ++ r = w ++ c :: s -> stop r -> t = w /\ r = c :: s.
Proof.
  induction t as [|x t IH]; intros [|y w] c s r Ht Hw Hc E Hr; cbn [app] in E.
  - auto.
  - exfalso. inversion Hw as [|a b H1 H2]; subst. destruct (marks_stop _ Hr) as [D|(d & u & D & Hd)]; [discriminate|]. injection D as D _. congruence.
  - exfalso. injection E as -> E. inversion Ht as [|a b H1 H2]; subst. congruence.
  - inversion Ht as [|a b H1 H2]; inversion Hw as [|a' b' H1' H2']; subst. injection E as -> E. destruct (IH w c s r) as [-> ->]; auto.
Qed.
Lemma digit_unmarked s : all_digits s = true -> unmarked (lit s).
Proof.
  induction s as [|c s IH]; cbn [all_digits]; intros H; [constructor|]. apply andb_true_iff in H. destruct H as [Hc Hs]. constructor; [|exact (IH Hs)].
  unfold is_digit in Hc. destruct c as [[] [] [] [] [] [] [] []]; cbn in Hc; try discriminate Hc; reflexivity.
Qed.
Lemma dec_unmarked n : unmarked (lit (to_string n)).
Proof. destruct (to_string_writes n) as (Hd & _ & _). now apply digit_unmarked. Qed.
Lemma lit_inj s s' : lit s = lit s' -> s = s'.
Proof. intros H. apply (f_equal string_of_list_ascii) in H. unfold lit in H. now rewrite !string_of_list_ascii_of_string in H. Qed.
Lemma ph_cut n n' r r' : stop r -> stop r' -> print_ph n ++ r = print_ph n' ++ r' -> n = n' /\ r = r'.
Proof.
  intros Hr Hr' E. unfold print_ph in E. rewrite <- !app_assoc in E. injection E as E. destruct (cut_stop _ _ _ _ (dec_unmarked n) (dec_unmarked n') Hr Hr' E) as [E1 ->]. split; [|reflexivity]. now apply to_string_inj, lit_inj.
Qed.

(** the first characters of a text *)
Lemma render_head w r : words w -> exists c s, render w ++ r = c :: s /\ c <> ")"%char /\ c <> "]"%char /\ c <> "!"%char /\ c <> "?"%char /\ c <> " "%char /\ c <> ","%char.
Proof.
  intros Hw. destruct w as [t|n|u a|b x y|c x y|l|l|is b]; cbn [render words] in *.
  - destruct Hw as (H0 & _ & Hf). destruct t as [|c t]; [contradiction|]. exists c, (t ++ r). inversion Hf as [|a b H1 H2]; subst. repeat split; intros ->; discriminate.
  - unfold print_ph. eexists _, _. split; [reflexivity|]. repeat split; discriminate.
  - destruct u; (eexists _, _; split; [reflexivity|]; repeat split; discriminate).
  - eexists _, _. split; [reflexivity|]. repeat split; discriminate.
  - eexists _, _. split; [reflexivity|]. repeat split; discriminate.
  - eexists _, _. split; [reflexivity|]. repeat split; discriminate.
  - eexists _, _. split; [reflexivity|]. repeat split; discriminate.
  - eexists _, _. split; [reflexivity|]. repeat split; discriminate.
Qed.
Lemma not_plus w r s : words w -> stop r -> render w ++ r = "+"%char :: " "%char :: s -> False.
Proof.
  intros Hw Hr E. destruct w as [t|n|u a|b x y|c x y|l|l|is b]; cbn [render words] in *; try discriminate E.
  - destruct Hw as (H0 & H1 & Hf). destruct (cut_word t ["+"%char] " "%char s r) as [-> _]; auto. repeat constructor.
  - destruct u; discriminate E.
Qed.
Lemma name_cut b b' s s' : bin_name b ++ " "%char :: s = bin_name b' ++ " "%char :: s' -> b = b' /\ s = s'.
Proof. destruct b, b'; cbn; intros E; try discriminate E; injection E as E; auto. Qed.
Lemma name_stop b s : stop (" "%char :: bin_name b ++ s).
Proof. left. destruct b; cbn; split; (reflexivity || discriminate). Qed.

Lemma variadic_cons t l : variadic_print (t :: l) = t ++ match l with [] => [] | _ => lit ", " ++ variadic_print l end.
Proof. destruct l as [|u l]; [cbn; reflexivity|]. cbn [variadic_print length]. destruct (Z.ltb_spec 0 (Z.of_nat (S (length l)))); [reflexivity|lia]. Qed.

(** ** reading a text back *)
Definition reads (w : written) : Prop := forall w' r r', words w' -> stop r -> stop r' -> render w ++ r = render w' ++ r' -> w = w' /\ r = r'.
Definition closing (c : ascii) : Prop := c = ")"%char \/ c = "]"%char.
Lemma closing_stop c s : closing c -> stop (c :: s).
Proof. intros [->| ->]; right; cbn; auto. Qed.
Lemma list_reads c l : closing c -> Forall reads l -> Forall words l -> forall l' s s', Forall words l' ->
  variadic_print (map render l) ++ c :: s = variadic_print (map render l') ++ c :: s' -> l = l' /\ s = s'.
Proof.
  intros Hc. assert (Hne : forall w r u, words w -> render w ++ r = c :: u -> False).
  { intros w r u Hw E. destruct (render_head w r Hw) as (d & v & E2 & N1 & N2 & _). rewrite E2 in E. injection E as E _. destruct Hc; congruence. }
  induction l as [|w l IH]; intros Hr Hw [|w' l'] s s' Hw' E; cbn [map] in E.
  - injection E as E. auto.
  - exfalso. rewrite variadic_cons, <- app_assoc in E. symmetry in E. apply Hne in E; [exact E|]. now inversion Hw'.
  - exfalso. rewrite variadic_cons, <- app_assoc in E. apply Hne in E; [exact E|]. now inversion Hw.
  - inversion Hr as [|a b R1 R2]; inversion Hw as [|a1 b1 W1 W2]; inversion Hw' as [|a2 b2 W1' W2']; subst. rewrite !variadic_cons, <- !app_assoc in E.
    assert (Hs : forall (l0 : list text) s0, stop (match l0 with [] => [] | _ => lit ", " ++ variadic_print l0 end ++ c :: s0)) by (intros [|t0 l0] s0; [now apply closing_stop|right; cbn; auto]).
    destruct (R1 w' _ _ W1' (Hs _ _) (Hs _ _) E) as [-> E2]. clear E.
    destruct l as [|x l], l' as [|x' l']; cbn [map] in E2.
    + injection E2 as ->. auto.
    + exfalso. cbn in E2. injection E2 as E2 _. destruct Hc; congruence.
    + exfalso. cbn in E2. injection E2 as E2 _. destruct Hc; congruence.
    + rewrite <- !app_assoc in E2. apply app_inv_head in E2. destruct (IH R2 W2 (x' :: l') s s' W2' E2) as [D ->]. now rewrite D.
Qed.
Lemma phs_read is is' s s' : variadic_print (map print_ph is) ++ ")"%char :: s = variadic_print (map print_ph is') ++ ")"%char :: s' -> is = is' /\ s = s'.
Proof.
  intros E. assert (M : forall l, map print_ph l = map render (map WPh l)) by (intros l; rewrite map_map; reflexivity). rewrite !M in E.
  destruct (list_reads ")"%char (map WPh is)) with (l' := map WPh is') (s := s) (s' := s') as [H ->]; auto.
  - now left.
  - apply Forall_map, Forall_forall. intros n _ w' r r' Hw' Hr Hr' E2. destruct w' as [t|n'|u a|b x y|c x y|l|l|js b]; cbn [render words] in *; try discriminate E2.
    + exfalso. destruct Hw' as (H0 & _ & Hf). unfold print_ph in E2. rewrite <- !app_assoc in E2. symmetry in E2. destruct (cut_word t [] "_"%char (lit (to_string n) ++ r) r') as [-> _]; auto. constructor.
    + destruct (ph_cut _ _ _ _ Hr Hr' E2) as [-> ->]. auto.
    + destruct u; discriminate E2.
  - apply Forall_map, Forall_forall. intros; exact I.
  - apply Forall_map, Forall_forall. intros; exact I.
  - split; [|reflexivity]. assert (I : forall l l', map WPh l = map WPh l' -> l = l') by (induction l as [|a l IHl]; intros [|a' l'] D; try discriminate D; [reflexivity|injection D as -> D; f_equal; auto]). now apply I.
Qed.

Lemma unmarked_lit s : forallb (fun c => negb (mark c)) (lit s) = true -> unmarked (lit s).
Proof. intros H. apply Forall_forall. intros c Hc. rewrite forallb_forall in H. specialize (H c Hc). now destruct (mark c). Qed.
Lemma no_stop c s : c = "("%char \/ c = "["%char -> stop (c :: s) -> False.
Proof.
  intros Hc [H|H].
  - destruct s as [|d s]; [contradiction|]. destruct H as [-> _]. destruct Hc; discriminate.
  - cbn in H. destruct Hc as [-> | ->]; destruct H as [H|[H|[H|[H|[]]]]]; discriminate.
Qed.
Lemma val_reads t w' r r' : word t -> words w' -> stop r -> stop r' -> t ++ r = render w' ++ r' -> w' = WVal t /\ r = r'.
Proof.
  intros (H0 & H1 & Hf) Hw' Hr Hr' E.
  assert (K : forall s c u, forallb (fun c => negb (mark c)) (lit s) = true -> mark c = true -> t ++ r = lit s ++ c :: u -> t = lit s /\ r = c :: u).
  { intros s c u Hs Hc E'. apply (cut_word t (lit s) c u r); auto. now apply unmarked_lit. }
  assert (K0 : forall c u, mark c = true -> t ++ r = c :: u -> False).
  { intros c u Hc E'. destruct (K ""%string c u eq_refl Hc E') as [-> _]. now apply H0. }
  destruct w' as [t'|n|u a|b x y|c x y|l|l|is b]; cbn [render words] in *.
  - destruct Hw' as (_ & _ & Hf'). destruct (cut_stop _ _ _ _ Hf Hf' Hr Hr' E) as [-> ->]. auto.
  - exfalso. now apply K0 in E.
  - exfalso. destruct u; [now apply K0 in E| |now apply K0 in E]. destruct (K "-"%string "("%char ((render a ++ lit ")") ++ r') eq_refl eq_refl E) as [_ ->]. apply no_stop in Hr; auto.
  - exfalso. now apply K0 in E.
  - exfalso. now apply K0 in E.
  - exfalso. destruct (K "lambda"%string "("%char ((variadic_print (map render l) ++ lit ")") ++ r') eq_refl eq_refl E) as [_ ->]. apply no_stop in Hr; auto.
  - exfalso. destruct (K "lambda"%string "["%char ((variadic_print (map render l) ++ lit "]") ++ r') eq_refl eq_refl E) as [_ ->]. apply no_stop in Hr; auto.
  - exfalso. destruct (K "lazy"%string " "%char (lit "function : (" ++ (variadic_print (map print_ph is) ++ lit ") --> " ++ render b) ++ r') eq_refl eq_refl) as [_ ->]; [exact E|].
    destruct Hr as [[_ Hr]|Hr]; [now apply Hr|]. cbn in Hr. destruct Hr as [H|[H|[H|[H|[]]]]]; discriminate.
Qed.
Lemma paren_stop s : stop (")"%char :: s).
Proof. right. cbn. auto. Qed.
Lemma question_stop s : stop ("?"%char :: s).
Proof. right. cbn. auto 6. Qed.
Lemma colon_stop s : stop (" "%char :: ":"%char :: s).
Proof. left. split; [reflexivity|discriminate]. Qed.

Lemma size_in l w : In w l -> (size w <= fold_right (fun c n => size c + n) 0 l)%nat.
Proof. induction l as [|x l IH]; intros H; [destruct H|]. destruct H as [->|H]; cbn; [lia|]. apply IH in H. lia. Qed.
Lemma words_in l : fold_right (fun c P => words c /\ P) True l <-> Forall words l.
Proof. induction l as [|x l IH]; cbn; [split; auto|]. rewrite IH. split; [intros [H1 H2]; now constructor|intros H; inversion H; auto]. Qed.

Lemma all_read n : forall w, (size w <= n)%nat -> words w -> reads w.
Proof.
  induction n as [|n IH]; intros w Hn Hw w' r r' Hw' Hr Hr' E; [destruct w; cbn in Hn; lia|].
  destruct w as [t|k|u a|b x y|c x y|l|l|is b].
  - cbn [render words] in *. destruct (val_reads t w' r r') as [-> ->]; auto.
  - destruct w' as [t'|n'|u' a'|b' x' y'|c' x' y'|l'|l'|is' b']; try (cbn [render] in E; try destruct u'; discriminate E).
    + exfalso. destruct (val_reads t' (WPh k) r' r) as [D _]; auto. discriminate.
    + destruct (ph_cut _ _ _ _ Hr Hr' E) as [-> ->]. auto.
  - destruct w' as [t'|n'|u' a'|b' x' y'|c' x' y'|l'|l'|is' b'].
    + exfalso. destruct (val_reads t' (WUn u a) r' r) as [D _]; auto. discriminate.
    + cbn [render] in E. destruct u; discriminate E.
    + assert (A : forall s s', u = u' -> render a ++ ")"%char :: s = render a' ++ ")"%char :: s' -> s = r -> s' = r' -> WUn u a = WUn u' a' /\ r = r').
      { intros s s' -> E' -> ->. cbn [size words] in *. destruct (IH a ltac:(lia) Hw a' _ _ Hw' (paren_stop r) (paren_stop r') E') as [-> D]. injection D as ->. auto. }
      cbn [render] in E. destruct u, u'; cbn [un_name] in E; rewrite <- ?app_assoc in E; try discriminate E; injection E as E; eapply A; eauto.
    + exfalso. cbn [render words size] in *. destruct Hw' as [Hx' Hy']. destruct u; rewrite <- ?app_assoc in E; try discriminate E; injection E as E.
      * symmetry in E. apply not_plus in E; auto. apply name_stop.
      * destruct (render_head x' (" "%char :: bin_name b' ++ " "%char :: render y' ++ ")"%char :: r') Hx') as (d & v & E2 & _ & _ & N & _). rewrite E2 in E. injection E as E _. congruence.
    + exfalso. cbn [render words size] in *. destruct Hw' as (Hc' & Hx' & Hy'). destruct u; rewrite <- ?app_assoc in E; try discriminate E; injection E as E.
      * symmetry in E. apply not_plus in E; auto. apply question_stop.
      * destruct (render_head c' ("?"%char :: render x' ++ " "%char :: ":"%char :: " "%char :: render y' ++ ")"%char :: r') Hc') as (d & v & E2 & _ & _ & N & _). rewrite E2 in E. injection E as E _. congruence.
    + destruct u; discriminate E.
    + destruct u; discriminate E.
    + destruct u; discriminate E.
  - cbn [words size] in Hw, Hn. destruct Hw as [Hx Hy]. destruct w' as [t'|n'|u' a'|b' x' y'|c' x' y'|l'|l'|is' b'].
    + exfalso. destruct (val_reads t' (WBin b x y) r' r) as [D _]; auto; [now split|discriminate].
    + discriminate E.
    + exfalso. cbn [render words] in *. destruct u'; rewrite <- ?app_assoc in E; try discriminate E; injection E as E.
      * apply not_plus in E; auto. apply name_stop.
      * destruct (render_head x (" "%char :: bin_name b ++ " "%char :: render y ++ ")"%char :: r) Hx) as (d & v & E2 & _ & _ & N & _). rewrite E2 in E. injection E as E _. congruence.
    + cbn [render words] in *. destruct Hw' as [Hx' Hy']. rewrite <- ?app_assoc in E. injection E as E.
      destruct (IH x ltac:(lia) Hx x' _ _ Hx' (name_stop _ _) (name_stop _ _) E) as [-> E2]. injection E2 as E2. apply name_cut in E2. destruct E2 as [-> E2].
      destruct (IH y ltac:(lia) Hy y' _ _ Hy' (paren_stop r) (paren_stop r') E2) as [-> E3]. injection E3 as ->. auto.
    + exfalso. cbn [render words] in *. destruct Hw' as (Hc' & Hx' & Hy'). rewrite <- ?app_assoc in E. injection E as E.
      destruct (IH x ltac:(lia) Hx c' _ _ Hc' (name_stop _ _) (question_stop _) E) as [_ E2]. discriminate.
    + discriminate E.
    + discriminate E.
    + discriminate E.
  - cbn [words size] in Hw, Hn. destruct Hw as (Hc & Hx & Hy). destruct w' as [t'|n'|u' a'|b' x' y'|c' x' y'|l'|l'|is' b'].
    + exfalso. destruct (val_reads t' (WIf c x y) r' r) as [D _]; auto; [now repeat split|discriminate].
    + discriminate E.
    + exfalso. cbn [render words] in *. destruct u'; rewrite <- ?app_assoc in E; try discriminate E; injection E as E.
      * apply not_plus in E; auto. apply question_stop.
      * destruct (render_head c ("?"%char :: render x ++ " "%char :: ":"%char :: " "%char :: render y ++ ")"%char :: r) Hc) as (d & v & E2 & _ & _ & N & _). rewrite E2 in E. injection E as E _. congruence.
    + exfalso. cbn [render words] in *. destruct Hw' as [Hx' Hy']. rewrite <- ?app_assoc in E. injection E as E.
      destruct (IH c ltac:(lia) Hc x' _ _ Hx' (question_stop _) (name_stop _ _) E) as [_ E2]. discriminate.
    + cbn [render words] in *. destruct Hw' as (Hc' & Hx' & Hy'). rewrite <- ?app_assoc in E. injection E as E.
      destruct (IH c ltac:(lia) Hc c' _ _ Hc' (question_stop _) (question_stop _) E) as [-> E2]. injection E2 as E2.
      destruct (IH x ltac:(lia) Hx x' _ _ Hx' (colon_stop _) (colon_stop _) E2) as [-> E3]. injection E3 as E3.
      destruct (IH y ltac:(lia) Hy y' _ _ Hy' (paren_stop r) (paren_stop r') E3) as [-> E4]. injection E4 as ->. auto.
    + discriminate E.
    + discriminate E.
    + discriminate E.
  - cbn [words size] in Hw, Hn. apply words_in in Hw. destruct w' as [t'|n'|u' a'|b' x' y'|c' x' y'|l'|l'|is' b']; try (cbn [render] in E; try destruct u'; discriminate E).
    + exfalso. destruct (val_reads t' (WCall l) r' r) as [D _]; auto; [now apply words_in|discriminate].
    + cbn [render words] in *. apply words_in in Hw'. rewrite <- ?app_assoc in E. injection E as E. destruct (list_reads ")"%char l) with (l' := l') (s := r) (s' := r') as [-> ->]; auto; [now left|].
      apply Forall_forall. intros w Hin. apply IH; [apply size_in in Hin; lia|]. now apply (proj1 (Forall_forall _ _) Hw).
  - cbn [words size] in Hw, Hn. apply words_in in Hw. destruct w' as [t'|n'|u' a'|b' x' y'|c' x' y'|l'|l'|is' b']; try (cbn [render] in E; try destruct u'; discriminate E).
    + exfalso. destruct (val_reads t' (WSub l) r' r) as [D _]; auto; [now apply words_in|discriminate].
    + cbn [render words] in *. apply words_in in Hw'. rewrite <- ?app_assoc in E. injection E as E. destruct (list_reads "]"%char l) with (l' := l') (s := r) (s' := r') as [-> ->]; auto; [now right|].
      apply Forall_forall. intros w Hin. apply IH; [apply size_in in Hin; lia|]. now apply (proj1 (Forall_forall _ _) Hw).
  - cbn [words size] in Hw, Hn. destruct w' as [t'|n'|u' a'|b' x' y'|c' x' y'|l'|l'|is' b']; try (cbn [render] in E; try destruct u'; discriminate E).
    + exfalso. destruct (val_reads t' (WLam is b) r' r) as [D _]; auto. discriminate.
    + cbn [render words] in *. rewrite <- ?app_assoc in E. injection E as E. destruct (phs_read _ _ _ _ E) as [-> E2]. injection E2 as E2.
      destruct (IH b ltac:(lia) Hw b' _ _ Hw' Hr Hr' E2) as [-> ->]. auto.
Qed.
Lemma render_inj w w' : words w -> words w' -> render w = render w' -> w = w'.
Proof. intros Hw Hw' E. destruct (all_read (size w) w (le_n _) Hw w' [] [] Hw' I I) as [-> _]; auto. now rewrite !app_nil_r. Qed.

(** ** what is printed *)
Section Node.
Context {V : Type} (show : V -> text).
Lemma node_rect (P : node V -> Prop) : (forall v, P (NVal v)) -> (forall r, P (NRef r)) -> (forall n, P (NPh n)) -> (forall t l, Forall P l -> P (NExpr t l)) ->
  (forall b is, P b -> P (NFun b is)) -> forall x, P x.
Proof.
  intros H1 H2 H3 H4 H5. fix go 1. intros [v|r|n|t l|b is]; [apply H1|apply H2|apply H3|apply H4|apply H5, go]. induction l as [|x l IH]; constructor; [apply go|exact IH].
Qed.
Lemma subnode_part (e : node V) : forall p, subnode e p = part e p.
Proof.
  intros p. revert e. induction p as [|i p IH]; intros e; [now destruct e|]. cbn [subnode part]. destruct e as [v|r|n|t l|b is]; reflexivity.
Qed.
Lemma print_ref_lookup h r : print_ref show h r = match lookup_ref h r with Ret v => Ret (show v) | _ => Stuck end.
Proof.
  destruct r as [a|o p|v]; cbn; [destruct (h_obj h a); reflexivity| |reflexivity]. destruct (h_exp h o) as [x|]; [|reflexivity]. rewrite subnode_part. destruct (part x p) as [[]|]; reflexivity.
Qed.
Lemma sequence_F2 {A} (f : A -> out text) (P : A -> written -> Prop) l : forall ts, Forall (fun x => forall t, f x = Ret t -> exists w, P x w /\ render w = t) l -> sequence (map f l) = Ret ts ->
  exists ws, Forall2 P l ws /\ map render ws = ts.
Proof.
  induction l as [|x l IH]; intros ts Hl E; cbn in E; [injection E as <-; exists []; split; constructor|]. inversion Hl as [|a b H1 H2]; subst.
  destruct (f x) as [t| |] eqn:Ex; cbn in E; try discriminate. destruct (sequence (map f l)) as [us| |] eqn:El; cbn in E; try discriminate. injection E as <-.
  destruct (H1 t eq_refl) as (w & Hw & <-). destruct (IH us H2 eq_refl) as (ws & Hws & <-). exists (w :: ws). split; [now constructor|reflexivity].
Qed.
Lemma print_written h x : forall t, print_node show h x = Ret t -> exists w, Written show h x w /\ render w = t.
Proof.
  induction x as [v|r|n|t l IH|b is IH] using node_rect; intros tx E; cbn [print_node] in E.
  - injection E as <-. exists (WVal (show v)). split; [constructor|reflexivity].
  - rewrite print_ref_lookup in E. destruct (lookup_ref h r) as [v| |] eqn:El; try discriminate. injection E as <-. exists (WVal (show v)). split; [now constructor|reflexivity].
  - injection E as <-. exists (WPh n). split; [constructor|reflexivity].
  - destruct t as [| | |b|u| |].
    + destruct l as [|c [|? ?]]; try discriminate. inversion IH as [|? ? H1 _]; subst. destruct (H1 _ E) as (w & Hw & Hr). exists w. split; [now constructor|exact Hr].
    + destruct l as [|f l]; try discriminate. inversion IH as [|? ? _ H1]; subst. destruct (sequence (map (print_node show h) l)) as [ts| |] eqn:Es; cbn [bind] in E; try discriminate. injection E as <-.
      destruct (sequence_F2 _ (Written show h) _ _ H1 Es) as (ws & Hws & <-). exists (WCall ws). split; [now constructor|reflexivity].
    + destruct l as [|f l]; try discriminate. inversion IH as [|? ? _ H1]; subst. destruct (sequence (map (print_node show h) l)) as [ts| |] eqn:Es; cbn [bind] in E; try discriminate. injection E as <-.
      destruct (sequence_F2 _ (Written show h) _ _ H1 Es) as (ws & Hws & <-). exists (WSub ws). split; [now constructor|reflexivity].
    + destruct l as [|x [|y [|? ?]]]; try discriminate. inversion IH as [|? ? H1 H']; subst. inversion H' as [|? ? H2 _]; subst.
      destruct (print_node show h x) as [s| |]; cbn [bind] in E; try discriminate. destruct (print_node show h y) as [t| |]; cbn [bind] in E; try discriminate. injection E as <-.
      destruct (H1 s eq_refl) as (w & Hw & <-). destruct (H2 t eq_refl) as (z & Hz & <-). exists (WBin b w z). split; [now constructor|reflexivity].
    + destruct l as [|x [|? ?]]; try (destruct u; discriminate). inversion IH as [|? ? H1 _]; subst. destruct (print_node show h x) as [s| |]; try (destruct u; discriminate).
      destruct (H1 s eq_refl) as (w & Hw & <-). exists (WUn u w). split; [now constructor|]. destruct u; cbn [bind] in E; injection E as <-; reflexivity.
    + destruct l as [|c [|x [|y [|? ?]]]]; try discriminate. inversion IH as [|? ? H1 H']; subst. inversion H' as [|? ? H2 H'']; subst. inversion H'' as [|? ? H3 _]; subst.
      destruct (print_node show h c) as [q| |]; cbn [bind] in E; try discriminate. destruct (print_node show h x) as [s| |]; cbn [bind] in E; try discriminate. destruct (print_node show h y) as [t| |]; cbn [bind] in E; try discriminate.
      injection E as <-. destruct (H1 q eq_refl) as (w1 & W1 & <-). destruct (H2 s eq_refl) as (w2 & W2 & <-). destruct (H3 t eq_refl) as (w3 & W3 & <-). exists (WIf w1 w2 w3). split; [now constructor|reflexivity].
    + destruct (sequence (map (print_node show h) l)) as [ts| |] eqn:Es; cbn [bind] in E; try discriminate. injection E as <-.
      destruct (sequence_F2 _ (Written show h) _ _ IH Es) as (ws & Hws & <-). exists (WCall ws). split; [now constructor|reflexivity].
  - destruct (print_node show h b) as [s| |]; cbn [bind] in E; try discriminate. injection E as <-. destruct (IH s eq_refl) as (w & Hw & <-). exists (WLam is w). split; [now constructor|reflexivity].
Qed.
Lemma written_seq h l ws : Forall2 (fun x w => print_node show h x = Ret (render w)) l ws -> sequence (map (print_node show h) l) = Ret (map render ws).
Proof. induction 1 as [|x w l ws E _ IH]; [reflexivity|]. cbn. now rewrite E, IH. Qed.
Lemma written_render h x : forall w, Written show h x w -> print_node show h x = Ret (render w).
Proof.
  induction x as [v|r|n|t l IH|b is IH] using node_rect; intros w W; inversion W; subst; cbn [print_node].
  - reflexivity.
  - rewrite print_ref_lookup. match goal with H : lookup_ref _ _ = _ |- _ => now rewrite H end.
  - reflexivity.
  - inversion IH as [|a b K1 _]; subst; auto.
  - inversion IH as [|a b K1 _]; subst. match goal with H : Written _ _ _ _ |- _ => rewrite (K1 _ H) end. destruct u; reflexivity.
  - inversion IH as [|a b0 K1 K']; subst. inversion K' as [|a b1 K2 _]; subst. match goal with Ha : Written _ _ x ?w, Hb : Written _ _ y ?z |- _ => rewrite (K1 _ Ha), (K2 _ Hb) end. reflexivity.
  - inversion IH as [|a b0 K1 K']; subst. inversion K' as [|a b1 K2 K'']; subst. inversion K'' as [|a b2 K3 _]; subst.
    match goal with Hc : Written _ _ c _, Ha : Written _ _ x ?w, Hb : Written _ _ y ?z |- _ => rewrite (K1 _ Hc), (K2 _ Ha), (K3 _ Hb) end. reflexivity.
  - inversion IH as [|a b0 _ K1]; subst. match goal with F : Forall2 _ ?l ?ws |- _ => rewrite (written_seq h l ws) by (revert K1; clear -F; induction F; intros K1; inversion K1; subst; constructor; auto) end. reflexivity.
  - match goal with F : Forall2 _ ?l ?ws |- _ => rewrite (written_seq h l ws) by (revert IH; clear -F; induction F; intros K1; inversion K1; subst; constructor; auto) end. reflexivity.
  - inversion IH as [|a b0 _ K1]; subst. match goal with F : Forall2 _ ?l ?ws |- _ => rewrite (written_seq h l ws) by (revert K1; clear -F; induction F; intros K1; inversion K1; subst; constructor; auto) end. reflexivity.
  - match goal with H : Written _ _ _ _ |- _ => rewrite (IH _ H) end. reflexivity.
Qed.
End Node.

Section Values.
Context {V : Type} (show : V -> text).
Hypothesis Hword : forall v, word (show v).

Lemma written_words h x w : Written show h x w -> words w.
Proof.
  revert w. induction x as [v|r|n|t l IH|b is IH] using node_rect; intros w W; inversion W; subst; cbn [words]; auto.
  - inversion IH as [|a b K1 _]; subst; auto.
  - inversion IH as [|a b K1 _]; subst; auto.
  - inversion IH as [|a b0 K1 K']; subst. inversion K' as [|a b1 K2 _]; subst. auto.
  - inversion IH as [|a b0 K1 K']; subst. inversion K' as [|a b1 K2 K'']; subst. inversion K'' as [|a b2 K3 _]; subst. auto.
  - inversion IH as [|a b0 _ K1]; subst. apply words_in. match goal with F : Forall2 _ _ _ |- _ => revert K1; clear -F; induction F; intros K1; inversion K1; subst; constructor; auto end.
  - apply words_in. match goal with F : Forall2 _ _ _ |- _ => revert IH; clear -F; induction F; intros K1; inversion K1; subst; constructor; auto end.
  - inversion IH as [|a b0 _ K1]; subst. apply words_in. match goal with F : Forall2 _ _ _ |- _ => revert K1; clear -F; induction F; intros K1; inversion K1; subst; constructor; auto end.
Qed.

Hypothesis Hinj : forall v v', show v = show v' -> v = v'.
(** the value of a written expression *)
Fixpoint denotes (o : ops V) (e : nat -> out V) (w : written) (x : out V) : Prop :=
  match w with
  | WVal t => exists v, show v = t /\ x = Ret v
  | WPh n => x = e n
  | WUn u a => exists p, denotes o e a p /\ x = bind (sequence [p]) (meaning o (TUn u))
  | WBin b a c => exists p q, denotes o e a p /\ denotes o e c q /\ x = bind (sequence [p; q]) (meaning o (TBin b))
  | WIf d a c => exists s p q, denotes o e d s /\ denotes o e a p /\ denotes o e c q /\ x = bind (sequence [s; p; q]) (meaning o TIfElse)
  | _ => False
  end.
Lemma denotes_fun o e w : forall x y, denotes o e w x -> denotes o e w y -> x = y.
Proof.
  induction w as [t|n|u a IHa|b a IHa c IHc|d IHd a IHa c IHc|l|l|is b IHb]; cbn [denotes]; intros x y Hx Hy; try contradiction.
  - destruct Hx as (v & Hv & ->), Hy as (v' & Hv' & ->). f_equal. apply Hinj. congruence.
  - congruence.
  - destruct Hx as (p & Hp & ->), Hy as (p' & Hp' & ->). now rewrite (IHa _ _ Hp Hp').
  - destruct Hx as (p & q & Hp & Hq & ->), Hy as (p' & q' & Hp' & Hq' & ->). now rewrite (IHa _ _ Hp Hp'), (IHc _ _ Hq Hq').
  - destruct Hx as (s & p & q & Hs & Hp & Hq & ->), Hy as (s' & p' & q' & Hs' & Hp' & Hq' & ->). now rewrite (IHd _ _ Hs Hs'), (IHa _ _ Hp Hp'), (IHc _ _ Hq Hq').
Qed.
Lemma written_denotes h e x : forall w, Written show h x w -> only_operators x -> denotes (h_ops h) e w (value h e x).
Proof.
  induction x as [v|r|n|t l IH|b is IH] using node_rect; intros w W O; inversion W; subst; cbn [only_operators fold_right] in O; try tauto.
  - cbn. eauto.
  - cbn. match goal with H : lookup_ref _ _ = Ret ?v |- _ => rewrite H; exists v end. auto.
  - reflexivity.
  - destruct O as [_ [O _]]. inversion IH as [|a b K1 _]; subst. assert (E : value h e (NExpr TTerminal [x]) = value h e x) by (cbn; now destruct (value h e x)). rewrite E. auto.
  - destruct O as [_ [O _]]. inversion IH as [|a b K1 _]; subst. exists (value h e x). split; auto.
  - destruct O as [_ [O1 [O2 _]]]. inversion IH as [|a b0 K1 K']; subst. inversion K' as [|a b1 K2 _]; subst. exists (value h e x), (value h e y). auto.
  - destruct O as [_ [O1 [O2 [O3 _]]]]. inversion IH as [|a b0 K1 K']; subst. inversion K' as [|a b1 K2 K'']; subst. inversion K'' as [|a b2 K3 _]; subst. exists (value h e c), (value h e x), (value h e y). auto.
Qed.
End Values.

Section Live.
Context {V : Type} (show : V -> text).
Lemma live_in h l : fold_right (fun c P => live h c /\ P) True l <-> Forall (live (V := V) h) l.
Proof. induction l as [|x l IH]; cbn; [split; auto|]. rewrite IH. split; [intros [K1 K2]; now constructor|intros H; inversion H; auto]. Qed.
Lemma sequence_ret {A B} (f : A -> out B) l : Forall (fun x => exists t, f x = Ret t) l -> exists ts, sequence (map f l) = Ret ts.
Proof.
  induction l as [|x l IH]; intros H; [now exists []|]. inversion H as [|a b (t & E) K2]; subst. destruct (IH K2) as (ts & E2). exists (t :: ts). cbn. now rewrite E, E2.
Qed.
Lemma live_prints h x : live h x -> exists t, print_node show h x = Ret t.
Proof.
  induction x as [v|r|n|t l IH|b is IH] using node_rect; intros L; cbn [print_node].
  - eauto.
  - destruct L as (v & Hv). rewrite print_ref_lookup, Hv. eauto.
  - eauto.
  - destruct L as [A L]. apply live_in in L.
    assert (F : Forall (fun x => exists t, print_node show h x = Ret t) l) by (rewrite Forall_forall in *; auto).
    destruct t as [| | |b|u| |]; cbn [arity_ok] in A.
    + destruct l as [|c [|? ?]]; try discriminate. now inversion F.
    + destruct l as [|f l]; [contradiction|]. inversion F as [|a b _ F']; subst. destruct (sequence_ret _ _ F') as (ts & ->). cbn. eauto.
    + destruct l as [|f l]; [contradiction|]. inversion F as [|a b _ F']; subst. destruct (sequence_ret _ _ F') as (ts & ->). cbn. eauto.
    + destruct l as [|x [|y [|? ?]]]; try discriminate. inversion F as [|a b0 (s & E) F']; subst. inversion F' as [|a b1 (s' & E') _]; subst. rewrite E, E'. cbn. eauto.
    + destruct l as [|x [|? ?]]; try discriminate. inversion F as [|a b0 (s & E) F']; subst. rewrite E. destruct u; cbn; eauto.
    + destruct l as [|c [|x [|y [|? ?]]]]; try discriminate. inversion F as [|a b0 (s & E) F']; subst. inversion F' as [|a b1 (s' & E') F'']; subst. inversion F'' as [|a b2 (s'' & E'') _]; subst. rewrite E, E', E''. cbn. eauto.
    + destruct (sequence_ret _ _ F) as (ts & ->). cbn. eauto.
  - destruct (IH L) as (t & ->). cbn. eauto.
Qed.
End Live.

Lemma show_int_word z : word (show_int z).
Proof.
  unfold show_int. fold (to_string (Z.to_nat (Z.abs z))). destruct (to_string_writes (Z.to_nat (Z.abs z))) as (Hd & _ & H0). pose proof (digit_unmarked _ Hd) as Hu.
  set (t := lit (to_string (Z.to_nat (Z.abs z)))) in *. split; [|split].
  - destruct (z <? 0); [discriminate|]. subst t. destruct (to_string _); [contradiction|discriminate].
  - destruct (z <? 0); [discriminate|]. cbn [app]. intros D. change (t = lit "+"%string) in D. subst t. apply lit_inj in D. rewrite D in Hd. discriminate.
  - apply Forall_app. split; [|exact Hu]. destruct (z <? 0); repeat constructor.
Qed.

(** ** the notation *)
Lemma variadic_joined l : variadic_print l = joined (lit ", ") l.
Proof.
  induction l as [|t l IH]; [reflexivity|]. rewrite variadic_cons, IH. destruct l as [|u l]; [apply app_nil_r|reflexivity].
Qed.
Lemma written_rect (P : written -> Prop) : (forall t, P (WVal t)) -> (forall n, P (WPh n)) -> (forall u a, P a -> P (WUn u a)) -> (forall b x y, P x -> P y -> P (WBin b x y)) ->
  (forall c x y, P c -> P x -> P y -> P (WIf c x y)) -> (forall l, Forall P l -> P (WCall l)) -> (forall l, Forall P l -> P (WSub l)) -> (forall is b, P b -> P (WLam is b)) -> forall w, P w.
Proof.
  intros H1 H2 H3 H4 H5 H6 H7 H8. fix go 1. intros [t|n|u a|b x y|c x y|l|l|is b].
  - apply H1.
  - apply H2.
  - apply H3, go.
  - apply H4; apply go.
  - apply H5; apply go.
  - apply H6. induction l as [|x l IH]; constructor; [apply go|exact IH].
  - apply H7. induction l as [|x l IH]; constructor; [apply go|exact IH].
  - apply H8, go.
Qed.
Lemma render_notation w : render w = notation w.
Proof.
  induction w as [t|n|u a IHa|b x y IHx IHy|c x y IHc IHx IHy|l IHl|l IHl|is b IHb] using written_rect; cbn [render notation].
  - reflexivity.
  - reflexivity.
  - destruct u; now rewrite IHa.
  - rewrite IHx, IHy. now destruct b.
  - now rewrite IHc, IHx, IHy.
  - rewrite variadic_joined. rewrite Forall_forall in IHl. now rewrite (map_ext_in _ _ _ IHl).
  - rewrite variadic_joined. rewrite Forall_forall in IHl. now rewrite (map_ext_in _ _ _ IHl).
  - rewrite variadic_joined, IHb. reflexivity.
Qed.
