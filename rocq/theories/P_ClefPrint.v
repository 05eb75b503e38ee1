(** Property C75: printed lazy expressions. *)
From Coq Require Import String Ascii.
From Verif Require Import Base M_Perm M_IdxMap M_Loops M_Assign M_Clef M_Print S_Layout S_Assign S_Clef M_ClefPrint S_ClefPrint L_ClefPrint.
Local Open Scope list_scope.

(** Every expression whose operators have their operands and that refers to live objects can be printed. *)
Theorem C75_prints : forall V (show : V -> text) (h : heap V) x, live h x -> exists t, print_node show h x = Ret t.
Proof. intros V show h x. apply live_prints. Qed.
Print Assumptions C75_prints.

(** Two expressions with the same text are the same expression, up to the names of the functions and arrays that are called or
    subscripted and to where their values are stored. *)
Theorem C75_readable : forall V (show : V -> text) (h h' : heap V) x y t, (forall v, word (show v)) ->
  print_node show h x = Ret t -> print_node show h' y = Ret t -> exists w, Written show h x w /\ Written show h' y w.
Proof.
  intros V show h h' x y t Hword Ex Ey. destruct (print_written show h x t Ex) as (w & Wx & Rx). destruct (print_written show h' y t Ey) as (w' & Wy & Ry).
  assert (w = w') as <- by (apply render_inj; [eapply written_words; eauto|eapply written_words; eauto|congruence]). eauto.
Qed.
Print Assumptions C75_readable.

(** The text is that of the usual notation, with the current values of the objects referred to. *)
Theorem C75_text : forall V (show : V -> text) (h : heap V) x t, print_node show h x = Ret t <-> exists w, Written show h x w /\ t = notation w.
Proof.
  intros V show h x t. split.
  - intros E. destruct (print_written show h x t E) as (w & W & <-). exists w. split; [exact W|apply render_notation].
  - intros (w & W & ->). rewrite <- render_notation. now apply written_render.
Qed.
Print Assumptions C75_text.

(** Expressions of operators and values, with the same text, have the same value for all values of the placeholders. *)
Theorem C75_same_value : forall V (show : V -> text) (h h' : heap V) x y t, (forall v, word (show v)) -> (forall v v', show v = show v' -> v = v') -> h_ops h = h_ops h' ->
  only_operators x -> only_operators y -> print_node show h x = Ret t -> print_node show h' y = Ret t -> forall e, value h e x = value h' e y.
Proof.
  intros V show h h' x y t Hword Hinj Hops Ox Oy Ex Ey e. destruct (C75_readable V show h h' x y t Hword Ex Ey) as (w & Wx & Wy).
  apply (denotes_fun show Hinj (h_ops h) e w); [now apply written_denotes|rewrite Hops; now apply written_denotes].
Qed.
Print Assumptions C75_same_value.

(** ** an instance: integers and functions of integers *)
Inductive num := Num (z : Z) | Fn (f : Z -> Z).
Definition num_bin (b : binop) (x y : num) : out num :=
  match b, x, y with BPlus, Num x, Num y => Ret (Num (x + y)) | BTimes, Num x, Num y => Ret (Num (x * y)) | _, _, _ => Stuck end.
Definition num_un (u : unop) (x : num) : out num := match u, x with UNegate, Num x => Ret (Num (- x)) | _, _ => Stuck end.
Definition num_call (f : num) (l : list num) : out num := match f, l with Fn f, [Num x] => Ret (Num (f x)) | _, _ => Stuck end.
Definition num_ops : ops num := Ops num_bin num_un num_call num_call (fun _ => Stuck) (fun _ => Stuck) Num.
Definition show_num (x : num) : text := match x with Num z => show_int z | Fn _ => lit "f" end.
(** two named objects, 7 and -3 *)
Definition num_heap : heap num := Heap num_ops (fun a => match a with 0%nat => Some (Num 7) | 1%nat => Some (Num (-3)) | _ => None end) (fun _ => None).

Example C75_words : forall v, word (show_num v).
Proof. intros [z|f]; [apply show_int_word|]. repeat split; [discriminate|discriminate|repeat constructor]. Qed.
Definition ex_sum : node num := NExpr (TBin BTimes) [NExpr (TBin BPlus) [NPh 1; NRef (RObj 1)]; NExpr (TUn UNegate) [NPh 12]].
Example C75_ex_text : live num_heap ex_sum /\ print_node show_num num_heap ex_sum = Ret (lit "((_1 + -3) * -(_12))").
Proof. split; [|reflexivity]. cbn. repeat split. now exists (Num (-3)). Qed.
Example C75_ex_same : print_node show_num num_heap (NExpr (TBin BTimes) [NExpr (TBin BPlus) [NPh 1; NVal (Num (-3))]; NExpr (TUn UNegate) [NPh 12]]) = print_node show_num num_heap ex_sum.
Proof. reflexivity. Qed.
Example C75_ex_other : print_node show_num num_heap (NExpr TSum [NFun (NExpr TFunction [NVal (Fn (fun x => x)); NPh 3; NExpr TIfElse [NPh 4; NVal (Num 0); NExpr (TUn UNot) [NPh 1]]] ) [3; 4]%nat; NRef (RObj 0)])
  = Ret (lit "lambda(lazy function : (_3, _4) --> lambda(_3, (_4?0 : (! _1))), 7)").
Proof. reflexivity. Qed.

(** The names of functions are not printed: different functions of a placeholder print as the same text. *)
Theorem C75_names_refuted : exists (x y : node num) t e, live num_heap x /\ live num_heap y /\ print_node show_num num_heap x = Ret t /\ print_node show_num num_heap y = Ret t /\
  value num_heap e x <> value num_heap e y.
Proof.
  exists (NExpr TFunction [NVal (Fn (fun z => z + 1)); NPh 1]), (NExpr TFunction [NVal (Fn (fun z => z + 2)); NPh 1]), (lit "lambda(_1)"), (fun _ => Ret (Num 0)).
  split; [cbn; repeat split; discriminate|]. split; [cbn; repeat split; discriminate|]. split; [reflexivity|]. split; [reflexivity|]. cbn. discriminate.
Qed.
Print Assumptions C75_names_refuted.
