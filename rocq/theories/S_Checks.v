(** Specification vocabulary for C73: what the wrappers of BLAS and LAPACK ask of their arguments, and what it means that a debug build checks it.
    Extents and steps only; nothing here refers to the code of the wrappers. *)
From Verif Require Import Base M_IdxMap M_Slice M_Loops M_Assign M_Blas S_Layout.

(** [checked P f]: the debug build ([f true]) stops if the precondition [P] is not met, and otherwise does what the release build ([f false]) does *)
Definition checked {T} (P : Prop) (f : bool -> bout T) : Prop := (~ P -> f true = BStop) /\ (P -> f true = f false).

(** number of elements along a dimension *)
Definition ext (v : view) (d : nat) : Z := nth d (im_len (v_lay v)) 0.
(** distance in memory of neighbours along the dimension that comes last in the stride order *)
Definition last_step (v : view) : Z := nth (last (im_so (v_lay v)) 0%nat) (im_str (v_lay v)) 0.
Definition dense (v : view) : Prop := last_step v = 1.
Definition has_rank (n : nat) (v : view) : Prop := wf (v_lay v) /\ length (im_len (v_lay v)) = n.

(** c := a b has a meaning for these extents *)
Definition product_fits (a b c : view) : Prop := ext a 1 = ext b 0 /\ ext c 0 = ext a 0 /\ ext c 1 = ext b 1.
(** all members of a batch of one shape *)
Definition same_shape (a b : view) : Prop := im_len (v_lay a) = im_len (v_lay b).
