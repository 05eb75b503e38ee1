(** Properties C04 and C05: permutations and their integer encoding. *)
From Verif Require Import Base M_Perm L_Perm M_IdxMap M_Slice S_Layout L_IdxMap L_Slice L_Layout.

(** ** C04 *)
Theorem C04_inverse_two_sided : forall n p, is_order n p ->
  is_order n (inverse p) /\ compose p (inverse p) = identity n /\ compose (inverse p) p = identity n.
Proof. intros n p H. split; [exact (is_perm_inverse n p H)|]. split; [exact (compose_inverse_r n p H)|exact (compose_inverse_l n p H)]. Qed.
Print Assumptions C04_inverse_two_sided.

Theorem C04_compose_monoid : forall n p q r, is_order n p -> is_order n q -> is_order n r ->
  is_order n (compose p q) /\ compose p (compose q r) = compose (compose p q) r /\
  compose p (identity n) = p /\ compose (identity n) p = p.
Proof.
  intros n p q r Hp Hq Hr. split; [exact (is_perm_compose n p q Hp Hq)|]. split; [exact (compose_assoc n p q r Hp Hq Hr)|].
  split; [exact (compose_identity_r n p Hp)|exact (compose_identity_l n p Hp)].
Qed.
Print Assumptions C04_compose_monoid.

(** what the composite does, entry by entry *)
Theorem C04_compose_pointwise : forall p q u, (u < length q)%nat -> nth u (compose p q) 0%nat = nth (nth u q 0%nat) p 0%nat.
Proof. exact nth_compose. Qed.
Print Assumptions C04_compose_pointwise.

(** apply reads through the permutation, apply_inverse writes through it; they undo each other *)
Theorem C04_apply_action : forall (A : Type) (d : A) n p q a, is_order n p -> is_order n q -> length a = n ->
  (forall u, (u < n)%nat -> nth u (apply d p a) d = nth (nth u p 0%nat) a d) /\
  (forall u, (u < n)%nat -> nth (nth u p 0%nat) (apply_inverse d p a) d = nth u a d) /\
  apply d p (apply_inverse d p a) = a /\ apply_inverse d p (apply d p a) = a /\
  apply d (compose p q) a = apply d q (apply d p a) /\
  apply_inverse d (compose p q) a = apply_inverse d p (apply_inverse d q a) /\
  Permutation (apply d p a) a.
Proof.
  intros A d n p q a Hp Hq La. split; [|split; [|split; [|split; [|split; [|split]]]]].
  - intros u Hu. apply nth_apply. now rewrite (is_perm_length n p Hp).
  - intros u Hu. exact (nth_apply_inverse d d n p a u Hp Hu).
  - exact (apply_apply_inverse d n p a Hp La).
  - exact (apply_inverse_apply d n p a Hp La).
  - exact (apply_compose d n p q a Hp Hq).
  - exact (apply_inverse_compose d n p q a Hp Hq La).
  - exact (apply_Permutation d n p a Hp La).
Qed.
Print Assumptions C04_apply_action.

Theorem C04_builders : forall n,
  is_order n (identity n) /\ is_order n (reverse_identity n) /\
  (forall u, (u < n)%nat -> nth u (identity n) 0%nat = u /\ nth u (reverse_identity n) 0%nat = (n - 1 - u)%nat) /\
  (forall i j, (i < n)%nat -> (j < n)%nat ->
     is_order n (transposition n i j) /\
     (forall u, (u < n)%nat -> nth u (transposition n i j) 0%nat = if Nat.eqb u i then j else if Nat.eqb u j then i else u) /\
     compose (transposition n i j) (transposition n i j) = identity n) /\
  (forall p pos, 0 <= p <= pos -> pos <= Z.of_nat n ->
     is_order n (map Z.to_nat (cycle n p pos)) /\
     (forall i, (i < n)%nat -> nth i (cycle n p pos) 0 = if Z.of_nat i <? pos then (Z.of_nat i - p) mod pos else Z.of_nat i)).
Proof.
  intros n. split; [exact (is_perm_identity n)|]. split; [exact (is_perm_reverse_identity n)|]. split; [|split].
  - intros u Hu. split; [exact (nth_identity n u Hu)|exact (nth_reverse_identity n u Hu)].
  - intros i j Hi Hj. split; [exact (is_perm_transposition n i j Hi Hj)|]. split.
    + intros u Hu. pose proof (nth_transposition n i j u Hi Hj Hu) as E. unfold nthN in E. rewrite E. destruct (Nat.eqb_spec u i), (Nat.eqb_spec u j); congruence.
    + exact (transposition_involutive n i j Hi Hj).
  - intros p pos Hp Hpos. split; [exact (cycle_is_perm n p pos Hp Hpos)|]. intros i Hi. exact (cycle_nth n p pos i Hi Hp Hpos).
Qed.
Print Assumptions C04_builders.

(** validity check: exact on arrays whose entries are in range *)
Theorem C04_is_valid_exact : forall p, Forall (fun x => 0 <= x < Z.of_nat (length p)) p ->
  exists b, is_valid p = Some b /\ (b = true <-> NoDup p).
Proof. exact is_valid_spec. Qed.
Print Assumptions C04_is_valid_exact.

(** ... and undefined (an unchecked array access) as soon as the first offending entry is out of range *)
Theorem C04_is_valid_out_of_range_refuted : exists p, is_valid p = None.
Proof. exists [0; 2]. reflexivity. Qed.
Print Assumptions C04_is_valid_out_of_range_refuted.

(** cycle with a shift larger than the cycled block produces negative entries *)
Theorem C04_cycle_large_shift_refuted : exists n p pos, 0 <= pos <= Z.of_nat n /\ pos < p /\ exists x, In x (cycle n p pos) /\ x < 0.
Proof. exists 3%nat, 5, 3. split; [vm_compute; split; discriminate|]. split; [reflexivity|]. exists (-2). split; [vm_compute; auto|reflexivity]. Qed.
Print Assumptions C04_cycle_large_shift_refuted.

Example C04_example : is_order 3 [2;0;1]%nat /\ inverse [2;0;1]%nat = [1;2;0]%nat /\
  apply 0 [2;0;1]%nat [10;20;30] = [30;10;20] /\ cycle 4 1 3 = [2;0;1;3] /\ is_valid [2;0;1] = Some true /\ is_valid [2;2;1] = Some false.
Proof.
  split; [apply perm_check_ok; reflexivity|vm_compute; repeat split].
Qed.

(** ** C05 *)
Theorem C05_encode_decode : forall a, Forall (fun x => 0 <= x < 16) a -> (length a <= 8)%nat ->
  exists w, encode a = Some w /\ decode (length a) w = a.
Proof. exact encode_decode. Qed.
Print Assumptions C05_encode_decode.

(** For rank 9 and above the encoder shifts a 32-bit int by 32 bits or more: undefined, although the
    library accepts ranks up to 15. *)
Theorem C05_encode_rank_9_refuted : forall a, (9 <= length a)%nat -> encode a = None.
Proof. intros a H. apply encode_from_none; [lia|lia|]. intros ->. simpl in H. lia. Qed.
Print Assumptions C05_encode_rank_9_refuted.

Example C05_example : encode [7;1;2;3;4;5;6;0] = Some 106181143 /\ decode 8 106181143 = [7;1;2;3;4;5;6;0].
Proof. vm_compute. split; reflexivity. Qed.
