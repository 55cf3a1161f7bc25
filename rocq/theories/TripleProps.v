(** Properties C105-C109: triples of integers. *)
From Coq Require Import Znumtheory.
From Verif Require Import Lib BaseModel PrimesSpec TripleModel TripleSpec TripleProofs TripleProofs2 TripleProofs3 TripleProofs4 TripleProofs5 TripleProofs6 TripleProofs7 TripleProofs8.
Open Scope Z_scope.

Lemma square_root_sqrt : square_root Z.sqrt.
Proof. split; [intros x H; pose proof (Z.sqrt_spec x H); pose proof (Z.sqrt_nonneg x); unfold Z.succ in *; lia|intros x H; rewrite Z.sqrt_neg by lia; lia]. Qed.

(** C105: right triangles with hypotenuse up to c_max, each once. *)
Theorem C105_pythagorean_triples : forall root, square_root root -> forall c_max only_primitive, exists l,
  pythagorean_triples root c_max only_primitive = Some l /\ lists_exactly (wanted right_triangle c_max only_primitive) l.
Proof. intros root HR c_max only. exact (pythagorean_run root HR c_max only). Qed.
(** with one leg fixed, given its factorisation *)
Theorem C105_fixed_leg : forall (leg : nat) f, (0 < leg)%nat -> factorisation leg f -> exists l,
  pythagorean_triples_fixed_leg (Z.of_nat leg) f = Some l /\
  lists_exactly (fun '(a, b, c) => a = Z.of_nat leg /\ 0 < b /\ 0 < c /\ a * a + b * b = c * c) l.
Proof. exact fixed_leg_run. Qed.
Example C105_case : pythagorean_triples Z.sqrt 13 false = Some [(3, 4, 5); (6, 8, 10); (5, 12, 13)] /\ pythagorean_triples Z.sqrt 13 true = Some [(3, 4, 5); (5, 12, 13)] /\
  square_root Z.sqrt /\ pythagorean_triples_fixed_leg 12 [(2, 2); (3, 1)]%nat = Some [(12, 35, 37); (12, 9, 15); (12, 16, 20); (12, 5, 13)] /\ factorisation 12 [(2, 2); (3, 1)]%nat.
Proof.
  split; [reflexivity|]. split; [reflexivity|]. split; [apply square_root_sqrt|]. split; [vm_compute; reflexivity|]. split; [reflexivity|]. split; [repeat constructor; cbn; intuition congruence|].
  assert (PR : forall p, (2 <= p <= 3)%nat -> is_prime p). { intros p Hp. split; [lia|]. intros d [q Hq]. destruct (Nat.eq_dec d p); [now right|left]. destruct q as [|[|q]]; [lia|lia|]. destruct d as [|[|d]]; nia. }
  intros p e [E|[E|[]]]; injection E as <- <-; (split; [apply PR; lia|lia]).
Qed.

(** C106: triangles with an angle of 60 degrees. *)
Theorem C106_eisenstein60 : forall root, square_root root -> forall c_max only_primitive, exists l,
  eisenstein_triples60 root c_max only_primitive = Some l /\ lists_exactly (wanted triangle60 c_max only_primitive) l.
Proof. intros root HR c_max only. exact (eisenstein60_run root HR c_max only). Qed.
(** the documented strict order fails exactly for the equilateral triangles, which are listed *)
Theorem C106_strict_unless_equilateral : forall a b c, triangle60 (a, b, c) -> a < b < c \/ a = b /\ b = c.
Proof.
  intros a b c (H1 & H2 & E). destruct (Z.eq_dec a b) as [->|]; [right|destruct (Z.eq_dec b c) as [->|]; [right|left; lia]]; split; auto.
  - assert (W : c * (c - b) = 0) by lia. apply Z.mul_eq_0 in W as [|]; lia.
  - assert (W : a * (a - c) = 0) by lia. apply Z.mul_eq_0 in W as [|]; lia.
Qed.
Theorem C106_strict_order_refuted : ~ (forall root, square_root root -> forall c_max only_primitive l, eisenstein_triples60 root c_max only_primitive = Some l -> forall a b c, In (a, b, c) l -> 0 < a < b /\ b < c <= c_max).
Proof. intros H. specialize (H Z.sqrt square_root_sqrt 1 false [(1, 1, 1)] eq_refl 1 1 1 (or_introl eq_refl)). lia. Qed.
Example C106_case : eisenstein_triples60 Z.sqrt 8 true = Some [(1, 1, 1); (5, 7, 8); (3, 7, 8)] /\ triangle60 (3, 7, 8) /\ wanted triangle60 8 true (5, 7, 8).
Proof.
  split; [reflexivity|]. split; [unfold triangle60; lia|]. split; [unfold triangle60; lia|]. split; [cbn; lia|]. intros _. apply primitive_of_gcd. reflexivity.
Qed.

(** C107: triangles with an angle of 120 degrees. *)
Theorem C107_eisenstein120 : forall root, square_root root -> forall c_max only_primitive, exists l,
  eisenstein_triples120 root c_max only_primitive = Some l /\ lists_exactly (wanted triangle120 c_max only_primitive) l.
Proof. intros root HR c_max only. exact (eisenstein120_run root HR c_max only). Qed.
Example C107_case : eisenstein_triples120 Z.sqrt 14 false = Some [(3, 5, 7); (6, 10, 14); (7, 8, 13)] /\ triangle120 (7, 8, 13).
Proof. split; [reflexivity|unfold triangle120; lia]. Qed.

(** C108: solutions of a^2 + b^2 = c^2 + 1 with c up to c_max, both orders of a and b, each once. *)
Theorem C108_almost_pythagorean : forall c_max, exists l, almost_pythagorean_triples c_max = Some l /\ lists_exactly (almost_right c_max) l.
Proof. exact almost_run. Qed.
Example C108_case : exists l, almost_pythagorean_triples 9 = Some l /\ In (4, 7, 8) l /\ In (7, 4, 8) l /\ length l = 20%nat /\ almost_right 9 (4, 7, 8).
Proof. eexists. split; [vm_compute; reflexivity|]. cbn. split; [tauto|]. split; [tauto|]. split; [reflexivity|lia]. Qed.

(** C109: from the generators for k, the tree walk lists every primitive solution of a^2 + b^2 + k = c^2 up to n, each once;
    only generators may lie beyond n, and no generator is the child of a solution. *)
Theorem C109_tree : forall root k n, square_root root -> 0 <= k -> exists G vt,
  pythagorean_triples_generators root k = Some G /\ generate_pythagorean_triples n G = Some vt /\ NoDup vt /\
  (forall t, snd t <= n -> (In t vt <-> shifted_right k t)) /\
  (forall t, In t vt -> n < snd t -> In t G) /\
  (forall t, In t G -> shifted_right k t /\ In t vt) /\
  (forall t s m, In t G -> shifted_right k s -> In m tree_matrices -> next_pythagorean_triple m s <> t).
Proof. intros root k n HR Hk. exact (tree_run root k n HR Hk). Qed.
(** generators beyond the limit are returned *)
Theorem C109_limit_refuted : ~ (forall root, square_root root -> forall k n G vt, pythagorean_triples_generators root k = Some G -> generate_pythagorean_triples n G = Some vt -> forall t, In t vt -> snd t <= n).
Proof. intros H. specialize (H Z.sqrt square_root_sqrt 0 4 [(3, 4, 5)] [(3, 4, 5)] eq_refl eq_refl (3, 4, 5) (or_introl eq_refl)). cbn in H. lia. Qed.
Example C109_case : pythagorean_triples_generators Z.sqrt 3 = Some [(0, 1, 2)] /\ pythagorean_triples_generators Z.sqrt 7 = Some [(0, 3, 4); (1, 1, 3); (3, 3, 5)] /\ shifted_right 7 (9, 9, 13) /\
  (exists vt, generate_pythagorean_triples 13 [(0, 3, 4); (1, 1, 3); (3, 3, 5)] = Some vt /\ In (9, 9, 13) vt).
Proof.
  split; [vm_compute; reflexivity|]. split; [vm_compute; reflexivity|]. split.
  - split; [lia|]. split; [lia|]. split; [reflexivity|]. split; [|lia]. apply primitive_gcd. reflexivity.
  - eexists. split; [vm_compute; reflexivity|]. cbn. tauto.
Qed.
Print Assumptions C105_pythagorean_triples.
Print Assumptions C105_fixed_leg.
Print Assumptions C106_eisenstein60.
Print Assumptions C106_strict_unless_equilateral.
Print Assumptions C106_strict_order_refuted.
Print Assumptions C107_eisenstein120.
Print Assumptions C108_almost_pythagorean.
Print Assumptions C109_tree.
Print Assumptions C109_limit_refuted.
