(** C18: modular square roots. *)
From Verif Require Import Lib BaseModel ModuloModel ModPowModel PrimesSpec PrimesProofs NumTheory2 NumTheory3 RootsModel RootsSpec RootsProofs RootsProofs2 RootsProofs3.
Open Scope Z_scope.

(** modulo a prime: an answer in range always, a root whenever there is one *)
Theorem C18_cipolla : forall p y, is_prime p ->
  exists r, sqrt_cipolla y (Z.of_nat p) = Some r /\ 0 <= r < Z.of_nat p /\
    ((exists x, root_of y (Z.of_nat p) x) -> root_of y (Z.of_nat p) r).
Proof.
  intros p y P. pose proof (pz_ge p P) as P2. unfold sqrt_cipolla. rewrite ModPowProofs.modT_spec by lia. cbn [obind]. assert (B : 0 <= y mod Z.of_nat p < Z.of_nat p) by (apply Z.mod_pos_bound; lia). destruct (cipolla_range p (y mod Z.of_nat p) P B) as (r & E & R & G). exists r. split; [exact E|]. split; [exact R|].
  unfold root_of. intros (x & X). replace (r * r - y) with ((r * r - y mod Z.of_nat p) + (y mod Z.of_nat p - y)) by ring. apply Z.divide_add_r; [apply G|apply mod_self'; lia]. exists x. replace (x * x - y mod Z.of_nat p) with ((x * x - y) + (y - y mod Z.of_nat p)) by ring. apply Z.divide_add_r; [exact X|apply mod_self; lia].
Qed.
(** modulo a power of an odd prime *)
Theorem C18_hensel : forall p y k, is_prime p -> p <> 2%nat -> 1 <= k -> ~ (Z.of_nat p | y) -> (exists x, root_of y (Z.of_nat p) x) ->
  exists r, sqrt_hensel_lift y (Z.of_nat p) k = Some r /\ 0 <= r < Z.of_nat p ^ k /\ root_of y (Z.of_nat p ^ k) r /\
    forall x, root_of y (Z.of_nat p ^ k) x -> (Z.of_nat p ^ k | x - r) \/ (Z.of_nat p ^ k | x + r).
Proof.
  intros p y k P O K N X. destruct (hensel_all p P O y k K) as (r & E & B & G). exists r. split; [exact E|]. split; [exact B|]. pose proof (G N X) as R. split; [exact R|]. intros x Hx. now apply (roots_pm p P O y k K).
Qed.
(** modulo a power of two *)
Theorem C18_hensel_p2 : forall y k, 0 <= y -> 1 <= k ->
  ((2 | y) \/ ~ (exists x, root_of y (2 ^ k) x) -> sqrt_hensel_lift_p2 y k = Some (0, 0)) /\
  (~ (2 | y) -> (exists x, root_of y (2 ^ k) x) ->
     exists a b, sqrt_hensel_lift_p2 y k = Some (a, b) /\ 0 < a < 2 ^ k /\ 0 < b < 2 ^ k /\ root_of y (2 ^ k) a /\ root_of y (2 ^ k) b /\
       forall x, root_of y (2 ^ k) x -> (2 ^ k | x - a) \/ (2 ^ k | x + a) \/ (2 ^ k | x - b) \/ (2 ^ k | x + b)).
Proof. exact p2_spec. Qed.
(** modulo any factored number: exactly the roots, each once *)
Theorem C18_sqrt_mod : forall y vf, 0 <= y -> factorization_list vf -> Z.gcd y (factored_value vf) = 1 ->
  exists out, sqrt_mod y vf = Some out /\ NoDup out /\
    forall x, In x out <-> 0 <= x < factored_value vf /\ root_of y (factored_value vf) x.
Proof. exact sqrt_mod_run. Qed.
(** a negative representative of an odd residue is rejected modulo a power of two *)
Theorem C18_negative_refuted : ~ (forall y k, 1 <= k -> ~ (2 | y) -> (exists x, root_of y (2 ^ k) x) ->
  exists a b, sqrt_hensel_lift_p2 y k = Some (a, b) /\ root_of y (2 ^ k) a).
Proof.
  intros H. destruct (H (-7) 3) as (a & b & E & R); [lia|intros (c & C); lia|exists 1; exists 1; reflexivity|]. cbv in E. injection E as <- <-. destruct R as (c & R). cbn in R. lia.
Qed.

Lemma prime_3 : is_prime 3.
Proof. split; [lia|]. intros d (q & Q). assert (d <= 3)%nat by (destruct q; nia). destruct d as [|[|[|[|d]]]]; lia. Qed.
Lemma prime_2 : is_prime 2.
Proof. split; [lia|]. intros d (q & Q). assert (d <= 2)%nat by (destruct q; nia). destruct d as [|[|[|d]]]; lia. Qed.
Example C18_case :
  sqrt_hensel_lift 7 3 4 = Some 13 /\ sqrt_hensel_lift_p2 17 5 = Some (9, 7) /\
  (factorization_list [(2, 3); (3, 2)] /\ Z.gcd 25 (factored_value [(2, 3); (3, 2)]) = 1 /\ sqrt_mod 25 [(2, 3); (3, 2)] = Some [41; 49; 23; 31; 59; 67; 5; 13]).
Proof.
  split; [vm_compute; reflexivity|]. split; [vm_compute; reflexivity|]. split; [|split; vm_compute; reflexivity].
  split; [repeat constructor; cbn; intuition discriminate|]. intros p e [E|[E|[]]]; injection E as <- <-; (split; [lia|split; [|lia]]); [exact prime_2|exact prime_3].
Qed.
Print Assumptions C18_cipolla.
Print Assumptions C18_hensel.
Print Assumptions C18_hensel_p2.
Print Assumptions C18_sqrt_mod.
Print Assumptions C18_negative_refuted.
Print Assumptions C18_case.
