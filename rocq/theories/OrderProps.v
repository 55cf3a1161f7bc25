(** C76-C80: multiplicative orders, primitive roots, k-th roots and discrete logarithms. *)
From Coq Require Import Znumtheory.
From Verif Require Import Lib BaseModel PrimesSpec PrimesProofs RootsModel RootsProofs OrderSpec OrderModel OrderProofs OrderProofs2 OrderProofs3 OrderProofs4 OrderProofs5 OrderProofs6 OrderProofs7 OrderProofs8 OrderProofs9 OrderProofs10.
Open Scope Z_scope.

(** ** C76: the order of an element *)
Theorem C76_order_g : forall (G : Type) (mul : G -> G -> G) (one : G) (eqb : G -> G -> bool) (ok : G -> Prop), monoid_on ok mul one -> (forall x y, ok x -> ok y -> eqb x y = true <-> x = y) ->
  forall a n fs, ok a -> 0 < n -> gpow mul one a (Z.to_nat n) = one -> prime_factors_of n fs -> exists k, multiplicative_order_g mul one eqb a n fs = Some k /\ is_order mul one a k /\ (k | n).
Proof. intros. now apply (multiplicative_order_ok mul one eqb ok). Qed.
Theorem C76_order : forall a m phi fs, 0 < m -> 0 < phi -> (m | a ^ phi - 1) -> prime_factors_of phi fs -> exists k, multiplicative_order a m phi fs = Some k /\ order_mod a m k /\ (k | phi).
Proof. exact order_mod_ok. Qed.
Theorem C76_order_totient : forall a m fs, 0 < m -> Z.gcd a m = 1 -> prime_factors_of (Z.of_nat (totient (Z.to_nat m))) fs ->
  exists k, multiplicative_order a m (Z.of_nat (totient (Z.to_nat m))) fs = Some k /\ order_mod a m k /\ (k | Z.of_nat (totient (Z.to_nat m))).
Proof. intros a m fs H G F. apply order_mod_ok; [exact H|pose proof (totient_pos (Z.to_nat m) ltac:(lia)); lia|now apply euler_Z|exact F]. Qed.
(** an element that is not a unit has no order, and the function returns the exponent it was given *)
Theorem C76_non_unit_refuted : multiplicative_order 2 10 4 [2] = Some 4 /\ ~ (10 | 2 ^ 4 - 1).
Proof. split; [vm_compute; reflexivity|]. intros [c C]. lia. Qed.
Lemma factors_case : prime_factors_of 100 [2; 5].
Proof.
  split; [repeat constructor; cbn; intuition lia|]. intros p. split.
  - intros [<-|[<-|[]]]; [exists 2%nat|exists 5%nat]; (split; [reflexivity|]; split; [apply primeb_spec; reflexivity|]); [exists 50|exists 20]; reflexivity.
  - intros (q & -> & Q & D). change 100 with (Z.of_nat (2 ^ 2 * 5 ^ 2)) in D. apply NumTheory2.divide_nat in D. destruct (NumTheory2.prime_Zeuclid q (Z.of_nat (2 ^ 2)) (Z.of_nat (5 ^ 2)) Q) as [D'|D']; [rewrite <- Nat2Z.inj_mul; now apply NumTheory2.divide_nat| |]; apply NumTheory2.divide_nat in D'.
    + apply (prime_divides_pow q 2 2 Q is_prime_2) in D'. subst q. now left.
    + apply (prime_divides_pow q 5 2 Q ltac:(apply primeb_spec; reflexivity)) in D'. subst q. right. now left.
Qed.
Example C76_case : totient (Z.to_nat 101) = 100%nat /\ Z.gcd 36 101 = 1 /\ prime_factors_of 100 [2; 5] /\ multiplicative_order 36 101 100 [2; 5] = Some 5.
Proof. split; [vm_compute; reflexivity|]. split; [reflexivity|]. split; [exact factors_case|vm_compute; reflexivity]. Qed.

(** ** C77: primitive roots *)
Theorem C77_primitive_root : forall n fs, (2 <= n)%nat -> prime_factors_of (Z.of_nat (totient n)) fs -> exists r, primitive_root (Z.of_nat n) (Z.of_nat (totient n)) fs = Some r /\
  (cyclic_modulus n -> 1 <= r < Z.of_nat n /\ Z.gcd r (Z.of_nat n) = 1 /\ generates r (Z.of_nat n) /\ forall h, 1 <= h < r -> ~ (Z.gcd h (Z.of_nat n) = 1 /\ generates h (Z.of_nat n))) /\
  (~ cyclic_modulus n -> r = 0 /\ forall h, ~ (Z.gcd h (Z.of_nat n) = 1 /\ generates h (Z.of_nat n))).
Proof.
  intros n fs H F. pose proof (totient_pos n ltac:(lia)) as T. destruct (primitive_root_ok (Z.of_nat n) (Z.of_nat (totient n)) fs ltac:(lia) ltac:(lia)) as (r & E & R); [intros a G; pose proof (euler_Z a (Z.of_nat n) ltac:(lia) G) as X; now rewrite Nat2Z.id in X|exact F|]. exists r. split; [exact E|].
  assert (OG : forall g, order_mod g (Z.of_nat n) (Z.of_nat (totient n)) <-> Z.gcd g (Z.of_nat n) = 1 /\ generates g (Z.of_nat n)). { intros g. pose proof (order_generates (Z.of_nat n) g ltac:(lia)) as X. rewrite Nat2Z.id in X. split; [intros O; pose proof (om_unit _ _ _ O) as U; split; [exact U|now apply X]|intros (U & Y); now apply X]. }
  split; intros C.
  - destruct R as [(RB & RO & RN)|(_ & RN)]; [|exfalso; apply (root_exists n H) in C as (g & O); now apply (RN g)]. split; [exact RB|]. apply OG in RO as (U & GN). split; [exact U|]. split; [exact GN|]. intros h Hh Y. apply (RN h Hh). now apply OG.
  - destruct R as [(_ & RO & _)|(R0 & RN)]; [exfalso; apply C; apply (root_exists n H); now exists r|]. split; [exact R0|]. intros h Y. apply (RN h). now apply OG.
Qed.
Theorem C77_primitive_root_of_unity : forall m lam fs, 2 <= m -> carmichael m lam -> prime_factors_of lam fs ->
  exists r, primitive_root_of_unity m lam fs = Some r /\ 1 <= r < m /\ order_mod r m lam /\ forall h, 1 <= h < r -> ~ order_mod h m lam.
Proof.
  intros m lam fs H C F. unfold primitive_root_of_unity. destruct (primitive_root_ok m lam fs H) as (r & E & R); [apply C|apply C|exact F|]. exists r. split; [exact E|]. destruct R as [R|(_ & R)]; [exact R|]. exfalso. destruct (exponent_element m ltac:(lia) lam C) as (g & O). now apply (R g).
Qed.
Example C77_case : cyclic_modulus 101 /\ primitive_root 101 100 [2; 5] = Some 2 /\ ~ cyclic_modulus 8 /\ primitive_root 8 4 [2] = Some 0 /\ primitive_root_of_unity 8 2 [2] = Some 3.
Proof.
  split; [right; right; exists 101%nat, 1%nat; split; [apply primeb_spec; reflexivity|]; split; [discriminate|]; split; [apply le_n|left; symmetry; apply Nat.pow_1_r]|]. split; [vm_compute; reflexivity|]. split; [|split; vm_compute; reflexivity].
  intros [X|[X|(p & k & P & N & K & X)]]; [discriminate|discriminate|]. assert (D : Nat.divide p (2 ^ 3)). { change (2 ^ 3)%nat with 8%nat. destruct k as [|k]; [lia|]. destruct X as [-> | ->]; cbn [Nat.pow]; [apply Nat.divide_factor_l|]. exists (2 * p ^ k)%nat. lia. } apply (prime_divides_pow p 2 3 P is_prime_2) in D. contradiction.
Qed.

(** ** C78: k-th roots *)
Theorem C78_kth_roots_of_unity : forall m k lam g, 0 < m -> 1 <= k -> order_mod g m lam -> exists sr, kth_roots_of_unity m k lam g = Some sr /\ NoDup sr /\ Z.of_nat (length sr) = Z.gcd k lam /\
  (forall x, In x sr -> 0 <= x < m /\ (m | x ^ k - 1)) /\ (generates g m -> forall x, In x sr <-> 0 <= x < m /\ (m | x ^ k - 1)).
Proof. exact kth_unity_ok. Qed.
Theorem C78_kth_roots : forall m k phi g l, 0 < m -> 1 <= k -> 0 <= l -> order_mod g m phi -> exists sr, kth_roots m k phi g l = Some sr /\ NoDup sr /\
  (forall x, In x sr -> 0 <= x < m /\ (m | x ^ k - g ^ l)) /\ (generates g m -> forall x, In x sr <-> 0 <= x < m /\ (m | x ^ k - g ^ l)) /\ (sr = [] \/ Z.of_nat (length sr) = Z.gcd k phi).
Proof. exact kth_roots_ok. Qed.
(** without a primitive root the set is incomplete: 5 is a square root of 1 modulo 8 *)
Theorem C78_not_cyclic_refuted : order_mod 3 8 2 /\ kth_roots_of_unity 8 2 2 3 = Some [3; 1] /\ (8 | 5 ^ 2 - 1).
Proof. split; [|split; [vm_compute; reflexivity|exists 3; reflexivity]]. split; [lia|]. split; [exists 1; reflexivity|]. intros j J [c C]. assert (j = 1) as -> by lia. change (3 ^ 1 - 1) with 2 in C. lia. Qed.
Example C78_case : order_mod 2 13 12 /\ kth_roots_of_unity 13 4 12 2 = Some [5; 12; 8; 1] /\ kth_roots 13 4 12 2 8 = Some [7; 9; 6; 4].
Proof.
  split; [|split; vm_compute; reflexivity]. split; [lia|]. split; [exists 315; reflexivity|]. intros j J D. assert (T : forallb (fun j => negb ((2 ^ j - 1) mod 13 =? 0)) [1; 2; 3; 4; 5; 6; 7; 8; 9; 10; 11] = true) by (vm_compute; reflexivity). rewrite forallb_forall in T. specialize (T j ltac:(cbn; lia)). apply Z.mod_divide in D; [|lia]. rewrite D in T. discriminate.
Qed.

(** ** C79: discrete logarithms *)
Theorem C79_brute_force : forall a b m, 0 < m -> exists r, discrete_log_brute_force a b m = Some r /\ least_log a b m r.
Proof. intros a b m H. now apply brute_mod_ok. Qed.
Theorem C79_baby_giant : forall root a b m n, is_isqrt root -> 0 < m -> 0 < n -> (m | a ^ n - 1) -> exists r, discrete_log_baby_giant root a b m n = Some r /\ least_log a b m r /\ r < n.
Proof. intros. now apply baby_giant_mod_ok. Qed.
Theorem C79_shanks : forall root p a b, is_isqrt root -> is_prime p -> ~ (Z.of_nat p | a) -> exists r, discrete_log_shanks root a b (Z.of_nat p) = Some r /\ least_log a b (Z.of_nat p) r /\ r < Z.of_nat p - 1.
Proof. intros root p a b RT P N. pose proof (prime_ge p P). apply baby_giant_mod_ok; [lia|exact RT|lia|now apply fermat_Z]. Qed.
Theorem C79_oddp : forall root p a b, is_isqrt root -> is_prime p -> ~ (Z.of_nat p | a) -> exists r, discrete_log_oddp root a b (Z.of_nat p) = Some r /\ least_log a b (Z.of_nat p) r /\ r < Z.of_nat p - 1.
Proof. exact oddp_ok. Qed.
Theorem C79_discrete_log : forall root a b m phi fs X, is_isqrt root -> 0 < m -> 0 < phi -> (m | a ^ phi - 1) -> prime_factors_of phi fs -> 0 <= X -> (m | a ^ X - b) ->
  exists x o, discrete_log root a b m phi fs = Some (x, o) /\ order_mod a m o /\ 0 <= x < o /\ least_log a b m x.
Proof. intros. now apply discrete_log_mod_ok with X. Qed.
Theorem C79_discrete_log_g : forall (G : Type) (mul : G -> G -> G) (one : G) (eqb : G -> G -> bool) (ok : G -> Prop) root, monoid_on ok mul one -> (forall x y, ok x -> ok y -> eqb x y = true <-> x = y) -> is_isqrt root ->
  forall a b n fs X, ok a -> 0 < n -> gpow mul one a (Z.to_nat n) = one -> prime_factors_of n fs -> b = gpow mul one a X ->
  exists x o, discrete_log_g mul one eqb root a b n fs = Some (x, o) /\ is_order mul one a o /\ 0 <= x < o /\ gpow mul one a (Z.to_nat x) = b /\ forall j, 0 <= j < x -> gpow mul one a (Z.to_nat j) <> b.
Proof. intros G mul one eqb ok root M E RT a b n fs X. now apply (discrete_log_ok mul one eqb ok root). Qed.
Theorem C79_order_pp_g : forall (G : Type) (mul : G -> G -> G) (one : G) (eqb : G -> G -> bool) (ok : G -> Prop) root, monoid_on ok mul one -> (forall x y, ok x -> ok y -> eqb x y = true <-> x = y) -> is_isqrt root ->
  forall a b p s X, is_prime p -> ok a -> gpow mul one a (Z.to_nat (Z.of_nat p ^ Z.of_nat s)) = one -> b = gpow mul one a X ->
  exists r o, discrete_log_order_pp_g mul one eqb root a b (Z.of_nat p) (Z.of_nat s) = Some r /\ is_order mul one a o /\ 0 <= r < o /\ gpow mul one a (Z.to_nat r) = b.
Proof. intros G mul one eqb ok root M E RT a b p s X P A AS B. now apply (order_pp_ok mul one eqb ok root M E RT a p s A P AS b X). Qed.
Theorem C79_baby_giant_g : forall (G : Type) (mul : G -> G -> G) (one : G) (eqb : G -> G -> bool) (ok : G -> Prop) root, monoid_on ok mul one -> (forall x y, ok x -> ok y -> eqb x y = true <-> x = y) -> is_isqrt root ->
  forall a b n, ok a -> ok b -> 0 < n -> gpow mul one a (Z.to_nat n) = one -> exists r, discrete_log_baby_giant_g mul one eqb root a b n = Some r /\
    ((0 <= r < n /\ gpow mul one a (Z.to_nat r) = b /\ forall j, 0 <= j < r -> gpow mul one a (Z.to_nat j) <> b) \/ (r = -1 /\ forall j, 0 <= j -> gpow mul one a (Z.to_nat j) <> b)).
Proof. intros G mul one eqb ok root M E RT. now apply baby_giant_ok. Qed.
(** Pohlig-Hellman has no answer for "there is no logarithm": 3 is not a power of 2 modulo 7, and the result is -4 rather than the -1 of the other functions *)
Theorem C79_no_solution_refuted : (forall x, 0 <= x -> ~ (7 | 2 ^ x - 3)) /\ discrete_log Z.sqrt 2 3 7 6 [2; 3] = Some (-4, 3).
Proof.
  split; [|vm_compute; reflexivity]. destruct (brute_mod_ok 7 ltac:(lia) 2 3) as (r & E & R). assert (X : discrete_log_brute_force 2 3 7 = Some (-1)) by (vm_compute; reflexivity). rewrite X in E. injection E as <-. destruct R as [(R & _)|(_ & R)]; [lia|exact R].
Qed.
Lemma isqrt_case : is_isqrt Z.sqrt.
Proof. intros n H. pose proof (Z.sqrt_spec n H) as X. cbv zeta in X. unfold Z.succ in X. split; [apply Z.sqrt_nonneg|exact X]. Qed.
Example C79_case : is_isqrt Z.sqrt /\ (101 | 2 ^ 100 - 1) /\ prime_factors_of 100 [2; 5] /\ (101 | 2 ^ 22 - 77) /\ discrete_log Z.sqrt 2 77 101 100 [2; 5] = Some (22, 100) /\ discrete_log_brute_force 2 77 101 = Some 22 /\ discrete_log_shanks Z.sqrt 2 77 101 = Some 22 /\ discrete_log_brute_force 2 5 12 = Some (-1).
Proof.
  split; [exact isqrt_case|]. split; [apply Z.mod_divide; [lia|vm_compute; reflexivity]|]. split; [exact factors_case|]. split; [apply Z.mod_divide; [lia|vm_compute; reflexivity]|]. repeat split; vm_compute; reflexivity.
Qed.

(** ** C80: prime power moduli *)
Theorem C80_p2 : forall a b s X, 1 <= s -> 1 <= a < 2 ^ s -> Z.odd a = true -> 0 <= b -> 0 <= X -> (2 ^ s | a ^ X - b) -> exists x o, discrete_log_p2 a b s = Some x /\ order_mod a (2 ^ s) o /\ 0 <= x < o /\ (2 ^ s | a ^ x - b).
Proof. exact p2_ok. Qed.
Theorem C80_pp : forall root p a b s X, is_isqrt root -> is_prime p -> 0 <= s -> 0 <= a < Z.of_nat p ^ s -> 0 <= b < Z.of_nat p ^ s -> ~ (Z.of_nat p | a) -> 0 <= X -> (Z.of_nat p ^ s | a ^ X - b) ->
  exists x, discrete_log_pp root a b (Z.of_nat p) s = Some x /\ 0 <= x /\ (Z.of_nat p ^ s | a ^ x - b).
Proof. exact pp_ok. Qed.
Example C80_case : (2 ^ 5 | 3 ^ 5 - 19) /\ discrete_log_p2 3 19 5 = Some 5 /\ (5 ^ 3 | 7 ^ 13 - 32) /\ exists x, discrete_log_pp Z.sqrt 7 32 5 3 = Some x /\ 7 ^ x mod 5 ^ 3 = 32.
Proof.
  split; [exists 7; reflexivity|]. split; [vm_compute; reflexivity|]. split; [apply Z.mod_divide; [lia|vm_compute; reflexivity]|]. eexists. split; vm_compute; reflexivity.
Qed.

Print Assumptions C76_order_g.
Print Assumptions C76_order.
Print Assumptions C76_order_totient.
Print Assumptions C76_non_unit_refuted.
Print Assumptions C77_primitive_root.
Print Assumptions C77_primitive_root_of_unity.
Print Assumptions C78_kth_roots_of_unity.
Print Assumptions C78_kth_roots.
Print Assumptions C78_not_cyclic_refuted.
Print Assumptions C79_brute_force.
Print Assumptions C79_baby_giant.
Print Assumptions C79_shanks.
Print Assumptions C79_oddp.
Print Assumptions C79_discrete_log.
Print Assumptions C79_discrete_log_g.
Print Assumptions C79_order_pp_g.
Print Assumptions C79_baby_giant_g.
Print Assumptions C79_no_solution_refuted.
Print Assumptions C80_p2.
Print Assumptions C80_pp.
