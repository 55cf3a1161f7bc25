(** C117-C120: sums of two squares. *)
From Verif Require Import Lib BaseModel PrimesSpec PrimesProofs RootsModel RootsSpec RootsProps TripleSpec TripleProps SqrModel SqrSpec SqrProofs SqrProofs2 SqrProofs3 SqrProofs4 SqrProofs5.
Open Scope Z_scope.

(** C117: cornacchia finds a solution of x^2 + d y^2 = p whenever there is one, for every d >= 1 and every prime p. *)
Theorem C117_cornacchia root p d u v : square_root root -> is_prime p -> 1 <= d -> u * u + d * (v * v) = Z.of_nat p ->
  exists x y, cornacchia root d (Z.of_nat p) = Some (x, y) /\ 0 <= x /\ 0 <= y /\ x * x + d * (y * y) = Z.of_nat p.
Proof. intros R. apply (cornacchia_ok root R). Qed.
(** and it always ends, without a division by 0. *)
Theorem C117_total root p d : is_prime p -> d <> 0 -> exists x y, cornacchia root d (Z.of_nat p) = Some (x, y).
Proof. apply cornacchia_total. Qed.
Example C117_case : is_prime 2 /\ is_prime 3 /\ 1 * 1 + 2 * (1 * 1) = Z.of_nat 3 /\ cornacchia Z.sqrt 2 (Z.of_nat 3) = Some (1, 1)
  /\ cornacchia Z.sqrt 1 13 = Some (3, 2) /\ cornacchia Z.sqrt 5 29 = Some (3, 2).
Proof. split; [exact prime_2|]. split; [exact prime_3|]. vm_compute. auto. Qed.

(** C118: every prime 2 or 1 modulo 4 is found as a sum of two squares, in order. *)
Theorem C118_prime root p : square_root root -> is_prime p -> p = 2%nat \/ Z.of_nat p mod 4 = 1 ->
  exists c d, squares_r_prime root (Z.of_nat p) = Some (c, d) /\ 1 <= c <= d /\ prime_rep (Z.of_nat p) c d.
Proof.
  intros R P M. destruct (prime_ok root R p P M) as (c & d & E & O & (C & D & CD)). exists c, d. split; [exact E|]. split; [|split; [exact C|split; [exact D|exact CD]]]. split; [|exact O]. destruct (Z.eq_dec c 0) as [->|]; [|lia]. exfalso. destruct P as (P1 & P2). assert (1 < d) by nia. destruct (P2 (Z.to_nat d)) as [X|X]; [exists (Z.to_nat d); nia|lia|nia].
Qed.
(** The table has exactly the numbers up to n that are sums of two positive squares, each with such a sum. *)
Theorem C118_table n : exists t, squares_r_prime_table n = Some t /\
  (forall k, find t k <> None <-> k <= n /\ exists a b, 1 <= a <= b /\ a * a + b * b = k) /\
  (forall k c d, find t k = Some (c, d) -> 1 <= c <= d /\ prime_rep k c d).
Proof.
  destruct (table_complete n) as (t & E & T & C). exists t. split; [exact E|]. split.
  - intros k. split.
    + intros H. destruct (find t k) as [(c, d)|] eqn:F; [|congruence]. destruct (T k c d F) as (H1 & H2 & H3). split; [exact H3|]. now exists c, d.
    + intros (L & a & b & AB & <-). now apply C.
  - intros k c d F. destruct (T k c d F) as (H1 & H2 & _). split; [exact H1|]. split; [lia|]. split; [lia|exact H2].
Qed.
Example C118_case : squares_r_prime Z.sqrt 29 = Some (2, 5) /\ (exists t, squares_r_prime_table 50 = Some t /\ find t 50 = Some (5, 5) /\ find t 41 = Some (4, 5) /\ find t 7 = None) /\ squares_r_prime Z.sqrt 2 = Some (1, 1).
Proof. split; [reflexivity|]. split; [|reflexivity]. eexists. split; [vm_compute; reflexivity|]. auto. Qed.

(** C119: from a factorization of n, squares_r_list returns the representations of n as a sum of two squares: all of them, each once,
    in increasing order. A table of representations of primes may be given; what it gains are representations of primes. *)
Theorem C119_list root vf (unique_only : bool) t B : square_root root -> factorization_list vf ->
  (forall p c d, find t p = Some (c, d) -> is_prime (Z.to_nat p) -> p mod 4 = 1 -> prime_rep p c d) ->
  exists l t', squares_r_list root vf unique_only t B = Some (l, t') /\
    (forall p c d, find t' p = Some (c, d) -> is_prime (Z.to_nat p) -> p mod 4 = 1 -> prime_rep p c d) /\
    increasing l /\
    forall a b, In (a, b) l <-> if unique_only then unique_rep (factored_value vf) B a b else signed_rep (factored_value vf) B a b.
Proof. apply list_ok. Qed.
Lemma prime_5 : is_prime 5.
Proof. split; [lia|]. intros d D. assert (d <= 5)%nat by (apply Nat.divide_pos_le in D; lia). destruct D as (k & K). assert (d = 0 \/ d = 1 \/ d = 2 \/ d = 3 \/ d = 4 \/ d = 5)%nat as C by lia. destruct C as [->|[->|[->|[->|[->| ->]]]]]; lia. Qed.
Example C119_case : factorization_list [(2, 1); (3, 2); (5, 2)] /\ factored_value [(2, 1); (3, 2); (5, 2)] = 450 /\
  (exists t, squares_r_list Z.sqrt [(2, 1); (3, 2); (5, 2)] true [] 0 = Some ([(3, 21); (15, 15)], t)) /\
  (exists t, squares_r_list Z.sqrt [(5, 1)] false [] 0 = Some ([(-2, -1); (-2, 1); (-1, -2); (-1, 2); (1, -2); (1, 2); (2, -1); (2, 1)], t)) /\
  (exists t, squares_r_list Z.sqrt [(2, 1); (3, 2); (5, 2)] true [] 20 = Some ([(15, 15)], t)) /\
  squares_r_list Z.sqrt [(2, 1); (3, 1)] true [] 0 = Some ([], []).
Proof.
  split; [|split; [reflexivity|split; [eexists; vm_compute; reflexivity|split; [eexists; vm_compute; reflexivity|split; [eexists; vm_compute; reflexivity|reflexivity]]]]]. split; [cbn; repeat constructor; cbn; lia|]. intros p e [E|[E|[E|[]]]]; injection E as <- <-; (split; [lia|]; split; [|lia]); [exact prime_2|exact prime_3|exact prime_5].
Qed.

(** C120: squares_r is the number of these representations. *)
Theorem C120_count vf (unique_only : bool) : factorization_list vf ->
  counted (if unique_only then unique_rep (factored_value vf) 0 else signed_rep (factored_value vf) 0) (squares_r vf unique_only).
Proof. intros F. destruct (count_ok vf F). destruct unique_only; assumption. Qed.
Example C120_case : squares_r [(2, 1); (3, 2); (5, 2)] true = 2 /\ squares_r [(2, 1); (3, 2); (5, 2)] false = 12 /\ squares_r [(5, 2)] true = 2 /\ squares_r [] true = 1 /\ squares_r [(3, 1)] true = 0 /\ squares_r [(5, 1); (13, 1)] true = 2.
Proof. vm_compute. auto 10. Qed.
Print Assumptions C117_cornacchia.
Print Assumptions C117_total.
Print Assumptions C118_prime.
Print Assumptions C118_table.
Print Assumptions C119_list.
Print Assumptions C120_count.
