(** Arithmetic functions, Dirichlet convolution, multiplicativity; independent of the model. *)
From Verif Require Import Lib RingSpec PrimesSpec.
From Coq Require Import Arith Lia.

Section DirSpec.
  Context {T : Type} (zero one : T) (add mul : T -> T -> T).
  Definition sum_list (l : list T) : T := fold_right add zero l.
  (** (f * g)(n) = sum of f(d) g(n/d) over the divisors d of n *)
  Definition dirichlet (f g : nat -> T) (n : nat) : T := sum_list (map (fun d => mul (f d) (g (n / d))) (divisors_of n)).
  (** e(n) = [n = 1] *)
  Definition dunit (n : nat) : T := if n =? 1 then one else zero.
  Definition multiplicative (f : nat -> T) : Prop := f 1 = one /\ forall a b, 1 <= a -> 1 <= b -> Nat.gcd a b = 1 -> f (a * b) = mul (f a) (f b).
  Definition completely_multiplicative (f : nat -> T) : Prop := f 1 = one /\ forall a b, 1 <= a -> 1 <= b -> f (a * b) = mul (f a) (f b).
  (** f(1) + ... + f(n) *)
  Definition summatory (f : nat -> T) (n : nat) : T := rsum zero add n (fun k => f (S k)).
  (** p(1) M(n/1) + ... + p(n) M(n/n) *)
  Definition weighted_quotients (p M : nat -> T) (n : nat) : T := rsum zero add n (fun k => mul (p (S k)) (M (n / S k))).
  Definition prime_power (q : nat) : Prop := exists p k, is_prime p /\ 1 <= k /\ q = p ^ k.
  (** the table h holds f(i) at every index 1 <= i < n, and the other entries are those of h0 *)
  Definition holds (n : nat) (f : nat -> T) (h0 h : list T) : Prop :=
    length h = length h0 /\ forall i, i < length h -> nth_error h i = if (1 <=? i) && (i <? n) then Some (f i) else nth_error h0 i.
End DirSpec.
(** an integer in a ring *)
Definition zring {T} (zero one : T) (add : T -> T -> T) (opp : T -> T) (z : Z) : T :=
  match z with Z0 => zero | Zpos p => rnat zero one add (Pos.to_nat p) | Zneg p => opp (rnat zero one add (Pos.to_nat p)) end.
(** sum of the k-th powers of the divisors *)
Definition sigma_k (k n : nat) : nat := list_sum (map (fun d => d ^ k) (divisors_of n)).
Definition squarefree (n : nat) : Prop := forall r, 2 <= r -> ~ Nat.divide (r * r) n.
(** number of squarefree numbers from 1 to n *)
Definition squarefreeb (n : nat) : bool := forallb (fun r => negb (n mod (r * r) =? 0)) (seq 2 n).
Definition count_squarefree (n : nat) : nat := length (filter squarefreeb (seq 1 n)).
(** the value at i, and tables that may differ only at the indices 1 <= i < n *)
Definition entry {T} (zero : T) (h : list T) (i : nat) : T := nth i h zero.
Definition same_outside {T} (n : nat) (h0 h : list T) : Prop := length h = length h0 /\ forall i, i = 0 \/ n <= i -> nth_error h i = nth_error h0 i.
(** division of integers, as a division that fails at 0 *)
Definition zdivx (a b : Z) : option Z := if (b =? 0)%Z then None else Some (Z.quot a b).
