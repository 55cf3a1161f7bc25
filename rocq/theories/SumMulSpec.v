(** Vocabulary for sums of multiplicative functions; independent of the model. *)
From Verif Require Import Lib RingSpec PrimesSpec DirSpec PiSpec.
From Coq Require Import Arith Lia.
Open Scope nat_scope.

(** f gives the values of g at prime powers: f(g(p^(e-1)), p, e) = g(p^e) *)
Definition power_step {T} (f : T -> nat -> nat -> T) (g : nat -> T) : Prop :=
  forall p e, is_prime p -> 1 <= e -> f (g (p ^ (e - 1))) p e = g (p ^ e).
(** no prime below b divides t; no prime from b on divides t *)
Definition rough (b t : nat) : bool := forallb (fun d => negb (primeb d && (t mod d =? 0))) (seq 0 b).
Definition smooth (b t : nat) : bool := forallb (fun d => negb (primeb d && (t mod d =? 0))) (seq b (S t - b)).
(** the sum of c(t) over the t from 1 to M that satisfy Q *)
Definition sum_where {T} (zero : T) (add : T -> T -> T) (Q : nat -> bool) (c : nat -> T) (M : nat) : T :=
  rsum zero add M (fun k => if Q (S k) then c (S k) else zero).
(** the sum of g(t) over the t <= m without prime factors below b *)
Definition rough_total {T} (zero : T) (add : T -> T -> T) (g : nat -> T) (b m : nat) : T := sum_where zero add (rough b) g m.
(** the numbers from 2 to n whose least prime factor is p *)
Definition with_least_factor (p n : nat) : list nat := filter (fun t => rough p t && (t mod p =? 0)) (seq 2 (n - 1)).
(** the calls of a visitor in the order of the list *)
Fixpoint visit_all {S V : Type} (visit : S -> nat -> V -> option S) (vs : list (nat * V)) (st : S) : option S :=
  match vs with [] => Some st | (m, v) :: vs => let* st := visit st m v in visit_all visit vs st end.
