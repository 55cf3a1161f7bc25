(** The nim product on the natural numbers, from the tower of quadratic extensions: a number below 2^(2^(k+1)) is high * F_k + low with high, low below F_k = 2^(2^k), and F_k times F_k is F_k + F_k / 2. *)
From Coq Require Import NArith Ring Lia Bool.
From Verif Require Import NimTower.
Open Scope N_scope.

Definition wd (k : nat) : N := 2 ^ N.of_nat k.
Fixpoint enc (k : nat) : T k -> N := match k with O => N.b2n | S k => fun x => N.lxor (N.shiftl (enc k (fst x)) (wd k)) (enc k (snd x)) end.
Fixpoint dec (k : nat) : N -> T k := match k with O => fun v => N.testbit v 0 | S k => fun v => (dec k (N.shiftr v (wd k)), dec k (N.land v (N.ones (wd k)))) end.
Definition nmk (k : nat) (a b : N) : N := enc k (tmul k (dec k a) (dec k b)).
Definition lev (v : N) : nat := N.to_nat (N.size v).
(** the nim product *)
Definition nm (a b : N) : N := nmk (Nat.max (lev a) (lev b)) a b.
(** Conway's definition: n is the least number outside the set; a * b is the least number different from all a'b + ab' + a'b' with a' < a and b' < b *)
Definition is_mex (n : N) (S : N -> Prop) : Prop := ~ S n /\ forall c, c < n -> S c.
Definition nim_product (op : N -> N -> N) : Prop :=
  forall a b, is_mex (op a b) (fun c => exists a' b', a' < a /\ b' < b /\ c = N.lxor (N.lxor (op a' b) (op a b')) (op a' b')).
