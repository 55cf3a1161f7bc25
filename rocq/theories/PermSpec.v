(** Permutations as functions on the naturals, and what the notations mean. *)
From Verif Require Import Lib.
Open Scope nat_scope.

(** in the cycle c every element is sent to the next one, and the last to the first *)
Definition cyc_ok (s : nat -> nat) (c : list nat) : Prop := forall i, i < length c -> s (nth i c 0) = nth ((i + 1) mod length c) c 0.
(** cycle notation: the function s moves the listed elements along their cycles and fixes all others *)
Definition denotes (cs : list (list nat)) (s : nat -> nat) : Prop := (forall c, In c cs -> cyc_ok s c) /\ (forall x, ~ In x (concat cs) -> s x = x).
(** disjoint nonempty cycles of elements below n *)
Definition wf (cs : list (list nat)) (n : nat) : Prop := NoDup (concat cs) /\ (forall x, In x (concat cs) -> x < n) /\ ~ In [] cs.
(** line notation *)
Definition line_of (n : nat) (s : nat -> nat) (l : list nat) : Prop := length l = n /\ forall x, x < n -> nth_error l x = Some (s x).
(** a permutation of [0, n) that fixes everything else *)
Definition permutes (n : nat) (s : nat -> nat) : Prop := (forall x, x < n -> s x < n) /\ (forall x, n <= x -> s x = x) /\ (forall x y, s x = s y -> x = y).
(** exchange of two elements *)
Definition transp (a b x : nat) : nat := if x =? a then b else if x =? b then a else x.
(** number of exchanges a list of cycles stands for *)
Definition swaps (cs : list (list nat)) : nat := list_sum (map (fun c => length c - 1) cs).
