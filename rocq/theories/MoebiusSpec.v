(** A field with a conjugation; its projective line; the maps z -> (a z + b) / (c z + d) on it. *)
From Coq Require Import ZArith Bool Field_theory.
From Verif Require Import MoebiusModel.

Section Spec.
Context {K : Type}.
Variables (zero one : K) (add mul sub div : K -> K -> K) (opp inv conj : K -> K) (eqb : K -> K -> bool).

(** the axioms of a field, a decidable equality, and an involution that respects sums and products *)
Definition field_with_conjugation : Prop :=
  field_theory zero one add mul sub opp div inv eq /\ (forall x y, eqb x y = true <-> x = y) /\
  (forall x y, conj (add x y) = add (conj x) (conj y)) /\ (forall x y, conj (mul x y) = mul (conj x) (conj y)) /\ (forall x, conj (conj x) = x).
(** a point of the projective line: None is infinity *)
Definition point (x : winf K) : option K := if wi x then None else Some (wv x).
(** the table of with_infinity.h, None where it has a question mark *)
Definition t_add (x y : option K) : option (option K) :=
  match x, y with Some a, Some b => Some (Some (add a b)) | _, _ => Some None end.
Definition t_sub (x y : option K) : option (option K) :=
  match x, y with Some a, Some b => Some (Some (sub a b)) | None, None => None | _, _ => Some None end.
Definition t_mul (x y : option K) : option (option K) :=
  match x, y with
  | Some a, Some b => Some (Some (mul a b))
  | Some a, None | None, Some a => if eqb a zero then None else Some None
  | None, None => Some None
  end.
Definition t_div (x y : option K) : option (option K) :=
  match x, y with
  | Some a, Some b => if eqb b zero then (if eqb a zero then None else Some None) else Some (Some (div a b))
  | Some _, None => Some (Some zero)
  | None, Some _ => Some None
  | None, None => None
  end.
(** the map of a matrix *)
Definition fractional (a b c d : K) (x : option K) : option K :=
  match x with
  | None => if eqb c zero then None else Some (div a c)
  | Some z => if eqb (add (mul c z) d) zero then None else Some (div (add (mul a z) b) (add (mul c z) d))
  end.
(** finite coefficients, determinant not 0, sign +1 or -1 *)
Definition regular (t : mtr K) : Prop :=
  wi (ma t) = false /\ wi (mb t) = false /\ wi (mc t) = false /\ wi (md t) = false /\
  sub (mul (wv (ma t)) (wv (md t))) (mul (wv (mb t)) (wv (mc t))) <> zero /\ (ms t = 1 \/ ms t = -1)%Z.
End Spec.
