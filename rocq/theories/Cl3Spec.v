(** Specification of the geometric algebra of space: generators e1, e2, e3 (here 0, 1, 2) with
    squares 1; the reading of rotors, vectors and multivectors as its elements. *)
From Coq Require Import ZArith List PeanoNat.
From Verif Require Import RingSpec GaSpec Cl3Model.
Import ListNotations.

Definition cl3_q (i : nat) : Z := 1%Z.

Section Cl3Spec.
  Context {T : Type} (zero one : T) (add mul sub : T -> T -> T) (opp : T -> T).
  Notation ga := (nat -> T).
  Definition cl3_mul : ga -> ga -> ga := geometric zero add mul opp cl3_q 3.
  Definition cl3_rev : ga -> ga := ga_rev zero opp 3.
  Definition cl3_conj (f : ga) : ga := ga_rev zero opp 3 (ga_inv zero opp 3 f).
  (** s + yz e2e3 + zx e3e1 + xy e1e2 (clifford3.h:14) *)
  Definition of_rotor (a : rotor) : ga :=
    lin zero add opp cl3_q 3 [(rs a, []); (ryz a, [1; 2]); (rzx a, [2; 0]); (rxy a, [0; 1])].
  (** x e1 + y e2 + z e3 + w e1e2e3 *)
  Definition of_vector (a : vector) : ga :=
    lin zero add opp cl3_q 3 [(wx a, [0]); (wy a, [1]); (wz a, [2]); (ww a, [0; 1; 2])].
  Definition of_mvec (a : mvec) : ga := ga_add add (of_rotor (mr a)) (of_vector (mv a)).

  (** ordinary vectors, their inner product, and the mirror image of u in the plane orthogonal to v *)
  Definition vec3 (x y z : T) : vector := W x y z zero.
  Definition dot3 (a b : vector) : T := add (add (mul (wx a) (wx b)) (mul (wy a) (wy b))) (mul (wz a) (wz b)).
  Definition mirror3 (u v : vector) : vector :=
    let k := mul (add one one) (dot3 u v) in
    vec3 (sub (wx u) (mul k (wx v))) (sub (wy u) (mul k (wy v))) (sub (wz u) (mul k (wz v))).
End Cl3Spec.
