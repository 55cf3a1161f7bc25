(** Model of structure/math/quadratic.h, complex.h and galois_field_2.h. *)
From Verif Require Import Lib.
Open Scope Z_scope.

Section Quadratic.
  Context {T : Type}.
  Variables (zero one : T) (tadd tsub tmul : T -> T -> T) (topp : T -> T) (tdiv : T -> T -> option T).
  Variables (teqb tltb : T -> T -> bool).
  (** quadratic.h 47-61. [qD] is the value of [this->D()]; with STATIC or CONSTANT storage it is the same for all objects *)
  Record quadratic := Q { qa : T; qb : T; qD : T }.
  (** comparisons: quadratic.h 63-68 *)
  Definition q_eqb (x y : quadratic) : bool := teqb (qa x) (qa y) && teqb (qb x) (qb y).
  Definition q_neb (x y : quadratic) : bool := negb (teqb (qa x) (qa y)) || negb (teqb (qb x) (qb y)).
  Definition q_ltb (x y : quadratic) : bool := tltb (qa x) (qa y) || (teqb (qa x) (qa y) && tltb (qb x) (qb y)).
  Definition q_gtb (x y : quadratic) : bool := tltb (qa y) (qa x) || (teqb (qa x) (qa y) && tltb (qb y) (qb x)).
  Definition q_leb (x y : quadratic) : bool := tltb (qa x) (qa y) || (teqb (qa x) (qa y) && negb (tltb (qb y) (qb x))).
  Definition q_geb (x y : quadratic) : bool := tltb (qa y) (qa x) || (teqb (qa x) (qa y) && negb (tltb (qb x) (qb y))).
  (** += -= : quadratic.h 80-81; unary - : 72 *)
  Definition q_add (x y : quadratic) : quadratic := Q (tadd (qa x) (qa y)) (tadd (qb x) (qb y)) (qD x).
  Definition q_sub (x y : quadratic) : quadratic := Q (tsub (qa x) (qa y)) (tsub (qb x) (qb y)) (qD x).
  Definition q_neg (x : quadratic) : quadratic := Q (topp (qa x)) (topp (qb x)) (qD x).
  (** *= : quadratic.h 82 *)
  Definition q_mul (x y : quadratic) : quadratic :=
    Q (tadd (tmul (qa x) (qa y)) (tmul (tmul (qb x) (qb y)) (qD x))) (tadd (tmul (qa x) (qb y)) (tmul (qb x) (qa y))) (qD x).
  (** scalar *= and /= : quadratic.h 86-87 *)
  Definition q_smul (x : quadratic) (s : T) : quadratic := Q (tmul (qa x) s) (tmul (qb x) s) (qD x).
  Definition q_sdiv (x : quadratic) (s : T) : option quadratic := let* a := tdiv (qa x) s in let* b := tdiv (qb x) s in Some (Q a b (qD x)).
  (** conjugate, norm: quadratic.h 89-90 *)
  Definition q_conjugate (x : quadratic) : quadratic := Q (qa x) (topp (qb x)) (qD x).
  Definition q_norm (x : quadratic) : T := tsub (tmul (qa x) (qa x)) (tmul (tmul (qb x) (qb x)) (qD x)).
  (** /= and %= : quadratic.h 83-84 *)
  Definition q_div (x y : quadratic) : option quadratic := q_sdiv (q_mul x (q_conjugate y)) (q_norm y).
  Definition q_mod (x y : quadratic) : option quadratic := let* q := q_div x y in Some (q_sub x (q_mul y q)).
  (** identityOf, zeroOf: quadratic.h 110-124 *)
  Definition q_identityOf (x : quadratic) : quadratic := Q one zero (qD x).
  Definition q_zeroOf (x : quadratic) : quadratic := Q zero zero (qD x).
End Quadratic.

(** galois_field_2.h, W-bit words: + and - 37-38, * 39, / 40, identity 44-48, zero 51-55 *)
Section GF2.
  Variable W : Z.
  Definition gf2_not (x : Z) : Z := Z.lxor x (Z.ones W).
  Definition gf2_add (x y : Z) : Z := Z.lxor x y.
  Definition gf2_sub (x y : Z) : Z := Z.lxor x y.
  Definition gf2_neg (x : Z) : Z := x.
  Definition gf2_mul (x y : Z) : Z := Z.land x y.
  Definition gf2_div (x y : Z) : Z := Z.lor x (gf2_not y).
  Definition gf2_identity : Z := gf2_not 0.
  Definition gf2_zero : Z := 0.
End GF2.
