(** structure/math/with_infinity.h and structure/math/moebius_tr.h over a field K with a conjugation.
    is_inf is a bool: the code only assigns 0 and 1 to it. The comparison operators <, the casts and floating-point fields are not modelled. *)
From Coq Require Import ZArith Bool.

Section Model.
Context {K : Type}.
Variables (zero one : K) (add mul sub div : K -> K -> K) (opp conj : K -> K) (eqb : K -> K -> bool).

(** with_infinity.h: 31-40 *)
Record winf := W { wv : K; wi : bool }.
(** with_infinity.h: operator == 42, unary minus 51, += -= *= 56-58, inverse 61-65, /= 59 *)
Definition w_eq (x y : winf) : bool := eqb (wv x) (wv y) && Bool.eqb (wi x) (wi y).
Definition w_opp (x : winf) : winf := W (opp (wv x)) false.
Definition w_add (x y : winf) : winf := if wi y then W (wv x) true else W (add (wv x) (wv y)) (wi x).
Definition w_sub (x y : winf) : winf := if wi y then W (wv x) true else W (sub (wv x) (wv y)) (wi x).
Definition w_mul (x y : winf) : winf := if wi y then W (wv x) true else W (mul (wv x) (wv y)) (wi x).
Definition w_inverse (x : winf) : winf :=
  if wi x then W zero false else if eqb (wv x) zero then W (wv x) true else W (div one (wv x)) false.
Definition w_div (x y : winf) : winf := w_mul x (w_inverse y).
(** with_infinity.h: identityT, zeroT, conjugateT 81-109 *)
Definition w_zero : winf := W zero false.
Definition w_one : winf := W one false.
Definition w_conj (x : winf) : winf := W (conj (wv x)) (wi x).

(** moebius_tr.h: moebius_tr<with_infinity<K>> 25-35 *)
Record mtr := M { ma : winf; mb : winf; mc : winf; md : winf; ms : Z }.
(** moebius_tr.h: invert, conj, adapt 85-87 *)
Definition m_invert (z : winf) : winf := w_div w_one z.
Definition m_adapt (s : Z) (z : winf) : winf := if (s <? 0)%Z then w_conj z else z.
(** moebius_tr.h: operator *= 52-59, operator /= 60 (m_div below) *)
Definition m_mul (t r : mtr) : mtr :=
  let ad := m_adapt (ms t) in
  M (w_add (w_mul (ma t) (ad (ma r))) (w_mul (mb t) (ad (mc r)))) (w_add (w_mul (ma t) (ad (mb r))) (w_mul (mb t) (ad (md r))))
    (w_add (w_mul (mc t) (ad (ma r))) (w_mul (md t) (ad (mc r)))) (w_add (w_mul (mc t) (ad (mb r))) (w_mul (md t) (ad (md r)))) (ms t * ms r).
(** moebius_tr.h: inverse 75-78 *)
Definition m_inverse (t : mtr) : mtr :=
  let w := m_invert (w_sub (w_mul (ma t) (md t)) (w_mul (mb t) (mc t))) in let ad := m_adapt (ms t) in
  M (w_mul (ad (md t)) w) (w_mul (w_opp (ad (mb t))) w) (w_mul (w_opp (ad (mc t))) w) (w_mul (ad (ma t)) w) (ms t).
Definition m_div (t r : mtr) : mtr := m_mul t (m_inverse r).
(** moebius_tr.h: normalize 62-73; != is the negation of == *)
Definition m_normalize (t : mtr) : mtr :=
  if negb (w_eq (ma t) w_zero) then
    let ai := m_invert (ma t) in M w_one (w_mul (mb t) ai) (w_mul (mc t) ai) (w_mul (md t) ai) (ms t)
  else if negb (w_eq (mb t) w_zero) then
    let bi := m_invert (mb t) in M (ma t) w_one (w_mul (mc t) bi) (w_mul (md t) bi) (ms t)
  else M (ma t) (mb t) w_zero w_one (ms t).
(** moebius_tr.h: operator () 80-83 *)
Definition m_apply (t : mtr) (z : winf) : winf :=
  if wi z then w_div (ma t) (mc t)
  else w_div (w_add (w_mul (ma t) (m_adapt (ms t) z)) (mb t)) (w_add (w_mul (mc t) (m_adapt (ms t) z)) (md t)).
(** moebius_tr.h: scaling, translation, rotation, flip_x, flip_y, inversion 89-94; operator == 37; identityT 110-116 *)
Definition m_scaling (z : winf) : mtr := M z w_zero w_zero w_one 1.
Definition m_translation (z : winf) : mtr := M w_one z w_zero w_one 1.
Definition m_rotation (z : winf) : mtr := M z w_zero w_zero w_one 1.
Definition m_flip_x : mtr := M (w_opp w_one) w_zero w_zero w_one (-1).
Definition m_flip_y : mtr := M w_one w_zero w_zero w_one (-1).
Definition m_inversion : mtr := M w_zero w_one w_one w_zero (-1).
Definition m_eq (t r : mtr) : bool :=
  w_eq (ma t) (ma r) && w_eq (mb t) (mb r) && w_eq (mc t) (mc r) && w_eq (md t) (md r) && (ms t =? ms r)%Z.
Definition m_identity : mtr := M w_one w_zero w_zero w_one 1.
End Model.
Arguments winf : clear implicits.
Arguments mtr : clear implicits.
