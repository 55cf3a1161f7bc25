(** What the classes of pga.h stand for (the table in the comment pga.h:9-61): elements of the
    geometric algebra with generators e0, e1, e2, e3, where e0 e0 = 0 and the others square to 1. *)
From Coq Require Import ZArith List.
From Verif Require Import RingSpec GaSpec PgaModel.
Import ListNotations.

Definition pga_q (i : nat) : Z := match i with O => 0%Z | _ => 1%Z end.

(** The dual, pga.h:49-50: !{e0, v, 1, biE, bie, e0123, e123, triP} = {e123, triP, e0123, bie, biE, 1, e0, v} *)
Definition dual_table : list (list nat * list nat) :=
  [ ([0], [1;2;3]); ([1], [0;3;2]); ([2], [0;1;3]); ([3], [0;2;1]);
    ([1;2;3], [0]); ([0;3;2], [1]); ([0;1;3], [2]); ([0;2;1], [3]);
    ([], [0;1;2;3]); ([0;1;2;3], []);
    ([2;3], [0;1]); ([3;1], [0;2]); ([1;2], [0;3]);
    ([0;1], [2;3]); ([0;2], [3;1]); ([0;3], [1;2]) ].

Section PgaSpec.
  Context {T : Type} (zero : T) (add mul sub : T -> T -> T) (opp : T -> T).
  Notation blade := (@blade T).
  Notation vec := (@vec T).

  Definition t_s (s : T) : list (T * list nat) := [(s, [])].
  Definition t_0 (e0 : T) := [(e0, [0])].
  Definition t_v (v : vec) := [(vx v, [1]); (vy v, [2]); (vz v, [3])].
  Definition t_E (E : vec) := [(vx E, [2;3]); (vy E, [3;1]); (vz E, [1;2])].
  Definition t_e (e : vec) := [(vx e, [0;1]); (vy e, [0;2]); (vz e, [0;3])].
  Definition t_t (t : T) := [(t, [1;2;3])].
  Definition t_P (P : vec) := [(vx P, [0;3;2]); (vy P, [0;1;3]); (vz P, [0;2;1])].
  Definition t_p (p : T) := [(p, [0;1;2;3])].
  Definition terms (a : blade) : list (T * list nat) :=
    match a with
    | Zero => []
    | B0 s => t_s s
    | B1 e0 v => t_0 e0 ++ t_v v
    | B2E E => t_E E
    | B2e e => t_e e
    | B3 t P => t_t t ++ t_P P
    | B4 p => t_p p
    | B02E s E => t_s s ++ t_E E
    | B02e s e => t_s s ++ t_e e
    | B22 E e => t_E E ++ t_e e
    | B2E4 E p => t_E E ++ t_p p
    | B2e4 e p => t_e e ++ t_p p
    | B024 s E e p => t_s s ++ t_E E ++ t_e e ++ t_p p
    | B13 e0 v t P => t_0 e0 ++ t_v v ++ t_t t ++ t_P P
    | MV s E e p e0 v t P => t_s s ++ t_E E ++ t_e e ++ t_p p ++ t_0 e0 ++ t_v v ++ t_t t ++ t_P P
    end.
  (** the element of the algebra that a value stands for *)
  Definition elem (a : blade) : nat -> T := lin zero add opp pga_q 4 (terms a).

  Definition pga_mul : (nat -> T) -> (nat -> T) -> nat -> T := geometric zero add mul opp pga_q 4.
  Definition pga_wedge : (nat -> T) -> (nat -> T) -> nat -> T := outer zero add mul opp pga_q 4.
  Definition pga_dot : (nat -> T) -> (nat -> T) -> nat -> T := inner zero add mul opp pga_q 4.
  Definition pga_rev : (nat -> T) -> nat -> T := ga_rev zero opp 4.
  Definition pga_dual : (nat -> T) -> nat -> T := relabel zero add opp pga_q 4 dual_table.
  (** a | b = !(!a ^ !b), pga.h:54 *)
  Definition pga_join (f g : nat -> T) : nat -> T := pga_dual (pga_wedge (pga_dual f) (pga_dual g)).

  (** every field that b has is also a field of a *)
  Definition covers (a b : blade) : bool :=
    let has {A : Type} (o : option A) := match o with Some _ => true | None => false end in
    let le x y := implb y x in
    (le (has (get0 a)) (has (get0 b)) && le (has (get1 a)) (has (get1 b)) && le (has (get2E a)) (has (get2E b))
     && le (has (get2e a)) (has (get2e b)) && le (has (get3 a)) (has (get3 b)) && le (has (get4 a)) (has (get4 b)))%bool.
  (** the classes with an odd number of reflections, pga.h:754-767 *)
  Definition odd_class (a : blade) : bool :=
    match a with B1 _ _ | B3 _ _ | B13 _ _ _ _ => true | _ => false end.
  Definition is_zero_class (a : blade) : bool := match a with Zero => true | _ => false end.
  Definition is_multivector (a : blade) : bool := match a with MV _ _ _ _ _ _ _ _ => true | _ => false end.

  (** rotation of P about the unit axis u by the angle with the given cosine and sine (Rodrigues) *)
  Definition rotated (one : T) (u : vec) (c s : T) (P : vec) : vec :=
    vadd add (vadd add (vmul mul P c) (vmul mul u (mul (sub one c) (vdot add mul u P))))
      (vmul mul (vcross mul sub u P) s).
  (** the mirror image of P in the plane of the points X with n . X = d, for a unit vector n *)
  Definition mirrored (two : T) (n : vec) (d : T) (P : vec) : vec :=
    vsub sub P (vmul mul n (mul two (sub (vdot add mul n P) d))).
End PgaSpec.
