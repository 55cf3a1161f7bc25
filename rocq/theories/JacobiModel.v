(** Model of include/altruct/algorithm/math/modulos.h: jacobi 86-98. Integers are unbounded, / and % truncate. *)
From Verif Require Import Lib BaseModel ModuloModel.
Open Scope Z_scope.
(** modulos.h 92: the loop that removes the factors 2, counting them *)
Definition halve_step (s : Z * Z) : option ((Z * Z) + (Z * Z)) :=
  let '(n, e) := s in if Z.rem n 2 =? 0 then Some (inl (Z.quot n 2, e + 1)) else Some (inr (n, e)).
(** modulos.h 88-97: one round of the outer loop; state (n, m, j) *)
Definition jacobi_step (s : Z * Z * Z) : option ((Z * Z * Z) + Z) :=
  let '(n, m, j) := s in
  if m =? 1 then Some (inr j) else
  let* n := cmod n m in
  if n =? 0 then Some (inr 0) else
  let* '(n, e) := loopZ (Z.abs n + 1) halve_step (n, 0) in
  let j := if (Z.rem e 2 =? 1) && (Z.rem m 8 =? 3) then - j else j in
  let j := if (Z.rem e 2 =? 1) && (Z.rem m 8 =? 5) then - j else j in
  let j := if (Z.rem n 4 =? 3) && (Z.rem m 4 =? 3) then - j else j in
  Some (inl (m, n, j)).
Definition jacobi (n m : Z) : option Z := loopZ (Z.abs m + 2) jacobi_step (n, m, 1).
