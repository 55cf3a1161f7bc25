(** Model of modT and modulo_power in include/altruct/structure/math/modulo.h over exact integers. *)
From Verif Require Import Lib BaseModel ModuloModel.
Local Open Scope Z_scope.

(** modulo.h:127-137 modulo_normalize and 292-293 modT *)
Definition modT (v M : Z) : option Z :=
  if v <? 0 then
    let* r := mod_normalize_u (- v) M in Some (if r =? 0 then r else M - r)
  else mod_normalize_u v M.
(** modulo.h:295-298 modulo_power: powT on moduloX values. A value is [Some v]; [None] records a division by zero in some product. *)
Definition mmul (M : Z) (x y : option Z) : option Z := let* x := x in let* y := y in modulo_mul x y M.
Definition modulo_power (x y M : Z) : option Z :=
  let* xm := modT x M in
  let* e1 := modT 1 M in
  let* r := powT (mmul M) (Some e1) (Some xm) y in r.
