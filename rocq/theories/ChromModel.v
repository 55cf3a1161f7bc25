(** experimental/include/altruct/algorithm/graph/chromatic_polynomial.h, lines 13-35: the closed forms, with
    integer coefficients (I is Z, id is 1).  The polynomials are those of PolyModel (structure/math/polynom.h);
    [thr] is the threshold of its multiplication.
    Not modelled: chromatic_polynomial for arbitrary graphs (lines 37-112). *)
From Verif Require Import Lib BaseModel PolyModel.
Open Scope Z_scope.

Definition zmul (thr : Z) := op_mul 0 Z.add Z.sub Z.mul Z.eqb thr.
Definition zadd := op_add 0 Z.add Z.eqb.
Definition zsmul := op_smul 0 Z.mul Z.eqb.
(** the operator () of a polynomial *)
Definition value_at (p : list Z) (x : Z) : option Z := p_eval 0 Z.eqb 0 Z.add Z.mul (fun c => c) p x.
(** base.h 158-167 powT on polynomials; [None] records an undefined product *)
Definition pmulo (thr : Z) (x y : option (list Z)) : option (list Z) := let* x := x in let* y := y in zmul thr x y.
Definition ppow (thr : Z) (x : list Z) (n : Z) : option (list Z) := let* r := powT (pmulo thr) (Some [1]) (Some x) n in r.

(** 14-18 *)
Definition chromatic_T (thr n : Z) : option (list Z) :=
  let* q := ppow thr [-1; 1] (n - 1) in zmul thr [0; 1] q.
(** 21-25 *)
Definition chromatic_C (thr n : Z) : option (list Z) :=
  let* q := ppow thr [-1; 1] n in
  let* c := zsmul [-1; 1] (if Z.rem n 2 =? 0 then 1 else -1) in
  zadd q c.
(** 28-34 *)
Definition chromatic_K (thr n : Z) : option (list Z) :=
  for_range 0 (Z.to_nat n) (fun i p => zmul thr p [- (1) * Z.of_nat i; 1]) [1].
