(** include/altruct/algorithm/math/polynoms.h, lines 22-42: monotonic_search.
    F is the type of exact rational numbers here: rounding is not modelled. *)
From Coq Require Import QArith.
From Verif Require Import Lib.
Open Scope Q_scope.

Definition Qlt_bool (a b : Q) : bool := negb (Qle_bool b a).
(** 26, 27, 33: -epsy <= val && val <= epsy *)
Definition near0 (epsy val : Q) : bool := Qle_bool (- epsy) val && Qle_bool val epsy.
Section Search.
  (** the functor *)
  Variable p : Q -> Q.
  (** 29-40; [iter] is max_iter, [up] is s > 0 *)
  Fixpoint search_loop (iter : nat) (up : bool) (y epsy epsx lo hi mid : Q) : Q :=
    match iter with
    | O => mid
    | S iter =>
      if Qlt_bool epsx (hi - lo) then
        let mid := (lo + hi) / 2 in
        if Qeq_bool mid lo || Qeq_bool mid hi then mid else
        let val := p mid in
        if near0 epsy val then mid else
        if (if up then Qlt_bool val y else Qlt_bool y val) then search_loop iter up y epsy epsx mid hi mid
        else search_loop iter up y epsy epsx lo mid mid
      else mid
    end.
  (** 22-42; a negative max_iter acts like 0 *)
  Definition monotonic_search (b e y epsy epsx : Q) (max_iter : Z) : Q :=
    let val_b := p b in let val_e := p e in
    if near0 epsy val_b then b else
    if near0 epsy val_e then e else
    search_loop (Z.to_nat max_iter) (negb (Qlt_bool val_e val_b)) y epsy epsx b e e.
End Search.
