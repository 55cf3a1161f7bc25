(** Model of algorithm/math/pell.h. Integers are unbounded; [root x] stands for sqrtT(x) (C05). *)
From Verif Require Import Lib BaseModel DivisorsModel.
Open Scope Z_scope.

(** the vectors P, Q, a, A, B, G that pell_PQa extends *)
Record vectors := V { vP : list Z; vQ : list Z; va : list Z; vA : list Z; vB : list Z; vG : list Z }.

Section Pell.
  Variable root : Z -> Z.
  (** (i >= 2) ? X[i - 2] : d2 and (i >= 2) ? X[i - 1] : d1 : pell.h 51-53 *)
  Definition last2 (X : list Z) (i : nat) (d2 d1 : Z) : option (Z * Z) :=
    if (2 <=? i)%nat then let* x2 := nth_error X (i - 2) in let* x1 := nth_error X (i - 1) in Some (x2, x1) else Some (d2, d1).
  (** pell.h 62: the test for the first state of the period *)
  Definition reducedb (D P0 Q0 : Z) : bool :=
    (0 <? Q0) && (0 <? P0) && (sqT P0 <? D) && (sqT (P0 - Q0) <? D) && (D <? sqT (P0 + Q0)).
  (** one round of the loop: pell.h 55-63. The state is i, i0, P0, Q0, (A2, A1), (B2, B1), (G2, G1) and the vectors *)
  Definition PQa_body (D qD : Z) (st : nat * nat * Z * Z * (Z * Z) * (Z * Z) * (Z * Z) * vectors) :
      option (nat * nat * Z * Z * (Z * Z) * (Z * Z) * (Z * Z) * vectors + nat * vectors) :=
    let '(i, i0, P0, Q0, (A2, A1), (B2, B1), (G2, G1), v) := st in
    let* Pi := nth_error (vP v) i in let* Qi := nth_error (vQ v) i in
    let* a0 := div_floor (Pi + (if Qi <? 0 then qD + 1 else qD)) Qi in
    let A0 := a0 * A1 + A2 in
    let B0 := a0 * B1 + B2 in
    let G0 := a0 * G1 + G2 in
    let i := (i + 1)%nat in
    let P0 := a0 * Q0 - P0 in
    let* Q0 := cdiv (D - P0 * P0) Q0 in
    let v := V (vP v ++ [P0]) (vQ v ++ [Q0]) (va v ++ [a0]) (vA v ++ [A0]) (vB v ++ [B0]) (vG v ++ [G0]) in
    let i0 := if (i0 =? 0)%nat && reducedb D P0 Q0 then i else i0 in
    if negb (i0 =? 0)%nat && (i0 <? i)%nat then
      let* Pi := nth_error (vP v) i in let* Pi0 := nth_error (vP v) i0 in
      let* Qi := nth_error (vQ v) i in let* Qi0 := nth_error (vQ v) i0 in
      if (Pi =? Pi0) && (Qi =? Qi0) then Some (inr ((i - i0)%nat, v)) else Some (inl (i, i0, P0, Q0, (A1, A0), (B1, B0), (G1, G0), v))
    else Some (inl (i, i0, P0, Q0, (A1, A0), (B1, B0), (G1, G0), v)).
  (** pell_PQa: pell.h 45-65; out of fuel stands for not ending *)
  Definition pell_PQa (D : Z) (v : vectors) : option (nat * vectors) :=
    let qD := root D in
    let i := length (va v) in
    let* P0 := nth_error (vP v) i in
    let* Q0 := nth_error (vQ v) i in
    let* A21 := last2 (vA v) i 0 1 in
    let* B21 := last2 (vB v) i 1 0 in
    let* G21 := last2 (vG v) i (- P0) Q0 in
    loopZ (4 * (D + Z.abs P0 + Z.abs Q0) + 16) (PQa_body D qD) (i, i, P0, Q0, A21, B21, G21, v).
  Definition start (P0 Q0 : Z) : vectors := V [P0] [Q0] [] [] [] [].

  (** pell1 (one solution): pell.h 79-114. Some None: 0 is returned; Some (Some (l, x0, y0)): l is returned *)
  Definition pell1 (D N : Z) : option (option (nat * Z * Z)) :=
    let* '(l, v) := pell_PQa D (start 0 1) in
    if (l mod 2 =? 1)%nat then
      if N =? -1 then
        let* x0 := nth_error (vG v) (l - 1) in let* y0 := nth_error (vB v) (l - 1) in Some (Some (l, x0, y0))
      else if N =? 1 then
        let* '(_, v) := pell_PQa D v in
        let* x0 := nth_error (vG v) (2 * l - 1) in let* y0 := nth_error (vB v) (2 * l - 1) in Some (Some (l, x0, y0))
      else Some None
    else if N =? 1 then
      let* x0 := nth_error (vG v) (l - 1) in let* y0 := nth_error (vB v) (l - 1) in Some (Some (l, x0, y0))
    else Some None.

  (** pellS: pell.h 128-149; the pairs (xc0[i], yc0[i]) *)
  Definition pellS (D N : Z) : option (list (Z * Z)) :=
    let* '(l, v) := pell_PQa D (start 0 1) in
    let* Ql := nth_error (vQ v) l in
    let* '(l, v) := (if (l mod 2 =? 1)%nat || negb (Ql =? 1) then let* '(_, v) := pell_PQa D v in Some ((l * 2)%nat, v) else Some (l, v)) in
    for_range 0 l (fun i c0 =>
      let* q := nth_error (vQ v) (i + 1) in
      let* r := cmod N q in
      if negb (r =? 0) then Some c0 else
      let* f2 := cdiv N q in
      let f2 := if (i mod 2 =? 0)%nat then - f2 else f2 in
      if f2 <? 0 then Some c0 else
      let f := root f2 in
      if negb (sqT f =? f2) then Some c0 else
      let* g := nth_error (vG v) i in let* b := nth_error (vB v) i in
      Some (c0 ++ [(f * g, f * b)])) [].

  (** pell_mz: pell.h 160-187 *)
  Definition find_unit (Q : list Z) : option nat :=
    loopZ (Z.of_nat (length Q) + 1) (fun i => if (i <? length Q)%nat then let* q := nth_error Q i in
      if negb (q =? 1) && negb (q =? -1) then Some (inl (i + 1)%nat) else Some (inr i) else Some (inr i)) 1%nat.
  Definition pell_mz (D m z : Z) : option (option (nat * Z * Z)) :=
    let mm := Z.abs m in
    let ms := if m <? 0 then -1 else 1 in
    let mh := Z.quot mm 2 in
    let zh := if z <=? mh then z else z - mm in
    let* '(l, v) := pell_PQa D (start zh mm) in
    let* i := find_unit (vQ v) in
    if (length (vQ v) <=? i)%nat then Some None else
    let wanted i := if (i mod 2 =? 1)%nat then - ms else ms in
    let* q := nth_error (vQ v) i in
    let* '(i, v) := (if negb (q =? wanted i) then let* '(_, v) := pell_PQa D v in Some ((i + l)%nat, v) else Some (i, v)) in
    let* q := nth_error (vQ v) i in
    if negb (q =? wanted i) then Some None else
    let* x0 := nth_error (vG v) (i - 1) in let* y0 := nth_error (vB v) (i - 1) in Some (Some (l, x0, y0)).

  (** pell (one solution of each class): pell.h 201-227; a solution x + y sqrt(D) is (x, y) *)
  Definition pell (D N : Z) (fN : list (nat * nat)) : option (list (Z * Z)) :=
    let fN2 := flat_map (fun '(p, e) => if (2 <=? e)%nat then [(p, e / 2)%nat] else []) fN in
    let* vf := divisors [] fN2 0 1 in
    fold_left (fun r f => let* vs0 := r in
      let f := Z.of_nat f in
      let* m := cdiv N (sqT f) in
      let mm := Z.abs m in
      for_range 0 (Z.to_nat mm) (fun z vs0 =>
        let z := Z.of_nat z in
        let* r := cmod (z * z - D) mm in
        if negb (r =? 0) then Some vs0 else
        let* s := pell_mz D m z in
        match s with
        | Some (l, x0, y0) => if (l =? 0)%nat then Some vs0 else Some (vs0 ++ [(x0 * f, y0 * f)])
        | None => Some vs0
        end) vs0) vf (Some []).

  (** x *= y for quadraticX: quadratic.h 82 (see QuadraticModel) *)
  Definition pmul (D : Z) (x y : Z * Z) : Z * Z := let '(a, b) := x in let '(c, d) := y in (a * c + b * d * D, a * d + b * c).
  (** pell1 (list of solutions): pell.h 239-255; [fuel] bounds the rounds *)
  Definition pell1_list (fuel : Z) (D N x_max y_max count : Z) : option (list (Z * Z)) :=
    let* r := pell1 D N in
    match r with
    | None => Some []
    | Some (l, x0, y0) => if (l =? 0)%nat then Some [] else
        let s := (x0, y0) in
        let s1 := if N =? -1 then pmul D s s else s in
        loopZ fuel (fun '(s, vs) =>
          let t := s in let s := pmul D s s1 in
          if (0 <? x_max) && (x_max <? fst t) then Some (inr vs) else
          if (0 <? y_max) && (y_max <? snd t) then Some (inr vs) else
          if (0 <? count) && (count <=? Z.of_nat (length vs)) then Some (inr vs) else
          Some (inl (s, vs ++ [t]))) (s, [])
    end.
  (** pell (list of solutions): pell.h 267-293. A pass over vs gives the new vs, the list visited and its size *)
  Definition pell_pass (D x_max y_max count : Z) (s1 : Z * Z) (vs : list (Z * Z)) (out : list (Z * Z)) : list (Z * Z) * list (Z * Z) :=
    fold_left (fun '(vs, out) s =>
      let t := s in let s := pmul D s s1 in
      let s := if (fst s <=? 0) && (snd s <=? 0) then (- fst s, - snd s) else s in
      (vs ++ [s],
       if (fst t <? 0) || (snd t <? 0) then out else
       if (0 <? x_max) && (x_max <? fst t) then out else
       if (0 <? y_max) && (y_max <? snd t) then out else
       if (0 <? count) && (count <=? Z.of_nat (length out)) then out else out ++ [t])) vs ([], out).
  Definition pell_list (fuel : Z) (D N : Z) (fN : list (nat * nat)) (x_max y_max count : Z) : option (list (Z * Z)) :=
    let* r := pell1 D 1 in
    match r with
    | None => Some []
    | Some (l, x1, y1) => if (l =? 0)%nat then Some [] else
        let* vs := pell D N fN in
        loopZ fuel (fun '(vs, out) =>
          let '(vs, out') := pell_pass D x_max y_max count (x1, y1) vs out in
          if (length out' =? length out)%nat then Some (inr out') else Some (inl (vs, out'))) (vs, [])
    end.
End Pell.
