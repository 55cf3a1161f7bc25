(** Model of algorithm/math/triples.h. Integers are unbounded; [root x] stands for sqrtT(x) (C05). The visitor appends what it is
    given to a list, as in the forms that return a vector; a triple is (a, b, c). *)
From Verif Require Import Lib BaseModel ModuloModel DivisorsModel.
Open Scope Z_scope.

(** for (x = lo; x <= hi; x += step) body, step > 0 *)
Definition zfor {S} (lo hi step : Z) (body : Z -> S -> option S) (s : S) : option S :=
  for_range 0 (Z.to_nat ((hi - lo) / step + 1)) (fun k => body (lo + step * Z.of_nat k)) s.

(** I ka = 0, kb = 0, kc = 0; for (k = 1; k <= k_max; k++) { ka += a, kb += b, kc += c; visitor(ka, kb, kc); }:
    triples.h 165-169, 241-245, 287-291 *)
Definition visit_multiples (a b c k_max : Z) (vt : list (Z * Z * Z)) : option (list (Z * Z * Z)) :=
  let* '(_, _, _, vt) := zfor 1 k_max 1 (fun _ '(ka, kb, kc, vt) =>
    let ka := ka + a in let kb := kb + b in let kc := kc + c in Some (ka, kb, kc, vt ++ [(ka, kb, kc)])) (0, 0, 0, vt) in
  Some vt.

Section Triples.
  Variable root : Z -> Z.
  (** pythagorean_triples: triples.h 150-180 *)
  Definition pythagorean_triples (c_max : Z) (only_primitive : bool) : option (list (Z * Z * Z)) :=
    let m_max := root (c_max - 1) in
    zfor 1 m_max 1 (fun m vt =>
      let m2 := sqT m in
      let n_min := Z.rem m 2 + 1 in
      let n_max := Z.min (m - 1) (root (c_max - m2)) in
      zfor n_min n_max 2 (fun n vt =>
        let* g := gcd m n in
        if negb (g =? 1) then Some vt else
        let n2 := sqT n in let mn := m * n in
        let a := m2 - n2 in let b := mn * 2 in let c := m2 + n2 in
        let '(a, b) := if b <? a then (b, a) else (a, b) in
        let* k_max := (if only_primitive then Some 1 else cdiv c_max c) in
        visit_multiples a b c k_max vt) vt) [].

  (** eisenstein_triples60: triples.h 218-256 *)
  Definition eisenstein_triples60 (c_max : Z) (only_primitive : bool) : option (list (Z * Z * Z)) :=
    let* h := cdiv (c_max * 3 + 1) 2 in
    let m_max := Z.min (root (c_max * 4)) h in
    zfor 1 m_max 1 (fun m vt =>
      let m2 := sqT m in
      let* mh := cdiv m 2 in
      zfor 1 mh 1 (fun n vt =>
        let* g := gcd m n in
        if negb (g =? 1) then Some vt else
        let n2 := sqT n in let mn := m * n in
        let a := m2 - n2 in let b := m2 - mn + n2 in let c := mn * 2 - n2 in
        let '(a, c) := if c <? a then (c, a) else (a, c) in
        let '(a, b, c) := if Z.rem (m + n) 3 =? 0 then (Z.quot a 3, Z.quot b 3, Z.quot c 3) else (a, b, c) in
        if c_max <? c then Some vt else
        let* k_max := (if only_primitive then Some 1 else cdiv c_max c) in
        visit_multiples a b c k_max vt) vt) [].

  (** eisenstein_triples120: triples.h 265-302 *)
  Definition eisenstein_triples120 (c_max : Z) (only_primitive : bool) : option (list (Z * Z * Z)) :=
    let m_max := root c_max in
    zfor 1 m_max 1 (fun m vt =>
      let m2 := sqT m in
      zfor 1 (m - 1) 1 (fun n vt =>
        if Z.rem (m - n) 3 =? 0 then Some vt else
        let* g := gcd m n in
        if negb (g =? 1) then Some vt else
        let n2 := sqT n in let mn := m * n in
        let a := m2 - n2 in let b := mn * 2 + n2 in let c := m2 + mn + n2 in
        let '(a, b) := if b <? a then (b, a) else (a, b) in
        if c_max <? c then Some vt else
        let* k_max := (if only_primitive then Some 1 else cdiv c_max c) in
        visit_multiples a b c k_max vt) vt) [].
End Triples.

(** pythagorean_triples_fixed_leg: triples.h 186-208. The divisors are those of C22, of type I *)
Definition pythagorean_triples_fixed_leg (leg : Z) (f : list (nat * nat)) : option (list (Z * Z * Z)) :=
  let leg2 := sqT leg in
  let f2 := map (fun '(p, e) => (p, e * 2)%nat) f in
  let* vd := divisors [] f2 0 1 in
  fold_left (fun r d => let* vt := r in
    let d := Z.of_nat d in
    let* e := cdiv leg2 d in
    let c2 := e + d in let b2 := e - d in
    if (b2 <=? 0) || negb (Z.rem b2 2 =? 0) then Some vt else
    Some (vt ++ [(leg, Z.quot b2 2, Z.quot c2 2)])) vd (Some []).

(** almost_pythagorean_triples: triples.h 309-340; modulo_neg(mi, n) as in modulo.h 69-71 without wrapping *)
Definition almost_pythagorean_triples (c_max : Z) : option (list (Z * Z * Z)) :=
  zfor 1 c_max 1 (fun n vt =>
    let* m_max := cdiv c_max n in
    zfor 1 m_max 1 (fun m vt =>
      let* '(g, ni, mi) := modulo_gcd_ex n m in
      if negb (g =? 1) then Some vt else
      let mi := if mi =? 0 then mi else n - mi in
      let ni := if m =? 1 then 1 else ni in
      let a := n * m - ni * mi in
      let b := n * ni + m * mi in
      let c := n * m + ni * mi in
      if c_max <? c then Some vt else
      if (Z.rem c 2 =? 1) && (b <? a) then Some vt else
      let vt := vt ++ [(a, b, c)] in
      if negb (b =? a) then Some (vt ++ [(b, a, c)]) else Some vt) vt) [].

(** min_element, max_element: triples.h 39-50; is_primitive: 55-58 *)
Definition min_element (t : Z * Z * Z) : Z := let '(a, b, c) := t in Z.min (Z.min a b) c.
Definition max_element (t : Z * Z * Z) : Z := let '(a, b, c) := t in Z.max (Z.max a b) c.
Definition is_primitive (t : Z * Z * Z) : option bool :=
  let '(a, b, c) := t in let* g := gcd a b in let* g := gcd g c in Some (g =? 1).
(** next_pythagorean_triple: triples.h 63-70 *)
Definition row (r t : Z * Z * Z) : Z := let '(x, y, z) := r in let '(a, b, c) := t in x * a + y * b + z * c.
Definition next_pythagorean_triple (m : (Z * Z * Z) * (Z * Z * Z) * (Z * Z * Z)) (t : Z * Z * Z) : Z * Z * Z :=
  let '(r0, r1, r2) := m in (row r0 t, row r1 t, row r2 t).
(** the matrices of generate_pythagorean_triples: triples.h 125-129 *)
Definition tree_matrices : list ((Z * Z * Z) * (Z * Z * Z) * (Z * Z * Z)) :=
  [((-2, 1, 2), (-1, 2, 2), (-2, 2, 3)); ((1, -2, 2), (2, -1, 2), (2, -2, 3)); ((2, 1, 2), (1, 2, 2), (2, 2, 3))].
(** the body of the loop over vt: triples.h 132-137 *)
Definition tree_step (n : Z) (t : Z * Z * Z) (vt : list (Z * Z * Z)) : option (list (Z * Z * Z)) :=
  let '(a, b, _) := t in
  for_range 0 3 (fun j vt =>
    if (j =? 1)%nat && (a =? b) then Some vt else
    if (j =? 2)%nat && (a =? 0) then Some vt else
    let* m := nth_error tree_matrices j in
    let t' := next_pythagorean_triple m t in
    if max_element t' <=? n then
      let* p := is_primitive t' in if p then Some (vt ++ [t']) else Some vt
    else Some vt) vt.
(** generate_pythagorean_triples: triples.h 123-140. vt grows while it is walked; out of fuel stands for not ending *)
Definition generate_pythagorean_triples (n : Z) (generators : list (Z * Z * Z)) : option (list (Z * Z * Z)) :=
  loopZ ((Z.of_nat (length generators) + 1) * 4 ^ (Z.max n 0 + 2)) (fun '(i, vt) =>
    match nth_error vt i with
    | None => Some (inr vt)
    | Some t => let* vt := tree_step n t vt in Some (inl ((i + 1)%nat, vt))
    end) (O, generators).

(** is_pythagorean_triple_generator: triples.h 75-86 *)
Definition inverse_matrices : list ((Z * Z * Z) * (Z * Z * Z) * (Z * Z * Z)) :=
  [((-2, -1, 2), (1, 2, -2), (-2, -2, 3)); ((1, 2, -2), (-2, -1, 2), (-2, -2, 3)); ((2, 1, -2), (1, 2, -2), (-2, -2, 3))].
Definition is_pythagorean_triple_generator (t : Z * Z * Z) : option bool :=
  let* p := is_primitive t in
  Some (p && forallb (fun m => min_element (next_pythagorean_triple m t) <? 0) inverse_matrices).
(** pythagorean_triples_generators: triples.h 93-116 *)
Definition pythagorean_triples_generators (root : Z -> Z) (k : Z) : option (list (Z * Z * Z)) :=
  if k =? 0 then Some [(3, 4, 5)]
  else if k =? 1 then Some [(2, 2, 3)]
  else if 2 <=? k then
    let a_max := root k * 2 in
    zfor 0 a_max 1 (fun a vg =>
      let* q := cdiv k (Z.max a 1) in
      let b_max := q + a in
      zfor a b_max 1 (fun b vg =>
        let c2 := sqT a + sqT b + k in
        let c := root c2 in
        if sqT c =? c2 then
          let* g := is_pythagorean_triple_generator (a, b, c) in if g then Some (vg ++ [(a, b, c)]) else Some vg
        else Some vg) vg) []
  else Some [].
