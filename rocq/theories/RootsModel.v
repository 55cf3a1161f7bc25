(** Model of include/altruct/algorithm/math/modulos.h: square roots. Integers are unbounded; a modulo value is its [v], the modulus is passed along.
    modT is the normalising constructor of modulo, modulo_add and modulo_sub its += and -= (ModuloModel, ModPowModel). *)
From Verif Require Import Lib BaseModel ModuloModel ModPowModel QuadraticModel.
Open Scope Z_scope.

(** modulo.h 228: *= ; the modulus is not 0, since the constructor divided by it before *)
Definition mm (M x y : Z) : Z := Z.rem (x * y) M.

(** modulos.h: sqrt_cipolla 109-121 *)
Definition cipolla_step (y M : Z) (s : Z * Z) : option ((Z * Z) + (Z * Z)) :=
  let* e1 := modT 1 M in
  let a := modulo_add (fst s) e1 M in
  let d := modulo_sub (mm M a a) y M in
  let* t := powT (mm M) e1 d (Z.quot (M - 1) 2) in
  if t =? 1 then Some (inl (a, d)) else Some (inr (a, d)).
Definition sqrt_cipolla_m (y M : Z) : option Z :=
  if M =? 2 then Some y else
  let* '(a, d) := loopZ (M + 1) (cipolla_step y M) (0, 0) in
  let* e1 := modT 1 M in
  let* r := powT (q_mul (fun x y => modulo_add x y M) (mm M)) (Q e1 0 d) (Q a e1 d) (Z.quot (M + 1) 2) in
  Some (qa r).
(** modulos.h 128-131 *)
Definition sqrt_cipolla (y p : Z) : option Z := let* v := modT y p in sqrt_cipolla_m v p.

(** modulos.h: the inner loop of sqrt_hensel_lift_p2, 152-161, for one j *)
Definition p2_lift (y w2 s : Z) : option Z :=
  let m := w2 * 4 in
  let* r := modT s m in let* t := modT y m in
  let v := modulo_sub (mm m r r) t m in
  Some (if negb (v =? 0) then s + w2 else if w2 <=? s then s + w2 * 2 else s).
(** modulos.h: sqrt_hensel_lift_p2 140-165 *)
Definition sqrt_hensel_lift_p2 (y k : Z) : option (Z * Z) :=
  if negb (Z.rem y 2 =? 1) then Some (0, 0) else
  if k =? 1 then Some (1, 1) else
  if negb (Z.rem y 4 =? 1) then Some (0, 0) else
  if k =? 2 then Some (1, 1) else
  if negb (Z.rem y 8 =? 1) then Some (0, 0) else
  let* '(a, b, _) := for_range 4 (Z.to_nat k + 1) (fun _ '(a, b, w2) =>
    let* a := p2_lift y w2 a in let* b := p2_lift y w2 b in Some (a, b, w2 * 2)) (1, 3, 4) in
  Some (a, b).

(** modulos.h: sqrt_hensel_lift 174-187; state (i, r.M, r.v) *)
Definition hensel_step (y p k : Z) (s : Z * Z * Z) : option ((Z * Z * Z) + Z) :=
  let '(i, M, r) := s in
  if i <? k then
    let* q := cdiv M p in
    let phi := q * (p - 1) in
    let* e1 := modT 1 M in
    let* u := powT (mm M) e1 (mm M r 2) (phi - 1) in
    let* M' := if i * 2 <? k then Some (M * M) else powT Z.mul 1 p k in
    let* t := modT y M' in
    let v := modulo_sub (mm M' r r) t M' in
    Some (inl (i * 2, M', modulo_sub r (mm M' v u) M'))
  else Some (inr r).
Definition sqrt_hensel_lift (y p k : Z) : option Z :=
  let* t := modT y p in
  let* r := sqrt_cipolla_m t p in
  loopZ (Z.abs k + 1) (hensel_step y p k) (1, p, r).

(** modulos.h: sqrt_mod 196-226. A set is a list without repetitions; the order of an unordered_set is not modelled *)
Definition set_insert (x : Z) (l : list Z) : list Z := if existsb (Z.eqb x) l then l else x :: l.
(** the loop over sr0, 202-205 *)
Fixpoint add_pairs (m x q : Z) (sr0 sr : list Z) : option (list Z) :=
  match sr0 with
  | [] => Some sr
  | r0 :: sr0 =>
      let* '(a, _) := chinese_remainder r0 m x q in
      let* '(b, _) := chinese_remainder r0 m (if x =? 0 then x else q - x) q in
      add_pairs m x q sr0 (set_insert b (set_insert a sr))
  end.
Definition add_roots (y m : Z) (sr0 : list Z) (x q : Z) (sr : list Z) : option (list Z) :=
  let* t := cmod (x * x - y) q in
  if negb (t =? 0) then Some sr else add_pairs m x q sr0 sr.
Fixpoint sqrt_mod_loop (y : Z) (vf : list (Z * Z)) (m : Z) (sr : list Z) : option (list Z) :=
  match vf with
  | [] => Some sr
  | (p, e) :: vf =>
      let* q := powT Z.mul 1 p e in
      let* sr' :=
        (if p =? 2 then
           let* '(a, b) := sqrt_hensel_lift_p2 y e in
           let* s := add_roots y m sr a q [] in add_roots y m sr b q s
         else
           let* x := sqrt_hensel_lift y p e in add_roots y m sr x q []) in
      sqrt_mod_loop y vf (m * q) sr'
  end.
Definition sqrt_mod (y : Z) (vf : list (Z * Z)) : option (list Z) := sqrt_mod_loop y vf 1 [0].
