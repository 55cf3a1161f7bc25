(** Model of the multiplicative orders, primitive roots, k-th roots and discrete logarithms of include/altruct/algorithm/math/modulos.h, over exact integers.
    G is any type with *= = [mul], == = [eqb] and identityOf(a) = [one]. [root n] stands for sqrtT(n) (C05). A std::set is the list of its elements without repetition. *)
From Verif Require Import Lib BaseModel ModuloModel ModPowModel RootsModel.
Open Scope Z_scope.

Section Group.
Context {G : Type} (mul : G -> G -> G) (one : G) (eqb : G -> G -> bool).
Variable root : Z -> Z.
(** modulos.h 226-234: multiplicative_order_g; one pass of the while loop for the prime p *)
Definition order_step (a : G) (p k : Z) : option (Z + Z) :=
  let* r := cmod k p in
  if r =? 0 then
    let* q := cdiv k p in
    let* x := powT mul one a q in
    if eqb x one then Some (inl q) else Some (inr k)
  else Some (inr k).
Fixpoint multiplicative_order_g (a : G) (k : Z) (factors : list Z) : option Z :=
  match factors with
  | [] => Some k
  | p :: ps => let* k := loopZ (Z.abs k + 1) (order_step a p) k in multiplicative_order_g a k ps
  end.
(** modulos.h 374-382: discrete_log_brute_force_g; state (x, a_x) *)
Definition brute_step (a b : G) (max_iter : Z) (s : Z * G) : option ((Z * G) + Z) :=
  let '(x, ax) := s in
  if x <? max_iter then if eqb ax b then Some (inr x) else Some (inl (x + 1, mul ax a)) else Some (inr (-1)).
Definition discrete_log_brute_force_g (a b : G) (max_iter : Z) : option Z := loopZ (Z.abs max_iter + 1) (brute_step a b max_iter) (0, one).
(** modulos.h 391-411: discrete_log_baby_giant_g; the hash map is an association list; emplace keeps an entry that is already there *)
Definition lookup (x : G) (mp : list (G * Z)) : option Z := option_map snd (find (fun e => eqb (fst e) x) mp).
Definition baby_step (a : G) (q : Z) (s : Z * G * list (G * Z)) : option ((Z * G * list (G * Z)) + list (G * Z)) :=
  let '(j, cur, mp) := s in
  if j <? q then match lookup cur mp with Some _ => Some (inr mp) | None => Some (inl (j + 1, mul cur a, (cur, j) :: mp)) end else Some (inr mp).
Definition giant_step (mp : list (G * Z)) (alpha : G) (q : Z) (s : Z * G) : option ((Z * G) + Z) :=
  let '(i, gamma) := s in
  if i <? q then match lookup gamma mp with Some j => Some (inr (i * q + j)) | None => Some (inl (i + 1, mul gamma alpha)) end else Some (inr (-1)).
Definition discrete_log_baby_giant_g (a b : G) (n : Z) : option Z :=
  let q := root n + 1 in
  let* mp := loopZ (Z.abs q + 1) (baby_step a q) (0, one, []) in
  let* alpha := powT mul one a (n - q) in
  loopZ (Z.abs q + 1) (giant_step mp alpha q) (0, b).
(** modulos.h 430-435: the table of powers of p, and the exponent of the order; state (k, pp), result (s, pp) *)
Definition pp_step (a : G) (p s : Z) (st : Z * list Z) : option ((Z * list Z) + (Z * list Z)) :=
  let '(k, pp) := st in
  if k <=? s then
    let* v := nth_error pp (Z.to_nat (k - 1)) in
    let* x := powT mul one a v in
    if eqb x one then Some (inr (k - 1, pp)) else let* pp := set_nth pp (Z.to_nat k) (v * p) in Some (inl (k + 1, pp))
  else Some (inr (s, pp)).
(** modulos.h 420-445: discrete_log_order_pp_g *)
Definition discrete_log_order_pp_g (a b : G) (p s : Z) : option Z :=
  if s =? 0 then Some 0 else
  if eqb a one then Some 0 else
  if eqb b one then Some 0 else
  if eqb a b then Some 1 else
  let* '(s, pp) := loopZ (Z.abs s + 1) (pp_step a p s) (1, 1 :: repeat 0 (Z.to_nat s)) in
  let* ps := nth_error pp (Z.to_nat s) in
  let* ps1 := nth_error pp (Z.to_nat (s - 1)) in
  let* ai := powT mul one a (ps - 1) in
  let* gamma := powT mul one a ps1 in
  for_range 0 (Z.to_nat s) (fun k x =>
    let* ax := powT mul one ai x in
    let* u := nth_error pp (Z.to_nat (s - 1 - Z.of_nat k)) in
    let* bk := powT mul one (mul ax b) u in
    let* d := discrete_log_baby_giant_g gamma bk p in
    let* v := nth_error pp k in
    Some (x + v * d)) 0.
(** modulos.h 462-463: d, pe, e of one prime *)
Definition split_step (p : Z) (s : Z * Z * Z) : option ((Z * Z * Z) + (Z * Z * Z)) :=
  let '(d, pe, e) := s in
  let* r := cmod d p in
  if r =? 0 then let* d := cdiv d p in Some (inl (d, pe * p, e + 1)) else Some (inr (d, pe, e)).
(** modulos.h 457-472: discrete_log_g; result (x, o) *)
Fixpoint log_loop (a b : G) (o : Z) (factors : list Z) (x q : Z) : option Z :=
  match factors with
  | [] => Some x
  | p :: ps =>
      let* '(d, pe, e) := loopZ (Z.abs o + 1) (split_step p) (o, 1, 0) in
      if e =? 0 then log_loop a b o ps x q else
      let* a_sub := powT mul one a d in
      let* b_sub := powT mul one b d in
      let* x_pe := discrete_log_order_pp_g a_sub b_sub p e in
      let* '(x, q) := chinese_remainder x q x_pe pe in
      log_loop a b o ps x q
  end.
Definition discrete_log_g (a b : G) (n : Z) (factors : list Z) : option (Z * Z) :=
  let* o := multiplicative_order_g a n factors in
  let* x := log_loop a b o factors 0 1 in
  Some (x, o).
End Group.

(** modulos.h 244-248: multiplicative_order *)
Definition multiplicative_order (a m phi : Z) (factors : list Z) : option Z :=
  let* v := modT a m in
  let* e := modT 1 m in
  multiplicative_order_g (mm m) e Z.eqb v phi factors.
(** modulos.h 268-272: the inner loop of primitive_root *)
Fixpoint is_primitive (g m phi : Z) (factors : list Z) : option bool :=
  match factors with
  | [] => Some true
  | p :: ps =>
      let* q := cdiv phi p in
      let* v := modT g m in
      let* e := modT 1 m in
      let* x := powT (mm m) e v q in
      let* rest := is_primitive g m phi ps in
      Some (negb (x =? 1) && rest)
  end.
(** modulos.h 263-277: primitive_root *)
Definition root_step (m phi : Z) (factors : list Z) (g : Z) : option (Z + Z) :=
  if g <? m then
    let* c := gcd g m in
    if 1 <? c then Some (inl (g + 1)) else
    let* pr := is_primitive g m phi factors in
    if pr then Some (inr g) else Some (inl (g + 1))
  else Some (inr 0).
Definition primitive_root (m phi : Z) (factors : list Z) : option Z := loopZ (Z.abs m + 1) (root_step m phi factors) 1.
(** modulos.h 291-294: primitive_root_of_unity *)
Definition primitive_root_of_unity (m lam : Z) (factors : list Z) : option Z := primitive_root m lam factors.
(** modulos.h 324-329 and 360-364: r, r w, r w^2, ... *)
Definition spread (m w : Z) (d : Z) (r : Z) : option (list Z) :=
  let* '(sr, _) := for_range 0 (Z.to_nat d) (fun _ '(sr, r) => Some (set_insert r sr, mm m r w)) ([], r) in Some sr.
(** modulos.h 318-330: kth_roots_of_unity *)
Definition kth_roots_of_unity (m k lam g : Z) : option (list Z) :=
  let* d := gcd k lam in
  let* q := cdiv lam d in
  let* v := modT g m in
  let* e := modT 1 m in
  let* w := powT (mm m) e v q in
  spread m w d e.
(** modulos.h 348-366: kth_roots; h = modx(l, phi) / k *)
Definition kth_roots (m k phi g l : Z) : option (list Z) :=
  let* d := gcd k phi in
  if d =? 0 then Some [] else
  let* c := cmod l d in
  if negb (c =? 0) then Some [] else
  let* phi := cdiv phi d in
  let* l := cdiv l d in
  let* k := cdiv k d in
  let* lv := modT l phi in
  let* h := modulo_div lv k phi in
  let* v := modT g m in
  let* e := modT 1 m in
  let* r := powT (mm m) e v h in
  let* w := powT (mm m) e v phi in
  spread m w d r.
Section Log.
Variable root : Z -> Z.
(** modulos.h 481-485 *)
Definition discrete_log_brute_force (a b m : Z) : option Z :=
  let* av := modT a m in
  let* bv := modT b m in
  let* e := modT 1 m in
  discrete_log_brute_force_g (mm m) e Z.eqb av bv m.
(** modulos.h 495-499 *)
Definition discrete_log_baby_giant (a b m n : Z) : option Z :=
  let* av := modT a m in
  let* bv := modT b m in
  let* e := modT 1 m in
  discrete_log_baby_giant_g (mm m) e Z.eqb root av bv n.
(** modulos.h 508-511 *)
Definition discrete_log_shanks (a b p : Z) : option Z := discrete_log_baby_giant a b p (p - 1).
(** modulos.h 520-525 *)
Definition discrete_log_oddp (a b p : Z) : option Z := if p <? 1100 then discrete_log_brute_force a b p else discrete_log_shanks a b p.
(** modulos.h 534-553: discrete_log_p2; the first loop squares ao until it is 1, state (ao, o, t) *)
Definition p2_order_step (m : Z) (s : Z * Z * Z) : option ((Z * Z * Z) + (Z * Z)) :=
  let '(ao, o, t) := s in
  if ao =? 1 then Some (inr (o, t)) else let* ao := modulo_mul ao ao m in Some (inl (ao, o * 2, t + 1)).
Definition discrete_log_p2 (a b s : Z) : option Z :=
  let* m := powT Z.mul 1 2 s in
  let* '(o, t) := loopZ (Z.abs s + 2) (p2_order_step m) (a, 1, 0) in
  let* ai := modulo_inv a m in
  for_range 0 (Z.to_nat t) (fun i x =>
    let e := Z.shiftr o (Z.of_nat i + 1) in
    let* ax := modulo_power ai x m in
    let* bx := modulo_mul b ax m in
    let* y := modulo_power bx e m in
    Some (if y =? 1 then x else x + Z.shiftl 1 (Z.of_nat i))) 0.
(** modulos.h 576: theta *)
Definition theta (phi ps ps1 c : Z) : option Z := let* y := modulo_power c phi (ps * ps1) in cdiv (y - 1) ps.
(** modulos.h 578: divide ta, tb and ps1 by p as long as possible *)
Definition reduce_step (p : Z) (s : Z * Z * Z) : option ((Z * Z * Z) + (Z * Z * Z)) :=
  let '(ta, tb, ps1) := s in
  let* ra := cmod ta p in
  let* rb := cmod tb p in
  let* rp := cmod ps1 p in
  if (ra =? 0) && (rb =? 0) && (rp =? 0) then
    let* ta := cdiv ta p in
    let* tb := cdiv tb p in
    let* ps1 := cdiv ps1 p in
    Some (inl (ta, tb, ps1))
  else Some (inr (ta, tb, ps1)).
(** modulos.h 565-581: discrete_log_pp *)
Definition discrete_log_pp (a b p s : Z) : option Z :=
  if s =? 0 then Some 0 else
  if a =? 1 then Some 0 else
  if b =? 1 then Some 0 else
  if a =? b then Some 1 else
  if p =? 2 then discrete_log_p2 a b s else
  let* ra := cmod a p in
  let* rb := cmod b p in
  let* x1 := discrete_log_oddp ra rb p in
  if s =? 1 then Some x1 else
  let p1 := p - 1 in
  let* ps1 := powT Z.mul 1 p (s - 1) in
  let phi := p1 * ps1 in
  let ps := ps1 * p in
  let* ta := theta phi ps ps1 a in
  let* tb := theta phi ps ps1 b in
  let* '(ta, tb, ps1) := loopZ (Z.abs s + 1) (reduce_step p) (ta, tb, ps1) in
  let* ti := modulo_inv ta ps1 in
  let* xs1 := modulo_mul tb ti ps1 in
  let* '(x, _) := chinese_remainder x1 p1 xs1 ps1 in
  Some x.
(** modulos.h 597-601: discrete_log; result (x, o) *)
Definition discrete_log (a b m phi : Z) (factors : list Z) : option (Z * Z) :=
  let* av := modT a m in
  let* bv := modT b m in
  let* e := modT 1 m in
  discrete_log_g (mm m) e Z.eqb root av bv phi factors.
End Log.
