(** Model of the integral operations of include/altruct/structure/math/modulo.h and of
    chinese_remainder and garner in include/altruct/algorithm/math/modulos.h. *)
From Verif Require Import Lib BaseModel.
Local Open Scope Z_scope.

(* ------------------------------------------------------------------ *)
(** Part 1: machine arithmetic. W is the width of the type. *)

(** value of the W-bit pattern of x in the signed type (a narrowing conversion) *)
Definition to_s (W x : Z) : Z := let r := x mod 2 ^ W in if r <? 2 ^ (W - 1) then r else r - 2 ^ W.
(** signed arithmetic: the types below 32 bits are promoted to int and converted back,
    the others overflow with undefined behaviour *)
Definition sarith (W x : Z) : option Z :=
  if W <? 32 then Some (to_s W x)
  else if (- 2 ^ (W - 1) <=? x) && (x <? 2 ^ (W - 1)) then Some x else None.

(** modulo.h:50-53 modulo_add_uint *)
Definition mod_add_u (W x y M : Z) : Z :=
  let of := 2 ^ W <=? x + y in
  let r := (x + y) mod 2 ^ W in
  if negb of && (r <? M) then r else (r - M) mod 2 ^ W.
(** modulo.h:55-59 modulo_add_int *)
Definition mod_add_s (W x y M : Z) : option Z :=
  let* r := sarith W (x + y) in
  let of := r <? 0 in
  if negb of && (r <? M) then Some r else sarith W (r - M).
(** modulo.h:65-67 modulo_sub *)
Definition mod_sub_u (W x y M : Z) : Z := mod_add_u W x ((M - y) mod 2 ^ W) M.
Definition mod_sub_s (W x y M : Z) : option Z := let* d := sarith W (M - y) in mod_add_s W x d M.
(** modulo.h:69-71 modulo_neg *)
Definition mod_neg_u (W v M : Z) : Z := if v =? 0 then v else (M - v) mod 2 ^ W.
Definition mod_neg_s (W v M : Z) : option Z := if v =? 0 then Some v else sarith W (M - v).
(** modulo.h:73-80 modulo_mul_int_long; the loop runs once per bit of y *)
Fixpoint mod_mul_long (fuel : nat) (W r x y M : Z) : option Z :=
  match fuel with
  | O => None
  | S fuel' =>
      if 0 <? y then
        let r := if Z.odd y then mod_add_u W r x M else r in
        mod_mul_long fuel' W r (mod_add_u W x x M) (Z.shiftr y 1) M
      else Some r
  end.
(** modulo.h:81-90 modulo_mul for unsigned types: 8 and 16 bit through uint32_t,
    32 bit through uint64_t, 64 bit with the fast path and the long loop. *)
Definition mod_mul_u (W x y M : Z) : option Z :=
  if W <=? 16 then
    if M =? 0 then None else Some (((x * y) mod 2 ^ 32) mod M)
  else if W =? 32 then
    if M =? 0 then None else Some (((x * y) mod 2 ^ 64) mod M)
  else
    if (Z.shiftr x 32 =? 0) && (Z.shiftr y 32 =? 0) then
      if M =? 0 then None else Some (((x * (y mod 2 ^ 32)) mod 2 ^ 64) mod M)
    else mod_mul_long 65 W 0 x y M.
(** modulo.h:91-95 modulo_mul for signed types *)
Definition mod_mul_s (W x y M : Z) : option Z :=
  let* r := mod_mul_u W (x mod 2 ^ W) (y mod 2 ^ W) (M mod 2 ^ W) in Some (to_s W r).
(** modulo.h:127-132 modulo_normalize of an unsigned value *)
Definition mod_normalize_u (v M : Z) : option Z :=
  if v <? M then Some v else if M =? 0 then None else Some (v mod M).
(** modulo.h:133-137 modulo_normalize of a signed value of width W (no wrap can occur in modulo_neg_int) *)
Definition mod_normalize_s (W v M : Z) : option Z :=
  if v <? 0 then
    (* -v : a promoted int below 32 bits *)
    let* v' := (if W <? 32 then Some (- v) else sarith W (- v)) in
    let* r := mod_normalize_u v' M in
    Some (if r =? 0 then r else M - r)
  else mod_normalize_u v M.

(* ------------------------------------------------------------------ *)
(** Part 2: over unbounded integers. *)

(** modulo.h:96-103 modulo_gcd_ex_int; result (g, ni1, ni2) *)
Definition modulo_gcd_ex (n1 n2 : Z) : option (Z * Z * Z) :=
  let* '(g, x, y, s) := gcd_ex n1 n2 in
  let ni1 := if (Z.rem s 2 =? 1) && negb (x =? 0) then x + n2 else x in
  let ni2 := if (Z.rem s 2 =? 0) && negb (y =? 0) then y + n1 else y in
  Some (g, ni1, ni2).

(** modulo.h:106-112 modulo_inv_int *)
Definition modulo_inv (v M : Z) : option Z :=
  let* '(g, _, vi, s) := gcd_ex M v in
  let vi := if (Z.rem s 2 =? 0) && negb (vi =? 0) then vi + M else vi in
  Some (if g =? 1 then vi else 0).

(** modulo_mul on exact integers (part 1 shows that the machine versions agree) *)
Definition modulo_mul (x y M : Z) : option Z := cmod (x * y) M.

(** modulo.h:115-123 modulo_div_int; [mul] is the modulo_mul overload of the type *)
Definition modulo_div_with (mul : Z -> Z -> Z -> option Z) (x y M : Z) : option Z :=
  let* fast := (if y =? 0 then Some false else let* r := cmod x y in Some (r =? 0)) in
  if fast then cdiv x y
  else
    let* yi := modulo_inv y M in
    if negb (yi =? 0) then mul x yi M
    else
      let* g0 := gcd x y in
      let* g := gcd g0 M in
      let* xg := cdiv x g in
      let* yg := cdiv y g in
      let* Mg := cdiv M g in
      let* i := modulo_inv yg Mg in
      mul xg i M.
Definition modulo_div : Z -> Z -> Z -> option Z := modulo_div_with modulo_mul.

(** modulo.h:55-59 and 65 over exact signed integers *)
Definition modulo_add (x y M : Z) : Z := let r := x + y in if negb (r <? 0) && (r <? M) then r else r - M.
Definition modulo_sub (x y M : Z) : Z := modulo_add x (M - y) M.

(** modulos.h:27-36 chinese_remainder for a signed type; result (a, n), (0, 0) when there is no solution *)
Definition chinese_remainder (a1 n1 a2 n2 : Z) : option (Z * Z) :=
  let* '(g, ni1, ni2) := modulo_gcd_ex n1 n2 in
  let* d := cmod (a2 - a1) g in
  if negb (d =? 0) then Some (0, 0)
  else
    let* t1 := modulo_mul a1 ni2 n1 in
    let* t2 := modulo_mul a2 ni1 n2 in
    let* n1 := cdiv n1 g in
    let* n2 := cdiv n2 g in
    let n := n1 * n2 * g in
    let* u1 := modulo_mul t1 n2 n in
    let* u2 := modulo_mul t2 n1 n in
    Some (modulo_add u1 u2 n, n).
(** the test of modulos.h:31 for an unsigned type of width W: a2 - a1 wraps *)
Definition chinese_remainder_check_u (W a1 a2 g : Z) : option bool :=
  let* d := cmod ((a2 - a1) mod 2 ^ W) g in Some (d =? 0).

(** modulos.h:37-40: accumulate one more congruence into (ar, nr) *)
Definition chinese_remainder_acc (r : Z * Z) (c : Z * Z) : option (Z * Z) :=
  let '(ar, nr) := r in let '(a, n) := c in chinese_remainder ar nr a n.
Fixpoint chinese_remainder_list (r : Z * Z) (cs : list (Z * Z)) : option (Z * Z) :=
  match cs with [] => Some r | c :: cs => let* r := chinese_remainder_acc r c in chinese_remainder_list r cs end.

(** modulos.h:58-70 garner on (remainder, modulus) pairs, moduloX<int>: the
    coefficients v of the result (their moduli are those of the input).
    [y -= vx[j]] is modulo.h:227, [y /= vap[j].M()] is modulo.h:229 with the right
    operand built by modulo.h:205, which does not normalise for INSTANCE storage. *)
Definition garner_inner (mul : Z -> Z -> Z -> option Z) (vx ps : list Z) (Mi : Z) (i : nat) (y : Z) : option Z :=
  for_range 0 i (fun j y =>
    let* xj := nth_error vx j in
    let* pj := nth_error ps j in
    modulo_div_with mul (modulo_sub y xj Mi) pj Mi) y.
Fixpoint garner_loop (mul : Z -> Z -> Z -> option Z) (ps : list Z) (vx : list Z) (rest : list (Z * Z)) : option (list Z) :=
  match rest with
  | [] => Some vx
  | (a, Mi) :: rest =>
      let* y := garner_inner mul vx ps Mi (length vx) a in
      garner_loop mul ps (vx ++ [y]) rest
  end.
Definition garner_with (mul : Z -> Z -> Z -> option Z) (vap : list (Z * Z)) : option (list Z) :=
  garner_loop mul (map snd vap) [] vap.
Definition garner (vap : list (Z * Z)) : option (list Z) := garner_with modulo_mul vap.

