(** Model of include/altruct/algorithm/math/base.h and src/algorithm/math/base.cpp.
    Integers are unbounded [Z] except in the isqrt/icbrt family, whose
    int32_t/int64_t limits are explicit.  C++ [/] and [%] are [Z.quot] and [Z.rem];
    division by zero, signed overflow (isqrt family) and exhausted fuel give None. *)
From Verif Require Import Lib.
Local Open Scope Z_scope.

(** C++ integer division / remainder; by zero: undefined behaviour *)
Definition cdiv (a b : Z) : option Z := if b =? 0 then None else Some (Z.quot a b).
Definition cmod (a b : Z) : option Z := if b =? 0 then None else Some (Z.rem a b).

(** base.h:122-125 absT, 131-133 minT, 139-141 maxT, 147-149 boundT (T = Z) *)
Definition absT (x : Z) : Z := if x <? 0 then - x else x.
Definition minT (x y : Z) : Z := if x <? y then x else y.
Definition maxT (x y : Z) : Z := if x <? y then y else x.
Definition boundT (x l r : Z) : Z := minT (maxT x l) r.

(** base.h:158-167 powT; T is any type with [*=] = [mul] and identityOf = [e1].
    One iteration of the for loop; state (r, x, y). *)
Definition powT_step {T} (mul : T -> T -> T) (s : T * T * Z) : option ((T * T * Z) + T) :=
  let '(r, x, y) := s in
  if 0 <? y then
    let r' := if Z.rem y 2 =? 0 then r else mul r x in
    Some (inl (r', mul x x, Z.quot y 2))
  else Some (inr r).
Definition powT {T} (mul : T -> T -> T) (e1 : T) (x : T) (y : Z) : option T :=
  loopZ (Z.abs y + 1) (powT_step mul) (e1, x, y).

(** base.h:174-179 gcd; state (a, b) *)
Definition gcd_step (s : Z * Z) : option ((Z * Z) + Z) :=
  let '(a, b) := s in
  if a =? 0 then Some (inr b)
  else let* r := cmod b a in Some (inl (r, a)).
Definition gcd (a b : Z) : option Z := loopZ (Z.abs a + 1) gcd_step (a, b).

(** base.h:194-213 gcd_ex with all three output pointers non-null.
    State (g, h, xo, xn, yo, yn, i); result (g, x, y, s). *)
Definition gcd_ex_step (s : Z * Z * Z * Z * Z * Z * Z)
  : option ((Z * Z * Z * Z * Z * Z * Z) + (Z * Z * Z * Z)) :=
  let '(g, h, xo, xn, yo, yn, i) := s in
  if h =? 0 then Some (inr (g, xn, yn, i))
  else
    let* q := cdiv g h in
    let r := g - q * h in
    let rx := xn - q * xo in
    let ry := yn - q * yo in
    Some (inl (h, r, rx, xo, ry, yo, i + 1)).
Definition gcd_ex (a b : Z) : option (Z * Z * Z * Z) :=
  loopZ (Z.abs b + 1) gcd_ex_step (a, b, 0, 1, 1, 0, 0).

(** base.h:223-232 gcd_max; state (go, g) *)
Definition gcd_max_step (a b : Z) (s : Z * Z) : option ((Z * Z) + Z) :=
  let '(go, g) := s in
  if go =? g then Some (inr g)
  else let* g' := gcd (g * a) b in Some (inl (g, g')).
Definition gcd_max (a b : Z) : option Z :=
  if b =? 0 then Some a
  else loopZ (Z.abs b + 2) (gcd_max_step a b) (0, 1).

(** base.h:239-242 lcm *)
Definition lcm (a b : Z) : option Z :=
  let* g := gcd a b in
  let* d := cdiv b g in
  Some (a * d).

(** base.h:261-264 sqT, 308-311 cbT *)
Definition sqT (x : Z) : Z := x * x.
Definition cbT (x : Z) : Z := x * x * x.

(** [--max_iter > 0] on a 64-bit size_t: the decremented counter and the test *)
Definition dec64 (mi : Z) : Z := (mi - 1) mod 2 ^ 64.

(** base.h:272-284 sqrtT, generic Newton version, for x >= 0; state (q1, q2, max_iter).
    The size_t counter max_iter wraps, so the default 0 means 2^64-1 iterations. *)
Definition sqrtT_step (x eps : Z) (s : Z * Z * Z) : option ((Z * Z * Z) + Z) :=
  let '(q1, q2, mi) := s in
  if eps <? absT (q1 - q2) then
    let mi' := dec64 mi in
    if 0 <? mi' then
      let q1' := Z.quot (q1 + q2) 2 in
      let* q2' := cdiv x q1' in
      Some (inl (q1', q2', mi'))
    else Some (inr (minT q1 q2))
  else Some (inr (minT q1 q2)).
Definition sqrtT_pos (x eps max_iter : Z) : option Z :=
  if x =? 0 then Some 0
  else if x =? 1 then Some 1
  else
    let q1 := Z.quot x 2 in
    let* q2 := cdiv x q1 in
    loopZ (2 ^ 64 + 1) (sqrtT_step x eps) (q1, q2, max_iter).
Definition sqrtT (x eps max_iter : Z) : option Z :=
  if x <? 0 then let* r := sqrtT_pos (- x) eps max_iter in Some (- r)
  else sqrtT_pos x eps max_iter.

(** base.h:319-333 cbrtT, generic Newton version; state (r0, r1, r2, max_iter) *)
Definition cbrtT_step (x eps : Z) (s : Z * Z * Z * Z) : option ((Z * Z * Z * Z) + Z) :=
  let '(r0, r1, r2, mi) := s in
  if negb (r1 =? r0) && (eps <? absT (r1 - r2)) then
    let mi' := dec64 mi in
    if 0 <? mi' then
      let r1' := Z.quot (r1 + r1 + r2) 3 in
      let* r2' := cdiv x (sqT r1') in
      Some (inl (r1, r1', r2', mi'))
    else Some (inr (minT r1 r2))
  else Some (inr (minT r1 r2)).
Definition cbrtT_pos (x eps max_iter : Z) : option Z :=
  if x =? 0 then Some 0
  else if x =? 1 then Some 1
  else
    let* r1 := sqrtT x eps 0 in
    let* r2 := cdiv x (sqT r1) in
    loopZ (2 ^ 64 + 1) (cbrtT_step x eps) (0, r1, r2, max_iter).
Definition cbrtT (x eps max_iter : Z) : option Z :=
  if x <? 0 then let* r := cbrtT_pos (- x) eps max_iter in Some (- r)
  else cbrtT_pos x eps max_iter.

(** Machine ranges used by base.cpp; leaving them is signed overflow = None *)
Definition int32 (x : Z) : option Z :=
  if (- 2 ^ 31 <=? x) && (x <? 2 ^ 31) then Some x else None.
Definition int64 (x : Z) : option Z :=
  if (- 2 ^ 63 <=? x) && (x <? 2 ^ 63) then Some x else None.

(** base.cpp:11-13 isq, 33-35 icb (two int64 multiplications) *)
Definition isq (x : Z) : option Z := int64 (x * x).
Definition icb (x : Z) : option Z := let* y := int64 (x * x) in int64 (y * x).

(** base.cpp:18 [while (pw(q) > x) q--;] and the three other correction loops.
    [pw] is isq or icb; every q-1 / q+1 is an int32_t computation. *)
Definition dec_while_gt (pw : Z -> option Z) (x : Z) (q : Z) : option (Z + Z) :=
  let* p := pw q in
  if x <? p then let* q' := int32 (q - 1) in Some (inl q') else Some (inr q).
(** base.cpp:19, 41 [while (pw(q + 1) <= x) q++;] *)
Definition inc_while_le (pw : Z -> option Z) (x : Z) (q : Z) : option (Z + Z) :=
  let* q1 := int32 (q + 1) in
  let* p := pw q1 in
  if p <=? x then Some (inl q1) else Some (inr q).
(** base.cpp:26, 48 [while (pw(q) < x) q++;] *)
Definition inc_while_lt (pw : Z -> option Z) (x : Z) (q : Z) : option (Z + Z) :=
  let* p := pw q in
  if p <? x then let* q' := int32 (q + 1) in Some (inl q') else Some (inr q).
(** base.cpp:27 [while (q > 0 && isq(q - 1) >= x) q--;] ([stop0] = true)
    base.cpp:49 [while (icb(q - 1) >= x) q--;]           ([stop0] = false) *)
Definition dec_while_ge (pw : Z -> option Z) (stop0 : bool) (x : Z) (q : Z) : option (Z + Z) :=
  if stop0 && (q <=? 0) then Some (inr q)
  else
    let* q1 := int32 (q - 1) in
    let* p := pw q1 in
    if x <=? p then Some (inl q1) else Some (inr q).

(** base.cpp:15-21, 37-43: isqrt / icbrt for x >= 0.  [est] stands for
    int32_t(floor(sqrt(double(x)))): an arbitrary value chosen by the floating point unit. *)
Definition iroot_floor (pw : Z -> option Z) (est x : Z) : option Z :=
  let* q := loopZ (2 ^ 33) (dec_while_gt pw x) est in
  loopZ (2 ^ 33) (inc_while_le pw x) q.
(** base.cpp:23-29, 45-51: isqrtc / icbrtc for x >= 0 *)
Definition iroot_ceil (pw : Z -> option Z) (stop0 : bool) (est x : Z) : option Z :=
  let* q := loopZ (2 ^ 33) (inc_while_lt pw x) est in
  loopZ (2 ^ 33) (dec_while_ge pw stop0 x) q.

(** The floating point estimate is a function [est] of the (non-negative) argument *)
Definition isqrt (est : Z -> Z) (x : Z) : option Z :=
  if x <? 0 then
    let* nx := int64 (- x) in let* r := iroot_floor isq (est nx) nx in Some (- r)
  else iroot_floor isq (est x) x.
Definition isqrtc (est : Z -> Z) (x : Z) : option Z :=
  if x <? 0 then
    let* nx := int64 (- x) in let* r := iroot_ceil isq true (est nx) nx in Some (- r)
  else iroot_ceil isq true (est x) x.
Definition icbrt (est : Z -> Z) (x : Z) : option Z :=
  if x <? 0 then
    let* nx := int64 (- x) in let* r := iroot_floor icb (est nx) nx in Some (- r)
  else iroot_floor icb (est x) x.
Definition icbrtc (est : Z -> Z) (x : Z) : option Z :=
  if x <? 0 then
    let* nx := int64 (- x) in let* r := iroot_ceil icb false (est nx) nx in Some (- r)
  else iroot_ceil icb false (est x) x.

(** base.h:300-303 is_square, 346-349 is_cube on the generic versions *)
Definition is_square (x : Z) : option bool :=
  let* r := sqrtT x 1 0 in Some (sqT r =? x).
Definition is_cube (x : Z) : option bool :=
  let* r := cbrtT x 1 0 in Some (cbT r =? x).

(** base.h:354-358 div_floor *)
Definition div_floor (a b : Z) : option Z :=
  let '(a, b) := if b <? 0 then (- a, - b) else (a, b) in
  if a <? 0 then let* t := cdiv (a + 1) b in Some (t - 1) else cdiv a b.
(** base.h:360-364 div_ceil *)
Definition div_ceil (a b : Z) : option Z :=
  let '(a, b) := if b <? 0 then (- a, - b) else (a, b) in
  if 0 <? a then let* t := cdiv (a - 1) b in Some (t + 1) else cdiv a b.
(** base.h:366-370 div_round *)
Definition div_round (a b : Z) : option Z :=
  let '(a, b) := if b <? 0 then (- a, - b) else (a, b) in
  if 0 <? a then cdiv (a + Z.quot b 2) b else cdiv (a - Z.quot b 2) b.
(** base.h:375-378 multiple *)
Definition multiple (a b : Z) : option Z :=
  let* t := div_ceil b a in Some (t * a).
