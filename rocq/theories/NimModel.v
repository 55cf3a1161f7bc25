(** Model of include/altruct/structure/math/nimber.h. The word U has BITS = 2^K bits (8, 16, 32, 64 for the integer types; any K here) and is a number below 2^BITS.
    A shift by BITS or more is undefined (None). The table of mul_pow2 is a function from the two indices, passed along as the state that it is. *)
From Coq Require Import NArith.
From Verif Require Import Lib.
Open Scope N_scope.

Section Nimber.
Variable K : nat.
Definition bits : N := 2 ^ N.of_nat K.
Definition wrapU (x : N) : N := x mod 2 ^ bits.
Definition table := N -> N -> N.
Definition shl (x n : N) : option N := let* _ := guard (n <? bits) in Some (wrapU (N.shiftl x n)).
Definition shr (x n : N) : option N := let* _ := guard (n <? bits) in Some (N.shiftr x n).
(** nimber.h 23-25 *)
Definition pow2 (n : N) : N := if n <? bits then wrapU (N.shiftl 1 n) else 0.
(** nimber.h 27-33; the subtraction wraps *)
Definition high (v : N) (k : nat) : option N := shr v (pow2 (N.of_nat k)).
Definition low (v : N) (k : nat) : N := N.land v (wrapU (pow2 (pow2 (N.of_nat k)) + (2 ^ bits - 1))).
(** nimber.h 35-37 *)
Definition join (hi lo : N) (k : nat) : option N := let* h := shl hi (pow2 (N.of_nat k)) in Some (N.lxor h lo).
(** nimber.h 172: level; at most K rounds, then w is 0 *)
Fixpoint level_loop (fuel : nat) (w v : N) (k : nat) : option nat :=
  if (w =? 0) || (v <? w) then Some k else
  match fuel with O => None | S fuel => level_loop fuel (wrapU (w * w)) v (S k) end.
Definition level (v : N) : option nat := level_loop (S K) (wrapU 2) v 0.
(** nimber.h 46-53: lift *)
Fixpoint lift (k : nat) (a : N) : option N :=
  match k with
  | O => Some a
  | S k =>
      let* ah := high a k in
      let al := low a k in
      if ah =? 0 then let* x := lift k al in join x 0 k
      else
        let* x := lift k (N.lxor ah al) in
        let* t := lift k ah in
        let* y := lift k t in
        join x y k
  end.
(** nimber.h 60-66: sqrt *)
Fixpoint nsqrt_f (fuel : nat) (v : N) : option N :=
  match fuel with O => None | S fuel =>
  let* l := level v in
  match l with
  | O => Some v
  | S k =>
      let* ah := high v k in
      let al := low v k in
      let* t := lift k ah in
      let* x := nsqrt_f fuel ah in
      let* y := nsqrt_f fuel (N.lxor t al) in
      join x y k
  end end.
Definition nsqrt (v : N) : option N := nsqrt_f (S K) v.
(** nimber.h 100-119: Karatsuba *)
Fixpoint mul2_f (fuel : nat) (x y : N) : option N :=
  match fuel with O => None | S fuel =>
  let '(x, y) := if x <? y then (y, x) else (x, y) in
  if y =? 0 then Some 0 else
  if y =? 1 then Some x else
  let* lx := level x in
  let* ly := level y in
  let k := (lx - 1)%nat in
  if (ly - 1 <? k)%nat then
    let* xh := high x k in
    let xl := low x k in
    let* a := mul2_f fuel xh y in
    let* b := mul2_f fuel xl y in
    join a b k
  else
    let* xh := high x k in
    let xl := low x k in
    let* yh := high y k in
    let yl := low y k in
    let* ll := mul2_f fuel xl yl in
    let* hh := mul2_f fuel xh yh in
    let* ss := mul2_f fuel (N.lxor xh xl) (N.lxor yh yl) in
    let* t := lift k hh in
    join (N.lxor ss ll) (N.lxor t ll) k
  end.
Definition mul2 (x y : N) : option N := mul2_f (2 * K + 1) x y.
(** nimber.h 122-129: mul_pow2_impl, with the multiplication it calls as a parameter. i & -i is computed on integers; the loop clears the lowest bit of i, which is below 2^K *)
Section Pow2.
Variable rmul : table -> N -> N -> option (N * table).
Fixpoint impl_loop (fuel : nat) (t : table) (r i : N) : option (N * table) :=
  if i =? 0 then Some (r, t) else
  match fuel with O => None | S fuel =>
    let j := Z.to_N (Z.land (Z.of_N i) (- Z.of_N i)) in
    let* '(r, t) := rmul t r (N.lxor (pow2 j) (pow2 (j - 1))) in
    impl_loop fuel t r (N.land i (i - 1))
  end.
Definition mul_pow2_impl (t : table) (m n : N) : option (N * table) := impl_loop (S K) t (pow2 (N.lxor m n)) (N.land m n).
(** nimber.h 132-137: mul_pow2; tbl[m][n] is read and written only for m, n < 64 *)
Definition tbl_put (t : table) (m n v : N) : table := fun i j => if (i =? m) && (j =? n) then v else t i j.
Definition mul_pow2 (t : table) (m n : N) : option (N * table) :=
  if (64 <=? m) || (64 <=? n) then mul_pow2_impl t m n else
  let '(m, n) := if m <? n then (n, m) else (m, n) in
  if negb (t m n =? 0) then Some (t m n, t) else
  let* '(v, t) := mul_pow2_impl t m n in Some (v, tbl_put t m n v).
End Pow2.
(** nimber.h 140-150: mul; the shape of both loops: for (i = 0; i < BITS && pow2(i) <= a; i++) if (a & pow2(i)) body *)
Fixpoint scan {St} (body : N -> St -> option St) (a : N) (n : nat) (i : N) (s : St) : option St :=
  match n with
  | O => Some s
  | S n =>
      if pow2 i <=? a then
        let* s := if N.land a (pow2 i) =? 0 then Some s else body i s in
        scan body a n (i + 1) s
      else Some s
  end.
Fixpoint mul_f (fuel : nat) (t : table) (a b : N) : option (N * table) :=
  match fuel with O => None | S fuel =>
  if (a <=? 1) || (b <=? 1) then Some (wrapU (a * b), t) else
  scan (fun i s => scan (fun j '(r, t) => let* '(p, t) := mul_pow2 (mul_f fuel) t i j in Some (N.lxor r p, t)) b (N.to_nat bits) 0 s) a (N.to_nat bits) 0 (0, t)
  end.
Definition mul (t : table) (a b : N) : option (N * table) := mul_f (2 * K + 2) t a b.
(** nimber.h 81-89: inverse; the two products of a call are computed left to right *)
Fixpoint inverse_f (fuel : nat) (t : table) (v : N) : option (N * table) :=
  match fuel with O => None | S fuel =>
  let* l := level v in
  match l with
  | O => Some (v, t)
  | S k =>
      let* ah := high v k in
      let al := low v k in
      let as_ := N.lxor ah al in
      let* '(p, t) := mul t as_ al in
      let* '(q, t) := mul t ah ah in
      let* q := lift k q in
      let* '(d, t) := inverse_f fuel t (N.lxor p q) in
      let* '(x, t) := mul t ah d in
      let* '(y, t) := mul t as_ d in
      let* r := join x y k in
      Some (r, t)
  end end.
Definition inverse (t : table) (v : N) : option (N * table) := inverse_f (S K) t v.
(** nimber.h 163, 169: / *)
Definition ndiv (t : table) (a b : N) : option (N * table) := let* '(i, t) := inverse t b in mul t a i.
(** nimber.h 166-167: + and - *)
Definition nadd (a b : N) : N := N.lxor a b.
End Nimber.
(** nimber.h 133: the table at program start *)
Definition table0 : table := fun _ _ => 0.
