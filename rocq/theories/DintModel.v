(** experimental/include/altruct/structure/math/double_int.h: double_int and prim_int, for words of any width w and any
    nesting: [dint d] is double_int<...double_int<prim_int>...> with d times double_int.
    A prim_int is its bit pattern, a number in [0, 2^w).  The intrinsics adc, sbb and umul of the template argument
    INTR are modelled by their results (sum and carry, difference and borrow, both halves of the product).
    Not modelled: the shifts, leading_zeros_count, the bitwise operators and the output. *)
From Verif Require Import Lib.
Open Scope Z_scope.

Section Dint.
  Variable w : Z.
  (** 38: hi and lo; 328 *)
  Fixpoint dint (d : nat) : Type := match d with O => Z | S d => (dint d * dint d)%type end.
  (** 41: double_int(int val); 336 prim_int(int val) *)
  Fixpoint of_int (d : nat) (k : Z) : dint d :=
    match d with
    | O => k mod 2 ^ w
    | S d => (of_int d (if k <? 0 then -1 else 0), of_int d k)
    end.
  (** 48 and 339 *)
  Fixpoint is_negative (d : nat) : dint d -> bool :=
    match d with
    | O => fun v => 2 ^ (w - 1) <=? v
    | S d => fun x => is_negative d (fst x)
    end.
  (** 51 and 342 *)
  Fixpoint eqb (d : nat) : dint d -> dint d -> bool :=
    match d with
    | O => Z.eqb
    | S d => fun x y => eqb d (fst x) (fst y) && eqb d (snd x) (snd y)
    end.
  (** 61 and 390: unsigned_lt *)
  Fixpoint ult (d : nat) : dint d -> dint d -> bool :=
    match d with
    | O => Z.ltb
    | S d => fun x y => ult d (fst x) (fst y) || (eqb d (fst x) (fst y) && ult d (snd x) (snd y))
    end.
  (** 63 and 392: unsigned_lte *)
  Fixpoint ule (d : nat) : dint d -> dint d -> bool :=
    match d with
    | O => Z.leb
    | S d => fun x y => ult d (fst x) (fst y) || (eqb d (fst x) (fst y) && ule d (snd x) (snd y))
    end.
  (** 345: the signed value of a word *)
  Definition signed (v : Z) : Z := if 2 ^ (w - 1) <=? v then v - 2 ^ w else v.
  (** 55 and 345: operator <; 57 and 347: operator <= *)
  Fixpoint slt (d : nat) : dint d -> dint d -> bool :=
    match d with
    | O => fun x y => signed x <? signed y
    | S d => fun x y => slt d (fst x) (fst y) || (eqb d (fst x) (fst y) && ult d (snd x) (snd y))
    end.
  Definition sle (d : nat) : dint d -> dint d -> bool :=
    match d with
    | O => fun x y => signed x <=? signed y
    | S d => fun x y => slt d (fst x) (fst y) || (eqb d (fst x) (fst y) && ule d (snd x) (snd y))
    end.
  (** 67-71 and 401-404: assign_adc, the new value and the carry *)
  Fixpoint adc (d : nat) : dint d -> dint d -> Z -> dint d * Z :=
    match d with
    | O => fun x y c => ((x + y + c) mod 2 ^ w, (x + y + c) / 2 ^ w)
    | S d => fun x y c =>
      let '(lo, c) := adc d (snd x) (snd y) c in
      let '(hi, c) := adc d (fst x) (fst y) c in
      ((hi, lo), c)
    end.
  (** 72-76 and 405-408: assign_sbb, the new value and the borrow *)
  Fixpoint sbb (d : nat) : dint d -> dint d -> Z -> dint d * Z :=
    match d with
    | O => fun x y b => ((x - y - b) mod 2 ^ w, - ((x - y - b) / 2 ^ w))
    | S d => fun x y b =>
      let '(lo, b) := sbb d (snd x) (snd y) b in
      let '(hi, b) := sbb d (fst x) (fst y) b in
      ((hi, lo), b)
    end.
  (** 85-90; at d = 0 prim_int's operators += and -= (374-375), whose signed overflow is modelled as wrapping *)
  Definition add d x y := fst (adc d x y 0).
  Definition sub d x y := fst (sbb d x y 0).
  Definition neg d x := fst (sbb d (of_int d 0) x 0).
  (** 79-80: ++x and --x *)
  Definition inc d x := fst (adc d x (of_int d 0) 1).
  Definition dec d x := fst (sbb d x (of_int d 0) 1).
  (** 81: x++, the returned value and the new value of x *)
  Definition post_inc d (x : dint (S d)) : dint (S d) * dint (S d) := (inc (S d) x, x).
  (** 94-110 and 411-415: unsigned_mul_full *)
  Fixpoint mul_full (d : nat) : dint d -> dint d -> dint (S d) :=
    match d with
    | O => fun x y => ((x * y) / 2 ^ w, (x * y) mod 2 ^ w)
    | S d => fun x y =>
      let '(lsu, lcy) := adc d (snd x) (fst x) 0 in
      let '(rsu, rcy) := adc d (snd y) (fst y) 0 in
      let m0 := mul_full d (snd x) (snd y) in
      let m2 := mul_full d (fst x) (fst y) in
      let m1 := mul_full d lsu rsu in
      let '(m1, b0) := sbb (S d) m1 m0 0 in
      let '(m1, b2) := sbb (S d) m1 m2 0 in
      let '(lohi, c) := adc d (fst m0) (snd m1) 0 in
      let '(hilo, c) := adc d (snd m2) (fst m1) c in
      let '(hilo, c1) := if rcy =? 0 then (hilo, 0) else adc d hilo lsu 0 in
      let '(hilo, c2) := if lcy =? 0 then (hilo, 0) else adc d hilo rsu 0 in
      let hihi := add d (fst m2) (of_int d (Z.land lcy rcy - b0 - b2 + c + c1 + c2)) in
      ((hihi, hilo), (lohi, snd m0))
    end.
  (** 112-117 and 416-418: unsigned_mul, operator times *)
  Fixpoint mul (d : nat) : dint d -> dint d -> dint d :=
    match d with
    | O => fun x y => (x * y) mod 2 ^ w
    | S d => fun x y =>
      let r := mul_full d (snd x) (snd y) in
      let hi := add d (fst r) (mul d (snd x) (fst y)) in
      let hi := add d hi (mul d (fst x) (snd y)) in
      (hi, snd r)
    end.
  (** 123-146: unsigned_div of a double_int; the division itself is commented out, and the remainder is not written *)
  Definition udiv (d : nat) (a b : dint (S d)) : dint (S d) := of_int (S d) 0.
  (** 148-154: signed_div, the operator / *)
  Definition sdiv (d : nat) (a0 b0 : dint (S d)) : dint (S d) :=
    let a := if is_negative (S d) a0 then neg (S d) a0 else a0 in
    let b := if is_negative (S d) b0 then neg (S d) b0 else b0 in
    let q := udiv d a b in
    if negb (Bool.eqb (is_negative (S d) a0) (is_negative (S d) b0)) then neg (S d) q else q.
End Dint.
