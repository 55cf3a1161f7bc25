(** algorithm/math/prime_counting.h. Arguments are naturals except where a negative one is handled; integers are unbounded.
    [root n] stands for sqrtT(n) (C05); [spow i] for sum_pow(z, i, id) (C72); el, [], lo and hi are those of sqrt_map (C34). *)
From Verif Require Import Lib BaseModel LohiModel RingSpec.
Open Scope nat_scope.

Section Model.
Context {T : Type} (zero one : T) (add mul sub : T -> T -> T) (eqb : T -> T -> bool).
Variable root : nat -> option nat.
Variable mk0 : nat.
Notation sqm := (@sqm T).

(** sqrt_map.h: lo and hi as values and as references 70-89 *)
Definition sqm_lo (s : sqm) (k : nat) : option T := nth_error (stl s) k.
Definition sqm_hi (s : sqm) (k : nat) : option T := nth_error (sth s) k.
Definition sqm_lo_set (s : sqm) (k : nat) (v : T) : option sqm := let* t := set_nth (stl s) k v in Some (put_tl s t).
Definition sqm_hi_set (s : sqm) (k : nat) (v : T) : option sqm := let* t := set_nth (sth s) k v in Some (put_th s t).

(** prime_counting.h 26-32: the sums of all powers *)
Definition pps_init (spow : nat -> option T) (n q : nat) (s : sqm) : option sqm :=
  let* s := for_range 1 q (fun i s => let* t := spow i in sqm_put s i (sub t one)) s in
  for_down 1 (n / q + 1) (fun k s => let i := n / k in let* t := spow i in sqm_put s i (sub t one)) s.
(** prime_counting.h 34-47: the body of the loop over p *)
Definition pps_round (z : nat) (n q p : nat) (s : sqm) : option sqm :=
  let* '(a, s) := sqm_index s (p - 1) in let* '(b, s) := sqm_index s p in
  if eqb a b then Some s else
  let* '(t, s) := sqm_index s (p - 1) in
  let p2 := p * p in
  let k_max := Nat.min (n / q) (n / p2) in
  let* pz := powT mul one (rnat zero one add p) (Z.of_nat z) in
  let* s := for_range 1 (k_max + 1) (fun k s =>
    let j := n / (k * p) in
    let* x := sqm_el s j in let* y := sqm_hi s k in sqm_hi_set s k (sub y (mul (sub x t) pz))) s in
  for_down p2 q (fun i s =>
    let* x := sqm_lo s (i / p) in let* y := sqm_lo s i in sqm_lo_set s i (sub y (mul (sub x t) pz))) s.
(** prime_counting.h: prime_power_sum_sqrt 18-50; the division in the constructor is undefined for q = 1 *)
Definition prime_power_sum_sqrt (z : nat) (spow : nat -> option T) (n : nat) : option sqm :=
  let* r := root n in let q := r + 1 in
  let* s := sqm_new zero (q - 1) n mk0 in
  let* s := pps_init spow n q s in
  for_range 2 q (fun p s => pps_round z n q p s) s.
End Model.

(** prime_counting.h: prime_sum_sqrt 62-65, prime_sum 70-73, prime_pi_sqrt 83-86, prime_pi 91-94, over exact integers *)
Section Exact.
Variable root : nat -> option nat.
Variable mk0 : nat.
Open Scope Z_scope.
Definition z_power_sum_sqrt (z : nat) (spow : nat -> option Z) (n : nat) : option (@sqm Z) :=
  prime_power_sum_sqrt 0 1 Z.add Z.mul Z.sub Z.eqb root mk0 z spow n.
Definition prime_sum_sqrt (spow1 : nat -> option Z) (n : nat) : option (@sqm Z) := z_power_sum_sqrt 1 spow1 n.
Definition prime_sum (spow1 : nat -> option Z) (n : Z) : option Z :=
  if n <? 1 then Some 0 else let* s := prime_sum_sqrt spow1 (Z.to_nat n) in let* '(v, _) := sqm_index s (Z.to_nat n) in Some v.
Definition prime_pi_sqrt (spow0 : nat -> option Z) (n : nat) : option (@sqm Z) := z_power_sum_sqrt 0 spow0 n.
Definition prime_pi (spow0 : nat -> option Z) (n : Z) : option Z :=
  if n <? 1 then Some 0 else let* s := prime_pi_sqrt spow0 (Z.to_nat n) in let* '(v, _) := sqm_index s (Z.to_nat n) in Some v.

(** prime_counting.h: prime_pi13_sqrt 107-134 *)
Definition two := (@sqm Z * @sqm Z)%type.
(** res[i][k] as a value, res[i][k] = v, res[i][k] -= v *)
Definition at2 (s : two) (i : bool) : @sqm Z := if i then snd s else fst s.
Definition with2 (s : two) (i : bool) (m : @sqm Z) : two := if i then (fst s, m) else (m, snd s).
Definition read2 (s : two) (i : bool) (k : nat) : option (Z * two) := let* '(v, m) := sqm_index (at2 s i) k in Some (v, with2 s i m).
Definition put2 (s : two) (i : bool) (k : nat) (v : Z) : option two := let* m := sqm_put (at2 s i) k v in Some (with2 s i m).
Definition keys13 (n q : nat) : list nat := map (fun i => n / i)%nat (seq 1 q) ++ rev (seq 1 (n / q - 1)).
(** prime_counting.h 118-121 *)
Fixpoint init13 (ks : list nat) (s : two) : option two :=
  match ks with
  | [] => Some s
  | k :: ks => let* s := put2 s false k (Z.quot (Z.of_nat k - 1) 4) in let* s := put2 s true k (Z.quot (Z.of_nat k + 1) 4) in init13 ks s
  end.
(** prime_counting.h 127-131 *)
Fixpoint sweep13 (p p2 : nat) (s0 s1 : Z) (ks : list nat) (s : two) : option two :=
  match ks with
  | [] => Some s
  | k :: ks =>
      if (k <? p2)%nat then Some s else
      let* '(x, s) := read2 s false (k / p)%nat in let* '(y, s) := read2 s (p mod 4 =? 3)%nat k in let* s := put2 s (p mod 4 =? 3)%nat k (y - (x - s0)) in
      let* '(x, s) := read2 s true (k / p)%nat in let* '(y, s) := read2 s (p mod 4 =? 1)%nat k in let* s := put2 s (p mod 4 =? 1)%nat k (y - (x - s1)) in
      sweep13 p p2 s0 s1 ks s
  end.
(** prime_counting.h 122-132; && does not read res[1][p] when the first comparison fails, which only matters for the presence flags *)
Definition round13 (n q : nat) (ks : list nat) (p : nat) (s : two) : option two :=
  let* '(s0, s) := read2 s false (p - 1)%nat in let* '(s1, s) := read2 s true (p - 1)%nat in
  let* '(a, s) := read2 s false p in
  if s0 =? a then
    let* '(b, s) := read2 s true p in if s1 =? b then Some s else sweep13 p (p * p)%nat s0 s1 ks s
  else sweep13 p (p * p)%nat s0 s1 ks s.
Definition prime_pi13_sqrt (n : nat) : option two :=
  let* r := root n in let q := (r + 1)%nat in
  let* a := sqm_new 0 q n mk0 in let* b := sqm_new 0 q n mk0 in
  if (n <=? 1)%nat then Some (a, b) else
  let ks := keys13 n q in
  let* s := init13 ks (a, b) in
  for_range 2 q (fun p s => round13 n q ks p s) s.
(** prime_counting.h: prime_pi1 139-142, prime_pi3 147-150 *)
Definition prime_pi1 (n : Z) : option Z :=
  if n <? 1 then Some 0 else let* s := prime_pi13_sqrt (Z.to_nat n) in let* '(v, _) := read2 s false (Z.to_nat n) in Some v.
Definition prime_pi3 (n : Z) : option Z :=
  if n <? 1 then Some 0 else let* s := prime_pi13_sqrt (Z.to_nat n) in let* '(v, _) := read2 s true (Z.to_nat n) in Some v.
End Exact.
