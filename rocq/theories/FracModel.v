(** Model of include/altruct/structure/math/fraction.h, include/altruct/algorithm/math/fractions.h and of
    continued_fraction and convergents in include/altruct/algorithm/math/convergents.h, over exact integers. *)
From Verif Require Import Lib BaseModel ModuloModel ModPowModel.
Local Open Scope Z_scope.

(** fraction.h:8-11 fraction<T> with T = exact integers: (p, q) *)
Definition frac : Type := Z * Z.
(** fraction.h:14-19 reduce *)
Definition frac_reduce (f : frac) : option frac :=
  let '(p, q) := f in
  let* g0 := gcd p q in
  let g := absT g0 in
  let* '(p, q) := (if g =? 1 then Some (p, q) else let* p := cdiv p g in let* q := cdiv q g in Some (p, q)) in
  Some (if q <? 0 then (- p, - q) else (p, q)).
(** fraction.h:11-12 constructors *)
Definition frac_of (p : Z) : frac := (p, 1).
Definition mkfrac (p q : Z) : option frac := frac_reduce (p, q).
(** fraction.h:22 cmp and 24-29 comparison operators *)
Definition frac_cmp (x y : frac) : Z := fst x * snd y - fst y * snd x.
Definition frac_eqb (x y : frac) : bool := (fst x =? fst y) && (snd x =? snd y).
Definition frac_neb (x y : frac) : bool := negb (fst x =? fst y) || negb (snd x =? snd y).
Definition frac_ltb (x y : frac) : bool := frac_cmp x y <? 0.
Definition frac_leb (x y : frac) : bool := frac_cmp x y <=? 0.
Definition frac_gtb (x y : frac) : bool := 0 <? frac_cmp x y.
Definition frac_geb (x y : frac) : bool := 0 <=? frac_cmp x y.
(** fraction.h:31-35 compound assignments; [y] may alias [x] *)
Definition frac_add_eq (x y : frac) : option frac := frac_reduce (fst x * snd y + fst y * snd x, snd x * snd y).
Definition frac_sub_eq (x y : frac) : option frac := frac_reduce (fst x * snd y - fst y * snd x, snd x * snd y).
Definition frac_mul_eq (x y : frac) : option frac := frac_reduce (fst x * fst y, snd x * snd y).
Definition frac_div_eq (x y : frac) : option frac := frac_reduce (fst x * snd y, snd x * fst y).
Definition frac_mod_eq (x y : frac) : option frac := Some (0, 1).
(** fraction.h:37-42 operators *)
Definition frac_add (x y : frac) : option frac := mkfrac (fst x * snd y + fst y * snd x) (snd x * snd y).
Definition frac_sub (x y : frac) : option frac := mkfrac (fst x * snd y - fst y * snd x) (snd x * snd y).
Definition frac_neg (x : frac) : option frac := mkfrac (- fst x) (snd x).
Definition frac_mul (x y : frac) : option frac := mkfrac (fst x * fst y) (snd x * snd y).
Definition frac_div (x y : frac) : option frac := mkfrac (fst x * snd y) (snd x * fst y).
Definition frac_mod (x y : frac) : option frac := Some (frac_of 0).
(** fraction.h:44 reciprocal *)
Definition frac_reciprocal (x : frac) : option frac := mkfrac (snd x) (fst x).

(** fractions.h:20-29 farey_neighbour *)
Definition farey_neighbour (n : Z) (f_prev f : frac) : option frac :=
  let* '(p, q) := (if snd f_prev =? 0 then
                     let* '(_, x, y, _) := gcd_ex (snd f) (fst f) in
                     Some (if fst f_prev <? 0 then (- x, y) else (x, - y))
                   else Some f_prev) in
  let* k := cdiv (n + q) (snd f) in
  mkfrac (k * fst f - p) (k * snd f - q).

(** fractions.h:36-54 repeating_decimal; state (p, digits, pos, positions); the unordered_map is an association list *)
Definition map_find (m : list (Z * nat)) (k : Z) : option nat :=
  match find (fun '(x, _) => x =? k) m with Some (_, v) => Some v | None => None end.
Definition repeating_decimal_step (b q : Z) (st : Z * list Z * nat * list (Z * nat)) : option ((Z * list Z * nat * list (Z * nat)) + (list Z * nat)) :=
  let '(p, digits, pos, positions) := st in
  match map_find positions p with
  | Some i => Some (inr (digits, (pos - i)%nat))
  | None =>
      let positions := (p, pos) :: positions in
      let bp := b * p in
      let* d := cdiv bp q in
      let digits := digits ++ [d] in
      let p := bp - d * q in
      if p =? 0 then Some (inr (digits, O))
      else Some (inl (p, digits, S pos, positions))
  end.
Definition repeating_decimal (b p q : Z) : option (list Z * nat) :=
  loopZ (q + 1) (repeating_decimal_step b q) (p, [], O, []).

(** fractions.h:60-66 rational_digit; moduloX<I> arithmetic as in ModPowModel; result (digit, new p) *)
Definition rational_digit (n b p q : Z) : option (Z * Z) :=
  let* w := modulo_power b n q in
  let* pm := modT p q in
  let* p' := mmul q (Some w) (Some pm) in
  let* d := cdiv (p' * b) q in
  Some (d, p').
(** fractions.h:72-82 rational_digits *)
Fixpoint rational_digits_loop (len : nat) (b p q : Z) (digits : list Z) : option (list Z) :=
  match len with
  | O => Some digits
  | S len => let* '(d, p) := rational_digit 1 b p q in rational_digits_loop len b p q (digits ++ [d])
  end.
Definition rational_digits (n : Z) (len : nat) (b p q : Z) : option (list Z) :=
  match len with
  | O => Some []
  | S len => let* '(d, p) := rational_digit n b p q in rational_digits_loop len b p q [d]
  end.

(** convergents.h:45-53 continued_fraction *)
Definition continued_fraction_step (st : Z * Z * list Z) : option ((Z * Z * list Z) + list Z) :=
  let '(p, q, va) := st in
  if q =? 0 then Some (inr va)
  else let* a := cdiv p q in let* r := cmod p q in Some (inl (q, r, va ++ [a])).
Definition continued_fraction (p q : Z) : option (list Z) := loopZ (Z.abs q + 1) continued_fraction_step (p, q, []).

(** convergents.h:62-83 convergents; the inner loop runs for a = a0 .. a_i *)
Fixpoint convergents_inner (n : nat) (a p1 p2 q1 q2 : Z) (pq : Z * Z) (vpq : list (Z * Z)) : (Z * Z) * list (Z * Z) :=
  match n with
  | O => (pq, vpq)
  | S n => let pq := (a * p1 + p2, a * q1 + q2) in convergents_inner n (a + 1) p1 p2 q1 q2 pq (vpq ++ [pq])
  end.
Fixpoint convergents_loop (semi : Z) (va : list Z) (p2 p1 p q2 q1 q : Z) (vpq : list (Z * Z)) : list (Z * Z) :=
  match va with
  | [] => vpq
  | ai :: va =>
      let a0 := ai - Z.min semi (Z.quot ai 2) in
      let '((p, q), vpq) := convergents_inner (Z.to_nat (ai - a0 + 1)) a0 p1 p2 q1 q2 (p, q) vpq in
      convergents_loop semi va p1 p p q1 q q vpq
  end.
Definition convergents (va : list Z) (semi : Z) : list (Z * Z) := convergents_loop semi va 0 1 0 1 0 1 [].
