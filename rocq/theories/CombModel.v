(** Model of include/altruct/algorithm/random/random.h (integer part), include/altruct/algorithm/math/comb_primes.h,
    next_partition and nth_permutation of include/altruct/algorithm/math/combinatorics.h and the digit functions of
    include/altruct/algorithm/math/primes.h. *)
From Verif Require Import Lib BaseModel.
Local Open Scope Z_scope.

(* ------------------------------------------------------------------ random.h; words of L bits, U = V unsigned *)
(** random.h:27-31 integer_to_range *)
Definition integer_to_range (L val min max : Z) : Z :=
  let width := (max - min + 1) mod 2 ^ L in
  if width =? 0 then val else (min + val mod width) mod 2 ^ L.
(** random.h:36-39 neg *)
Definition neg (L val : Z) : Z := (0 - val) mod 2 ^ L.
(** random.h:47-51 biggest_multiple *)
Definition biggest_multiple (L width : Z) : Z := if width =? 0 then 0 else neg L (neg L width mod width).
(** random.h:72-81 uniform_next; [next] is any generator with a state; [more] counts the iterations still allowed *)
Fixpoint uniform_next_loop {S} (next : S -> Z * S) (more : nat) (multiple : Z) (st : S) : Z * S :=
  let '(val, st) := next st in
  match more with
  | O => (val, st)
  | Datatypes.S more => if negb (multiple =? 0) && (multiple <=? val) then uniform_next_loop next more multiple st else (val, st)
  end.
Definition uniform_next {S} (L : Z) (next : S -> Z * S) (min max : Z) (st : S) : Z * S :=
  let multiple := biggest_multiple L ((max - min + 1) mod 2 ^ L) in
  let '(val, st) := uniform_next_loop next 19 multiple st in
  (integer_to_range L val min max, st).

(* ------------------------------------------------------------------ comb_primes.h *)
(** comb_primes.h:13-18 factorial_prime_exponent *)
Definition factorial_prime_exponent_step (p : Z) (st : Z * Z) : option ((Z * Z) + Z) :=
  let '(n, e) := st in
  let* n := cdiv n p in
  if 0 <? n then Some (inl (n, e + n)) else Some (inr e).
Definition factorial_prime_exponent (n p : Z) : option Z := loopZ (Z.abs n + 2) (factorial_prime_exponent_step p) (n, 0).
(** comb_primes.h:23-26 binomial_prime_exponent *)
Definition binomial_prime_exponent (n k p : Z) : option Z :=
  let* a := factorial_prime_exponent n p in
  let* b := factorial_prime_exponent (n - k) p in
  let* c := factorial_prime_exponent k p in
  Some (a - b - c).
(** comb_primes.h:31-40 multinomial_prime_exponent *)
Fixpoint multinomial_prime_exponent_loop (ks : list Z) (p e n : Z) : option Z :=
  match ks with
  | [] => let* f := factorial_prime_exponent n p in Some (f - e)
  | k :: ks => let* f := factorial_prime_exponent k p in multinomial_prime_exponent_loop ks p (e + f) (n + k)
  end.
Definition multinomial_prime_exponent (ks : list Z) (p : Z) : option Z := multinomial_prime_exponent_loop ks p 0 0.
(** comb_primes.h:55-67 multinomial over exact integers; the inner loop runs for i = 1 .. k *)
Fixpoint multinomial_inner (k : nat) (num n den d : Z) : Z * Z * Z :=
  match k with
  | O => (num, n, den)
  | S k => let n := n + 1 in let d := d + 1 in multinomial_inner k (num * n) n (den * d) d
  end.
Fixpoint multinomial_loop (ks : list Z) (num n den : Z) : option Z :=
  match ks with
  | [] => cdiv num den
  | k :: ks => let '(num, n, den) := multinomial_inner (Z.to_nat k) num n den 0 in multinomial_loop ks num n den
  end.
Definition multinomial (ks : list Z) : option Z := multinomial_loop ks 1 0 1.

(* ------------------------------------------------------------------ primes.h digits *)
(** primes.h:376-386 integer_digits *)
Definition integer_digits_step (b : Z) (st : Z * list Z) : option ((Z * list Z) + list Z) :=
  let '(t, vd) := st in
  if 0 <? t then let* d := cmod t b in let* t := cdiv t b in Some (inl (t, vd ++ [d])) else Some (inr vd).
Definition integer_digits (n b : Z) (len : nat) : option (list Z) :=
  let* vd := loopZ (Z.abs n + 1) (integer_digits_step b) (n, []) in
  Some (vd ++ repeat 0 (len - length vd)).
(** primes.h:395-402 from_digits *)
Definition from_digits (vd : list Z) (b : Z) : Z := fold_left (fun n d => n * b + d) (rev vd) 0.
(** primes.h:409-416 integer_string: character codes; reading past the table is undefined (its terminating NUL at 36 is in bounds) *)
Definition digit_chars : list Z :=
  [48; 49; 50; 51; 52; 53; 54; 55; 56; 57; 97; 98; 99; 100; 101; 102; 103; 104; 105; 106; 107; 108; 109; 110; 111; 112; 113;
   114; 115; 116; 117; 118; 119; 120; 121; 122; 0].
Fixpoint integer_string_loop (ds : list Z) (s : list Z) : option (list Z) :=
  match ds with
  | [] => Some s
  | d :: ds => let* _ := guard (0 <=? d) in let* c := nth_error digit_chars (Z.to_nat d) in integer_string_loop ds (s ++ [c])
  end.
Definition integer_string (ds : list Z) : option (list Z) := integer_string_loop (rev ds) [].

(* ------------------------------------------------------------------ combinatorics.h *)
(** combinatorics.h:46-48: for (; x > xm; x -= xm) *it++ = xm;  *it++ = x; [fuel] = number of elements *)
Fixpoint fill_partition (fuel : nat) (v : list Z) (it : nat) (xm x : Z) : option (list Z) :=
  if xm <? x then
    match fuel with
    | O => None
    | S fuel => let* v := set_nth v it xm in fill_partition fuel v (S it) xm (x - xm)
    end
  else set_nth v it x.
(** combinatorics.h:38-55 next_partition; [k] elements are still to be visited, l and x as in the code *)
Fixpoint next_partition_loop (k : nat) (v : list Z) (l x : Z) : option (list Z * bool) :=
  match k with
  | O => let* v := set_nth v 0 x in Some (v, false)
  | S it =>
      let l := l + 1 in
      let* e := nth_error v it in
      let x := x + e in
      let xm := e - 1 in
      if (0 <? xm) && (Z.quot (x - 1) xm <=? l - 1) then
        let* v := fill_partition (length v) v it xm x in Some (v, true)
      else
        let* v := set_nth v it 0 in next_partition_loop it v l x
  end.
Definition next_partition (v : list Z) : option (list Z * bool) := next_partition_loop (length v) v 0 0.

Section Perm.
  Context {A : Type}.
  (** std::swap *)
  Definition aswap (v : list A) (i j : nat) : option (list A) :=
    let* x := nth_error v i in let* y := nth_error v j in
    let* v := set_nth v i y in set_nth v j x.
  (** combinatorics.h:71-73: for (k = o / f; k > 0; k--) swap( *(it + k), *(it + k - 1)) *)
  Fixpoint swap_down (k : nat) (v : list A) (it : nat) : option (list A) :=
    match k with O => Some v | S k' => let* v := aswap v (it + k) (it + k') in swap_down k' v it end.
  (** combinatorics.h:66: while (i < d && f <= o) f *= ++i *)
  Fixpoint np_up (fuel : nat) (d i f o : Z) : Z * Z :=
    match fuel with
    | O => (i, f)
    | S fuel => if (i <? d) && (f <=? o) then np_up fuel d (i + 1) (f * (i + 1)) o else (i, f)
    end.
  (** combinatorics.h:69: while (i > 1 && f > o) f /= i-- *)
  Fixpoint np_down (fuel : nat) (i f o : Z) : Z * Z :=
    match fuel with
    | O => (i, f)
    | S fuel => if (1 <? i) && (o <? f) then np_down fuel (i - 1) (Z.quot f i) o else (i, f)
    end.
  (** combinatorics.h:67-74 outer loop *)
  Fixpoint np_outer (fuel : nat) (v : list A) (i f o : Z) : option (list A) :=
    if 1 <? i then
      match fuel with
      | O => None
      | S fuel =>
          let* o := cmod o f in
          let '(i, f) := np_down (Z.to_nat i) i f o in
          let it := Z.of_nat (length v) - i - 1 in
          let* _ := guard (0 <=? it) in
          let* k := cdiv o f in
          let* v := swap_down (Z.to_nat k) v (Z.to_nat it) in
          np_outer fuel v i f o
      end
    else Some v.
  (** combinatorics.h:63-75 nth_permutation *)
  Definition nth_permutation (v : list A) (o : Z) : option (list A) :=
    let d := Z.of_nat (length v) in
    let '(i, f) := np_up (length v) d 0 1 o in
    np_outer (length v) v i f o.
End Perm.
