(** Model of include/altruct/algorithm/math/factorization.h over exact integers (moduloX values are modelled by their .v, as in ModPowModel). *)
From Verif Require Import Lib BaseModel ModuloModel ModPowModel.
Open Scope Z_scope.

(** factorization.h 141, 168, 180: while (n % p == 0) n /= p, e++; state (n, e) *)
Definition strip_step (p : Z) (s : Z * Z) : option ((Z * Z) + (Z * Z)) :=
  let '(n, e) := s in
  let* r := cmod n p in
  if r =? 0 then let* n := cdiv n p in Some (inl (n, e + 1)) else Some (inr (n, e)).
Definition strip (n p e : Z) : option (Z * Z) := loopZ (Z.abs n + 1) (strip_step p) (n, e).

(** factorization.h 34-37: at most k squarings of x, stopping at 1 or n - 1 *)
Fixpoint mr_square (k : nat) (n x : Z) : option Z :=
  match k with
  | O => Some x
  | S k => let* x := modulo_mul x x n in if (x =? 1) || (x =? n - 1) then Some x else mr_square k n x
  end.
(** factorization.h 32-38: one base; n - 1 = 2^r * d *)
Definition mr_base (n d r b : Z) : option bool :=
  let* x := modulo_power b d n in
  if (x =? 1) || (x =? n - 1) then Some true else
  let* x := mr_square (Z.to_nat (r - 1)) n x in
  Some (x =? n - 1).
(** factorization.h 31-40: the bases up to the terminating 0 or the first one not below n; reading past the array is undefined *)
Fixpoint mr_bases (n d r : Z) (bases : list Z) : option bool :=
  match bases with
  | [] => None
  | b :: bases => if (b =? 0) || (n <=? b) then Some true else let* t := mr_base n d r b in if t then mr_bases n d r bases else Some false
  end.
(** factorization.h 24-42: miller_rabin with bases *)
Definition miller_rabin_with (n : Z) (bases : list Z) : option bool :=
  if (n =? 0) || (n =? 1) then Some false else
  if (n =? 2) || (n =? 3) then Some true else
  let* t := cmod n 2 in
  if t =? 0 then Some false else
  let* '(d, r) := strip (n - 1) 2 0 in
  mr_bases n d r bases.
(** factorization.h 50-71: miller_rabin *)
Definition mr_choose (n : Z) : list Z :=
  if n <? 2047 then [2; 0] else
  if n <? 9080191 then [31; 73; 0] else
  if n <? 4759123141 then [2; 7; 61; 0] else
  if n <? 1122004669633 then [2; 13; 23; 1662803; 0] else
  if n <? 341550071728321 then [2; 3; 5; 7; 11; 13; 17; 0] else [2; 3; 5; 7; 11; 13; 17; 19; 23; 0].
Definition miller_rabin (n : Z) : option bool := miller_rabin_with n (mr_choose n).

(** factorization.h 98: g *)
Definition rho_next (n a x : Z) : option Z := let* t := modulo_mul x x n in Some (modulo_add t a n).
(** factorization.h 100-104; state (x, y, d, max_inner_iter) *)
Definition rho_step (n a : Z) (s : Z * Z * Z * Z) : option ((Z * Z * Z * Z) + Z) :=
  let '(x, y, d, it) := s in
  if (d =? 1) && (0 <? it) then
    let* x := rho_next n a x in
    let* y := rho_next n a y in
    let* y := rho_next n a y in
    let* d := gcd (Z.abs (modulo_sub x y n)) n in
    Some (inl (x, y, d, it - 1))
  else Some (inr d).
(** factorization.h 93-106: pollard_rho *)
Definition pollard_rho (n k a max_inner_iter : Z) : option Z :=
  if n =? 0 then Some 0 else
  if n =? 1 then Some 1 else
  let* t := cmod n 2 in
  if t =? 0 then Some 2 else
  let* x := modT k n in
  let* d := loopZ (Z.max 0 max_inner_iter + 1) (rho_step n a) (x, x, 1, max_inner_iter) in
  Some (if d =? 1 then n else d).
(** factorization.h 116-122: pollard_rho_repeated; the loop k = 2..max_iter, [j] iterations left *)
Fixpoint rho_repeat (j : nat) (n k max_inner_iter : Z) : option Z :=
  match j with
  | O => Some n
  | S j => let* d := pollard_rho n k k max_inner_iter in if negb (d =? n) then Some d else rho_repeat j n (k + 1) max_inner_iter
  end.
Definition pollard_rho_repeated (n max_iter max_inner_iter : Z) : option Z := rho_repeat (Z.to_nat (max_iter - 1)) n 2 max_inner_iter.

(** factorization.h 140-142: divide every number of the stack by a; the stack is listed from its top (the code goes from the bottom, which changes neither the numbers nor the count) *)
Fixpoint strip_all (q : list Z) (a e : Z) : option (list Z * Z) :=
  match q with
  | [] => Some ([], e)
  | b :: q => let* '(b, e) := strip b a e in let* '(q, e) := strip_all q a e in Some (b :: q, e)
  end.
(** factorization.h 132-156; state (q, vf) *)
Definition factor_step (max_iter : Z) (s : list Z * list (Z * Z)) : option ((list Z * list (Z * Z)) + list (Z * Z)) :=
  let '(q, vf) := s in
  match q with
  | [] => Some (inr vf)
  | a :: q =>
      if a =? 1 then Some (inl (q, vf)) else
      let* pr := miller_rabin a in
      if pr then let* '(q, e) := strip_all q a 1 in Some (inl (q, vf ++ [(a, e)])) else
      let* d := pollard_rho_repeated a max_iter 1000000 in
      if (d =? 1) || (d =? a) then Some (inl (q, vf ++ [(a, 1)])) else
      let* ad := cdiv a d in
      Some (inl (ad :: d :: q, vf))
  end.
(** factorization.h 128-158: factor_integer *)
Definition factor_integer (n max_iter : Z) : option (list (Z * Z)) :=
  if (n =? 0) || (n =? 1) then Some [] else loopZ (n * n + 2) (factor_step max_iter) ([n], []).

(** factorization.h 166-170: trial division; state (n, i, vf) *)
Definition slow_step (s : Z * Z * list (Z * Z)) : option ((Z * Z * list (Z * Z)) + (Z * list (Z * Z))) :=
  let '(n, i, vf) := s in
  let* t := cdiv n i in
  if i <=? t then
    let* r := cmod n i in
    if negb (r =? 0) then Some (inl (n, i + 1, vf)) else
    let* '(n, e) := strip n i 0 in
    Some (inl (n, i + 1, vf ++ [(i, e)]))
  else Some (inr (n, vf)).
(** factorization.h 164-173: factor_integer_slow *)
Definition factor_integer_slow (n : Z) : option (list (Z * Z)) :=
  let* '(n, vf) := loopZ (Z.abs n + 1) slow_step (n, 2, []) in
  Some (if 1 <? n then vf ++ [(n, 1)] else vf).
(** factorization.h 179-182: factor_out; result (n, e) *)
Definition factor_out (n p e : Z) : option (Z * Z) := strip n p e.
(** factorization.h 188-194: from_factorization *)
Fixpoint from_factorization_from (r : Z) (vf : list (Z * Z)) : option Z :=
  match vf with [] => Some r | (p, e) :: vf => let* t := powT Z.mul 1 p e in from_factorization_from (r * t) vf end.
Definition from_factorization (vf : list (Z * Z)) : option Z := from_factorization_from 1 vf.

(** factorization.h 204-213: from_primes_impl; the result lists the calls of the visitor in order. [rec] is the recursive call for psz - 1, the loop state is (n, n_max, e, calls) *)
Definition visits : Type := list (list (Z * Z) * Z).
Definition fp_step (rec : list (Z * Z) -> Z -> Z -> option visits) (vf : list (Z * Z)) (p : Z) (s : Z * Z * Z * visits) : option ((Z * Z * Z * visits) + visits) :=
  let '(n, n_max, e, out) := s in
  let n := n * p in
  let* n_max := cdiv n_max p in
  if 0 <? n_max then
    let* o := rec (vf ++ [(p, e)]) n_max n in
    Some (inl (n, n_max, e + 1, out ++ o))
  else Some (inr out).
Fixpoint from_primes_impl (pa : list Z) (psz : nat) (vf : list (Z * Z)) (n_max n : Z) : option visits :=
  match psz with
  | O => Some [(vf, n)]
  | S psz =>
      let* p := nth_error pa psz in
      let* o := from_primes_impl pa psz vf n_max n in
      loopZ (Z.abs n_max + 1) (fp_step (from_primes_impl pa psz) vf p) (n, n_max, 1, o)
  end.
(** factorization.h 215-218: from_primes *)
Definition from_primes (vp : list Z) (n_max : Z) : option visits := from_primes_impl vp (length vp) [] n_max 1.

(** factorization.h 228-241: fraction_reduce with the caller's gcd; the inner loop for one denominator, state (numerators, d, i) *)
Definition reduce_step (gcd : Z -> Z -> option Z) (s : list Z * Z * nat) : option ((list Z * Z * nat) + (list Z * Z)) :=
  let '(nu, d, i) := s in
  if (1 <? d) && Nat.ltb i (length nu) then
    let* x := nth_error nu i in
    let* g := gcd x d in
    if 1 <? g then
      let* d := cdiv d g in
      let* x := cdiv x g in
      let* nu := set_nth nu i x in
      Some (inl (nu, d, i))
    else Some (inl (nu, d, S i))
  else Some (inr (nu, d)).
Fixpoint fraction_reduce (gcd : Z -> Z -> option Z) (nu de : list Z) : option (list Z * list Z) :=
  match de with
  | [] => Some (nu, [])
  | d :: de =>
      let* '(nu, d) := loopZ (Z.abs d + Z.of_nat (length nu) + 1) (reduce_step gcd) (nu, d, O) in
      let* '(nu, de) := fraction_reduce gcd nu de in
      Some (nu, d :: de)
  end.
