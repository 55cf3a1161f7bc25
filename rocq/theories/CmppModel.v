(** Model of algorithm/math/comb_mod_pp.h: factorials and binomials modulo prime powers. The types R, I and int are exact integers (no
    overflow); moduloX<R> is the pair of a representative and the modulus m of the call, with modulo_mul, modulo_div, modulo_neg and
    modulo_normalize of modulo.h on them. A factor of another modulus, as in `r *= castOf<R>(i)`, is used as it is (modulo.h:191-196). *)
From Verif Require Import Lib BaseModel ModuloModel FactorModel.
Open Scope Z_scope.

(** powT(castOf<R>(p), e) *)
Definition pow_pe (p e : Z) : option Z := powT Z.mul 1 p e.
(** modulo_neg *)
Definition mneg (v m : Z) : Z := if v =? 0 then v else m - v.
(** comb_mod_pp.h, lines 34 and 56: if (i % p != 0) r *= castOf<R>(i) *)
Definition skip_step (p m : Z) (i : nat) (r : Z) : option Z :=
  let* t := cmod (Z.of_nat i) p in
  if negb (t =? 0) then modulo_mul r (Z.of_nat i) m else Some r.
(** 29-38: factorials_mod_pp_skipped; the vector of n + 1 elements is filled in order *)
Definition factorials_mod_pp_skipped (n : nat) (p e : Z) : option (list Z) :=
  let* m := pow_pe p e in
  let* r := mod_normalize_u 1 m in
  let* '(r, tbl) := for_range 0 (S n) (fun i '(r, tbl) => let* r := skip_step p m i r in Some (r, tbl ++ [r])) (r, []) in
  Some tbl.
(** 52-59: factorial_mod_pp_skipped_slow *)
Definition factorial_mod_pp_skipped_slow (n p e : Z) : option (Z * Z) :=
  let* m := pow_pe p e in
  let* r := mod_normalize_u 1 m in
  let* r := for_range 1 (S (Z.to_nat n)) (skip_step p m) r in
  let* u := cdiv n p in
  Some (r, u).
(** 75-83: factorial_mod_pp_reduced_slow *)
Definition factorial_mod_pp_reduced_slow (n p e : Z) : option (Z * Z) :=
  let* m := pow_pe p e in
  let* r := mod_normalize_u 1 m in
  for_range 1 (S (Z.to_nat n)) (fun i '(r, a) =>
    let* '(i', a) := factor_out (Z.of_nat i) p a in
    let* r := modulo_mul r i' m in
    Some (r, a)) (r, 0).
(** 99-111: binomial_mod_pp_reduced_slow; state (r, s, ar, as, n) *)
Definition binomial_mod_pp_reduced_slow (n k p e : Z) : option (Z * Z) :=
  let k := Z.min k (n - k) in
  let* m := pow_pe p e in
  let* r := mod_normalize_u 1 m in
  let* '(r, s, ar, as_, n) := for_range 1 (S (Z.to_nat k)) (fun i '(r, s, ar, as_, n) =>
    let* '(n', ar) := factor_out n p ar in
    let* r := modulo_mul r n' m in
    let* '(i', as_) := factor_out (Z.of_nat i) p as_ in
    let* s := modulo_mul s i' m in
    Some (r, s, ar, as_, n - 1)) (r, r, 0, 0, n) in
  let* r := modulo_div r s m in
  Some (r, ar - as_).
(** 140-145: the loop of factorial_mod_pp_reduced_2_modx; state (n, f, a) *)
Definition reduced_2_step (p pe : Z) (sign : bool) (tbl : list Z) (st : Z * Z * Z) : option ((Z * Z * Z) + (Z * Z)) :=
  let '(n, f, a) := st in
  if 1 <? n then
    let* q := cdiv n pe in
    let* r := cmod n pe in
    let* q2 := cmod q 2 in
    let f := if sign && negb (q2 =? 0) then mneg f pe else f in
    let* t := nth_error tbl (Z.to_nat r) in
    let* f := modulo_mul f t pe in
    let* n := cdiv n p in
    Some (inl (n, f, a + n))
  else Some (inr (f, a)).
(** 133-147 and 148-152: factorial_mod_pp_reduced_2_modx, factorial_mod_pp_reduced_2; [tbl] is what fact_table points to *)
Definition factorial_mod_pp_reduced_2 (n p e : Z) (tbl : list Z) : option (Z * Z) :=
  let* pe := pow_pe p e in
  let sign := negb ((p =? 2) && negb (e =? 2)) in
  let* f := nth_error tbl 0 in
  let* f := mod_normalize_u f pe in
  loopZ (Z.abs n + 1) (reduced_2_step p pe sign tbl) (n, f, 0).
(** 175-183: binomial_mod_pp_reduced_2 *)
Definition binomial_mod_pp_reduced_2 (n k p e : Z) (tbl : list Z) : option (Z * Z) :=
  let* pe := pow_pe p e in
  let* '(fn, an) := factorial_mod_pp_reduced_2 n p e tbl in
  let* '(fk, ak) := factorial_mod_pp_reduced_2 k p e tbl in
  let* '(fl, al) := factorial_mod_pp_reduced_2 (n - k) p e tbl in
  let* d := modulo_mul fk fl pe in
  let* b := modulo_div fn d pe in
  Some (b, an - (ak + al)).

(** 209-215: gcd_f, a look-up in the table of gcd(i, j) for 0 <= i, j <= e *)
Definition gcd_f (e x d : Z) : option Z :=
  let* r := cmod x d in
  let* _ := guard ((0 <=? r) && (r <=? e) && (0 <=? d) && (d <=? e)) in
  gcd r d.
(** 222-236 and 241-258: one coefficient; [sg] says whether the sign was changed, nu and de are the numerators and denominators *)
Definition coefficient (e me : Z) (sg : bool) (nu de : list Z) : option Z :=
  let* c := mod_normalize_u 1 me in
  let c := if sg then mneg c me else c in
  let* '(nu, _) := fraction_reduce (gcd_f e) nu de in
  fold_left (fun c x => let* c := c in let* t := cmod x me in modulo_mul c t me) nu (Some c).
(** 225-230: the loop over i for alpha_j; state (sign, numerators, denominators) *)
Definition alpha_step (u : Z) (j i : nat) (st : bool * list Z * list Z) : option (bool * list Z * list Z) :=
  let '(sg, nu, de) := st in
  if (i =? j)%nat then Some st else
  Some (xorb sg (j <? i)%nat, nu ++ [u - Z.of_nat i], de ++ [Z.abs (Z.of_nat j - Z.of_nat i)]).
Definition alpha (u e me : Z) (j : nat) : option Z :=
  let* '(sg, nu, de) := for_range 0 (Z.to_nat e) (alpha_step u j) (false, [], []) in
  coefficient e me sg nu de.
(** 244-252: the loop over i for beta_j *)
Definition beta_step (u : Z) (j i : nat) (st : bool * list Z * list Z) : option (bool * list Z * list Z) :=
  let '(sg, nu, de) := st in
  if (i =? j)%nat then Some st else
  let sg := xorb sg (j <? i)%nat in
  let nu := nu ++ [u - Z.of_nat i] in
  let de := de ++ [Z.abs (Z.of_nat j - Z.of_nat i)] in
  if (i =? 0)%nat then Some (sg, nu, de) else
  Some (sg, nu ++ [u + Z.of_nat i], de ++ [Z.of_nat j + Z.of_nat i]).
Definition beta (u e me : Z) (r j : nat) : option Z :=
  let* '(sg, nu, de) := for_range 0 (S r) (beta_step u j) (false, [], []) in
  coefficient e me sg nu de.
(** modulo_power (structure/math/modulo.h, 282-285): powT over moduloX *)
Definition mod_power (x y m : Z) : option Z :=
  let* x := mod_normalize_u x m in
  let* one := mod_normalize_u 1 m in
  powT (fun a b => match modulo_mul a b m with Some r => r | None => 0 end) one x y.
(** 200-279: factorial_mod_pp_skipped. The coefficients are pure, so they are computed where they are used. *)
Definition factorial_mod_pp_skipped (n p e : Z) (tbl : list Z) : option (Z * Z) :=
  let* m := pow_pe p e in
  let* mp := cdiv m p in
  let me := mp * (p - 1) in
  let* u := cdiv n p in
  let* v := cmod n p in
  let r := Z.to_nat (Z.quot (e + 1) 2) in
  if n <=? p * e then
    let* t := nth_error tbl (Z.to_nat n) in
    let* f := cmod t m in
    Some (f, u)
  else
  let* one := mod_normalize_u 1 m in
  let* f := for_range 1 (S r) (fun j f =>
    let* t := nth_error tbl (j * Z.to_nat p)%nat in
    let* b := beta u e me r j in
    let* w := mod_power t b m in
    modulo_mul f w m) one in
  let f := if (p =? 2) && negb (Z.rem f 4 =? Z.rem (Z.lor u 1) 4) then mneg f m else f in
  let* t := nth_error tbl (Z.to_nat v) in
  let* tv := mod_normalize_u t m in
  let* f := modulo_mul f tv m in
  let* f := for_range 1 (Z.to_nat e) (fun j f =>
    let* t := nth_error tbl (j * Z.to_nat p + Z.to_nat v)%nat in
    let* num := mod_normalize_u t m in
    let* t := nth_error tbl (j * Z.to_nat p)%nat in
    let* d1 := mod_normalize_u t m in
    let* d := modulo_mul d1 tv m in
    let* b := modulo_div num d m in
    let* a := alpha u e me j in
    let* w := mod_power b a m in
    modulo_mul f w m) f in
  Some (f, u).
(** 297-305: factorial_mod_pp_reduced; state (n, r, a) *)
Definition reduced_step (p e m : Z) (tbl : list Z) (st : Z * Z * Z) : option ((Z * Z * Z) + (Z * Z)) :=
  let '(n, r, a) := st in
  if 1 <? n then
    let* '(f, _) := factorial_mod_pp_skipped n p e tbl in
    let* r := modulo_mul r f m in
    let* n := cdiv n p in
    Some (inl (n, r, a + n))
  else Some (inr (r, a)).
Definition factorial_mod_pp_reduced (n p e : Z) (tbl : list Z) : option (Z * Z) :=
  let* m := pow_pe p e in
  let* r := mod_normalize_u 1 m in
  loopZ (Z.abs n + 1) (reduced_step p e m tbl) (n, r, 0).
(** 336-338: one line `if (x > 0) acc *= factorial_mod_pp_skipped(x % m).first, x /= p`; result (x, acc) *)
Definition take_factorial (p e m : Z) (tbl : list Z) (x acc : Z) : option (Z * Z) :=
  if 0 <? x then
    let* xm := cmod x m in
    let* '(f, _) := factorial_mod_pp_skipped xm p e tbl in
    let* acc := modulo_mul acc f m in
    let* x := cdiv x p in
    Some (x, acc)
  else Some (x, acc).
(** 331-339: the loop of binomial_mod_pp_reduced; state (i, n, k, l, r, s, a) *)
Definition binomial_step (p e m : Z) (sign : bool) (tbl : list Z) (st : Z * Z * Z * Z * Z * Z * Z) : option ((Z * Z * Z * Z * Z * Z * Z) + (Z * Z * Z)) :=
  let '(i, n, k, l, r, s, a) := st in
  if 1 <? n then
    let* np := cmod n p in
    let* kp := cmod k p in
    let* lp := cmod l p in
    let r := if sign && (e - 1 <=? i) && (np <? kp + lp) then mneg r m else r in
    let* '(n', r) := take_factorial p e m tbl n r in
    let a := if 0 <? n then a + n' else a in
    let* '(k', s) := take_factorial p e m tbl k s in
    let a := if 0 <? k then a - k' else a in
    let* '(l', s) := take_factorial p e m tbl l s in
    let a := if 0 <? l then a - l' else a in
    Some (inl (i + 1, n', k', l', r, s, a))
  else Some (inr (r, s, a)).
(** 324-342: binomial_mod_pp_reduced *)
Definition binomial_mod_pp_reduced (n k p e : Z) (tbl : list Z) : option (Z * Z) :=
  let l := n - k in
  let* m := pow_pe p e in
  let* r := mod_normalize_u 1 m in
  let sign := negb ((p =? 2) && negb (e =? 2)) in
  let* '(r, s, a) := loopZ (Z.abs n + 1) (binomial_step p e m sign tbl) (0, n, k, l, r, r, 0) in
  let* r := modulo_div r s m in
  Some (r, a).
