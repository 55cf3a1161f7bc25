(** Model of structure/math/polynom.h.

    Coefficients are any type T with the operations below (in C++ the template argument).  [tdiv] is T's [/],
    undefined ([None]) where the C++ operator is.  [ZERO_COEFF] is the constant [zero] (Simplification: the
    run-time modulus some element types carry in ZERO_COEFF is part of T here).  [int] indices are unbounded Z. *)
From Verif Require Import Lib.
Open Scope Z_scope.

Section Poly.
  Context {T : Type}.
  Variables (zero one : T) (tadd tsub tmul : T -> T -> T) (topp : T -> T) (tdiv : T -> T -> option T).
  Variable teqb : T -> T -> bool.

  (** *** raw coefficient memory.  All vectors involved in a multiplication live in one array [h]; a [T*] is an
      offset into it.  Reading or writing outside is undefined behaviour ([None]). *)
  Definition hget (h : list T) (z : Z) : option T := if z <? 0 then None else nth_error h (Z.to_nat z).
  Definition hset (h : list T) (z : Z) (x : T) : option (list T) := if z <? 0 then None else set_nth h (Z.to_nat z) x.
  (** [for (int i = a; i <= b; i++)] / [for (int i = a; i >= b; i--)] *)
  Fixpoint zup_n {S} (n : nat) (i : Z) (body : Z -> S -> option S) (s : S) : option S :=
    match n with O => Some s | Datatypes.S n' => let* s' := body i s in zup_n n' (i + 1) body s' end.
  Fixpoint zdn_n {S} (n : nat) (i : Z) (body : Z -> S -> option S) (s : S) : option S :=
    match n with O => Some s | Datatypes.S n' => let* s' := body i s in zdn_n n' (i - 1) body s' end.
  Definition zup {S} (a b : Z) (body : Z -> S -> option S) (s : S) := zup_n (Z.to_nat (b - a + 1)) a body s.
  Definition zdn {S} (a b : Z) (body : Z -> S -> option S) (s : S) := zdn_n (Z.to_nat (a - b + 1)) a body s.
  (** [std::vector<T> v(n, ZERO_COEFF)]: a fresh block at the end of the memory *)
  Definition halloc (h : list T) (n : Z) : list T := h ++ repeat zero (Z.to_nat n).
  (** end of scope: the blocks allocated since [len] are gone *)
  Definition hfree (h : list T) (len : nat) : list T := firstn len h.

  (** [_zero]: polynom.h 94-97 *)
  Definition zero_fill (h : list T) (pr lm lr : Z) : option (list T) := zup (lm + 1) lr (fun i h => hset h (pr + i) zero) h.
  (** [_add_to]: polynom.h 99-103 *)
  Definition add_to (h : list T) (pr p2 l2 : Z) : option (list T) :=
    zup 0 l2 (fun i h => let* x := hget h (pr + i) in let* y := hget h (p2 + i) in hset h (pr + i) (tadd x y)) h.
  (** [_sub_from]: polynom.h 105-109 *)
  Definition sub_from (h : list T) (pr p2 l2 : Z) : option (list T) :=
    zup 0 l2 (fun i h => let* x := hget h (pr + i) in let* y := hget h (p2 + i) in hset h (pr + i) (tsub x y)) h.
  (** the copy made by [std::vector<T> S1(p1, p1 + k)] *)
  Definition copy_to (h : list T) (pr p n : Z) : option (list T) :=
    zup 0 (n - 1) (fun i h => let* x := hget h (p + i) in hset h (pr + i) x) h.

  (** [_mul_long]: polynom.h 111-124 *)
  Definition mul_long (h : list T) (pr lr p1 l1 p2 l2 : Z) : option (list T) :=
    zdn lr 0 (fun i h =>
      let jmax := Z.min i l1 in
      let jmin := Z.max 0 (i - l2) in
      let* r := zdn jmax jmin (fun j r => let* x := hget h (p1 + j) in let* y := hget h (p2 + (i - j)) in Some (tadd r (tmul x y))) zero in
      hset h (pr + i) r) h.

  (** [_mul_karatsuba]: polynom.h 126-158; [mul] is the recursive [_mul] *)
  Definition mul_karatsuba (mul : list T -> Z -> Z -> Z -> Z -> Z -> Z -> option (list T))
    (h : list T) (pr lr p1 l1 p2 l2 : Z) : option (list T) :=
    let k := Z.quot l1 2 + 1 in
    let len := length h in
    if l2 =? 0 then
      zdn lr 0 (fun i h => let* x := hget h (p1 + i) in let* y := hget h (p2 + 0) in hset h (pr + i) (tmul x y)) h
    else if l2 <? k then
      let* _ := guard (0 <=? lr - k + 1) in
      let MM := Z.of_nat (length h) in
      let h := halloc h (lr - k + 1) in
      let* h := mul h MM (lr - k) (p1 + k) (l1 - k) p2 l2 in
      let* h := mul h pr (l2 + k - 1) p1 (k - 1) p2 l2 in
      let* h := zero_fill h pr (l2 + k - 1) lr in
      let* h := add_to h (pr + k) MM (lr - k) in
      Some (hfree h len)
    else
      let S1 := Z.of_nat (length h) in
      let h := halloc h k in
      let* h := copy_to h S1 p1 k in
      let* h := add_to h S1 (p1 + k) (l1 - k) in
      let S2 := Z.of_nat (length h) in
      let h := halloc h k in
      let* h := copy_to h S2 p2 k in
      let* h := add_to h S2 (p2 + k) (l2 - k) in
      let mm_l := Z.min (lr - k) (k - 1 + k - 1) in
      let* _ := guard (0 <=? mm_l + 1) in
      let MM := Z.of_nat (length h) in
      let h := halloc h (mm_l + 1) in
      let* h := mul h MM mm_l S1 (k - 1) S2 (k - 1) in
      let hh_l := Z.min (lr - k) (l1 - k + l2 - k) in
      let* _ := guard (0 <=? hh_l + 1) in
      let HH := Z.of_nat (length h) in
      let h := halloc h (hh_l + 1) in
      let* h := mul h HH hh_l (p1 + k) (l1 - k) (p2 + k) (l2 - k) in
      let* h := mul h pr (k - 1 + k - 1) p1 (k - 1) p2 (k - 1) in
      let* h := zero_fill h pr (k - 1 + k - 1) lr in
      let* h := sub_from h MM pr mm_l in
      let* h := sub_from h MM HH hh_l in
      let* h := add_to h (pr + k) MM mm_l in
      let* h := add_to h (pr + k + k) HH (lr - k - k) in
      Some (hfree h len).

  (** [polynom_mul<T>::impl], polynom.h 372-386: long multiplication below the threshold, Karatsuba above
      (48 in the code; a parameter here so that the theorems also cover tuned thresholds) *)
  Definition mul_impl (thr : Z) (mul : list T -> Z -> Z -> Z -> Z -> Z -> Z -> option (list T))
    (h : list T) (pr lr p1 l1 p2 l2 : Z) : option (list T) :=
    if l2 <? thr then mul_long h pr lr p1 l1 p2 l2 else mul_karatsuba mul h pr lr p1 l1 p2 l2.
  (** [_mul]: polynom.h 160-168 (the recursive call of line 163 only swaps the operands; Simplification: done in place) *)
  Fixpoint mul_raw (thr : Z) (fuel : nat) (h : list T) (pr lr p1 l1 p2 l2 : Z) : option (list T) :=
    match fuel with
    | O => None
    | S fuel' =>
        let '(p1, l1, p2, l2) := if l1 <? l2 then (p2, l2, p1, l1) else (p1, l1, p2, l2) in
        let l1 := Z.min l1 lr in let l2 := Z.min l2 lr in
        let* h := zero_fill h pr (l1 + l2) lr in
        let lr := Z.min lr (l1 + l2) in
        mul_impl thr (mul_raw thr fuel') h pr lr p1 l1 p2 l2
    end.

  (** *** polynomial objects.  An environment maps instances to their coefficient vectors, so that the same
      instance may be passed several times. *)
  Definition penv := nat -> list T.
  Definition pset (e : penv) (r : nat) (c : list T) : penv := fun x => if Nat.eqb x r then c else e x.
  (** [at] / const [operator[]]: polynom.h 46-47 *)
  Definition p_at (c : list T) (i : Z) : T := if (0 <=? i) && (i <? Z.of_nat (length c)) then nth (Z.to_nat i) c zero else zero.
  (** [resize]: polynom.h 42 *)
  Definition p_resize (c : list T) (n : nat) : list T := firstn n c ++ repeat zero (n - length c).
  (** [reserve]: polynom.h 41 *)
  Definition p_reserve (c : list T) (n : nat) : list T := c ++ repeat zero (n - length c).
  (** non-const [operator[]] used as a destination: polynom.h 48 *)
  Definition p_put (c : list T) (i : Z) (x : T) : option (list T) := if i <? 0 then None else hset (p_reserve c (Z.to_nat (i + 1))) i x.
  (** [deg]: polynom.h 49 *)
  Fixpoint deg_n (c : list T) (i : nat) : nat :=
    match i with O => O | S i' => if negb (teqb (nth i c zero) zero) then i else deg_n c i' end.
  Definition p_deg (c : list T) : nat := deg_n c (length c - 1).
  (** [lowest]: polynom.h 50 *)
  Fixpoint lowest_n (c : list T) (i : nat) : nat :=
    match c with [] => O | x :: c' => if negb (teqb x zero) then i else lowest_n c' (S i) end.
  Definition p_lowest (c : list T) : nat := lowest_n c 0.
  (** [is_power]: polynom.h 51-52 *)
  Definition p_is_power (c : list T) : bool := Nat.eqb (p_lowest c) (p_deg c) && teqb (p_at c (Z.of_nat (p_deg c))) one.
  (** [shrink_to_fit]: polynom.h 40 *)
  Definition p_shrink (c : list T) : list T := p_resize c (p_deg c + 1).

  (** [neg]: polynom.h 64-72 *)
  Definition p_neg (e : penv) (r a : nat) : option penv :=
    let lr := p_deg (e a) in
    let e := pset e r (p_resize (e r) (lr + 1)) in
    for_range 0 (lr + 1) (fun i e => let* c := p_put (e r) (Z.of_nat i) (topp (p_at (e a) (Z.of_nat i))) in Some (pset e r c)) e.
  (** [add]: polynom.h 74-82 *)
  Definition p_add (e : penv) (r a b : nat) : option penv :=
    let l1 := p_deg (e a) in let l2 := p_deg (e b) in let lr := Nat.max l1 l2 in
    let e := pset e r (p_resize (e r) (lr + 1)) in
    for_range 0 (lr + 1) (fun i e => let* c := p_put (e r) (Z.of_nat i) (tadd (p_at (e a) (Z.of_nat i)) (p_at (e b) (Z.of_nat i))) in Some (pset e r c)) e.
  (** [sub]: polynom.h 84-92 *)
  Definition p_sub (e : penv) (r a b : nat) : option penv :=
    let l1 := p_deg (e a) in let l2 := p_deg (e b) in let lr := Nat.max l1 l2 in
    let e := pset e r (p_resize (e r) (lr + 1)) in
    for_range 0 (lr + 1) (fun i e => let* c := p_put (e r) (Z.of_nat i) (tsub (p_at (e a) (Z.of_nat i)) (p_at (e b) (Z.of_nat i))) in Some (pset e r c)) e.
  (** [mul]: polynom.h 170-182.  The buffers of the three instances are laid out one after the other; an instance
      passed twice is the same buffer. *)
  Definition p_mul (thr : Z) (e : penv) (r a b : nat) (lr : Z) : option penv :=
    let l1 := p_deg (e a) in let l2 := p_deg (e b) in
    let lr := if lr <? 0 then Z.of_nat (l1 + l2) else lr in
    let e := pset e r (p_resize (e r) (Z.to_nat (lr + 1))) in
    let h := e r ++ e a ++ e b in
    let pa := if Nat.eqb a r then 0 else Z.of_nat (length (e r)) in
    let pb := if Nat.eqb b r then 0 else if Nat.eqb b a then pa else Z.of_nat (length (e r) + length (e a)) in
    let* h := (if Nat.eqb (length (e a)) 0 || Nat.eqb (length (e b)) 0
               then zero_fill h 0 (-1) lr
               else mul_raw thr (S (l1 + l2)) h 0 lr pa (Z.of_nat l1) pb (Z.of_nat l2)) in
    Some (pset e r (firstn (length (e r)) h)).
  (** [mul] by a scalar: polynom.h 275-283; [s] is a value (Simplification: not a reference into [pr]) *)
  Definition p_smul (e : penv) (r a : nat) (s : T) : option penv :=
    let lr := p_deg (e a) in
    let e := pset e r (p_resize (e r) (lr + 1)) in
    for_range 0 (lr + 1) (fun i e => let* c := p_put (e r) (Z.of_nat i) (tmul (p_at (e a) (Z.of_nat i)) s) in Some (pset e r c)) e.
  (** [div] by a scalar: polynom.h 285-293 *)
  Definition p_sdiv (e : penv) (r a : nat) (s : T) : option penv :=
    let lr := p_deg (e a) in
    let e := pset e r (p_resize (e r) (lr + 1)) in
    for_range 0 (lr + 1) (fun i e => let* q := tdiv (p_at (e a) (Z.of_nat i)) s in let* c := p_put (e r) (Z.of_nat i) q in Some (pset e r c)) e.

  (** the operators, polynom.h 302-319: a copy [t] of the left operand (instance 0), updated in place *)
  Definition env2 (p q : list T) : penv := fun x => match x with O => p | S O => q | _ => [] end.
  Definition op_add (p q : list T) : option (list T) := let* e := p_add (env2 p q) 0 0 1 in Some (e O).
  Definition op_sub (p q : list T) : option (list T) := let* e := p_sub (env2 p q) 0 0 1 in Some (e O).
  Definition op_neg (p : list T) : option (list T) := let* e := p_neg (env2 p []) 0 0 in Some (e O).
  Definition op_mul (thr : Z) (p q : list T) : option (list T) := let* e := p_mul thr (env2 p q) 0 0 1 (-1) in Some (e O).
  Definition op_smul (p : list T) (s : T) : option (list T) := let* e := p_smul (env2 p []) 0 0 s in Some (e O).
  Definition op_sdiv (p : list T) (s : T) : option (list T) := let* e := p_sdiv (env2 p []) 0 0 s in Some (e O).

  (** one step of the loop of [inverse], polynom.h 190-199: [l] is the loop variable.  [t], [r] are instances 0, 1. *)
  Definition inverse_step (thr : Z) (c : list T) (L l : Z) (r : list T) : option (list T) :=
    let m := Z.min (L - 1) l in let k := Z.quot l 2 + 1 in
    let* _ := guard (0 <=? m + 1) in
    let t := firstn (Z.to_nat (Z.min (m + 1) (Z.of_nat (length c)))) c in
    let* e := p_mul thr (env2 t r) 0 0 1 (l + 1) in
    let t := e O in
    let* _ := guard (k <=? Z.of_nat (length t)) in
    let t := skipn (Z.to_nat k) t in
    let* e := p_mul thr (env2 t r) 0 0 1 (l - k) in
    let t := e O in
    zdn m k (fun i r => p_put r i (topp (p_at t (i - k)))) r.
  (** [inverse]: polynom.h 184-201 once [c[0] == 1] *)
  Definition inverse_monic (thr : Z) (c : list T) (L : Z) : option (list T) :=
    loopZ (Z.max 2 (L * 2 + 1)) (fun '(l, r) =>
      if l <? L * 2 then let* r := inverse_step thr c L l r in Some (inl (l * 2, r)) else Some (inr r)) (1, [one]).
  (** [inverse]: polynom.h 184-201 *)
  Fixpoint p_inverse_f (fuel : nat) (thr : Z) (c : list T) (L : Z) : option (list T) :=
    match fuel with
    | O => None
    | S fuel' =>
        let* c0 := nth_error c 0 in
        if teqb c0 zero then Some [zero]
        else if negb (teqb c0 one) then
          let* d := op_sdiv c c0 in let* i := p_inverse_f fuel' thr d L in op_sdiv i c0
        else inverse_monic thr c L
    end.
  (** (the recursion of line 188 is entered at most once when c[0] / c[0] == 1) *)
  Definition p_inverse := p_inverse_f 2.

  (** [reverse]: polynom.h 203-210 *)
  Definition p_reverse (c : list T) : list T := rev (firstn (p_deg c + 1) c) ++ skipn (p_deg c + 1) c.

  (** [quot_rem_hensel]: polynom.h 212-225 *)
  Definition quot_rem_hensel (thr : Z) (p1 p2 : list T) : option (list T) :=
    let l1 := Z.of_nat (p_deg p1) in let l2 := Z.of_nat (p_deg p2) in let lq := l1 - l2 in
    if (lq <? 0) || p_is_power p2 then Some p1
    else
      let* inv := p_inverse thr (p_reverse p2) (lq + 1) in
      let e := fun x => match x with O => [zero] | S O => inv | _ => p_reverse p1 end in
      let* e := p_mul thr e 0 1 2 lq in
      let q := e O in
      let* _ := guard (lq + 1 <=? Z.of_nat (length q)) in
      let q := rev (firstn (Z.to_nat (lq + 1)) q) ++ skipn (Z.to_nat (lq + 1)) q in
      let* qp := op_mul thr q p2 in
      let* pr := op_sub p1 qp in
      let q := repeat zero (Z.to_nat l2) ++ q in
      op_add pr q.

  (** [quot_rem_long]: polynom.h 227-240 *)
  Definition quot_rem_long (p1 p2 : list T) : option (list T) :=
    let l1 := Z.of_nat (p_deg p1) in let l2 := Z.of_nat (p_deg p2) in let lq := l1 - l2 in
    if (lq <? 0) || p_is_power p2 then Some p1
    else
      zdn l1 l2 (fun i pr =>
        let* s := tdiv (p_at pr i) (p_at p2 l2) in
        let* pr := p_put pr i s in
        if teqb s zero then Some pr
        else zup 1 l2 (fun j pr => p_put pr (i - j) (tsub (p_at pr (i - j)) (tmul s (p_at p2 (l2 - j))))) pr) p1.

  (** [quot_rem]: polynom.h 242-251.  [slow] stands for the outcome of the floating-point test
      [l2 < 25 * log2(l1)] and may be anything.  [isfloat] is [std::is_floating_point<T>::value]. *)
  Definition quot_rem (thr : Z) (slow isfloat : bool) (p1 p2 : list T) : option (list T) :=
    let l1 := Z.of_nat (p_deg p1) in let l2 := Z.of_nat (p_deg p2) in
    let* v := tdiv one (p_at p2 l2) in
    let inv := teqb (tmul v (p_at p2 l2)) one || isfloat in
    if (l1 <? 100) || (l2 <? 50) || slow || negb inv then quot_rem_long p1 p2 else quot_rem_hensel thr p1 p2.

  (** [div]: polynom.h 253-264 *)
  Definition p_div (thr : Z) (slow isfloat : bool) (p1 p2 : list T) : option (list T) :=
    let l1 := Z.of_nat (p_deg p1) in let l2 := Z.of_nat (p_deg p2) in let lr := l1 - l2 in
    if lr <? 0 then Some []
    else
      let* pr := quot_rem thr slow isfloat p1 p2 in
      let* pr := zup 0 lr (fun i pr => let pr := p_reserve pr (Z.to_nat (i + l2 + 1)) in p_put pr i (p_at pr (i + l2))) pr in
      Some (p_resize pr (Z.to_nat (lr + 1))).
  (** [mod]: polynom.h 266-273 *)
  Definition p_mod (thr : Z) (slow isfloat : bool) (p1 p2 : list T) : option (list T) :=
    let l1 := Z.of_nat (p_deg p1) in let l2 := Z.of_nat (p_deg p2) in let lr := l2 - 1 in
    let* pr := quot_rem thr slow isfloat p1 p2 in
    Some (if lr <? l1 then p_resize pr (Z.to_nat (lr + 1)) else pr).

  (** [cmp]: polynom.h 54-62; [tlt] is T's [<] *)
  Fixpoint cmp_n (tlt : T -> T -> bool) (p q : list T) (n : nat) : Z :=
    let step := (if tlt (p_at p (Z.of_nat n)) (p_at q (Z.of_nat n)) then Some (-1)
                 else if tlt (p_at q (Z.of_nat n)) (p_at p (Z.of_nat n)) then Some 1 else None) in
    match step with Some v => v | None => match n with O => 0 | S n' => cmp_n tlt p q n' end end.
  Definition p_cmp (tlt : T -> T -> bool) (p q : list T) : Z := cmp_n tlt p q (Nat.max (p_deg p) (p_deg q)).

  (** [eval]: polynom.h 324-332; [cast] is [castOf(x, .)] *)
  Definition p_eval {A} (zeroA : A) (addA mulA : A -> A -> A) (cast : T -> A) (c : list T) (x : A) : option A :=
    if Nat.eqb (length c) 0 then Some zeroA
    else zdn (Z.of_nat (p_deg c)) 0 (fun i r => let* ci := nth_error c (Z.to_nat i) in Some (addA (mulA r x) (cast ci))) zeroA.
  (** [derivative]: polynom.h 334-341; [ofint] converts an [int] to T *)
  Definition p_derivative (ofint : nat -> T) (c : list T) : option (list T) :=
    if Nat.eqb (length c) 0 then Some [zero]
    else zdn (Z.of_nat (p_deg c)) 1 (fun i r => let* ci := nth_error c (Z.to_nat i) in p_put r (i - 1) (tmul ci (ofint (Z.to_nat i)))) [zero].
  (** [integral]: polynom.h 343-351 *)
  Definition p_integral (ofint : nat -> T) (c : list T) (c0 : T) : option (list T) :=
    if Nat.eqb (length c) 0 then Some [c0]
    else zdn (Z.of_nat (p_deg c)) 0 (fun i r => let* ci := nth_error c (Z.to_nat i) in
      let* q := tdiv ci (ofint (Z.to_nat (i + 1))) in p_put r (i + 1) q) [c0].
End Poly.
