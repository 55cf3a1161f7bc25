(** Model of bernoulli_b (algorithm/math/recurrence.h), sum_pow (algorithm/math/sums.h) and polynom_sum (algorithm/math/polynoms.h).
    T is any type; [idiv a k] is a / k for an int k, undefined where the C++ operator is; [ofint] converts an int to T.
    The ints n, p are naturals (Simplification: negative ones are not considered), and so is the N of sum_pow. *)
From Verif Require Import Lib PolyModel.

Open Scope nat_scope.

Section Bern.
  Context {T : Type}.
  Variables (zero one : T) (add mul sub : T -> T -> T) (idiv : T -> nat -> option T) (ofint : nat -> T) (teqb : T -> T -> bool).

  (** recurrence.h 118-129; [dflt] is T(), the initial value of the vectors' elements *)
  Definition bernoulli_b (dflt : T) (n : nat) (id : T) : option (list T) :=
    let* '(_, b) := for_range 0 (n + 1) (fun m '(a, b) =>
      let* v := idiv id (m + 1) in
      let* a := set_nth a m v in
      let* a := for_down 1 (m + 1) (fun j a =>
        let* x := nth_error a (j - 1) in let* y := nth_error a j in set_nth a (j - 1) (mul (sub x y) (ofint j))) a in
      let* x := nth_error a 0 in
      let* b := set_nth b m x in Some (a, b)) (repeat dflt (n + 1), repeat dflt (n + 1)) in
    Some b.
  (** sums.h 60-80 sum_pow(p, N, B) *)
  Definition sum_pow (p N : nat) (B : list T) : option T :=
    let* _ := nth_error B 0 in
    let n := ofint N in
    if p =? 0 then Some n
    else if p =? 1 then idiv (mul n (add n one)) 2
    else if p =? 2 then idiv (mul (mul n (add n one)) (add (mul n (ofint 2)) one)) 6
    else if p =? 3 then let* h := idiv (mul n (add n one)) 2 in Some (mul h h)
    else
      let* '(r, _, _) := for_range 0 (p + 1) (fun k '(r, n_k, bin) =>
        let n_k := mul n_k n in
        let bin := mul bin (ofint (p - k + 1)) in
        let* bin := idiv bin (k + 1) in
        let* x := nth_error B (p - k) in
        Some (add r (mul (mul bin x) n_k), n_k, bin)) (zero, one, one) in
      idiv r (p + 1).
  (** sums.h 88-96 sum_pow(p, n, id); the state is the static vector B *)
  Definition sum_pow_cached (dflt : T) (p n : nat) (B : list T) : option (T * list T) :=
    let* B := if length B <? p + 1 then bernoulli_b dflt (Nat.max p (length B + length B / 2)) one else Some B in
    let* r := sum_pow p n B in Some (r, B).
  Fixpoint sum_pow_calls (dflt : T) (cs : list (nat * nat)) (B : list T) : option (list T) :=
    match cs with
    | [] => Some []
    | (p, n) :: cs => let* '(r, B) := sum_pow_cached dflt p n B in let* rs := sum_pow_calls dflt cs B in Some (r :: rs)
    end.
  (** polynoms.h 88-103 polynom_sum *)
  Definition polynom_sum (dflt : T) (p : list T) : option (list T) :=
    let deg := p_deg zero teqb p in
    let* b := bernoulli_b dflt deg one in
    for_down 0 (deg + 1) (fun m s =>
      let* c := idiv (p_at zero p (Z.of_nat m)) (m + 1) in
      if teqb c zero then Some s
      else
        let* '(s, _) := for_range 0 (m + 1) (fun k '(s, c) =>
          let* x := nth_error b k in
          let i := Z.of_nat (m + 1 - k) in
          let* s := p_put zero s i (add (p_at zero s i) (mul c x)) in
          let c := mul c (ofint (m + 1 - k)) in
          let* c := idiv c (k + 1) in Some (s, c)) (s, c) in
        Some s) [zero].
End Bern.
