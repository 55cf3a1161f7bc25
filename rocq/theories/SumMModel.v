(** Model of the memoised summatory functions of include/altruct/algorithm/math/divisor_sums.h and of mertens.h.
    [tfind] is tbl.count followed by tbl[] when the key is present, [tput] is tbl[k] = v; the functions passed by the caller are pure. Numbers are naturals (a negative n gives zero, like 0), [root] and [cbrt] stand for sqrtT/isqrt and cbrtT (C05). *)
From Verif Require Import Lib BaseModel LohiModel DirModel RingSpec.
From Coq Require Import Arith Lia.
Open Scope nat_scope.

Section SumM.
  Context {T TBL : Type} (zero one : T) (add mul sub : T -> T -> T) (opp : T -> T) (tdiv : T -> T -> option T).
  Context (tfind : TBL -> nat -> option (option T)) (tput : TBL -> nat -> T -> option TBL).
  Variables (root cbrt : nat -> option nat).

  (** divisor_sums.h 562-577: sum_m(t, s, n, tbl, id); the fuel bounds the depth of the recursion *)
  Fixpoint sum_m (fuel : nat) (t s : nat -> T) (n : nat) (tbl : TBL) : option (T * TBL) :=
    match fuel with
    | O => None
    | S fuel =>
      if n <? 1 then Some (zero, tbl) else
      let* e := tfind tbl n in
      match e with
      | Some v => Some (v, tbl)
      | None =>
        let p1 := sub (s 1) (s 0) in
        let* q := root n in
        let* _ := guard (negb (q =? 0)) in
        let* '(r, tbl) := for_range 2 (n / q + 1) (fun k '(r, tbl) =>
          let* '(x, tbl) := sum_m fuel t s (n / k) tbl in Some (sub r (mul (sub (s k) (s (k - 1))) x), tbl)) (t n, tbl) in
        let* '(r, tbl) := for_range 1 q (fun m '(r, tbl) =>
          let* '(x, tbl) := sum_m fuel t s m tbl in Some (sub r (mul (sub (s (n / m)) (s (n / (m + 1)))) x), tbl)) (r, tbl) in
        let* v := tdiv r p1 in
        let* tbl := tput tbl n v in
        Some (v, tbl)
      end
    end.
  (** divisor_sums.h 593-608: sum_m(t, n, tbl, id) *)
  Fixpoint sum_m1 (fuel : nat) (t : nat -> T) (n : nat) (tbl : TBL) : option (T * TBL) :=
    match fuel with
    | O => None
    | S fuel =>
      if n <? 1 then Some (zero, tbl) else
      let* e := tfind tbl n in
      match e with
      | Some v => Some (v, tbl)
      | None =>
        let* q := root n in
        let* _ := guard (negb (q =? 0)) in
        let* '(r, tbl) := for_range 2 (n / q + 1) (fun k '(r, tbl) =>
          let* '(x, tbl) := sum_m1 fuel t (n / k) tbl in Some (sub r x, tbl)) (t n, tbl) in
        let* '(r, tbl) := for_range 1 q (fun m '(r, tbl) =>
          let* '(x, tbl) := sum_m1 fuel t m tbl in Some (sub r (mul x (rnat zero one add (n / m - n / (m + 1)))), tbl)) (r, tbl) in
        let* tbl := tput tbl n r in
        Some (r, tbl)
      end
    end.
  (** divisor_sums.h 646-660: sqfree_count *)
  Fixpoint sqfree_count (fuel n : nat) (tbl : TBL) : option (T * TBL) :=
    match fuel with
    | O => None
    | S fuel =>
      if n <? 1 then Some (zero, tbl) else
      let* e := tfind tbl n in
      match e with
      | Some v => Some (v, tbl)
      | None =>
        let* q := cbrt n in
        let* '(r, tbl) := for_range 1 q (fun m '(r, tbl) =>
          let* a := root (n / m) in let* b := root (n / (m + 1)) in
          let* '(x, tbl) := sqfree_count fuel m tbl in Some (sub r (mul (rnat zero one add (a - b)) x), tbl)) (rnat zero one add n, tbl) in
        let* _ := guard (negb (q =? 0)) in
        let* k0 := root (n / q) in
        let* '(r, tbl) := for_down 2 (k0 + 1) (fun k '(r, tbl) =>
          let* '(x, tbl) := sqfree_count fuel (n / (k * k)) tbl in Some (sub r x, tbl)) (r, tbl) in
        let* tbl := tput tbl n r in
        Some (r, tbl)
      end
    end.

  (** mertens.h 84-88 *)
  Definition mertens (n : nat) (tbl : TBL) : option (T * TBL) := sum_m1 (S n) (fun _ => one) n tbl.
  (** mertens.h 119, 154: the lambda s; castOf(id, (k + 1) / 2) *)
  Definition odd_count (k : nat) : T := rnat zero one add ((k + 1) / 2).
  (** mertens.h 116-121 *)
  Definition mertens_odd (n : nat) (tbl : TBL) : option (T * TBL) := sum_m (S n) (fun _ => one) odd_count n tbl.
  (** the value an int of 32 bits receives from a wider integer *)
  Definition to_int32 (x : Z) : Z := ((x + 2 ^ 31) mod 2 ^ 32 - 2 ^ 31)%Z.
  (** mertens.h 151-156; the lambda t takes an int *)
  Definition even_t (n : nat) : T := if (1 <? to_int32 (Z.of_nat n))%Z then opp one else zero.
  Definition mertens_even (n : nat) (tbl : TBL) : option (T * TBL) := sum_m (S n) even_t odd_count n tbl.
End SumM.

(** mertens.h 16-19, 29-35, 45-51, 60-65: tables as in DirModel; n is an int *)
Section Sieves.
  Context {T : Type} (zero one : T) (add mul sub : T -> T -> T) (opp : T -> T) (tdiv : T -> T -> option T).
  Definition odd_p (k : nat) : T := if k mod 2 =? 1 then one else zero.
  Definition sieve_mertens (M : list T) (n : nat) (pa : list nat) : option (list T) := sieve_m_multiplicative zero one add mul sub M (fun _ => one) (fun _ => one) n pa.
  Definition sieve_mertens_odd (M1 : list T) (n : nat) (pa : list nat) : option (list T) := sieve_m_multiplicative zero one add mul sub M1 (fun _ => one) odd_p n pa.
  Definition sieve_mertens_even (M0 : list T) (n : nat) : option (list T) := sieve_m one add mul sub tdiv M0 (fun k => if 1 <? k then opp one else zero) odd_p n.
  Definition sieve_mertens_even_odd (M0 M1 : list T) (n : nat) (pa : list nat) : option (list T * list T) :=
    let* M1 := sieve_mertens_odd M1 n pa in
    let* M0 := sieve_mertens M0 n pa in
    let* M0 := for_range 0 n (fun k M0 => let* y := nth_error M1 k in upd M0 k (fun x => sub x y)) M0 in
    Some (M0, M1).
End Sieves.

(** std::map (or unordered_map) as a table: a partial function *)
Definition pmap_find {T} (m : nat -> option T) (k : nat) : option (option T) := Some (m k).
Definition pmap_put {T} (m : nat -> option T) (k : nat) (v : T) : option (nat -> option T) := Some (fun j => if k =? j then Some v else m j).
(** sqrt_map as a table: count 66-68, [] 110-119; reading a counted key leaves the map as it is *)
Definition sqm_find {T} (s : @sqm T) (k : nat) : option (option T) :=
  let* c := sqm_count s k in if c =? 0 then Some None else let* '(v, _) := sqm_index s k in Some (Some v).

Section SumPhi.
  Context {T : Type} (zero one : T) (add mul sub : T -> T -> T) (tdiv : T -> T -> option T).
  Variables (root cbrt : nat -> option nat) (mk0 : nat).
  (** divisor_sums.h 456-468: make_sqrt_map *)
  Definition make_sqrt_map (f : nat -> T) (n : nat) : option (@sqm T) :=
    let* q := root n in
    let* s := sqm_new zero q n mk0 in
    let* s := for_range 1 (q + 1) (fun i s => sqm_put s i (f i)) s in
    let* s := for_range 1 (n / (q + 1) + 1) (fun i s => sqm_put s (n / i) (f (n / i))) s in
    sqm_put s 0 zero.
  (** divisor_sums.h 762: the lambda tri; a division of T that fails makes it an error, here zero (the theorem asks that T can halve) *)
  Definition tri (n : nat) : T := let r := rnat zero one add n in match tdiv (mul r (add r one)) (add one one) with Some v => v | None => zero end.
  (** divisor_sums.h 760-775: sum_phi; [phi] is the table of totients, if there is one.
      moebius_transform uses mm[1], ..., mm[U - 1] as its table: the entries of the low vector, which are then counted *)
  Definition sum_phi (n : nat) (phi : option (nat -> option T)) : option (@sqm T) :=
    let* c := cbrt n in
    let u := c * c in
    let* mm := sqm_new zero u n mk0 in
    let* mm := sqm_put mm 0 zero in
    let* mm := match phi with
      | Some phi => for_range 1 u (fun k mm => let* '(x, mm) := sqm_index mm (k - 1) in let* y := phi k in sqm_put mm k (add x y)) mm
      | None =>
        let* l := moebius_transform one mul sub tdiv (stl mm) (rnat zero one add) u in
        let* mm := for_range 1 u (fun k mm => let* '(_, mm) := sqm_index mm k in Some mm) (put_tl mm l) in
        for_range 1 u (fun k mm => let* '(x, mm) := sqm_index mm (k - 1) in let* '(y, mm) := sqm_index mm k in sqm_put mm k (add x y)) mm
      end in
    let* '(_, mm) := sum_m zero mul sub tdiv sqm_find sqm_put root (S n) tri (rnat zero one add) n mm in
    Some mm.
End SumPhi.

(** divisor_sums.h 1084-1088: coprime_sum; the primes of [pb, pe) are a list *)
Section Coprime.
  Context {T : Type} (sub : T -> T -> T) (sf : nat -> nat -> T).
  Fixpoint coprime_sum (pb : list nat) (n m : nat) : option T :=
    if n =? 0 then Some (sf n m) else
    match pb with
    | [] => Some (sf n m)
    | p :: pb =>
      let* a := coprime_sum pb n m in
      let* _ := guard (negb (p =? 0)) in
      let* b := coprime_sum pb (n / p) (m * p) in
      Some (sub a b)
    end.
End Coprime.
