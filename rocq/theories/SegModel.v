(** Model of the segmented sieves of src/algorithm/math/primes.cpp. An array passed for the range [b, e) is a list whose entry x - b
    belongs to the integer x; a write at an index the list does not have is [None]. Bounds and entries are naturals (integers for
    the Moebius table); the width of int64_t is not modelled. *)
From Verif Require Import Lib BaseModel PrimesModel.
Open Scope nat_scope.

(** multiple<int64_t>(a, b): base.h 375-378, for a and b that are not negative; a = 0 divides by zero *)
Definition multiple_nat (a b : nat) : option nat := let* r := multiple (Z.of_nat a) (Z.of_nat b) in Some (Z.to_nat r).
(** char* _q = q - b; _q[x] = v: primes.cpp 79 *)
Definition put {A} (b0 : nat) (l : list A) (x : nat) (v : A) : option (list A) := set_nth l (x - b0) v.
Definition upd {A} (b0 : nat) (l : list A) (x : nat) (f : A -> A) : option (list A) := modify l (x - b0) f.

(** if (b == c) _q[b++] = v: primes.cpp 80, 81, 94, 111 *)
Definition put_first {A} (b0 c : nat) (v : A) (st : list A * nat) : option (list A * nat) :=
  let '(q, b) := st in if b =? c then let* q := put b0 q b v in Some (q, b + 1) else Some (q, b).

(** segmented_q: primes.cpp 78-90; the loop over the primes ends early once b >= e *)
Fixpoint seg_q_loop (k i b0 b e : nat) (q : list bool) (p : list nat) : option (list bool) :=
  match k with
  | 0 => Some q
  | S k =>
    let* pi := nth_error p i in
    let b := Nat.max b (pi * pi) in
    if e <=? b then Some q else
    let* s := multiple_nat pi b in
    let* q := for_step s e pi (fun a q => put b0 q a false) q in
    seg_q_loop k (i + 1) b0 b e q p
  end.
Definition segmented_q (q : list bool) (b e : nat) (p : list nat) (m : nat) : option (list bool) :=
  let b0 := b in
  let* st := put_first b0 0 false (q, b) in
  let* '(q, b) := put_first b0 1 false st in
  let* q := for_range b (Nat.max b e) (fun a q => put b0 q a true) q in
  seg_q_loop m 0 b0 b e q p.

(** while (_tmp[q] % p[i] == 0) _phi[q] *= p[i], _tmp[q] /= p[i]: primes.cpp 100-101 *)
Definition strip (p v t : nat) : option (nat * nat) :=
  loopZ (Z.of_nat t + 1) (fun '(v, t) =>
    if p =? 0 then None else if t mod p =? 0 then Some (inl (v * p, t / p)) else Some (inr (v, t))) (v, t).
(** the body of the loop over the multiples of p[i]: primes.cpp 99-101 *)
Definition phi_body (b0 p x : nat) (st : list nat * list nat) : option (list nat * list nat) :=
  let '(phi, tmp) := st in
  let* v := nth_error phi (x - b0) in
  let* t := nth_error tmp (x - b0) in
  if p =? 0 then None else
  let* '(v, t) := strip p (v * (p - 1)) (t / p) in
  let* phi := put b0 phi x v in
  let* tmp := put b0 tmp x t in
  Some (phi, tmp).
(** segmented_phi: primes.cpp 92-107 *)
Definition segmented_phi (phi tmp : list nat) (b e : nat) (p : list nat) (m : nat) : option (list nat * list nat) :=
  let b0 := b in
  let* '(phi, b) := put_first b0 0 0 (phi, b) in
  let* '(phi, tmp) := for_range b (Nat.max b e) (fun x '(phi, tmp) =>
    let* phi := put b0 phi x 1 in let* tmp := put b0 tmp x x in Some (phi, tmp)) (phi, tmp) in
  let* '(phi, tmp) := for_range 0 m (fun i st =>
    let* pi := nth_error p i in
    let* s := multiple_nat pi b in
    for_step s e pi (phi_body b0 pi) st) (phi, tmp) in
  let* phi := for_range b (Nat.max b e) (fun x phi =>
    let* t := nth_error tmp (x - b0) in
    if 1 <? t then upd b0 phi x (fun v => v * (t - 1)) else Some phi) phi in
  Some (phi, tmp).

(** segmented_mu: primes.cpp 109-133 *)
Definition segmented_mu (mu : list Z) (b e : nat) (p : list nat) (m : nat) : option (list Z) :=
  let b0 := b in
  let* '(mu, b) := put_first b0 0 0%Z (mu, b) in
  let* mu := for_range b (Nat.max b e) (fun x mu => put b0 mu x 1%Z) mu in
  let* mu := for_range 0 m (fun i mu =>
    let* pi := nth_error p i in
    let* s := multiple_nat pi b in
    let* mu := for_step s e pi (fun x mu => upd b0 mu x (fun v => v * - Z.of_nat pi)%Z) mu in
    let p2 := pi * pi in
    let* s := multiple_nat p2 b in
    for_step s e p2 (fun x mu => put b0 mu x 0%Z) mu) mu in
  let* mu := for_range b (Nat.max b e) (fun x mu => upd b0 mu x (fun v =>
    let v := if (v <? 0)%Z && negb (v =? - Z.of_nat x)%Z then Z.of_nat x else v in
    if (0 <? v)%Z && negb (v =? Z.of_nat x)%Z then (- Z.of_nat x)%Z else v)) mu in
  for_range b (Nat.max b e) (fun x mu => upd b0 mu x (fun v =>
    let v := if (v <? 0)%Z then (-1)%Z else v in if (0 <? v)%Z then 1%Z else v)) mu.
