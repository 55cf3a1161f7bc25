(** Model of src/algorithm/math/primes.cpp and the number tables of algorithm/math/primes.h. Table entries and indices are
    naturals (integers for the signed tables); the machine width of int is not modelled. *)
From Verif Require Import Lib BaseModel.
Open Scope nat_scope.

(** for (j = a; j < n; j += d) body: the indices a, a + d, ... below n; with d = 0 and a < n the loop does not end *)
Definition for_step {S} (a n d : nat) (body : nat -> S -> option S) (s : S) : option S :=
  if d =? 0 then (if a <? n then None else Some s) else for_range 0 ((n - a + (d - 1)) / d) (fun k => body (a + k * d)) s.
(** l[j] = f(l[j]) *)
Definition modify {A} (l : list A) (j : nat) (f : A -> A) : option (list A) := let* v := nth_error l j in set_nth l j (f v).

(** primes: primes.cpp 11-33. q is the flag array (the form with q given); p is absent when null *)
Definition q_init (q : list bool) (n : nat) : option (list bool) :=
  let* q := (if 0 <? n then set_nth q 0 false else Some q) in
  let* q := (if 1 <? n then set_nth q 1 false else Some q) in
  for_range 2 (Nat.max 2 n) (fun i q => set_nth q i true) q.
Definition p_put (p : option (list nat)) (m i : nat) : option (option (list nat)) :=
  match p with None => Some None | Some l => let* l := set_nth l m i in Some (Some l) end.
Definition primes (p : option (list nat)) (q : list bool) (n : nat) : option (option (list nat) * list bool * nat) :=
  let* q := q_init q n in
  let* '(p, q, m) := for_range 2 (Nat.max 2 n) (fun i '(p, q, m) =>
    let* b := nth_error q i in
    if negb b then Some (p, q, m) else
    let* p := p_put p m i in
    let m := m + 1 in
    if n / i <? i then Some (p, q, m) else
    let* q := for_step (i * i) n i (fun j q => set_nth q j false) q in Some (p, q, m)) (p, q, 0) in
  let* p := p_put p m 0 in Some (p, q, m).

(** prime_pi: 35-40 *)
Definition prime_pi (pi : list nat) (n : nat) (p : list nat) : option (list nat) :=
  let* '(pi, _) := for_range 0 n (fun i '(pi, l) =>
    let* pl := nth_error p l in let l := if i =? pl then l + 1 else l in
    let* pi := set_nth pi i l in Some (pi, l)) (pi, 0) in Some pi.
(** euler_phi: 42-48 *)
Definition euler_phi (phi : list nat) (n : nat) (p : list nat) (m : nat) : option (list nat) :=
  let* phi := for_range 0 n (fun i phi => set_nth phi i i) phi in
  for_range 0 m (fun i phi => let* pi := nth_error p i in
    for_step pi n pi (fun j phi => modify phi j (fun v => v / pi * (pi - 1))) phi) phi.
(** moebius_mu: 50-68 *)
Definition moebius_mu (mu : list Z) (n : nat) : option (list Z) :=
  let* mu := set_nth mu 0 0%Z in
  let* mu := for_range 1 (Nat.max 1 n) (fun i mu => set_nth mu i 1%Z) mu in
  let* mu := loopZ (Z.of_nat n + 2) (fun '(i, mu) =>
    if n <=? i * i then Some (inr mu) else
    let* v := nth_error mu i in
    if negb (v =? 1)%Z then Some (inl (i + 1, mu)) else
    let i2 := i * i in
    let* mu := for_step 0 n i2 (fun j mu => set_nth mu j 0%Z) mu in
    let* mu := for_step 0 n i (fun j mu => modify mu j (fun v => v * - Z.of_nat i)%Z) mu in
    Some (inl (i + 1, mu))) (2, mu) in
  for_range 2 (Nat.max 2 n) (fun i mu => modify mu i (fun v =>
    if (v =? Z.of_nat i)%Z then 1%Z else if (v =? - Z.of_nat i)%Z then (-1)%Z else if (v <? 0)%Z then 1%Z else if (0 <? v)%Z then (-1)%Z else v)) mu.
(** prime_nu: 70-76 *)
Definition prime_nu (nu : list nat) (n : nat) (p : list nat) (m : nat) : option (list nat) :=
  let* nu := for_range 0 n (fun i nu => set_nth nu i 0) nu in
  for_range 0 m (fun i nu => let* pi := nth_error p i in for_step pi n pi (fun j nu => modify nu j (fun v => v + 1)) nu) nu.
(** divisor_sigma0: 135-141; divisor_sigma1: 143-149 *)
Definition sigma_sieve (w : nat -> nat) (ds : list nat) (n : nat) : option (list nat) :=
  let* ds := for_range 1 (Nat.max 1 n) (fun i ds => set_nth ds i 0) ds in
  for_range 1 (Nat.max 1 n) (fun i ds => for_step i n i (fun j ds => modify ds j (fun v => v + w i)) ds) ds.
Definition divisor_sigma0 : list nat -> nat -> option (list nat) := sigma_sieve (fun _ => 1).
Definition divisor_sigma1 : list nat -> nat -> option (list nat) := sigma_sieve (fun i => i).
(** smallest_factor: 151-167. For n = 0 the index n - 1 wraps around and the second pass starts beyond the table *)
Definition spf_pass (n : nat) (w : nat -> nat) (i : nat) (spf : list nat) : option (list nat) :=
  let* v := nth_error spf i in
  if negb (v =? 0) || (n / i <? i) then Some spf else for_step (i * i) n i (fun j spf => set_nth spf j (w i)) spf.
Definition smallest_factor (spf : list nat) (n : nat) : option (list nat) :=
  let* spf := for_range 0 n (fun i spf => set_nth spf i 0) spf in
  let* spf := for_range 2 (Nat.max 2 n) (spf_pass n (fun _ => 1)) spf in
  if n =? 0 then None else
  for_down 2 (Nat.max 2 n) (spf_pass n (fun i => i)) spf.
(** factor: 169-174 *)
Definition factor (bpf : list nat) (n : nat) (p : list nat) (m : nat) : option (list nat) :=
  let* bpf := set_nth bpf 0 0 in let* bpf := set_nth bpf 1 1 in
  for_range 0 m (fun i bpf => let* pi := nth_error p i in for_step pi n pi (fun j bpf => set_nth bpf j pi) bpf) bpf.
(** while (n % p == 0) n /= p, e++: 179-181 and 191-193; p = 0 is undefined and n = 0 does not end. The fuel n + 2 is
    more than any terminating run needs *)
Definition divide_step (p : nat) '((n, e) : nat * nat) : option ((nat * nat) + (nat * nat)) :=
  if p =? 0 then None else if negb (n mod p =? 0) then Some (inr (n, e)) else Some (inl (n / p, e + 1)).
Definition divide_out (n p e : nat) : option (nat * nat) := loopZ (Z.of_nat n + 2) (divide_step p) (n, e).
(** factor_integer: 176-184; each turn removes a prime factor, so n + 2 turns suffice *)
Definition factor_integer (vf : list (nat * nat)) (n : nat) (pf : list nat) : option (list (nat * nat)) :=
  loopZ (Z.of_nat n + 2) (fun '(n, vf) =>
    if n <=? 1 then Some (inr vf) else
    let* p := nth_error pf n in let* '(n, e) := divide_out n p 0 in Some (inl (n, vf ++ [(p, e)]))) (n, vf).
(** factor_integer_to_map: primes.h 207-216; the map is a function, absent keys read 0 *)
Definition factor_integer_to_map (mf : nat -> nat) (n : nat) (pf : list nat) : option (nat -> nat) :=
  loopZ (Z.of_nat n + 2) (fun '(n, mf) =>
    if n <=? 1 then Some (inr mf) else
    let* p := nth_error pf n in let* '(n, e) := divide_out n p 0 in Some (inl (n, fun q => if q =? p then mf q + e else mf q))) (n, mf).
(** factor_integer of a product: primes.cpp 186-198. The outer loop visits the entries in order and reads the current one again after each
    turn *)
Definition divide_all (vn : list nat) (p : nat) : option (list nat * nat) :=
  for_range 0 (length vn) (fun k '(vn, e) => let* m := nth_error vn k in let* '(m, e) := divide_out m p e in let* vn := set_nth vn k m in Some (vn, e)) (vn, 0).
Definition factor_integer_of_product (vf : list (nat * nat)) (vn : list nat) (pf : list nat) : option (list (nat * nat)) :=
  let* '(vf, _) := for_range 0 (length vn) (fun k '(vf, vn) =>
    let* n0 := nth_error vn k in
    loopZ (Z.of_nat n0 + 2) (fun '(vf, vn) =>
      let* n := nth_error vn k in
      if n <=? 1 then Some (inr (vf, vn)) else
      let* p := nth_error pf n in let* '(vn, e) := divide_all vn p in Some (inl (vf ++ [(p, e)], vn))) (vf, vn)) (vf, vn) in Some vf.

(** primes with q null: primes.cpp 11-33. The memory of p is 4 n bytes (int is four bytes, least significant first); q is its last n bytes *)
Definition write_int (mem : list nat) (k v : nat) : option (list nat) :=
  let* mem := set_nth mem (4 * k) (v mod 256) in let* mem := set_nth mem (4 * k + 1) (v / 256 mod 256) in
  let* mem := set_nth mem (4 * k + 2) (v / 256 / 256 mod 256) in set_nth mem (4 * k + 3) (v / 256 / 256 / 256 mod 256).
Definition read_int (mem : list nat) (k : nat) : option nat :=
  let* a := nth_error mem (4 * k) in let* b := nth_error mem (4 * k + 1) in let* c := nth_error mem (4 * k + 2) in let* d := nth_error mem (4 * k + 3) in
  Some (a + 256 * (b + 256 * (c + 256 * d))).
Definition primes_in_place (mem : list nat) (n : nat) : option (list nat * nat) :=
  let q0 := 3 * n in
  let* mem := (if 0 <? n then set_nth mem (q0 + 0) 0 else Some mem) in
  let* mem := (if 1 <? n then set_nth mem (q0 + 1) 0 else Some mem) in
  let* mem := for_range 2 (Nat.max 2 n) (fun i mem => set_nth mem (q0 + i) 1) mem in
  let* '(mem, m) := for_range 2 (Nat.max 2 n) (fun i '(mem, m) =>
    let* b := nth_error mem (q0 + i) in
    if b =? 0 then Some (mem, m) else
    let* mem := write_int mem m i in
    let m := m + 1 in
    if n / i <? i then Some (mem, m) else
    let* mem := for_step (i * i) n i (fun j mem => set_nth mem (q0 + j) 0) mem in Some (mem, m)) (mem, 0) in
  let* mem := write_int mem m 0 in Some (mem, m).
