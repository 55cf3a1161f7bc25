(** Model of algorithm/math/prime_pi.h with I = int64_t: arguments are naturals, results integers. The two static tables are functions
    from the key; [p] and [pi] are the caller's arrays. *)
From Verif Require Import Lib.
Open Scope Z_scope.

(** an unordered_map: the value stored under a key *)
Definition memo := Z -> option Z.
Definition memo_put (t : memo) (k v : Z) : memo := fun x => if x =? k then Some v else t x.
(** prime_pi_PHI_key: prime_pi.h 21-26, as a 64-bit word *)
Definition phi_key (m n : nat) : Z := (Z.of_nat m * 2 ^ 16 + Z.of_nat n) mod 2 ^ 64.
(** prime_pi_PHI: 32-40; the recursion is on n. The operands of the subtraction are evaluated left to right *)
Fixpoint phi_rec (p : list nat) (n m : nat) (t : memo) : option (Z * memo) :=
  match n with
  | O => Some (Z.of_nat m, t)
  | S n' =>
    if (m =? 0)%nat then Some (Z.of_nat m, t) else
    match t (phi_key m n) with
    | Some r => Some (r, t)
    | None =>
      let* '(a, t) := phi_rec p n' m t in
      let* q := nth_error p n' in
      if (q =? 0)%nat then None else
      let* '(b, t) := phi_rec p n' (m / q) t in
      Some (a - b, memo_put t (phi_key m n) (a - b))
    end
  end.
(** prime_pi_P2: 41-47; the loop ends at the first prime whose square exceeds m. The fuel is the number of readable entries *)
Definition p2 (m n : nat) (pi : list Z) (p : list nat) : option Z :=
  loopZ (Z.of_nat (length p) + 1) (fun '(k, r) =>
    let* q := nth_error p k in
    if (q * q <=? m)%nat then
      if (q =? 0)%nat then None else
      let* v := nth_error pi (m / q) in Some (inl (S k, r + (v - Z.of_nat k)))
    else Some (inr r)) (n, 0).
(** prime_pi_deprecated: 53-62; [cb] is cbrtT(m), the state is the pair of static tables *)
Definition prime_pi_deprecated (cb m : nat) (pi : list Z) (p : list nat) (pi_size : nat) (st : memo * memo) : option (Z * (memo * memo)) :=
  let '(tphi, tpi) := st in
  if (m <? 2)%nat then Some (0, st) else
  if (m <? pi_size)%nat then let* v := nth_error pi m in Some (v, st) else
  match tpi (Z.of_nat m) with
  | Some v => Some (v, st)
  | None =>
    let y := S cb in
    let* n := nth_error pi y in
    let* '(f, tphi) := phi_rec p (Z.to_nat n) m tphi in
    let* s := p2 m (Z.to_nat n) pi p in
    let r := f - s + n - 1 in
    Some (r, (tphi, memo_put tpi (Z.of_nat m) r))
  end.
(** a sequence of calls: each gives cbrtT(m), m, the arrays and pi_size *)
Fixpoint pi_calls (cs : list (nat * nat * list Z * list nat * nat)) (st : memo * memo) : option (list Z) :=
  match cs with
  | [] => Some []
  | (cb, m, pi, p, sz) :: cs => let* '(r, st) := prime_pi_deprecated cb m pi p sz st in let* rs := pi_calls cs st in Some (r :: rs)
  end.
