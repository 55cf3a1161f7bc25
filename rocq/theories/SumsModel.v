(** Model of include/altruct/algorithm/math/sums.h: sum_ratio, sum, sum_pow (p <= 3), sum_sqrt, sum_sqrt2m (both overloads), sum_sqrt2. *)
From Verif Require Import Lib BaseModel.
Local Open Scope Z_scope.

(** sums.h:25-36, one iteration of the loop of sum_ratio with T = I = exact integers (castOf is the identity);
    state (a, b, q, n, s, i) *)
Definition sum_ratio_step (st : Z * Z * Z * Z * Z * Z) : option ((Z * Z * Z * Z * Z * Z) + Z) :=
  let '(a, b, q, n, s, i) := st in
  let done s := Some (inr (if Z.rem i 2 =? 1 then - s else s)) in
  if 0 <? n then
    let n1 := n - 1 in
    let t := if Z.rem n 2 =? 1 then n * Z.quot n1 2 else Z.quot n 2 * n1 in
    let* bq := cdiv b q in let* aq := cdiv a q in
    let s := s + (bq * n + aq * t) in
    let* b := cmod b q in let* a := cmod a q in
    if a =? 0 then done s
    else
      let n := Z.quot (a * n1 + b) q in
      let b := (q - 1) - b in
      let '(a, q) := (q, a) in
      let s := s + n * n1 in
      Some (inl (a, b, q, n, - s, i + 1))
  else done s.
(** sums.h:17-37 sum_ratio; [fuel] bounds the three sign-normalising calls *)
Fixpoint sum_ratio_rec (fuel : nat) (a b q n : Z) : option Z :=
  match fuel with
  | O => None
  | S fuel =>
      if n <? 1 then Some 0
      else if q <? 0 then sum_ratio_rec fuel (- a) (- b) (- q) n
      else if a <? 0 then let* r := sum_ratio_rec fuel (- a) (q - 1 - b) q n in Some (- r)
      else if b <? 0 then
        let* d := cdiv (- b) q in
        let m := d + 1 in
        let* r := sum_ratio_rec fuel a (b + q * m) q n in Some (r - n * m)
      else loopZ (q + 1) sum_ratio_step (a, b, q, n, 0, 0)
  end.
Definition sum_ratio (a b q n : Z) : option Z := sum_ratio_rec 4 a b q n.

Section Sums.
  Context {T : Type} (zero : T) (add mul sub : T -> T -> T) (cast : Z -> T).

  (** sums.h:44-51 sum: for (k = b; k >= a; k--) *)
  Fixpoint sum_loop (n : nat) (f : Z -> T) (k : Z) (r : T) : T :=
    match n with O => r | S n => sum_loop n f (k - 1) (add r (f k)) end.
  Definition sum (f : Z -> T) (a b : Z) : T := sum_loop (Z.to_nat (b - a + 1)) f b zero.

  (** for (k = 1; k <= e; k++) r = body k r *)
  Definition for1 (e : Z) (body : Z -> T -> T) (r : T) : T :=
    fold_left (fun r k => body (Z.of_nat k) r) (seq 1 (Z.to_nat e)) r.

  (** [root n] stands for sqrtT(n) *)
  Variable root : Z -> option Z.

  (** sums.h:122-134 sum_sqrt *)
  Definition sum_sqrt (f : Z -> T) (n : Z) : option T :=
    if n <? 1 then Some zero
    else
      let* q := root n in
      let* nq := cdiv n q in
      let r := for1 nq (fun k r => add r (f (Z.quot n k))) zero in
      Some (for1 (q - 1) (fun m r => add r (mul (f m) (cast (Z.quot n m - Z.quot n (m + 1))))) r).

  (** sums.h:141-156 sum_sqrt2m(sf, g, n); sf0 is carried through the second loop *)
  Definition sum_sqrt2m_tail (sf g : Z -> T) (n q : Z) (r : T) : T :=
    fst (fold_left (fun '(r, sf0) k => let m := Z.of_nat k in
                      let sf1 := sf (Z.quot n (m + 1)) in (add r (mul (sub sf0 sf1) (g m)), sf1))
           (seq 1 (Z.to_nat (q - 1))) (r, sf n)).
  Definition sum_sqrt2m (sf g : Z -> T) (n : Z) : option T :=
    if n <? 1 then Some zero
    else
      let* q := root n in
      let* nq := cdiv n q in
      let r := for1 nq (fun k r => add r (mul (sub (sf k) (sf (k - 1))) (g (Z.quot n k)))) zero in
      Some (sum_sqrt2m_tail sf g n q r).
  (** sums.h:163-178 sum_sqrt2m(f, sf, g, n) *)
  Definition sum_sqrt2m_f (f sf g : Z -> T) (n : Z) : option T :=
    if n <? 1 then Some zero
    else
      let* q := root n in
      let* nq := cdiv n q in
      let r := for1 nq (fun k r => add r (mul (f k) (g (Z.quot n k)))) zero in
      Some (sum_sqrt2m_tail sf g n q r).
  (** sums.h:185-198 sum_sqrt2(sf, n) *)
  Definition sum_sqrt2 (sf : Z -> Z -> T) (n : Z) : option T :=
    if n <? 1 then Some zero
    else
      let* q := root n in
      let* nq := cdiv n q in
      let r := for1 nq (fun k r => add r (sub (sf k (Z.quot n k)) (sf (k - 1) (Z.quot n k)))) zero in
      Some (for1 (q - 1) (fun m r => add r (sub (sf (Z.quot n m) m) (sf (Z.quot n (m + 1)) m))) r).
End Sums.

(** sums.h:61-70 sum_pow for p = 0, 1, 2, 3 over exact integers (the Faulhaber part below is not modelled) *)
Definition sum_pow_small (p n : Z) : option Z :=
  if p =? 0 then Some n
  else if p =? 1 then cdiv (n * (n + 1)) 2
  else if p =? 2 then cdiv (n * (n + 1) * (n * 2 + 1)) 6
  else if p =? 3 then let* h := cdiv (n * (n + 1)) 2 in Some (sqT h)
  else None.
