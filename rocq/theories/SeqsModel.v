(** Model of algorithm/math/sequences.h and of sum_powx (algorithm/math/sums.h). R is any type; [cast] is castOf<R>, [idiv a k] is a / k. *)
From Verif Require Import Lib RingSpec SeriesSpec SerSpec SumsModel.
Open Scope Z_scope.

Section Seqs.
  Context {R : Type}.
  Variables (zero one : R) (add mul sub : R -> R -> R) (opp : R -> R) (cast : Z -> R) (idiv : R -> nat -> R).
  Local Notation lit k := (cast k).

  (** sequences.h 19-47 *)
  Definition sq_delta (n : Z) : R := if n =? 0 then one else zero.
  Definition sq_dirichlet_id (n : Z) : R := if n =? 1 then one else zero.
  Definition sq_zero (n : Z) : R := zero.
  Definition sq_one (n : Z) : R := one.
  Definition sq_identity (n : Z) : R := cast n.
  Definition sq_square (n : Z) : R := let r := cast n in mul r r.
  Definition sq_cube (n : Z) : R := let r := cast n in mul (mul r r) r.
  (** 49-71 *)
  Definition sq_triangular (n : Z) : R := let r := cast n in idiv (mul r (add r (lit 1))) 2.
  Definition sq_tetrahedral (n : Z) : R := let r := cast n in idiv (mul (mul r (add r (lit 1))) (add r (lit 2))) 6.
  Definition sq_pyramidal (n : Z) : R := let r := cast n in idiv (mul (mul r (add r (lit 1))) (add (mul r (lit 2)) (lit 1))) 6.
  Definition sq_octahedral (n : Z) : R := let r := cast n in idiv (mul r (add (mul (mul r r) (lit 2)) (lit 1))) 3.
  Definition sq_dodecahedral (n : Z) : R := let r := cast n in idiv (mul (mul r (sub (mul r (lit 3)) (lit 1))) (sub (mul r (lit 3)) (lit 2))) 2.
  Definition sq_icosahedral (n : Z) : R := let r := cast n in idiv (mul r (add (mul (mul r (sub r (lit 1))) (lit 5)) (lit 2))) 2.
  (** 73-83; [root] is sqrtT *)
  Variable root : Z -> option Z.
  Definition sum_sigma0 (n : Z) : option R := sum_sqrt2m_f zero add mul sub root sq_one sq_identity sq_identity n.
  Definition sum_sigma1 (n : Z) : option R := sum_sqrt2m_f zero add mul sub root sq_identity sq_triangular sq_identity n.
  Definition sum_sigma2 (n : Z) : option R := sum_sqrt2m_f zero add mul sub root sq_square sq_pyramidal sq_identity n.

  (** sums.h 103-114 sum_powx. Simplification: the polynomials p and q are coefficient sequences and their arithmetic is that of
      the ring of polynomials (polynom.h itself is modelled in PolyModel); powT is the power; [tdiv] is R's division *)
  Variable tdiv : R -> R -> option R.
  Definition pol (l : list R) (i : nat) : R := nth i l zero.
  Definition powx_step (Tn : R) (k : nat) (pq : (nat -> R) * (nat -> R)) : (nat -> R) * (nat -> R) :=
    let '(p, q) := pq in
    let Tk := cast (Z.of_nat k) in
    let z := pol [zero; opp one; one] in
    ((fun i => sub (pconv zero add mul z (pderiv zero one add mul p) i) (pconv zero add mul (pol [Tn; sub Tk Tn]) p i)),
     (fun i => sub (pconv zero add mul z (pderiv zero one add mul q) i) (pconv zero add mul (pol [zero; sub Tk zero]) q i))).
  (** the value at x of a polynomial of degree at most m+1 *)
  Definition pol_at (m : nat) (p : nat -> R) (x : R) : R := rsum zero add (m + 2) (fun i => mul (p i) (rpow one mul x i)).
  Definition sum_powx (m : nat) (x : R) (n : nat) : option R :=
    let Tn := cast (Z.of_nat n) in
    let '(p, q) := fold_left (fun pq k => powx_step Tn k pq) (seq 1 m) (pol [zero; one], pol [one]) in
    let* r := tdiv (sub (mul (rpow one mul x n) (pol_at m p x)) (pol_at m q x)) (rpow one mul (sub x one) (m + 1)) in
    Some (sub r (if (m =? 0)%nat then one else zero)).
End Seqs.
