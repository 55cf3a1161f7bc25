(** Model of algorithm/math/recurrence.h (characteristic polynomials, linear_recurrence, Fibonacci, Lucas). *)
From Verif Require Import Lib PolyModel.
Open Scope Z_scope.

Section Rec.
  Context {T A : Type}.
  Variables (zero one : T) (tadd tsub tmul : T -> T -> T) (topp : T -> T) (tdiv : T -> T -> option T).
  Variable teqb : T -> T -> bool.
  (** [A]: type of the sequence; [cast] is [castOf(r, .)] *)
  Variables (zeroA : A) (addA mulA : A -> A -> A) (cast : T -> A).
  (** Karatsuba threshold and outcome of the float test of [polynom::quot_rem], see PolyModel *)
  Variables (thr : Z) (slow isfloat : bool).
  Local Notation p_at := (p_at zero).

  (** linear_recurrence_poly_to_coeff: recurrence.h 19-29 *)
  Definition poly_to_coeff (p : list T) : list T :=
    let L := p_deg zero teqb p in map (fun i => topp (p_at p (Z.of_nat L - 1 - Z.of_nat i))) (seq 0 L).
  (** linear_recurrence_coeff_to_poly: recurrence.h 30-40 *)
  Definition coeff_to_poly (f_coeff : list T) : option (list T) :=
    let* _ := nth_error f_coeff 0 in
    let L := length f_coeff in
    let p := repeat zero (L + 1) in
    let* p := p_put zero p (Z.of_nat L) one in
    for_range 0 L (fun i p => let* c := nth_error f_coeff i in p_put zero p (Z.of_nat L - 1 - Z.of_nat i) (topp c)) p.

  (** multiplication of [moduloX<polynom<T>>]: modulo.h 21-22 *)
  Definition polymod_mul (p x y : list T) : option (list T) :=
    let* m := op_mul zero tadd tsub tmul teqb thr x y in p_mod zero one tadd tsub tmul topp tdiv teqb thr slow isfloat m p.
  (** powT (base.h 158-167) at that type; state (r, x, y) *)
  Definition polymod_pow (p x0 : list T) (n : Z) : option (list T) :=
    let* e := p_mod zero one tadd tsub tmul topp tdiv teqb thr slow isfloat [one] p in
    loopZ (Z.abs n + 1) (fun '(r, x, y) =>
      if 0 <? y then
        let* r' := (if Z.rem y 2 =? 0 then Some r else polymod_mul p r x) in
        let* x' := polymod_mul p x x in
        Some (inl (r', x', Z.quot y 2))
      else Some (inr r)) (e, x0, n).

  (** linear_recurrence: recurrence.h 42-66 *)
  Definition linear_recurrence (f_coeff : list T) (f_init : list A) (n : Z) : option A :=
    let* _ := nth_error f_coeff 0 in
    let L := length f_coeff in
    let* p := coeff_to_poly f_coeff in
    let* x := p_mod zero one tadd tsub tmul topp tdiv teqb thr slow isfloat [zero; one] p in
    let* xn := polymod_pow p x n in
    let* _ := nth_error f_init 0 in
    for_range 0 L (fun i r => let* f := nth_error f_init i in Some (addA r (mulA (cast (p_at xn (Z.of_nat i))) f))) zeroA.
  (** linear_recurrence_next: recurrence.h 68-79 *)
  Definition linear_recurrence_next (f_coeff : list T) (f_init : list A) : option A :=
    let L := length f_coeff in
    let* _ := nth_error f_init 0 in
    for_range 0 L (fun i r => let* c := nth_error f_coeff i in
      let* _ := guard (i + 1 <=? length f_init)%nat in
      let* f := nth_error f_init (length f_init - 1 - i) in Some (addA r (mulA (cast c) f))) zeroA.
End Rec.

Section Fib.
  Context {T : Type}.
  Variables (zero one : T) (tadd tsub tmul : T -> T -> T) (topp : T -> T) (tdiv : T -> T -> option T).
  Variable teqb : T -> T -> bool.
  Variables (thr : Z) (slow isfloat : bool).
  Let lr := linear_recurrence zero one tadd tsub tmul topp tdiv teqb zero tadd tmul (fun c => c) thr slow isfloat.
  (** fibonacci: recurrence.h 81-87 *)
  Definition fibonacci (n : Z) : option T := lr [one; one] [tsub one one; one] n.
  (** lucas_l: recurrence.h 89-95 *)
  Definition lucas_l (n : Z) : option T := lr [one; one] [tadd one one; one] n.
  (** lucas_u: recurrence.h 97-104 *)
  Definition lucas_u (p q : T) (n : Z) : option T := lr [p; topp q] [tsub one one; one] n.
  (** lucas_v: recurrence.h 106-113 *)
  Definition lucas_v (p q : T) (n : Z) : option T := lr [p; topp q] [tadd one one; p] n.
End Fib.
