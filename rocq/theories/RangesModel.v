(** Model of include/altruct/algorithm/math/ranges.h and of factorial, stirling_s1_all, stirling_s2_all and stirling_s2 in
    include/altruct/algorithm/math/counting.h. An iterator range is the list of the values it points to. *)
From Verif Require Import Lib BaseModel.
Local Open Scope Z_scope.

Section Ranges.
  (** the element type with its operators; [cast r n] is castOf(r, n) *)
  Context {T : Type} (zero id : T) (add mul sub div : T -> T -> T) (neg : T -> T) (eqb : T -> T -> bool) (cast : Z -> T).

  (** ranges.h:18-23 range: one write per iteration *)
  Fixpoint range_loop (n : nat) (v step : T) : list T :=
    match n with O => [] | S n => v :: range_loop n (add v step) step end.
  Definition range (n : nat) (step : T) : list T := range_loop n zero step.
  (** ranges.h:37-42 powers *)
  Fixpoint powers_loop (n : nat) (v base : T) : list T :=
    match n with O => [] | S n => v :: powers_loop n (mul v base) base end.
  Definition powers (n : nat) (base : T) : list T := powers_loop n id base.
  (** ranges.h:56-61 factorials *)
  Fixpoint factorials_loop (n : nat) (v i : T) : list T :=
    match n with O => [] | S n => v :: factorials_loop n (mul v i) (add i id) end.
  Definition factorials (n : nat) : list T := factorials_loop n id id.

  (** ranges.h:79-81: for (n = ..; ++k < n;) val_k += id, fact_k *= val_k *)
  Fixpoint inv_factorials_up (fuel : nat) (k n : nat) (val_k fact_k : T) : T * T :=
    match fuel with
    | O => (val_k, fact_k)
    | S fuel => let k := S k in
                if (k <? n)%nat then let val_k := add val_k id in inv_factorials_up fuel k n val_k (mul fact_k val_k) else (val_k, fact_k)
    end.
  (** ranges.h:83-85: for (it = end; it != begin;) *--it = ifact, ...; [acc] is the part already written *)
  Fixpoint inv_factorials_down (n : nat) (ifact val_k : T) (acc : list T) : list T :=
    match n with O => acc | S n => inv_factorials_down n (mul ifact val_k) (sub val_k id) (ifact :: acc) end.
  (** ranges.h:76-86 inv_factorials *)
  Definition inv_factorials (n : nat) (fact_k : T) (k : nat) : list T :=
    let k := if (k =? 0)%nat then 1%nat else k in
    let val_k := cast (Z.of_nat k) in
    let '(val_k, fact_k) := inv_factorials_up n k n val_k fact_k in
    let ifact := div id fact_k in
    inv_factorials_down n ifact val_k [].

  (** ranges.h:100-106 inverses_from_ifact; writing *begin of an empty range is undefined *)
  Fixpoint inverses_loop (v : list T) (fact i : T) : list T :=
    match v with [] => [] | x :: v => mul x fact :: inverses_loop v (mul fact i) (add i id) end.
  Definition inverses_from_ifact (v : list T) : option (list T) :=
    match v with [] => None | _ :: v => Some (zero :: inverses_loop v id id) end.
  (** ranges.h:107-111 inverses *)
  Definition inverses (n : nat) : option (list T) := inverses_from_ifact (inv_factorials n id 1).

  (** ranges.h:125-130 power *)
  Definition power (v : list T) (n : Z) : list (option T) := map (fun x => powT mul id x n) v.
  (** ranges.h:139-145 invert *)
  Definition invert (v : list T) : list T := map (fun x => if eqb x zero then x else div id x) v.
  (** ranges.h:159-161 cumulative products; [p] is vp[i-1] *)
  Fixpoint cumulative (p : T) (v : list T) : list T :=
    match v with [] => [] | x :: v => let p := mul x p in p :: cumulative p v end.
  (** ranges.h:165-172: i from the last index down to 1; [v] and [vp] reversed, [vp] without its last element *)
  Fixpoint invert_field_loop (v vp : list T) (p : T) (acc : list T) : option (list T) :=
    match v, vp with
    | _ :: [], [] => Some (p :: acc)
    | t :: v, q :: vp => invert_field_loop v vp (mul p t) (mul p q :: acc)
    | _, _ => None
    end.
  (** ranges.h:154-173 invert_field *)
  Definition invert_field (v : list T) : option (list T) :=
    match v with
    | [] => Some []
    | x :: r =>
        let vp := x :: cumulative x r in
        let p := div id (last vp zero) in
        invert_field_loop (rev v) (rev (removelast vp)) p []
    end.
  (** ranges.h:181-185 negate *)
  Definition negate (v : list T) : list T := map neg v.
  (** ranges.h:194-199 alternate; [s] is the sign flag *)
  Fixpoint alternate_loop (s : Z) (v : list T) : list T :=
    match v with [] => [] | x :: v => (if s <? 0 then neg x else x) :: alternate_loop (- s) v end.
  Definition alternate (v : list T) : list T := alternate_loop 1 v.
  (** ranges.h:207-213 accumulate: *it += *prev++ *)
  Fixpoint accumulate_loop (prev : T) (v : list T) : list T :=
    match v with [] => [] | x :: v => let x := add x prev in x :: accumulate_loop x v end.
  Definition accumulate (v : list T) : list T := match v with [] => [] | x :: v => x :: accumulate_loop x v end.
  (** ranges.h:221-227 differentiate: from the back, *it -= *--prev; every read sees an element not yet written *)
  Definition differentiate_step (it : nat) (v : list T) : option (list T) :=
    let* x := nth_error v it in let* y := nth_error v (it - 1) in set_nth v it (sub x y).
  Fixpoint differentiate_loop (it : nat) (v : list T) : option (list T) :=
    match it with O => Some v | S it' => let* v := differentiate_step it v in differentiate_loop it' v end.
  Definition differentiate (v : list T) : option (list T) := differentiate_loop (length v - 1) v.

  (** counting.h:18-24 factorial; the int factor is converted *)
  Definition factorial (n : Z) : T := fold_left (fun f i => mul f (cast (Z.of_nat i))) (seq 2 (Z.to_nat (n - 1))) id.

  (** counting.h:35-40 and 106-111: one row of the tables; [s] holds the rows before row i; [c i j] is the int factor,
      [op] is - for the first kind and + for the second *)
  Definition stirling_row (op : T -> T -> T) (c : nat -> nat -> Z) (k : nat) (s : list (list T)) (i : nat) : option (list (list T)) :=
    let row := repeat zero (Nat.min (i + 1) k) in
    let* row := for_range 1 (Nat.min i k) (fun j row =>
        let* p := nth_error s (i - 1) in
        let* a := nth_error p (j - 1) in let* b := nth_error p j in
        set_nth row j (op a (mul b (cast (c i j))))) row in
    let* row := (if (i <? k)%nat then set_nth row i id else Some row) in
    Some (s ++ [row]).
  (** counting.h:31-43 stirling_s1_all *)
  Definition stirling_s1_all (n k : nat) : option (list (list T)) :=
    for_range 0 n (fun i s => stirling_row sub (fun i _ => Z.of_nat i - 1) k s i) [].
  (** counting.h:102-114 stirling_s2_all *)
  Definition stirling_s2_all (n k : nat) : option (list (list T)) :=
    for_range 0 n (fun i s => stirling_row add (fun _ j => Z.of_nat j) k s i) [].
End Ranges.

(** counting.h:151-164 stirling_s2 with T = exact integers *)
Fixpoint stirling_s2_loop (m : nat) (n k j b f r : Z) : option Z :=
  match m with
  | O => cdiv r f
  | S m =>
      let b := b * (k + 1 - j) in
      let* b := cdiv b j in
      let f := f * j in
      let* pw := powT Z.mul 1 (1 * j) n in
      let t := b * pw in
      let r := r + (if Z.rem (k - j) 2 =? 1 then - t else t) in
      stirling_s2_loop m n k (j + 1) b f r
  end.
Definition stirling_s2 (n k : Z) : option Z :=
  if k =? n then Some 1
  else if (k <=? 0) || (n <? k) then Some 0
  else stirling_s2_loop (Z.to_nat k) n k 1 1 1 0.
