(** Model of include/altruct/algorithm/math/fft.h and structure/math/root_wrapper.h.
    T is any type with + - *; R is the type of the root, with *= = [rmul], identityOf = [rone] (for a root_wrapper it depends on the array of roots, which all the roots of one call share) and the conversion T(w) = [inj w].
    Sizes are naturals (the code uses int). The arrays of one call are numbered: [mem b] is the array with number b, so a pointer into it is the pair (b, offset). *)
From Verif Require Import Lib BaseModel.
Open Scope nat_scope.

Section Fft.
Context {T R : Type}.
Variables (zero one : T) (tadd tsub tmul : T -> T -> T).
(** T / T: [None] when undefined; T(int) *)
Variables (tdiv : T -> T -> option T) (tnat : nat -> T).
Variables (rmul : R -> R -> R) (rone : R) (inj : R -> T).

Definition mem := nat -> list T.
Definition load (e : mem) (b i : nat) : option T := nth_error (e b) i.
Definition store (e : mem) (b i : nat) (v : T) : option mem := let* l := set_nth (e b) i v in Some (fun x => if x =? b then l else e x).

(** fft.h 25-31: one butterfly of the in-place transform *)
Definition butterfly (data : list T) (x h : nat) (w : R) : option (list T) :=
  let* a := nth_error data x in
  let* c := nth_error data (x + h) in
  let* data := set_nth data x (tadd a c) in
  set_nth data (x + h) (tmul (tsub a c) (inj w)).
(** fft.h 22-33: one pass; data0 advances over the blocks of length m (size is a multiple of m) *)
Definition fft_pass (size m : nat) (root : R) (data : list T) : option (list T) :=
  let h := m / 2 in
  for_range 0 (size / m) (fun b data =>
    let* '(data, _) := for_range 0 h (fun j '(data, w) => let* data := butterfly data (b * m + j) h w in Some (data, rmul w root)) (data, rone) in
    Some data) data.
(** fft.h 21-34: m = size, size / 2, ..., 2 *)
Fixpoint fft_passes (fuel : nat) (size m : nat) (root : R) (data : list T) : option (list T) :=
  match fuel with
  | O => None
  | S fuel => if 1 <? m then let* data := fft_pass size m root data in fft_passes fuel size (m / 2) (rmul root root) data else Some data
  end.
(** fft.h 37: for (k = size / 2; (i ^= k) < k; k /= 2) *)
Fixpoint rev_next (fuel : nat) (i k : nat) : option nat :=
  match fuel with
  | O => None
  | S fuel => let i := Nat.lxor i k in if i <? k then rev_next fuel i (k / 2) else Some i
  end.
(** fft.h 36-39 *)
Definition fft_reorder (size : nat) (data : list T) : option (list T) :=
  let* '(data, _) := for_range 1 (size - 1) (fun j '(data, i) =>
    let* i := rev_next (S size) i (size / 2) in
    if j <? i then
      let* a := nth_error data i in
      let* c := nth_error data j in
      let* data := set_nth data i c in
      let* data := set_nth data j a in
      Some (data, i)
    else Some (data, i)) (data, 0) in
  Some data.
(** fft.h 18-40: fft *)
Definition fft (data : list T) (size : nat) (root : R) : option (list T) :=
  if negb (Nat.land size (size - 1) =? 0) then Some data else
  let* data := fft_passes (S size) size size root data in
  fft_reorder size data.

(** fft.h 53-65: fft_rec; dest = (bd, d), src = (bs, s) *)
Fixpoint fft_rec (fuel : nat) (e : mem) (bd d bs s : nat) (size : nat) (root : R) (off : nat) : option mem :=
  match fuel with
  | O => None
  | S fuel =>
      if size <=? 1 then let* x := load e bs s in store e bd d x else
      let h := size / 2 in
      let root2 := rmul root root in
      let* e := fft_rec fuel e bd d bs s h root2 (off * 2) in
      let* e := fft_rec fuel e bd (d + h) bs (s + off) h root2 (off * 2) in
      let* '(e, _) := for_range 0 h (fun i '(e, rooti) =>
        let* y := load e bd (d + i + h) in
        let z := tmul y (inj rooti) in
        let* x := load e bd (d + i) in
        let* e := store e bd (d + i + h) (tsub x z) in
        let* x := load e bd (d + i) in
        let* e := store e bd (d + i) (tadd x z) in
        Some (e, rmul rooti root)) (e, rone) in
      Some e
  end.
(** fft.h 89-104: fft_cyclic_convolution; the pointers dataR, data1, data2 are array numbers, swapped as in the code *)
Definition fft_cyclic_convolution (e : mem) (dataR data1 data2 : nat) (size : nat) (root_base : R) (root_order : nat) : option mem :=
  let* _ := guard (negb (size =? 0)) in
  let* root := powT rmul rone root_base (Z.of_nat (root_order / size)) in
  let* iroot := powT rmul rone root (Z.of_nat size - 1)%Z in
  let* e := fft_rec (S size) e dataR 0 data1 0 size root 1 in
  let '(data1, dataR) := (dataR, data1) in
  let* e := fft_rec (S size) e dataR 0 data2 0 size root 1 in
  let '(data2, dataR) := (dataR, data2) in
  let* e := for_range 0 size (fun i e => let* x := load e data1 i in let* y := load e data2 i in store e dataR i (tmul x y)) e in
  let '(data1, dataR) := (dataR, data1) in
  let* e := fft_rec (S size) e dataR 0 data1 0 size iroot 1 in
  let* isize := tdiv (inj rone) (tnat size) in
  for_range 0 size (fun i e => let* x := load e dataR i in store e dataR i (tmul x isize)) e.
(** v.resize(n, x) *)
Definition resize (l : list T) (n : nat) (x : T) : list T := firstn n l ++ repeat x (n - length l).
(** fft.h 122, 149: l = 1; while (l < n) l *= 2 *)
Fixpoint pow2_above (fuel : nat) (n l : nat) : option nat :=
  match fuel with O => None | S fuel => if l <? n then pow2_above fuel n (l * 2) else Some l end.
Definition arrays (r u v : list T) : mem := fun b => match b with 0 => r | 1 => u | _ => v end.
(** fft.h 118-127: convolution; resize(n) of a negative n is undefined *)
Definition convolution (u v : list T) (root_base : R) (root_order : nat) : option (list T) :=
  let* _ := guard (1 <=? length u + length v) in
  let n := length u + length v - 1 in
  let* l := pow2_above (S n) n 1 in
  let* e := fft_cyclic_convolution (arrays (resize [] l zero) (resize u l zero) (resize v l zero)) 0 1 2 l root_base root_order in
  Some (resize (e 0) n zero).
(** fft.h 142-157: cyclic_convolution; an empty u (n and nn then go below zero) is outside the model *)
Definition cyclic_convolution (u v : list T) (root_base : R) (root_order : nat) : option (list T) :=
  let us := length u in
  let vs := length v in
  let* _ := guard (1 <=? us) in
  let* vvz := multiple (Z.of_nat vs) (Z.of_nat us) in
  let vvs := Z.to_nat vvz in
  let n := vs + us - 1 in
  let nn := vvs + us - 1 in
  let* l := pow2_above (S nn) nn 1 in
  let* v := for_range vs vvs (fun i v => let* x := nth_error v (i - vs) in set_nth v i x) (resize v l zero) in
  let* v := for_range 1 us (fun i v => let* x := nth_error v (vvs - i) in set_nth v (l - i) x) v in
  let* e := fft_cyclic_convolution (arrays (resize [] l zero) (resize u l zero) v) 0 1 2 l root_base root_order in
  let* r := for_range 1 us (fun i r => let* x := nth_error r (us - 1 - i) in set_nth r (n - i) x) (e 0) in
  Some (resize r n zero).
End Fft.

(** root_wrapper.h 24-39: roots, size, index. Reading outside roots gives [zero] here; the theorems are about indices inside. *)
Definition root_wrapper (T : Type) : Type := list T * Z * Z.
Definition rw_mul {T} (a b : root_wrapper T) : root_wrapper T := let '(roots, size, i) := a in let '(_, _, j) := b in (roots, size, Z.land (i + j) (size - 1)).
Definition rw_one {T} (a : root_wrapper T) : root_wrapper T := let '(roots, size, _) := a in (roots, size, 0%Z).
Definition rw_value {T} (zero : T) (a : root_wrapper T) : T := let '(roots, _, i) := a in nth (Z.to_nat i) roots zero.
