(** Model of structure/math/matrix.h. A matrix is the vector of its rows; every element access is checked. *)
From Verif Require Import Lib.
Open Scope Z_scope.

Section Matrix.
  Context {T : Type}.
  (** [zero] is both [zeroOf(.)] and the default [T(0)]; [tdiv] is operator/ of T, [None] when it is undefined *)
  Variables (zero one : T) (tadd tsub tmul : T -> T -> T) (topp : T -> T) (tdiv : T -> T -> option T).
  Variable teqb : T -> T -> bool.
  Local Notation mat := (list (list T)).

  (** a[i][j]: matrix.h 55-56 *)
  Definition mget (a : mat) (i j : nat) : option T := let* r := nth_error a i in nth_error r j.
  Definition mset (a : mat) (i j : nat) (v : T) : option mat := let* r := nth_error a i in let* r' := set_nth r j v in set_nth a i r'.
  (** matrix(n, m, zero): matrix.h 23-29 *)
  Definition mnew (n m : nat) (z : T) : mat := let m := (if m =? 0 then n else m)%nat in repeat (repeat z m) n.
  (** rows, cols: matrix.h 43-49 *)
  Definition rows (a : mat) : nat := length a.
  Definition cols (a : mat) : nat := match a with [] => O | _ => length (last a []) end.
  (** submatrix constructor: matrix.h 33-41 *)
  Definition msub (rhs : mat) (i j n m : nat) : option mat :=
    let* _ := guard ((i <=? rows rhs) && (j <=? cols rhs))%nat in
    let n := (if n =? 0 then rows rhs - i else n)%nat in
    let m := (if m =? 0 then cols rhs - j else m)%nat in
    for_range 0 n (fun k a => let* r := nth_error rhs (k + i) in
      let* _ := guard (j + m <=? length r)%nat in set_nth a k (firstn m (skipn j r))) (repeat [] n).
  (** the double loop of +=, -=, *= s, /= s *)
  Definition each (n m : nat) (f : nat -> nat -> T -> option T) (a : mat) : option mat :=
    for_range 0 n (fun i a => for_range 0 m (fun j a => let* x := mget a i j in let* y := f i j x in mset a i j y) a) a.
  (** operator += and +: matrix.h 65-77. The operands are distinct objects, or the same one and read before written *)
  Definition madd (a rhs : mat) : option mat := each (rows a) (cols a) (fun i j x => let* y := mget rhs i j in Some (tadd x y)) a.
  (** operator -= and binary -: matrix.h 82-94 *)
  Definition msub_ (a rhs : mat) : option mat := each (rows a) (cols a) (fun i j x => let* y := mget rhs i j in Some (tsub x y)) a.
  (** zeroOf(matrix): matrix.h 274-279 *)
  Definition mzeroOf (a : mat) : option mat := let* _ := mget a 0 0 in Some (mnew (rows a) (cols a) zero).
  (** unary -: matrix.h 95-97 *)
  Definition mneg (a : mat) : option mat := let* z := mzeroOf a in msub_ z a.
  (** operator *= (matrix): matrix.h 100-118 *)
  Definition mmul (a rhs : mat) : option mat :=
    let* _ := mget a 0 0 in
    let n := rows a in let m := cols a in let p := cols rhs in
    for_range 0 n (fun i t => for_range 0 p (fun j t =>
      let* s := for_range 0 m (fun k s => let* x := mget a i k in let* y := mget rhs k j in Some (tadd s (tmul x y))) zero in
      mset t i j s) t) (mnew n p zero).
  (** operator *= (scalar), /= (scalar): matrix.h 120-131, 140-151 *)
  Definition msmul (a : mat) (s : T) : option mat := each (rows a) (cols a) (fun _ _ x => Some (tmul x s)) a.
  Definition msdiv (a : mat) (s : T) : option mat := each (rows a) (cols a) (fun _ _ x => tdiv x s) a.
  (** identity: matrix.h 245-251 *)
  Definition midentity (n : nat) (id : T) : option mat := for_range 0 n (fun i t => mset t i i id) (mnew n n zero).
  (** identityOf(matrix): matrix.h 267-272 *)
  Definition midentityOf (a : mat) : option mat := let* _ := mget a 0 0 in midentity (rows a) one.
  (** transpose: matrix.h 234-243 *)
  Definition mtranspose (a : mat) : option mat :=
    let n := rows a in let m := cols a in
    for_range 0 n (fun i t => for_range 0 m (fun j t => let* x := mget a i j in mset t j i x) t) (mnew m n zero).
  (** powT (base.h 158-167) at type matrix; state (r, x, y) *)
  Definition mpowT (x0 : mat) (n : Z) : option mat :=
    let* e := midentityOf x0 in
    loopZ (Z.abs n + 1) (fun '(r, x, y) =>
      if 0 <? y then
        let* r' := (if Z.rem y 2 =? 0 then Some r else mmul r x) in
        let* x' := mmul x x in
        Some (inl (r', x', Z.quot y 2))
      else Some (inr r)) (e, x0, n).

  (** std::swap(a[i], a[j]) *)
  Definition swap_rows (a : mat) (i j : nat) : option mat :=
    let* r := nth_error a i in let* s := nth_error a j in let* a := set_nth a i s in set_nth a j r.
  (** pivot search: matrix.h 171 *)
  Fixpoint pivot (k : nat) (a : mat) (i j : nat) : option nat :=
    match k with
    | O => Some i
    | S k' => let* v := mget a i j in if teqb v zero then pivot k' a (S i) j else Some i
    end.
  (** normalize row: matrix.h 185-191 *)
  Definition scale_row (n : nat) (a : mat) (j : nat) (c : T) : option mat :=
    for_range 0 n (fun k a => let* x := mget a j k in mset a j k (tmul x c)) a.
  (** one elimination, on both matrices: matrix.h 194-198, 206-210. The two interleaved updates touch distinct matrices *)
  Definition elim_row (n : nat) (a : mat) (i j : nat) (p : T) : option mat :=
    for_range 0 n (fun k a => let* x := mget a i k in let* y := mget a j k in mset a i k (tsub x (tmul y p))) a.
  Definition eliminate (n j : nat) (i : nat) (s : mat * mat) : option (mat * mat) :=
    let '(a, b) := s in
    let* p := mget a i j in
    if teqb p zero then Some (a, b) else
    let* a := elim_row n a i j p in let* b := elim_row n b i j p in Some (a, b).
  (** gauss: matrix.h 162-215; result (rank, mat, inv, det) *)
  Definition gauss_step (n j : nat) (s : nat * mat * mat * T) : option (nat * mat * mat * T) :=
    let '(rank, a, b, det) := s in
    let* i := pivot (n - rank) a rank j in
    if (n <=? i)%nat then Some (rank, a, b, zero) else
    let rank := S rank in
    let* '(a, b, det) := (if (i =? j)%nat then Some (a, b, det) else
      let* a := swap_rows a i j in let* b := swap_rows b i j in Some (a, b, topp det)) in
    let* d := mget a j j in
    let* pi := tdiv one d in
    let det := tmul det d in
    let* a := scale_row n a j pi in let* b := scale_row n b j pi in
    let* '(a, b) := for_range rank n (fun i s => eliminate n j i s) (a, b) in
    Some (rank, a, b, det).
  Definition gauss (a : mat) : option (nat * mat * mat * T) :=
    let* _ := mget a 0 0 in
    let n := rows a in
    let* b := midentity n one in
    let* '(rank, a, b, det) := for_range 0 n (gauss_step n) (O, a, b, one) in
    if (rank =? n)%nat then
      let* '(a, b) := for_down 0 n (fun j s => for_down 0 j (fun i s => eliminate n j i s) s) (a, b) in
      Some (rank, a, b, det)
    else Some (rank, a, b, det).
  (** inverse, det, rank: matrix.h 218-232 *)
  Definition minverse (a : mat) : option mat := let* '(_, _, b, _) := gauss a in Some b.
  Definition mdet (a : mat) : option T := let* '(_, _, _, d) := gauss a in Some d.
  Definition mrank (a : mat) : option nat := let* '(r, _, _, _) := gauss a in Some r.
  (** pow: matrix.h 153-159 *)
  Definition mpow (a : mat) (p : Z) : option mat := if p <? 0 then let* b := minverse a in mpowT b (- p) else mpowT a p.
  (** operator / (matrix): matrix.h 133-138 *)
  Definition mdiv (a rhs : mat) : option mat := let* b := minverse rhs in mmul a b.
End Matrix.
