(** include/altruct/structure/math/vectorNd.h, vector2d.h and vector3d.h, with T = Z.
    A vectorNd is the list of its elements.  Not modelled: the payloads, EPS, near, unit, abs1, and the
    conversions. *)
From Verif Require Import Lib.
Open Scope Z_scope.

(** vectorNd.h 37-43: cmp, from the index i on, with n elements left *)
Fixpoint cmp_from (n i : nat) (a b : list Z) : option Z :=
  match n with
  | O => Some 0
  | S n =>
    let* x := nth_error a i in
    let* y := nth_error b i in
    if x <? y then Some (-1) else if y <? x then Some 1 else cmp_from n (S i) a b
  end.
Definition cmp (n : nat) (a b : list Z) : option Z := cmp_from n 0 a b.
(** vectorNd.h 45-50 *)
Definition nd_eq n a b := let* c := cmp n a b in Some (c =? 0).
Definition nd_lt n a b := let* c := cmp n a b in Some (c <? 0).
Definition nd_le n a b := let* c := cmp n a b in Some (c <=? 0).
(** the operation on T: None for a division by zero *)
Inductive op := Add | Sub | Mul | Div | Mod.
Definition run (o : op) (x y : Z) : option Z :=
  match o with
  | Add => Some (x + y) | Sub => Some (x - y) | Mul => Some (x * y)
  | Div => if y =? 0 then None else Some (Z.quot x y)
  | Mod => if y =? 0 then None else Some (Z.rem x y)
  end.
(** vectorNd.h 65-69 and, on a copy, 52-57: a op= rhs, element by element *)
Definition nd_assign (o : op) (n : nat) (a rhs : list Z) : option (list Z) :=
  for_range 0 n (fun i a =>
    let* x := nth_error a i in
    let* y := nth_error rhs i in
    let* z := run o x y in
    set_nth a i z) a.
(** vectorNd.h 71-75: a op= rhs for a reference rhs to a scalar, which is elsewhere (Out) or an element of a (In);
    it is read again for every element.  59-63 are the same on a copy, with rhs elsewhere. *)
Inductive sref := Out (t : Z) | In (j : nat).
Definition deref (r : sref) (a : list Z) : option Z := match r with Out t => Some t | In j => nth_error a j end.
Definition nd_scalar (o : op) (n : nat) (a : list Z) (rhs : sref) : option (list Z) :=
  for_range 0 n (fun i a =>
    let* x := nth_error a i in
    let* y := deref rhs a in
    let* z := run o x y in
    set_nth a i z) a.
(** vectorNd.h 77: abs2 *)
Definition nd_abs2 (n : nat) (a : list Z) : option Z :=
  for_range 0 n (fun i r => let* x := nth_error a i in Some (r + x * x)) 0.

(** vector2d.h 14: x and y *)
Definition v2 := (Z * Z)%type.
(** vector2d.h 20, 22, 24 *)
Definition v2_eq (u v : v2) : bool := (fst u =? fst v) && (snd u =? snd v).
Definition v2_lt (u v : v2) : bool := if negb (fst u =? fst v) then fst u <? fst v else snd u <? snd v.
Definition v2_le (u v : v2) : bool := negb (v2_lt v u).
(** vector2d.h 36, 41 *)
Definition v2_sub (u v : v2) : v2 := (fst u - fst v, snd u - snd v).
Definition v2_scale (u : v2) (t : Z) : v2 := (fst u * t, snd u * t).
(** vector2d.h 44-45: & and ^ *)
Definition v2_dot (u v : v2) : Z := fst u * fst v + snd u * snd v.
Definition v2_cross (u v : v2) : Z := fst u * snd v - snd u * fst v.
(** vector2d.h 48: cross of two points seen from this one *)
Definition v2_cross3 (o u v : v2) : Z := v2_cross (v2_sub u o) (v2_sub v o).
(** vector2d.h 51-53, 56: rot, irot, perp, abs2 *)
Definition v2_rot (u r : v2) : v2 := (fst u * fst r - snd u * snd r, snd u * fst r + fst u * snd r).
Definition v2_irot (u r : v2) : v2 := (fst u * fst r + snd u * snd r, snd u * fst r - fst u * snd r).
Definition v2_perp (u : v2) : v2 := (- snd u, fst u).
Definition v2_abs2 (u : v2) : Z := fst u * fst u + snd u * snd u.

(** vector3d.h 14: x, y and z *)
Definition v3 := (Z * Z * Z)%type.
(** vector3d.h 20, 22, 24 *)
Definition v3_eq (u v : v3) : bool := let '(x, y, z) := u in let '(x', y', z') := v in (x =? x') && (y =? y') && (z =? z').
Definition v3_lt (u v : v3) : bool :=
  let '(x, y, z) := u in let '(x', y', z') := v in
  if negb (x =? x') then x <? x' else if negb (y =? y') then y <? y' else z <? z'.
Definition v3_le (u v : v3) : bool := negb (v3_lt v u).
(** vector3d.h 47-48, 56: &, ^ and abs2 *)
Definition v3_dot (u v : v3) : Z := let '(x, y, z) := u in let '(x', y', z') := v in x * x' + y * y' + z * z'.
Definition v3_cross (u v : v3) : v3 :=
  let '(x, y, z) := u in let '(x', y', z') := v in (y * z' - z * y', z * x' - x * z', x * y' - y * x').
Definition v3_abs2 (u : v3) : Z := let '(x, y, z) := u in x * x + y * y + z * z.
