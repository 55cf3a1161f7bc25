(** Model of algorithm/math/squares_r.h. Integers are unbounded; sqrtT of integers is the parameter root (C57); std::set is a strictly
    increasing list, std::unordered_map an association list whose first entry for a key counts. *)
From Verif Require Import Lib BaseModel RootsModel.
Open Scope Z_scope.

Section Root.
Variable root : Z -> Z.
(** cornacchia: 19-31 *)
Definition cornacchia (d p : Z) : option (Z * Z) :=
  let* x := sqrt_cipolla (- d) p in
  let x := if p ÷ 2 <? x then p - x else x in
  let* x := loopZ (p + 1) (fun '(x, z) =>
    if (0 <? x) && ((p - 1) ÷ x <? x) then let '(x, z) := (z, x) in Some (inl (Z.rem x z, z)) else Some (inr x)) (x, p) in
  let* y := cdiv (p - x * x) d in
  Some (x, root y).
(** squares_r_prime: 36-43 *)
Definition squares_r_prime (p : Z) : option (Z * Z) :=
  let* '(a, b) := cornacchia 1 p in
  Some (if b <? a then (b, a) else (a, b)).

Definition table := list (Z * (Z * Z)).
Fixpoint find (t : table) (k : Z) : option (Z * Z) :=
  match t with [] => None | (j, v) :: t => if j =? k then Some v else find t k end.
(** squares_r_prime_table: 51-59 *)
Definition squares_r_prime_table (n : Z) : option table :=
  loopZ (Z.max 0 n + 2) (fun '(t, a) => if sqT a * 2 <=? n then
    let* t := loopZ (Z.max 0 n + 2) (fun '(t, b) => if sqT a + sqT b <=? n then Some (inl ((sqT a + sqT b, (a, b)) :: t, b + 1)) else Some (inr t)) (t, a) in
    Some (inl (t, a + 1)) else Some (inr t)) ([], 1).

(** the order of std::pair *)
Definition lexb (x y : Z * Z) : bool := (fst x <? fst y) || ((fst x =? fst y) && (snd x <? snd y)).
(** std::set::insert *)
Fixpoint set_insert (x : Z * Z) (l : list (Z * Z)) : list (Z * Z) :=
  match l with [] => [x] | y :: r => if lexb x y then x :: l else if lexb y x then y :: set_insert x r else l end.
(** std::sort *)
Fixpoint ins (x : Z * Z) (l : list (Z * Z)) : list (Z * Z) :=
  match l with [] => [x] | y :: r => if lexb y x then y :: ins x r else x :: l end.
Definition sort (l : list (Z * Z)) : list (Z * Z) := fold_right ins [] l.

(** the loop over the prime factors before the list is built: 71-86; None stands for return {} *)
Fixpoint square_part (vf : list (Z * Z)) (z q : Z) : option (Z * Z) :=
  match vf with
  | [] => Some (z, q)
  | (p, e) :: vf =>
    if p =? 2 then square_part vf (if Z.rem e 2 =? 1 then 1 else z) (q * p ^ (e ÷ 2))
    else if Z.rem p 4 =? 3 then if Z.rem e 2 =? 1 then None else square_part vf z (q * p ^ (e ÷ 2))
    else square_part vf z q
  end.
(** the body of the while loop: 96-106 *)
Definition compose (max_b c d : Z) (v : list (Z * Z)) : list (Z * Z) :=
  fold_left (fun s '(a, b) =>
    let e1 := Z.abs (a * c - b * d) in let f1 := a * d + b * c in
    let '(e1, f1) := if f1 <? e1 then (f1, e1) else (e1, f1) in
    let s := if (max_b =? 0) || (f1 <=? max_b) then set_insert (e1, f1) s else s in
    let e2 := Z.abs (a * d - b * c) in let f2 := a * c + b * d in
    let '(e2, f2) := if f2 <? e2 then (f2, e2) else (e2, f2) in
    if (max_b =? 0) || (f2 <=? max_b) then set_insert (e2, f2) s else s) v [].
(** the loop over the prime factors 1 modulo 4: 89-109 *)
Fixpoint compose_all (max_b : Z) (vf : list (Z * Z)) (v : list (Z * Z)) (tbl : table) : option (list (Z * Z) * table) :=
  match vf with
  | [] => Some (v, tbl)
  | (p, e) :: vf =>
    if Z.rem p 4 =? 1 then
      let* '(cd, tbl) := match find tbl p with Some cd => Some (cd, tbl) | None => let* cd := squares_r_prime p in Some (cd, (p, cd) :: tbl) end in
      compose_all max_b vf (Nat.iter (Z.to_nat e) (compose max_b (fst cd) (snd cd)) v) tbl
    else compose_all max_b vf v tbl
  end.
(** the last loops: 110-123 *)
Definition all_signs (v : list (Z * Z)) : list (Z * Z) :=
  let v := v ++ map (fun '(a, b) => (b, a)) (filter (fun '(a, b) => negb (a =? b)) (rev v)) in
  let v := v ++ map (fun '(a, b) => (- a, b)) (filter (fun '(a, b) => negb (a =? 0)) (rev v)) in
  v ++ map (fun '(a, b) => (a, - b)) (filter (fun '(a, b) => negb (b =? 0)) (rev v)).
(** squares_r_list: 70-131 *)
Definition squares_r_list (vf : list (Z * Z)) (unique_only : bool) (tbl : table) (max_b : Z) : option (list (Z * Z) * table) :=
  match square_part vf 0 1 with
  | None => Some ([], tbl)
  | Some (z, q) =>
    let v := if (max_b =? 0) || (q <=? max_b) then [(z * q, q)] else [] in
    let* '(v, tbl) := compose_all max_b vf v tbl in
    Some (sort (if unique_only then v else all_signs v), tbl)
  end.
End Root.

(** squares_r: 146-161 *)
Definition squares_r (vf : list (Z * Z)) (unique_only : bool) : Z :=
  let '(B, s, q) := fold_left (fun '(B, s, q) '(p, e) =>
    let '(B, s) :=
      if Z.rem p 4 =? 1 then (B * (e + 1), s)
      else if Z.rem p 4 =? 3 then (if Z.rem e 2 =? 1 then 0 else B, s)
      else if p =? 2 then (B, if Z.rem e 2 =? 1 then -1 else s) else (B, s) in
    (B, s, if Z.rem e 2 =? 1 then 0 else q)) vf (1, 1, 1) in
  if negb unique_only then B * 4
  else let B := if Z.rem B 2 =? 1 then B - s else B in B ÷ 2 + q.
