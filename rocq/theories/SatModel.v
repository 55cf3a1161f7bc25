(** experimental/include/altruct/algorithm/graph/sat2.h. A literal is 2 i + 1 (variable i), 2 i (its negation) or -1 (false). *)
From Verif Require Import Lib ClosModel TarjanModel.
Open Scope nat_scope.

Notation sgraph := (list (list (nat * unit))).
(** a vector index: negative values are undefined behaviour *)
Definition z_ix (u : Z) : option nat := if (0 <=? u)%Z then Some (Z.to_nat u) else None.
(** g.add_edge(u, v), u and v given as int *)
Definition s_edge (g : sgraph) (u v : Z) : option sgraph :=
  let* u := z_ix u in let* v := z_ix v in
  let* l := nth_error g u in set_nth g u (l ++ [(v, tt)]).
(** sat2.h 32-36 *)
Definition s_vars (clauses : list (Z * Z)) : Z :=
  fold_left (fun n t => Z.max (Z.max n (Z.quot (fst t) 2 + 1)) (Z.quot (snd t) 2 + 1))%Z clauses 0%Z.
(** 37: if (sol.size() < n) sol.resize(n, -1) *)
Definition s_resize (sol : list Z) (n : nat) : list Z := sol ++ repeat (-1)%Z (n - length sol).
(** 39-44 *)
Definition s_units (sol : list Z) (n : nat) (g : sgraph) : option sgraph :=
  for_range 0 n (fun i g => let* x := nth_error sol i in
    if negb (x =? -1)%Z then let u := (Z.of_nat i * 2 + x)%Z in s_edge g (Z.lxor u 1) u else Some g) g.
(** 45-52; Some None: return false *)
Fixpoint s_clauses (clauses : list (Z * Z)) (g : sgraph) : option (option sgraph) :=
  match clauses with
  | [] => Some (Some g)
  | (u, v) :: clauses =>
    if ((u =? -1) && (v =? -1))%Z then Some None else
    let u := if (u =? -1)%Z then v else u in
    let v := if (v =? -1)%Z then u else v in
    let* g := s_edge g (Z.lxor u 1) v in
    let* g := s_edge g (Z.lxor v 1) u in
    s_clauses clauses g
  end.
(** 54-56 *)
Definition s_assign (u : nat) (sol : list Z) : option (list Z) :=
  let* x := nth_error sol (u / 2) in
  if (x =? -1)%Z then set_nth sol (u / 2) (Z.of_nat (u mod 2)) else Some sol.
(** sol[u / 2] != (u % 2) *)
Definition s_false (sol : list Z) (u : Z) : option bool :=
  let* i := z_ix (Z.quot u 2) in let* x := nth_error sol i in Some (negb (x =? Z.rem u 2)%Z).
(** 58-65 *)
Fixpoint s_check (clauses : list (Z * Z)) (sol : list Z) : option bool :=
  match clauses with
  | [] => Some true
  | (u, v) :: clauses =>
    if ((u =? -1) && (v =? -1))%Z then Some false else
    let u := if (u =? -1)%Z then v else u in
    let v := if (v =? -1)%Z then u else v in
    let* a := s_false sol u in
    let* b := if (a : bool) then s_false sol v else Some false in
    if (b : bool) then Some false else s_check clauses sol
  end.
(** 30-66: the answer and the new value of sol; the loop over scc goes from the back of the list of components *)
Definition sat2 (sol : list Z) (clauses : list (Z * Z)) : option (bool * list Z) :=
  let n := Z.to_nat (s_vars clauses) in
  let sol := s_resize sol n in
  let* g := s_units sol n (repeat [] (n * 2)) in
  let* r := s_clauses clauses g in
  match r with
  | None => Some (false, sol)
  | Some g =>
    let* scc := tarjan_scc g in
    let* sol := for_each (fun c sol => for_each s_assign c sol) (rev scc) sol in
    let* b := s_check clauses sol in Some (b, sol)
  end.
(** 68-73 *)
Definition sat2_vec (clauses : list (Z * Z)) : option (list Z) :=
  let* '(b, sol) := sat2 [] clauses in Some (if (b : bool) then sol else []).
