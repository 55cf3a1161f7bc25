(** experimental/include/altruct/algorithm/graph/lowest_common_ancestor.h. The segment tree holds pairs (level, node); its neutral element
    {INT_MAX, -1} is None, because it lies above all pairs that are written: levels are below INT_MAX. *)
From Verif Require Import Lib DfsModel SegTreeModel.
Open Scope Z_scope.

Notation pii := (Z * Z)%type.
(** std::min on pairs, lowest_common_ancestor.h:24 min_f *)
Definition pair_min (a b : pii) : pii := if (fst b <? fst a) || ((fst b =? fst a) && (snd b <? snd a)) then b else a.
Definition min_f (a b : option pii) : option pii :=
  match a, b with
  | None, x => x
  | x, None => x
  | Some a, Some b => Some (pair_min a b)
  end.
(** :26-27 indices and levels *)
Record lca_t := Lca { indices : list Z; levels : list (option pii) }.
(** :38-42 the lambda; s counts the entries *)
Definition lca_visitor (root : nat) (parent node : option nat) (depth : nat) (st : list Z * list (option pii) * nat) : option (bool * (list Z * list (option pii) * nat)) :=
  let '(ind, lev, s) := st in
  let* ind := match parent with Some p => set_nth ind p (Z.of_nat s) | None => Some ind end in
  let* lev := st_write lev s (Some (Z.of_nat depth - 1, match parent with Some p => Z.of_nat p | None => -1 end)) in
  Some (true, (ind, lev, S s)).
(** :33-46 constructor *)
Definition lca_build {W} (g : list (list (nat * W))) : option lca_t :=
  let* lev := st_make None (length g * 2 + 1) in
  let* '(ind, lev, s) := iterative_dfs lca_visitor g None (repeat (-1) (length g), lev, 0%nat) in
  let* lev := st_write lev s (Some (-1, -1)) in
  let* lev := st_rebuild min_f lev in
  Some (Lca ind lev).
(** :49-52 depth *)
Definition lca_depth (t : lca_t) (u : Z) : option Z :=
  if u <? 0 then Some (-1)
  else
    let* i := nth_error (indices t) (Z.to_nat u) in
    if i <? 0 then Some (-1)
    else let* x := st_at (levels t) (Z.to_nat i) in Some (match x with Some (l, _) => l | None => 2 ^ 31 - 1 end).
(** :55-59 ancestor *)
Definition lca_ancestor (t : lca_t) (u v : Z) : option Z :=
  if (u <? 0) || (v <? 0) then Some (-1)
  else
    let* i := nth_error (indices t) (Z.to_nat u) in
    let* j := nth_error (indices t) (Z.to_nat v) in
    if (i <? 0) || (j <? 0) then Some (-1)
    else
      let '(i, j) := if j <? i then (j, i) else (i, j) in
      let* x := st_get min_f (levels t) (Z.to_nat i) (Z.to_nat j + 1) in Some (match x with Some (_, a) => a | None => -1 end).
(** :62-65 distance *)
Definition lca_distance (t : lca_t) (u v : Z) : option Z :=
  let* a := lca_ancestor t u v in
  if a <? 0 then Some (-1)
  else
    let* du := lca_depth t u in
    let* da := lca_depth t a in
    let* dv := lca_depth t v in
    Some ((du - da) + (dv - da)).
