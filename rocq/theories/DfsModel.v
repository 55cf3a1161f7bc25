(** experimental/include/altruct/algorithm/graph/iterative_dfs.h and topological_sort.h. stk is a list whose head is the back of the vector; a
    node or parent of -1 is None. [visitor root parent node depth s] returns its answer and the new state of whatever it captured. *)
From Verif Require Import Lib ClosModel.
Open Scope nat_scope.

Section Dfs.
  Context {W St : Type}.
  Notation graph := (list (list (nat * W))).
  Variable visitor : nat -> option nat -> option nat -> nat -> St -> option (bool * St).
  Notation dstate := (list bool * list (nat * nat) * St)%type.
  (** iterative_dfs.h 44-60: one iteration of the while loop *)
  Definition dfs_step (g : graph) (o : nat) (s : dstate) : option (dstate + (list bool * St)) :=
    let '(vis, stk, s) := s in
    match stk with
    | [] => Some (inr (vis, s))
    | (u, i) :: rest =>
      let d := length stk in
      let* l := nth_error g u in
      match nth_error l i with
      | Some e =>
        let v := fst e in let stk := (u, S i) :: rest in
        let* b := nth_error vis v in
        if (b : bool) then Some (inl (vis, stk, s)) else
        let* '(c, s) := visitor o (Some u) (Some v) d s in
        if (c : bool) then let* vis := set_nth vis v true in Some (inl (vis, (v, 0) :: stk, s)) else Some (inl (vis, stk, s))
      | None => let* '(_, s) := visitor o (Some u) None d s in Some (inl (vis, rest, s))
      end
    end.
  Definition dfs_fuel (g : graph) : Z := Z.of_nat (length (concat g) + length g) + 2.
  (** 38-61: the body of the loop over o *)
  Definition dfs_root (g : graph) (o : nat) (s : list bool * St) : option (list bool * St) :=
    let '(vis, s) := s in
    let* b := nth_error vis o in
    if (b : bool) then Some (vis, s) else
    let* '(c, s) := visitor o None (Some o) 0 s in
    if (c : bool) then let* vis := set_nth vis o true in loopZ (dfs_fuel g) (dfs_step g o) (vis, [(o, 0)], s)
    else loopZ (dfs_fuel g) (dfs_step g o) (vis, [], s).
  (** 31-62: source = -1 is None *)
  Definition iterative_dfs (g : graph) (source : option nat) (s : St) : option St :=
    let vis := repeat false (length g) in
    let* '(_, s) := match source with
                    | Some o => dfs_root g o (vis, s)
                    | None => for_range 0 (length g) (dfs_root g) (vis, s)
                    end in Some s.
End Dfs.

Section Topo.
  Context {W : Type}.
  Notation graph := (list (list (nat * W))).
  (** iterative_dfs.h 64-72 parents *)
  Definition parents (g : graph) : option (list (option nat)) :=
    iterative_dfs (fun _ parent node _ vp => match node with Some v => let* vp := set_nth vp v parent in Some (true, vp) | None => Some (true, vp) end)
      g None (repeat None (length g)).
  (** topological_sort.h 20-29 *)
  Definition in_degrees (g : graph) : option (list nat) :=
    for_range 0 (length g) (fun i deg => let* l := nth_error g i in
      for_each (fun e deg => let* x := nth_error deg (fst e) in set_nth deg (fst e) (S x)) l deg) (repeat 0 (length g)).
  (** 42-46: the lambda. Reading deg[node] with node = -1 does not happen: the parent is -1 only at a root. *)
  Definition topo_visitor (deg : list nat) (root : nat) (parent node : option nat) (depth : nat) (topo : list nat) : option (bool * list nat) :=
    match parent, node with
    | None, None => None
    | None, Some v => let* d := nth_error deg v in if 0 <? d then Some (false, topo) else Some (true, topo)
    | Some p, None => Some (true, topo ++ [p])
    | Some _, Some _ => Some (true, topo)
    end.
  (** 38-49 *)
  Definition topological_sort (g : graph) : option (list nat) :=
    let* deg := in_degrees g in let* topo := iterative_dfs (topo_visitor deg) g None [] in Some (rev topo).
End Topo.
