(** experimental/include/altruct/algorithm/graph/chain_decomposition.h: what is computed from a chain decomposition:
    cut_edges, cut_vertices and biconnected_components.  A graph is the list of the targets of its edges for each
    node; an unordered_set is a list without duplicates, in any order.  Not modelled: chain_decomposition itself (the
    decomposition is any value) and block_cut_tree. *)
From Verif Require Import Lib.

Definition graph := list (list nat).
Definition edge := (nat * nat)%type.
Definition edge_eqb (e f : edge) : bool := (fst e =? fst f) && (snd e =? snd f).
(** unordered_set::insert and erase *)
Definition insert (s : list edge) (e : edge) : list edge := if existsb (edge_eqb e) s then s else e :: s.
Definition erase (s : list edge) (e : edge) : list edge := filter (fun f => negb (edge_eqb e f)) s.
(** 93-98: the edges with u < v, of the nodes from u on *)
Fixpoint all_edges (u : nat) (g : graph) (s : list edge) : list edge :=
  match g with
  | [] => s
  | adj :: g => all_edges (S u) g (fold_left (fun s v => if u <? v then insert s (u, v) else s) adj s)
  end.
(** 102-106: erase the edges of a chain *)
Fixpoint erase_chain (s : list edge) (chain : list nat) : list edge :=
  match chain with
  | u :: ((v :: _) as r) => erase_chain (erase s (if v <? u then (v, u) else (u, v))) r
  | _ => s
  end.
(** 99-110: cut_edges *)
Definition decomposition := list (list (list (list nat))).
Definition cut_edges (g : graph) (d : decomposition) : list edge :=
  fold_left (fun s component => fold_left (fun s block => fold_left erase_chain block s) component s) d (all_edges 0 g []).

(** 131-134: the ends of the cut edges are marked *)
Definition mark_ends (ve : list edge) (m : list bool) : option (list bool) :=
  fold_left (fun m e => let* m := m in let* m := set_nth m (snd e) true in set_nth m (fst e) true) ve (Some m).
(** component[i][0][0] *)
Definition head2 (block : list (list nat)) : option nat := let* chain := nth_error block 0 in nth_error chain 0.
(** 135-140: the first vertices of all blocks but the first are marked *)
Definition mark_heads (d : decomposition) (m : list bool) : option (list bool) :=
  fold_left (fun m component =>
    fold_left (fun m block => let* m := m in let* h := head2 block in set_nth m h true) (skipn 1 component) m) d (Some m).
(** 141-144: nodes of degree less than 2 are not cut vertices; 145-149: collect *)
Definition cut_vertices (g : graph) (d : decomposition) (ve : list edge) : option (list nat) :=
  let* m := mark_ends ve (repeat false (length g)) in
  let* m := mark_heads d m in
  Some (filter (fun u => if length (nth u g []) <? 2 then false else nth u m false) (seq 0 (length g))).

(** 171-175: the vertices of the chains of a block that are not yet seen; the loops over the chains and over their
    vertices are one loop over the concatenated chains *)
Fixpoint visit (vs : list nat) (seen : list bool) (acc : list nat) : option (list nat * list bool) :=
  match vs with
  | [] => Some (acc, seen)
  | u :: r =>
    let* b := nth_error seen u in
    if b then visit r seen acc else let* seen := set_nth seen u true in visit r seen (acc ++ [u])
  end.
(** 167-177: the loops over the components and over their blocks, as one loop over the blocks *)
Fixpoint collect (blocks : list (list (list nat))) (seen : list bool) : option (list (list nat)) :=
  match blocks with
  | [] => Some []
  | block :: rest =>
    let* h := head2 block in
    let* seen := set_nth seen h false in
    let* p := visit (concat block) seen [] in
    let* vbc := collect rest (snd p) in
    Some (fst p :: vbc)
  end.
(** 164-179: biconnected_components *)
Definition biconnected_components (g : graph) (d : decomposition) : option (list (list nat)) :=
  collect (concat d) (repeat false (length g)).
