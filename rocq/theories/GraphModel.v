(** structure/graph/graph.h: the editing operations of graph<E> with E = weighted_edge<W> (edge is the case W = unit).
    Nodes are nat: a negative int index is undefined behaviour in the code. Arguments are passed by value: a reference into the
    graph itself as the edge argument is not modelled. [srt] stands for std::sort by the target. *)
From Verif Require Import Lib.
Open Scope nat_scope.

Section Model.
Context {W : Type}.
Notation edge := (nat * W)%type.
Notation graph := (list (list edge)).
Variable srt : list edge -> list edge.

(** graph.h: graph(int n) 71, size 77, num_edges 78 *)
Definition g_new (n : nat) : graph := repeat [] n.
Definition g_size (g : graph) : nat := length g.
Definition g_num_edges (g : graph) : nat := fold_left (fun e l => e + length l) g 0.
(** graph.h: add_node 84, add_edge 85 *)
Definition g_add_node (g : graph) : graph * nat := (g ++ [[]], length (g ++ [[]]) - 1).
Definition g_add_edge (g : graph) (u : nat) (e : edge) : option graph := let* l := nth_error g u in set_nth g u (l ++ [e]).
(** graph.h: add_edge2 87-91; the assignment to back().v is folded into the second push_back *)
Definition g_add_edge2 (g : graph) (u : nat) (e : edge) : option graph :=
  let* g := g_add_edge g u e in g_add_edge g (fst e) (u, snd e).
(** std::swap(l[i], l.back()); l.pop_back() in graph.h 96-97, 111-112 *)
Definition swap_pop (l : list edge) (i : nat) : option (list edge) :=
  let* x := nth_error l i in let* y := nth_error l (length l - 1) in
  let* l := set_nth l i y in let* l := set_nth l (length l - 1) x in Some (removelast l).
(** the loops of graph.h 94-101 (f = identity) and 109-117 (f relabels): edges that hit are replaced by the last one, the others pass through f *)
Fixpoint sweep (fuel : nat) (hit : nat -> bool) (f : nat -> nat) (i : nat) (l : list edge) : option (list edge) :=
  match fuel with
  | O => None
  | S k =>
      if i <? length l then
        let* e := nth_error l i in
        if hit (fst e) then let* l := swap_pop l i in sweep k hit f i l
        else let* l := set_nth l i (f (fst e), snd e) in sweep k hit f (S i) l
      else Some l
  end.
(** graph.h: delete_edge 93-102 *)
Definition g_delete_edge (g : graph) (u v : nat) : option graph :=
  let* l := nth_error g u in let* l := sweep (S (length l)) (fun x => x =? v) (fun x => x) 0 l in set_nth g u l.
(** for (auto& l : adjl) *)
Fixpoint each_list (f : list edge -> option (list edge)) (g : graph) : option graph :=
  match g with [] => Some [] | l :: g => let* l := f l in let* g := each_list f g in Some (l :: g) end.
(** graph.h: delete_node 104-119 *)
Definition g_delete_node (g : graph) (u : nat) : option graph :=
  let v := length g - 1 in
  let* lu := nth_error g u in let* lv := nth_error g v in
  let* g := set_nth g u lv in let* g := set_nth g v lu in let g := removelast g in
  each_list (fun l => sweep (S (length l)) (fun x => x =? u) (fun x => if x =? v then u else x) 0 l) g.
(** std::unique: the first of every run of edges with equal targets *)
Fixpoint unique_from (x : nat) (l : list edge) : list edge :=
  match l with [] => [] | e :: l => if x =? fst e then unique_from x l else e :: unique_from (fst e) l end.
Definition unique (l : list edge) : list edge := match l with [] => [] | e :: l => e :: unique_from (fst e) l end.
(** graph.h: deduplicate_edges 130-134 *)
Definition g_deduplicate_edges (g : graph) (u : nat) : option graph :=
  let* l := nth_error g u in set_nth g u (unique (srt l)).
(** graph.h: contract 121-128; inserting a vector into itself (u = v) is undefined *)
Definition g_contract (g : graph) (u v : nat) : option graph :=
  let* g := g_delete_edge g u v in let* g := g_delete_edge g v u in
  let* _ := guard (negb (u =? v)) in
  let* lu := nth_error g u in let* lv := nth_error g v in let* g := set_nth g u (lu ++ lv) in
  let g := map (map (fun e => (if fst e =? v then u else fst e, snd e))) g in
  let* g := g_delete_node g v in
  for_range 0 (length g) (fun i g => g_deduplicate_edges g i) g.
End Model.
