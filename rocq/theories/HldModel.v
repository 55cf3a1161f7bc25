(** experimental/include/altruct/algorithm/graph/heavy_light_decomposition.h. A node, position or parent of -1 is None. *)
From Verif Require Import Lib ClosModel DfsModel SegTreeModel LcaModel.
Open Scope nat_scope.

Section Hld.
  Context {W : Type}.
  Notation graph := (list (list (nat * W))).
  Definition same_node (a : nat) (b : option nat) : bool := match b with Some b => a =? b | None => false end.
  (** heavy_light_decomposition.h 41-50: the first lambda *)
  Definition size_visitor (g : graph) (root : nat) (parent node : option nat) (depth : nat) (st : list (option nat) * list nat) : option (bool * (list (option nat) * list nat)) :=
    let '(par, sizes) := st in
    match node with
    | None =>
      let* p := parent in let* l := nth_error g p in let* pp := nth_error par p in
      let* sizes := for_each (fun e sizes =>
        if negb (same_node (fst e) pp) then let* a := nth_error sizes p in let* b := nth_error sizes (fst e) in set_nth sizes p (a + b) else Some sizes) l sizes in
      Some (true, (par, sizes))
    | Some v => let* par := set_nth par v parent in Some (true, (par, sizes))
    end.
  (** 53-59: the edge to the child of the greatest size *)
  Definition heavy_edge (par : list (option nat)) (sizes : list nat) (u : nat) (l : list (nat * W)) : option nat :=
    let* pu := nth_error par u in
    let* '(hi, _) := for_range 0 (length l) (fun i s => let '(hi, hs) := s in
      let* e := nth_error l i in let* sz := nth_error sizes (fst e) in
      Some (if negb (same_node (fst e) pu) && (hs <? sz) then (i, sz) else (hi, hs))) (0, 0) in
    Some hi.
  (** 60: std::swap(g[u][0].v, g[u][heavy_i].v); the weights stay *)
  Definition swap_targets (l : list (nat * W)) (i : nat) : option (list (nat * W)) :=
    let* a := nth_error l 0 in let* b := nth_error l i in
    let* l := set_nth l 0 (fst b, snd a) in let* b' := nth_error l i in set_nth l i (fst a, snd b').
  (** 51-61 *)
  Definition reorder (par : list (option nat)) (sizes : list nat) (g : graph) : option graph :=
    for_range 0 (length g) (fun u g => let* l := nth_error g u in
      if length l <? 2 then Some g else let* i := heavy_edge par sizes u l in let* l := swap_targets l i in set_nth g u l) g.
  (** 62-73: pos, par (-2 is None), parents, positions, nodes *)
  Record lay := Lay { l_pos : nat; l_par : option (option nat); l_parents : list (option nat); l_positions : list (option nat); l_nodes : list (option nat) }.
  Definition layout_visitor (root : nat) (parent node : option nat) (depth : nat) (st : lay) : option (bool * lay) :=
    match node with
    | Some v =>
      let par := match l_par st with None => parent | Some p => p end in
      let* ps := set_nth (l_parents st) v par in
      let* qs := set_nth (l_positions st) v (Some (l_pos st)) in
      let* ns := set_nth (l_nodes st) (l_pos st) (Some v) in
      Some (true, Lay (S (l_pos st)) (Some par) ps qs ns)
    | None => Some (true, Lay (l_pos st) None (l_parents st) (l_positions st) (l_nodes st))
    end.
  Record hld_t := Hld { h_parents : list (option nat); h_positions : list (option nat); h_nodes : list (option nat); h_sizes : list nat }.
  (** 36-74 the constructor; it also changes the graph *)
  Definition hld_build (g : graph) : option (graph * hld_t) :=
    let n := length g in
    let* '(par, sizes) := iterative_dfs (size_visitor g) g None (repeat None n, repeat 1 n) in
    let* g := reorder par sizes g in
    let* l := iterative_dfs layout_visitor g None (Lay 0 None par (repeat None n) (repeat None n)) in
    Some (g, Hld (l_parents l) (l_positions l) (l_nodes l) sizes).
  (** 79-97 *)
  Definition hld_parent (h : hld_t) (u : nat) : option (option nat) := nth_error (h_parents h) u.
  Definition hld_position (h : hld_t) (u : nat) : option (option nat) := nth_error (h_positions h) u.
  Definition hld_node (h : hld_t) (p : nat) : option (option nat) := nth_error (h_nodes h) p.
  Definition hld_size (h : hld_t) (u : nat) : option nat := nth_error (h_sizes h) u.
  (** 101-110 heavy_light_decomposition_ex: lca is built before the graph is reordered *)
  Definition hldx_build (g : graph) : option (lca_t * (graph * hld_t)) :=
    let* t := lca_build g in let* h := hld_build g in Some (t, h).
End Hld.
Definition zn (x : option nat) : Z := match x with Some v => Z.of_nat v | None => (-1)%Z end.
(** 126-135: parent(u, k); every iteration goes to a node of smaller depth *)
Fixpoint kth_loop (fuel : nat) (t : lca_t) (h : hld_t) (d : Z) (u : nat) : option (option nat) :=
  match fuel with
  | O => None
  | S fuel =>
    let* p := hld_parent h u in
    let* dp := lca_depth t (zn p) in
    if (dp <? d)%Z then
      let* q := hld_position h u in let* du := lca_depth t (Z.of_nat u) in
      let i := (zn q - (du - d))%Z in
      if (i <? 0)%Z then None else hld_node h (Z.to_nat i)
    else let* p := p in kth_loop fuel t h d p
  end.
(** 123-135 *)
Definition kth_parent (t : lca_t) (h : hld_t) (u : nat) (k : Z) : option (option nat) :=
  let* du := lca_depth t (Z.of_nat u) in
  if ((k <? 0) || (du <? k))%Z then Some None else kth_loop (S (length (h_parents h))) t h (du - k)%Z u.
Definition same (a b : option nat) : bool := match a, b with Some a, Some b => a =? b | None, None => true | _, _ => false end.
Definition to_node (a : Z) : option nat := if (a <? 0)%Z then None else Some (Z.to_nat a).
(** 154-162 and 164-172: one of the two loops of walk; [mk dw len] gives path_first and path_last; the result lists the arguments of the calls of the visitor *)
Fixpoint walk_loop (fuel : nat) (t : lca_t) (h : hld_t) (a : option nat) (mk : Z -> Z -> Z * Z) (rev : bool) (uv : Z) (w : option nat) : option (list (Z * Z * Z * Z * Z * bool)) :=
  match fuel with
  | O => None
  | S fuel =>
    if same w a then Some [] else
    let* x := w in
    let* p := hld_parent h x in
    let* dp := lca_depth t (zn p) in let* da := lca_depth t (zn a) in
    let p := if (dp <? da)%Z then a else p in
    let* dw := lca_depth t (zn w) in let* dp := lca_depth t (zn p) in
    let len := (dw - dp)%Z in
    let* q := hld_position h x in
    let e := (zn q + 1)%Z in
    let '(f, l) := mk dw len in
    let* r := walk_loop fuel t h a mk rev uv p in
    Some ((e - len, e, f, l, uv, rev)%Z :: r)
  end.
(** 150-180 walk: the returned length and the calls of the visitor; every iteration goes to a node of smaller depth *)
Definition hld_walk (t : lca_t) (h : hld_t) (u v : nat) (include : bool) : option (Z * list (Z * Z * Z * Z * Z * bool)) :=
  let* a := lca_ancestor t (Z.of_nat u) (Z.of_nat v) in
  let* d := lca_distance t (Z.of_nat u) (Z.of_nat v) in
  let uv := (d + (if include then 1 else 0))%Z in
  let a := to_node a in
  let fuel := S (length (h_parents h)) in
  let* du := lca_depth t (Z.of_nat u) in
  let* dv := lca_depth t (Z.of_nat v) in
  let* up := walk_loop fuel t h a (fun dw len => let s := du - dw in (s + len - 1, s))%Z true uv (Some u) in
  let* down := walk_loop fuel t h a (fun dw len => let s := uv - (dv - dw) in (s - len, s - 1))%Z false uv (Some v) in
  if include then
    let* x := a in
    let* q := hld_position h x in
    let* da := lca_depth t (Z.of_nat x) in
    let d := (du - da)%Z in
    Some (uv, up ++ down ++ [(zn q, zn q + 1, d, d, uv, false)%Z])
  else Some (uv, up ++ down).
(** 182-189 *)
Definition walk_nodes t h u v := hld_walk t h u v true.
Definition walk_edges t h u v := hld_walk t h u v false.
