(** experimental/include/altruct/algorithm/graph/transitive_closure.h. A graph is a list of out-edge lists (GraphModel). The resulting
    graph<edge> is the list of its target lists. stk is a list whose head is the back of the vector. *)
From Verif Require Import Lib.
Open Scope nat_scope.

Section Model.
  Context {W : Type}.
  Notation edge := (nat * W)%type.
  Notation graph := (list (list edge)).

  (** for (const auto& e : l) body *)
  Fixpoint for_each {A S} (body : A -> S -> option S) (l : list A) (s : S) : option S :=
    match l with [] => Some s | e :: l => let* s := body e s in for_each body l s end.

  (** transitive_closure.h 27-33: the body of the loop over the edges of u *)
  Definition tc_edge (e : edge) (s : list Z * list nat * list nat) : option (list Z * list nat * list nat) :=
    let '(d, stk, row) := s in let v := fst e in
    let* x := nth_error d v in
    if negb (x =? 0)%Z then Some s else let* d := set_nth d v 1%Z in Some (d, v :: stk, row ++ [v]).
  (** 25-34: while (!stk.empty()) *)
  Definition tc_step (g : graph) (s : list Z * list nat * list nat) : option (list Z * list nat * list nat + list nat) :=
    let '(d, stk, row) := s in
    match stk with
    | [] => Some (inr row)
    | u :: stk => let* l := nth_error g u in let* s := for_each tc_edge l (d, stk, row) in Some (inl s)
    end.
  (** 21-24 and the loop; at most 2 n + 2 iterations (enough: C139) *)
  Definition tc_row (g : graph) (i : nat) : option (list nat) :=
    let* d := set_nth (repeat 0%Z (length g)) i (-1)%Z in
    loopZ (2 * Z.of_nat (length g) + 2) (tc_step g) (d, [i], []).
  (** 19-37 *)
  Definition transitive_closure (g : graph) : option (list (list nat)) :=
    for_range 0 (length g) (fun i res => let* row := tc_row g i in Some (res ++ [row])) [].

  (** 61-65: the successors of i *)
  Definition tr_succ (e : edge) (s : list Z * list nat) : option (list Z * list nat) :=
    let '(d, stk) := s in let v := fst e in
    let* x := nth_error d v in
    let stk := if (x =? 0)%Z then v :: stk else stk in
    let* d := set_nth d v 1%Z in Some (d, stk).
  (** 69-73 *)
  Definition tr_edge (e : edge) (s : list Z * list nat) : option (list Z * list nat) :=
    let '(d, stk) := s in let v := fst e in
    let* x := nth_error d v in
    let stk := if (x =? 0)%Z then v :: stk else stk in
    let* d := set_nth d v (-1)%Z in Some (d, stk).
  (** 67-74 *)
  Definition tr_step (g : graph) (s : list Z * list nat) : option (list Z * list nat + list Z) :=
    let '(d, stk) := s in
    match stk with
    | [] => Some (inr d)
    | u :: stk => let* l := nth_error g u in let* s := for_each tr_edge l (d, stk) in Some (inl s)
    end.
  (** 58-77 *)
  Definition tr_row (g : graph) (i : nat) : option (list nat) :=
    let* d := set_nth (repeat 0%Z (length g)) i (-1)%Z in
    let* l := nth_error g i in
    let* '(d, stk) := for_each tr_succ l (d, []) in
    let* d := set_nth d i (-1)%Z in
    let* d := loopZ (2 * Z.of_nat (length g) + 2) (tr_step g) (d, stk) in
    for_range 0 (length g) (fun v row => let* x := nth_error d v in Some (if (x =? 1)%Z then row ++ [v] else row)) [].
  (** 55-80 *)
  Definition transitive_reduction (g : graph) : option (list (list nat)) :=
    for_range 0 (length g) (fun i res => let* row := tr_row g i in Some (res ++ [row])) [].
End Model.
