(** Model of experimental algorithm/graph/dinic_flow.h: dinic_flow, and of algorithm/graph/bipartite_matching.h.
    Matrices and arrays are functions on the nodes below n, which all indices are. Capacities are unbounded integers. *)
From Coq Require Import List PeanoNat ZArith.
From Verif Require Import Lib.
Import ListNotations.
Open Scope Z_scope.

Definition matrix := nat -> nat -> Z.
(** assignment to one entry of an array or of a matrix *)
Definition upd {A} (f : nat -> A) (i : nat) (v : A) : nat -> A := fun j => if Nat.eqb i j then v else f j.
Definition upd2 (f : matrix) (u v : nat) (x : Z) : matrix := fun a b => if Nat.eqb u a && Nat.eqb v b then x else f a b.

Section Dinic.
  (** dinic_flow.h:16-18 the number of nodes, infinity, cap *)
  Variables (n : nat) (infinity : Z) (cap : matrix).

  (** dinic_flow.h:22-32 constructor: the neighbours of u in the order in which they are pushed *)
  Definition adjl (u : nat) : list nat :=
    filter (fun v => negb (Nat.eqb v u) && ((0 <? cap u v) || (0 <? cap v u))) (seq 0 n).
  (** dinic_flow.h:54, 84 the edge can take more flow *)
  Definition free (flow : matrix) (u v : nat) : bool := (flow u v <? cap u v) || (0 <? flow v u).

  (** dinic_flow.h:52-58 the neighbours of u *)
  Fixpoint level_scan (flow : matrix) (u : nat) (vs : list nat) (level : nat -> nat) (que : list nat) : (nat -> nat) * list nat :=
    match vs with
    | [] => (level, que)
    | v :: vs =>
      if Nat.eqb (level v) 0 && free flow u v then level_scan flow u vs (upd level v (level u + 1)%nat) (que ++ [v])
      else level_scan flow u vs level que
    end.
  (** dinic_flow.h:50-59 *)
  Fixpoint level_loop (fuel : nat) (flow : matrix) (level : nat -> nat) (que : list nat) : option (nat -> nat) :=
    match fuel with
    | O => None
    | S fuel =>
      match que with
      | [] => Some level
      | u :: que => let '(level, que) := level_scan flow u (adjl u) level que in level_loop fuel flow level que
      end
    end.
  (** dinic_flow.h:45-61 build_level_graph *)
  Definition build_level_graph (flow : matrix) (source : nat) : option (nat -> nat) :=
    level_loop (S n) flow (upd (fun _ => 0%nat) source 1%nat) [source].

  (** dinic_flow.h:96-103 get_path_flow *)
  Fixpoint get_path_flow (fuel : nat) (flow : matrix) (prev : nat -> nat) (source v : nat) (f : Z) : option Z :=
    match fuel with
    | O => None
    | S fuel =>
      let u := prev v in
      if Nat.eqb v source then Some f
      else
        let df := cap u v - flow u v in
        get_path_flow fuel flow prev source u (Z.min f (if 0 <? df then df else flow v u))
    end.
  (** dinic_flow.h:105-118 update_path_flow *)
  Fixpoint update_path_flow (fuel : nat) (flow : matrix) (prev : nat -> nat) (source v : nat) (f : Z) (bottleneck : nat) : option (matrix * nat) :=
    match fuel with
    | O => None
    | S fuel =>
      let u := prev v in
      if Nat.eqb v source then Some (flow, bottleneck)
      else
        let df := cap u v - flow u v in
        if 0 <? df then
          let flow := upd2 flow u v (flow u v + f) in
          update_path_flow fuel flow prev source u f (if cap u v =? flow u v then u else bottleneck)
        else
          let flow := upd2 flow v u (flow v u - f) in
          update_path_flow fuel flow prev source u f (if flow v u =? 0 then u else bottleneck)
    end.
  (** dinic_flow.h:76 the stack is cut back *)
  Fixpoint pop_until (b : nat) (stk : list (nat * nat)) : list (nat * nat) :=
    match stk with
    | [] => []
    | (u, i) :: rest => if Nat.eqb u b then stk else pop_until b rest
    end.
  (** dinic_flow.h:70-92; the top of the stack is the head of the list *)
  Fixpoint blocking_loop (fuel : nat) (level : nat -> nat) (source sink : nat) (flow : matrix) (prev : nat -> nat) (visited : nat -> bool)
      (stk : list (nat * nat)) (ret : Z) : option (matrix * Z) :=
    match fuel with
    | O => None
    | S fuel =>
      match stk with
      | [] => Some (flow, ret)
      | (u, i) :: rest =>
        if Nat.eqb u sink then
          let* f := get_path_flow (S n) flow prev source sink infinity in
          let* '(flow, b) := update_path_flow (S n) flow prev source sink f 0%nat in
          blocking_loop fuel level source sink flow prev visited (pop_until b stk) (ret + f)
        else
          match nth_error (adjl u) i with
          | Some v =>
            let stk := (u, S i) :: rest in
            if visited v || negb (Nat.eqb (level v) (level u + 1)) then blocking_loop fuel level source sink flow prev visited stk ret
            else if free flow u v then
              blocking_loop fuel level source sink flow (upd prev v u) (upd visited v true) ((v, 0%nat) :: stk) ret
            else blocking_loop fuel level source sink flow prev visited stk ret
          | None => blocking_loop fuel level source sink flow prev visited rest ret
          end
      end
    end.
  (** dinic_flow.h:63-94 construct_blocking_flow *)
  Definition construct_blocking_flow (level : nat -> nat) (source sink : nat) (flow : matrix) : option (matrix * Z) :=
    blocking_loop ((n + 2) * (n + 2)) level source sink flow (fun _ => 0%nat) (upd (fun _ => false) source true) [(source, 0%nat)] 0.

  (** dinic_flow.h:38-40 the rounds *)
  Fixpoint flow_loop (fuel : nat) (source sink : nat) (flow : matrix) (f : Z) : option (matrix * Z) :=
    match fuel with
    | O => None
    | S fuel =>
      let* level := build_level_graph flow source in
      if Nat.eqb (level sink) 0 then Some (flow, f)
      else let* '(flow, df) := construct_blocking_flow level source sink flow in flow_loop fuel source sink flow (f + df)
    end.
  (** dinic_flow.h:34-42 calc_max_flow: the flow and its value; the fuel is the capacity of the edges from the source *)
  Definition calc_max_flow (source sink : nat) : option (matrix * Z) :=
    if Nat.eqb source sink then Some (fun _ _ => 0, 0)
    else flow_loop (S (Z.to_nat (fold_right Z.add 0 (map (cap source) (seq 0 n))))) source sink (fun _ _ => 0) 0.
End Dinic.

(** bipartite_matching.h:19-35 bipartite_matching: the edges are pairs of nodes; infinity is that of int *)
Definition bipartite_matching (nodes : nat) (edges : list (nat * nat)) : option (list (nat * nat)) :=
  let src := nodes in
  let sink := S nodes in
  let cap := fold_left (fun cap '(u, v) => upd2 (upd2 (upd2 cap src u 1) u v 1) v sink 1) edges (fun _ _ => 0) in
  let* '(flow, _) := calc_max_flow (S (S nodes)) (2 ^ 31 - 1) cap src sink in
  Some (filter (fun '(u, v) => negb (flow u v =? 0)) edges).
