(** experimental/include/altruct/algorithm/graph/tarjan_scc.h. sta and stk are lists whose head is the back of the vector; low, idx, act and cnt
    are integers as in the code (-1: not set). *)
From Verif Require Import Lib ClosModel DfsModel.
Open Scope nat_scope.

Record tstate := { t_cnt : Z; t_low : list Z; t_idx : list Z; t_act : list Z; t_sta : list nat; t_stk : list (nat * nat); t_vscc : list (list nat) }.

(** tarjan_scc.h 29-31 and 42-44: act[v] = low[v] = idx[v] = cnt++; sta.push_back(v); stk.push_back({ v, 0 }) *)
Definition t_visit (v : nat) (s : tstate) : option tstate :=
  let* idx := set_nth (t_idx s) v (t_cnt s) in
  let* low := set_nth (t_low s) v (t_cnt s) in
  let* act := set_nth (t_act s) v (t_cnt s) in
  Some {| t_cnt := t_cnt s + 1; t_low := low; t_idx := idx; t_act := act; t_sta := v :: t_sta s; t_stk := (v, 0) :: t_stk s; t_vscc := t_vscc s |}.
(** 39 and 60: low[u] = min(low[u], x) *)
Definition t_lower (u : nat) (x : Z) (s : tstate) : option tstate :=
  let* y := nth_error (t_low s) u in
  let* low := set_nth (t_low s) u (Z.min y x) in
  Some {| t_cnt := t_cnt s; t_low := low; t_idx := t_idx s; t_act := t_act s; t_sta := t_sta s; t_stk := t_stk s; t_vscc := t_vscc s |}.
Definition t_set_stk (stk : list (nat * nat)) (s : tstate) : tstate :=
  {| t_cnt := t_cnt s; t_low := t_low s; t_idx := t_idx s; t_act := t_act s; t_sta := t_sta s; t_stk := stk; t_vscc := t_vscc s |}.
(** 49-54: the do loop; back() of an empty vector is None *)
Fixpoint t_pop (u : nat) (sta : list nat) (act : list Z) (scc : list nat) : option (list nat * list Z * list nat) :=
  match sta with
  | [] => None
  | v :: sta => let* act := set_nth act v (-1)%Z in let scc := scc ++ [v] in if v =? u then Some (sta, act, scc) else t_pop u sta act scc
  end.

Section Model.
  Context {W : Type}.
  Notation graph := (list (list (nat * W))).
  (** 32-63: one iteration *)
  Definition t_step (g : graph) (s : tstate) : option (tstate + tstate) :=
    match t_stk s with
    | [] => Some (inr s)
    | (u, i) :: rest =>
      let* l := nth_error g u in
      match nth_error l i with
      | Some e =>
        let v := fst e in
        let s := t_set_stk ((u, S i) :: rest) s in
        let* a := nth_error (t_act s) v in
        let* s := if negb (a =? -1)%Z then let* x := nth_error (t_idx s) v in t_lower u x s else Some s in
        let* x := nth_error (t_idx s) v in
        if negb (x =? -1)%Z then Some (inl s) else
        let* s := t_visit v s in Some (inl s)
      | None =>
        let* lu := nth_error (t_low s) u in let* iu := nth_error (t_idx s) u in
        let* s := if (lu =? iu)%Z then
                    let* '(sta, act, scc) := t_pop u (t_sta s) (t_act s) [] in
                    Some {| t_cnt := t_cnt s; t_low := t_low s; t_idx := t_idx s; t_act := act; t_sta := sta; t_stk := t_stk s; t_vscc := t_vscc s ++ [scc] |}
                  else Some s in
        let s := t_set_stk rest s in
        match rest with
        | [] => Some (inl s)
        | (p, _) :: _ => let* lv := nth_error (t_low s) u in let* s := t_lower p lv s in Some (inl s)
        end
      end
    end.
  (** 27-64: the body of the loop over o *)
  Definition t_root (g : graph) (o : nat) (s : tstate) : option tstate :=
    let* x := nth_error (t_idx s) o in
    if negb (x =? -1)%Z then Some s else
    let* s := t_visit o s in loopZ (dfs_fuel g) (t_step g) s.
  (** 19-67 *)
  Definition tarjan_scc (g : graph) : option (list (list nat)) :=
    let m := repeat (-1)%Z (length g) in
    let* s := for_range 0 (length g) (t_root g) {| t_cnt := 0; t_low := m; t_idx := m; t_act := m; t_sta := []; t_stk := []; t_vscc := [] |} in
    Some (rev (t_vscc s)).
End Model.
