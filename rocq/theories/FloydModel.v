(** experimental/include/altruct/algorithm/graph/floyd_warshall.h: E = weighted_edge<W>. An entry { v, w } is (Some v, w); { -1, w } is (None, w).
    Weights are unbounded integers. *)
From Verif Require Import Lib ClosModel.
Open Scope nat_scope.

Notation entry := (option nat * Z)%type.
Notation table := (list (list entry)).
(** res[i][j], res[i][j] = e *)
Definition t_get (t : table) (i j : nat) : option entry := let* r := nth_error t i in nth_error r j.
Definition t_set (t : table) (i j : nat) (e : entry) : option table := let* r := nth_error t i in let* r := set_nth r j e in set_nth t i r.

(** floyd_warshall.h 30-33 *)
Definition fw_edge (i : nat) (e : nat * Z) (t : table) : option table :=
  let '(v, w) := e in let* '(_, x) := t_get t i v in t_set t i v (Some v, Z.min x w).
(** 28-34 *)
Definition fw_init (g : list (list (nat * Z))) (i : nat) (t : table) : option table :=
  let* t := t_set t i i (Some i, 0%Z) in let* l := nth_error g i in for_each (fw_edge i) l t.
(** 39-46 *)
Definition fw_relax (i u v : nat) (t : table) : option table :=
  let* '(a, da) := t_get t u i in let* '(b, db) := t_get t i v in
  match a, b with
  | Some a, Some _ => let* '(_, d) := t_get t u v in if (da + db <? d)%Z then t_set t u v (Some a, da + db)%Z else Some t
  | _, _ => Some t
  end.
(** 24-51 *)
Definition floyd_warshall (g : list (list (nat * Z))) (inf : Z) : option table :=
  let n := length g in
  let* t := for_range 0 n (fw_init g) (repeat (repeat (None, inf) n) n) in
  for_range 0 n (fun i => for_range 0 n (fun u => for_range 0 n (fun v => fw_relax i u v))) t.
