(** How a caller performs each operation of [LctSpec.op] on the model, one after the other. *)
From Verif Require Import Lib LctModel LctSpec.

Section Run.
  Context {T : Type} (f_up : T -> T -> T -> T) (id : T).
  Definition run_op (s : lct T) (o : op) : option (lct T * answer) :=
    match o with
    | Add x => let (s, i) := lct_add s x in Some (s, Node i)
    | Link v p => let* s := lct_link f_up s v p in Some (s, Done)
    | Cut v => let* s := lct_cut f_up s v in Some (s, Done)
    | Root v => let* '(s, r) := lct_find_root f_up s v in Some (s, Node r)
    | Parent v => let* '(s, p) := lct_find_parent f_up s v in Some (s, Node p)
    | Lca v w => let* '(s, c) := lct_find_lca f_up s v w in Some (s, Node c)
    | Depth v => let* '(s, d) := lct_depth f_up s v in Some (s, Number d)
    | Get v => let* '(s, x) := lct_get f_up s v in Some (s, Value x)
    | Set_ v x => let* s := lct_set f_up s v x in Some (s, Done)
    end.
  Fixpoint run_ops (s : lct T) (os : list op) : option (lct T * list answer) :=
    match os with
    | [] => Some (s, [])
    | o :: os => let* '(s, a) := run_op s o in let* '(s, l) := run_ops s os in Some (s, a :: l)
    end.
End Run.
