(** Vocabulary for treaps: the heap order of the priorities, and histories with their random numbers. *)
From Verif Require Import Lib BstModel BstSpec TreapModel.
Open Scope nat_scope.

Section Spec.
Context {V K : Type}.
Variable key : V -> K.
Variable cmp : K -> K -> bool.
Notation entry := (nat * V * Z)%type.
Notation heap := (heap (V := V)).

(** no node has a smaller priority than its parent; the sentinel above the root has priority 0 *)
Definition heap_ordered (h : heap) (es : list entry) : Prop := forall p, In p (ids es) -> (bal h (par h p) <= bal h p)%Z.
(** the nodes of es that are still there keep their priorities *)
Definition priorities_kept (h h' : heap) (es es' : list entry) : Prop := forall p, In p (ids es) -> In p (ids es') -> bal h' p = bal h p.

(** an operation with the random number it draws *)
Definition treap_op_run (d : dup) (nil : nat) (o : bst_op V K * Z) (h : heap) : option heap :=
  match fst o with
  | OpInsert v cnt => let* '(h, _) := treap_insert key cmp d h nil v cnt (snd o) in Some h
  | OpErase k cnt => let* '(h, _) := treap_erase key cmp d h nil k cnt in Some h
  end.
Fixpoint treap_ops_run (d : dup) (nil : nat) (ops : list (bst_op V K * Z)) (h : heap) : option heap :=
  match ops with [] => Some h | o :: ops => let* h := treap_op_run d nil o h in treap_ops_run d nil ops h end.
(** histories that do not insert a key again and do not erase some copies of a key only *)
Definition clean_op (d : dup) (o : bst_op V K) (es : list entry) : Prop :=
  match o with
  | OpInsert v _ => d = STORE \/ existsb (equiv key cmp (key v)) es = false
  | OpErase k cnt => d <> COUNT \/ Forall (fun e => equiv key cmp k e = true -> (ecn e <= cnt)%Z) es
  end.
Fixpoint clean_ops (d : dup) (ops : list (bst_op V K)) (es : list entry) : Prop :=
  match ops with [] => True | o :: ops => clean_op d o es /\ clean_ops d ops (op_effect key cmp d o es) end.
End Spec.
