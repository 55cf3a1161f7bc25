(** The partition generated by the united pairs. *)
From Verif Require Import Lib DisjointSetModel.
From Coq Require Import Relations.

Inductive ds_op := DUnite (x y : nat) | DFind (x : nat) | DCount (x : nat) | DAddCount (x c : nat).

(** the pairs united so far *)
Fixpoint ds_pairs (os : list ds_op) : list (nat * nat) :=
  match os with
  | [] => []
  | DUnite x y :: os => (x, y) :: ds_pairs os
  | _ :: os => ds_pairs os
  end.
(** connected through the given pairs *)
Definition conn (ps : list (nat * nat)) : nat -> nat -> Prop :=
  clos_refl_sym_trans nat (fun x y => In (x, y) ps).
(** the weight of element z: itself, plus everything added at z *)
Fixpoint ds_weight (os : list ds_op) (z : nat) : nat :=
  match os with
  | [] => 1
  | DAddCount x c :: os => (if x =? z then c else 0) + ds_weight os z
  | _ :: os => ds_weight os z
  end.
(** number of elements: the initial size, extended to cover every index mentioned *)
Fixpoint ds_extent (sz : nat) (os : list ds_op) : nat :=
  match os with
  | [] => sz
  | DUnite x y :: os => ds_extent (Nat.max sz (Nat.max (x + 1) (y + 1))) os
  | DFind x :: os | DCount x :: os | DAddCount x _ :: os => ds_extent (Nat.max sz (x + 1)) os
  end.

Definition ds_do (s : dset) (o : ds_op) : option dset :=
  match o with
  | DUnite x y => let* '(_, s) := ds_unite s x y in Some s
  | DFind x => let* '(_, s) := ds_find s x in Some s
  | DCount x => let* '(_, s) := ds_count s x in Some s
  | DAddCount x c => ds_add_count s x c
  end.
Fixpoint ds_run (s : dset) (os : list ds_op) : option dset :=
  match os with
  | [] => Some s
  | o :: os => let* s := ds_do s o in ds_run s os
  end.

(** cls lists the elements below n related to x, each once *)
Definition class_of (n : nat) (ps : list (nat * nat)) (x : nat) (cls : list nat) : Prop :=
  NoDup cls /\ forall z, In z cls <-> z < n /\ conn ps x z.
(** reps picks one element out of every class *)
Definition transversal (n : nat) (ps : list (nat * nat)) (reps : list nat) : Prop :=
  NoDup reps /\ (forall r, In r reps -> r < n) /\
  (forall z, z < n -> exists r, In r reps /\ conn ps z r) /\
  (forall r1 r2, In r1 reps -> In r2 reps -> conn ps r1 r2 -> r1 = r2).
