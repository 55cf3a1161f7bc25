(** Rooted forests under changes of their edges and of the values of their nodes; independent of the model. *)
From Verif Require Import Lib.
From Coq Require Import Arith Lia.
Open Scope nat_scope.

(** the ancestors of v in the forest with parent function F, from v itself to its root; 0 is no node *)
Inductive lineage (F : nat -> nat) : nat -> list nat -> Prop :=
| lin_none : lineage F 0 []
| lin_node v l : v <> 0 -> lineage F (F v) l -> lineage F v (v :: l).
Definition set_at {A} (F : nat -> A) (v : nat) (x : A) : nat -> A := fun w => if w =? v then x else F w.

Section Forest.
  Context {T V : Type} (own : T -> V).
  (** nodes 1, ..., size with a parent (0: none) and a value each *)
  Record forest := mk_forest { fsize : nat; fparent : nat -> nat; fval : nat -> V }.
  Definition no_nodes (dflt : V) : forest := mk_forest 0 (fun _ => 0) (fun _ => dflt).
  Inductive op := Add (x : T) | Link (v p : nat) | Cut (v : nat) | Root (v : nat) | Parent (v : nat) | Lca (v w : nat) | Depth (v : nat) | Get (v : nat) | Set_ (v : nat) (x : T).
  Inductive answer := Done | Node (v : nat) | Number (d : nat) | Value (x : T).
  Definition is_node (s : forest) (v : nat) : Prop := 1 <= v <= fsize s.
  (** what the caller has to respect: only roots are linked, and not to their own descendants *)
  Definition legal_op (s : forest) (o : op) : Prop :=
    match o with
    | Add _ => True
    | Link v p => is_node s v /\ is_node s p /\ fparent s v = 0 /\ (forall l, lineage (fparent s) p l -> ~ In v l)
    | Cut v | Root v | Parent v | Depth v | Get v | Set_ v _ => is_node s v
    | Lca v w => is_node s v /\ is_node s w
    end.
  Definition next (s : forest) (o : op) : forest :=
    match o with
    | Add x => mk_forest (S (fsize s)) (set_at (fparent s) (S (fsize s)) 0) (set_at (fval s) (S (fsize s)) (own x))
    | Link v p => mk_forest (fsize s) (set_at (fparent s) v p) (fval s)
    | Cut v => mk_forest (fsize s) (set_at (fparent s) v 0) (fval s)
    | Set_ v x => mk_forest (fsize s) (fparent s) (set_at (fval s) v (own x))
    | _ => s
    end.
  (** the sign that a callback returns tells where the searched depth k lies; path starts at the root *)
  Definition steers (O : nat -> V) (path : list nat) (f : T -> T -> T -> Z -> Z) (k : Z) : Prop :=
    forall i v, nth_error path i = Some v -> forall a b c, own a = O v -> Z.sgn (f a b c (Z.of_nat i)) = Z.sgn (k - Z.of_nat i).
  (** aggregates of the values along a path *)
  Context {M : Type} (agg : T -> M) (elt : V -> M) (unit_ : M) (op_ : M -> M -> M).
  Definition path_total (O : nat -> V) (l : list nat) : M := fold_right op_ unit_ (map (fun v => elt (O v)) l).
  Definition correct_answer (s : forest) (o : op) (a : answer) : Prop :=
    match o, a with
    | Add _, Node v => v = S (fsize s)
    | (Link _ _ | Cut _ | Set_ _ _), Done => True
    | Root v, Node r => exists l, lineage (fparent s) v l /\ r = last l 0
    | Parent v, Node p => p = fparent s v
    | Lca v w, Node c => exists lv lw, lineage (fparent s) v lv /\ lineage (fparent s) w lw /\
        ((c = 0 /\ forall x, In x lv -> ~ In x lw) \/ (In c lv /\ In c lw /\ exists lc, lineage (fparent s) c lc /\ forall x, In x lv -> In x lw -> In x lc))
    | Depth v, Number d => exists l, lineage (fparent s) v l /\ S d = length l
    | Get v, Value x => own x = fval s v /\ exists l, lineage (fparent s) v l /\ agg x = path_total (fval s) (rev l)
    | _, _ => False
    end.
  Fixpoint legal (s : forest) (os : list op) : Prop := match os with [] => True | o :: os => legal_op s o /\ legal (next s o) os end.
  Fixpoint correct (s : forest) (os : list op) (rs : list answer) : Prop :=
    match os, rs with
    | [], [] => True
    | o :: os, r :: rs => correct_answer s o r /\ correct (next s o) os rs
    | _, _ => False
    end.
End Forest.
