(** Specification of a prefix-sum structure: the fold of everything added at indices <= j
    since the last reset. *)
From Verif Require Import Lib FenwickModel.

Section Spec.
  Context {T : Type}.
  Record comm_monoid (f : T -> T -> T) (e : T) : Prop := {
    cm_assoc : forall a b c, f a (f b c) = f (f a b) c;
    cm_comm : forall a b, f a b = f b a;
    cm_id : forall a, f e a = a }.

  (** the (index, value) pairs added since the last reset *)
  Definition live_step (l : list (nat * T)) (o : fw_op) : list (nat * T) :=
    match o with FAdd i x => l ++ [(i, x)] | FReset => [] end.
  Definition live (os : list fw_op) : list (nat * T) := fold_left live_step os [].

  Definition prefix_fold (f : T -> T -> T) (e : T) (l : list (nat * T)) (j : nat) : T :=
    fold_right f e (map snd (filter (fun p => fst p <=? j) l)).
End Spec.
