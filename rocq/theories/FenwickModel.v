(** Model of include/altruct/structure/math/fenwick_tree.h.
    Indices are unbounded Z (size_t wrap-around is not modelled: it needs a
    vector of more than 2^63 elements). *)
From Verif Require Import Lib.
Local Open Scope Z_scope.

Section Fenwick.
  Context {T : Type}.
  Variable f : T -> T -> T.

  (** fenwick_tree.h:34-36 *)
  Definition fw_lo_bit (index : Z) : Z := Z.land index (- index).

  (** fenwick_tree.h:17-18 *)
  Definition fw_new (sz : nat) (id : T) : list T := repeat id (sz + 1).

  (** fenwick_tree.h:20-22 *)
  Definition fw_reset (v : list T) (id : T) : list T := repeat id (length v).

  (** fenwick_tree.h:24-26 *)
  Definition fw_add (v : list T) (index : nat) (val : T) : option (list T) :=
    loopZ (Z.of_nat (length v) + 1)
      (fun '(i, v) =>
         if i <? Z.of_nat (length v) then
           let* a := nth_error v (Z.to_nat i) in
           let* v := set_nth v (Z.to_nat i) (f a val) in
           Some (inl (i + fw_lo_bit i, v))
         else Some (inr v))
      (Z.of_nat index + 1, v).

  (** fenwick_tree.h:28-32 *)
  Definition fw_get_sum (v : list T) (index : nat) (id : T) : option T :=
    loopZ (Z.of_nat index + 2)
      (fun '(i, r) =>
         if 0 <? i then
           let* a := nth_error v (Z.to_nat i) in
           Some (inl (i - fw_lo_bit i, f r a))
         else Some (inr r))
      (Z.of_nat index + 1, id).

  (** calls a user makes *)
  Inductive fw_op := FAdd (index : nat) (val : T) | FReset.
  Definition fw_step (id : T) (v : list T) (o : fw_op) : option (list T) :=
    match o with FAdd i x => fw_add v i x | FReset => Some (fw_reset v id) end.
  Fixpoint fw_run (id : T) (v : list T) (os : list fw_op) : option (list T) :=
    match os with [] => Some v | o :: os => let* v := fw_step id v o in fw_run id v os end.
End Fenwick.
Arguments FReset {T}.
