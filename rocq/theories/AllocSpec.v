(** Specification of an allocator: which cells are in use after a sequence of events. *)
From Verif Require Import Lib AllocModel.
Open Scope nat_scope.
Definition after (live : list nat) (e : event) : list nat :=
  match e with Got c => c :: live | Refused => live | Gave c => remove Nat.eq_dec c live end.
Definition live (es : list event) : list nat := fold_left after es [].
(** the client gives back only cells in use *)
Definition disciplined (es : list event) : Prop := forall pre c post, es = pre ++ Gave c :: post -> In c (live pre).
