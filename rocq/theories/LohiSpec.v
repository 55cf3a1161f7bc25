(** Specification: a finite map as a partial function, and what the calls do to it. *)
From Verif Require Import Lib LohiModel.
Open Scope nat_scope.
Section Spec.
Context {T : Type}.
Variable dflt : T.
Definition fmap := nat -> option T.
Definition put (m : fmap) (k : nat) (v : option T) : fmap := fun j => if k =? j then v else m j.
Definition size1 (o : option T) : nat := match o with Some _ => 1 | None => 0 end.
Definition key_of (o : @mop T) : nat := match o with MInsert k _ | MPut k _ | MRead k | MErase k => k end.
Definition map_step (m : fmap) (o : mop) : fmap * mres :=
  match o with
  | MInsert k v => match m k with Some _ => (m, RFlag false) | None => (put m k (Some v), RFlag true) end
  | MPut k v => (put m k (Some v), RUnit)
  | MRead k => match m k with Some v => (m, RVal v) | None => (put m k (Some dflt), RVal dflt) end
  | MErase k => (put m k None, RNum (size1 (m k)))
  end.
Fixpoint map_run (m : fmap) (os : list mop) : fmap * list mres :=
  match os with [] => (m, []) | o :: os => let '(m, r) := map_step m o in let '(m, rs) := map_run m os in (m, r :: rs) end.
(** the histories covered: every key is allowed, and m[k] is read as a value only when k is present, or was never erased, or free k holds *)
Fixpoint covered (allowed free : nat -> Prop) (m : fmap) (erased : list nat) (os : list mop) : Prop :=
  match os with
  | [] => True
  | o :: os => allowed (key_of o) /\ match o with MRead k => m k <> None \/ ~ In k erased \/ free k | _ => True end /\
    covered allowed free (fst (map_step m o)) (match o with MErase k => k :: erased | _ => erased end) os
  end.
End Spec.
(** keys of a sqrt_map with split point ml and largest key mk *)
Definition sqrt_key (ml mk k : nat) : Prop := k <= ml \/ exists j, 1 <= j /\ k = mk / j.
