(** The contract a client's functors must satisfy for lazy_segment_tree, and the
    plain-array meaning of its operations. *)
From Verif Require Import Lib LazySegModel.

Section Contract.
  (** T: node type, X: type of the elements a node summarises *)
  Context {T X : Type} (up : T -> T -> T -> T) (down : T -> T -> T -> T * T * T) (id : T).
  (** R t xs: node t correctly summarises the elements xs;
      pend t: the update t still owes to its children;  lv t: the element of a leaf. *)
  Variable R : T -> list X -> Prop.
  Variable pend : T -> X -> X.
  Variable lv : T -> X.

  Definition idle (t : T) : Prop := forall x, pend t x = x.

  Record lazy_contract : Prop := {
    lc_id_idle : idle id;
    lc_id_nil : R id [];
    lc_id_leaf : R id [lv id];   (* padding leaves *)
    lc_up_idle : forall p l r, idle p -> idle (up p l r);
    lc_up_R : forall p l r xs ys, idle p -> R l xs -> R r ys -> R (up p l r) (xs ++ ys);
    lc_down : forall p l r p' l' r', down p l r = (p', l', r') ->
      idle p' /\
      (forall xs, R p xs -> R p' xs) /\
      (forall xs, R l xs -> R l' (map (pend p) xs)) /\
      (forall xs, R r xs -> R r' (map (pend p) xs)) /\
      (forall x, pend l' x = pend p (pend l x)) /\
      (forall x, pend r' x = pend p (pend r x)) /\
      (R l [lv l] -> lv l' = pend p (lv l)) /\
      (R r [lv r] -> lv r' = pend p (lv r))
  }.

  (** the functor f given to update() applies g to every element of the segment when it
      accepts a node, and leaves a node it refuses alone; it never refuses a leaf *)
  Record update_contract (f : T -> T * bool) (g : X -> X) : Prop := {
    uc_yes : forall t t', f t = (t', true) ->
      (forall xs, R t xs -> R t' (map g xs)) /\ (forall x, pend t' x = g (pend t x)) /\
      (R t [lv t] -> lv t' = g (lv t));
    uc_no : forall t t', f t = (t', false) -> t' = t;
    uc_leaf : forall t, R t [lv t] -> snd (f t) = true
  }.
End Contract.

(** g applied to the elements at positions b <= j < e *)
Definition map_range {X} (g : X -> X) (b e : nat) (xs : list X) : list X :=
  firstn b xs ++ map g (firstn (e - b) (skipn b xs)) ++ skipn e xs.
Definition slice {X} (b e : nat) (xs : list X) : list X := firstn (e - b) (skipn b xs).

(** A history of calls, what each get() was asked about, and the array left at the end:
    [hist xs os qs ys] - starting from array xs, the calls os ask for the segments qs (in
    order) and leave ys. *)
Inductive lop (T : Type) :=
| LUpdate (b e : nat) (f : T -> T * bool)
| LGet (b e : nat)
| LRestore (b e : nat).
Arguments LUpdate {T}. Arguments LGet {T}. Arguments LRestore {T}.

Inductive hist {T X} (R : T -> list X -> Prop) (pend : T -> X -> X) (lv : T -> X) :
  list X -> list (lop T) -> list (list X) -> list X -> Prop :=
| h_nil xs : hist R pend lv xs [] [] xs
| h_update xs os qs ys b e f g :
    update_contract R pend lv f g -> b <= e <= length xs ->
    hist R pend lv (map_range g b e xs) os qs ys ->
    hist R pend lv xs (LUpdate b e f :: os) qs ys
| h_get xs os qs ys b e : b <= e <= length xs ->
    hist R pend lv xs os qs ys ->
    hist R pend lv xs (LGet b e :: os) (slice b e xs :: qs) ys
| h_restore xs os qs ys b e : b < e <= length xs ->
    hist R pend lv xs os qs ys ->
    hist R pend lv xs (LRestore b e :: os) qs ys.

(** the calls of a history run one after the other on the modelled tree *)
Fixpoint lst_run {T} (up : T -> T -> T -> T) (down : T -> T -> T -> T * T * T)
    (v : list T) (os : list (lop T)) : option (list T * list T) :=
  match os with
  | [] => Some ([], v)
  | LUpdate b e f :: os => let* v := lst_update up down f v b e in lst_run up down v os
  | LGet b e :: os =>
      let* '(r, v) := lst_get up down v b e in
      let* '(rs, v) := lst_run up down v os in Some (r :: rs, v)
  | LRestore b e :: os => let* v := lst_restore down v b e in lst_run up down v os
  end.
