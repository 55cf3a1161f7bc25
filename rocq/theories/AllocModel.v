(** Model of structure/container/bounded_contiguous_allocator.h. A pointer into the pool is the index of its cell; addresses, object
    construction (construct, destroy) and the bytes of the cells are not modelled. Writes outside ptrs_ and uses of a null ptrs_ are None. *)
From Verif Require Import Lib.
Open Scope nat_scope.

(** capacity_, data_ (allocated or not), available_, ptrs_: 26-29 *)
Record alloc := { cap : nat; data : bool; avail : nat; ptrs : option (list nat) }.
(** constructor: 31-32; the converting constructor: 38-41 *)
Definition alloc_new (n : nat) : alloc := {| cap := n; data := false; avail := n; ptrs := None |}.
Definition alloc_convert (a : alloc) : alloc := alloc_new (cap a).
(** the implicit copy constructor (a template is never one): the members are copied, so both share the pool and the array of pointers;
    the model gives the copy its own array with the same content *)
Definition alloc_copy (a : alloc) : alloc := a.
(** assignment from another instance: 44-48 *)
Definition alloc_assign (a : alloc) (n : nat) : alloc := {| cap := n; data := false; avail := n; ptrs := None |}.
(** clear: 50-53 *)
Definition alloc_clear (a : alloc) : alloc := {| cap := cap a; data := false; avail := avail a; ptrs := None |}.
(** ensure: 55-63; m1 and m2 say whether the two calls of malloc, if made, return memory *)
Definition alloc_ensure (a : alloc) (m1 m2 : bool) : bool * alloc :=
  match ptrs a with
  | Some _ => (true, a)
  | None =>
    let d := if data a then true else m1 in
    if negb d then (false, a) else
    if negb m2 then (false, {| cap := cap a; data := d; avail := avail a; ptrs := None |}) else
    (true, {| cap := cap a; data := d; avail := avail a; ptrs := Some (seq 0 (cap a)) |})
  end.
(** allocate: 67-70; None in the first component is the exception bad_alloc *)
Definition allocate (a : alloc) (n : nat) (m1 m2 : bool) : option (option nat * alloc) :=
  let '(ok, a) := alloc_ensure a m1 m2 in
  if negb ok || negb (n =? 1) || (avail a <? 1) then Some (None, a) else
  match ptrs a with
  | None => None
  | Some l => let* c := nth_error l (avail a - 1) in Some (Some c, {| cap := cap a; data := data a; avail := avail a - 1; ptrs := Some l |})
  end.
(** deallocate: 72-74 *)
Definition deallocate (a : alloc) (c : nat) : option alloc :=
  match ptrs a with
  | None => None
  | Some l => let* l := set_nth l (avail a) c in Some {| cap := cap a; data := data a; avail := avail a + 1; ptrs := Some l |}
  end.

(** histories of calls, with the events a client sees *)
Inductive call := Alloc (n : nat) (m1 m2 : bool) | Free (c : nat).
Inductive event := Got (c : nat) | Refused | Gave (c : nat).
Definition step (a : alloc) (o : call) : option (alloc * event) :=
  match o with
  | Alloc n m1 m2 => let* '(r, a) := allocate a n m1 m2 in Some (a, match r with Some c => Got c | None => Refused end)
  | Free c => let* a := deallocate a c in Some (a, Gave c)
  end.
Fixpoint run (a : alloc) (os : list call) : option (alloc * list event) :=
  match os with
  | [] => Some (a, [])
  | o :: os => let* '(a, e) := step a o in let* '(a, es) := run a os in Some (a, e :: es)
  end.
