(** Model of include/altruct/structure/graph/disjoint_set.h; indices are unbounded naturals
    (the overflow of x + 1 at SIZE_MAX is not modelled). *)
From Verif Require Import Lib.

(** disjoint_set.h:10-13 *)
Record atom := mkAtom { a_parent : nat; a_rank : nat; a_count : nat }.
(** :15-16 *)
Record dset := mkDset { ds_dist : nat; ds_va : list atom }.

(** :18-23 ensure *)
Fixpoint ds_push (k : nat) (s : dset) : dset :=
  match k with
  | O => s
  | S k => ds_push k (mkDset (S (ds_dist s)) (ds_va s ++ [mkAtom (length (ds_va s)) 0 1]))
  end.
Definition ds_ensure (sz : nat) (s : dset) : dset := ds_push (sz - length (ds_va s)) s.

(** :26-34 constructor / clear *)
Definition ds_clear (sz : nat) : dset := ds_ensure sz (mkDset 0 []).

(** bound on the number of loop iterations used for the while loops below *)
Definition ds_fuel (va : list atom) : nat := S (list_max (map a_rank va)).

(** :58-60 *)
Fixpoint ds_climb (fuel : nat) (va : list atom) (y : nat) : option nat :=
  match fuel with
  | O => None
  | S k => let* a := nth_error va y in
           if y =? a_parent a then Some y else ds_climb k va (a_parent a)
  end.
(** :61-63 *)
Fixpoint ds_compress (fuel : nat) (va : list atom) (x y : nat) : option (list atom) :=
  match fuel with
  | O => None
  | S k => let* a := nth_error va x in
           if x =? a_parent a then Some va
           else let* va := set_nth va x (mkAtom y (a_rank a) (a_count a)) in
                ds_compress k va (a_parent a) y
  end.
(** :55-65 find *)
Definition ds_find (s : dset) (x : nat) : option (nat * dset) :=
  let s := ds_ensure (x + 1) s in
  let* y := ds_climb (ds_fuel (ds_va s)) (ds_va s) x in
  let* va := ds_compress (ds_fuel (ds_va s)) (ds_va s) x y in
  Some (y, mkDset (ds_dist s) va).

(** :36-53 unite *)
Definition ds_unite (s : dset) (x y : nat) : option (bool * dset) :=
  let* '(x, s) := ds_find s x in
  let* '(y, s) := ds_find s y in
  if x =? y then Some (false, s)
  else
    let va := ds_va s in
    let* ax := nth_error va x in
    let* ay := nth_error va y in
    let* va :=
      (if a_rank ax <? a_rank ay then
         let* va := set_nth va x (mkAtom y (a_rank ax) (a_count ax)) in
         set_nth va y (mkAtom (a_parent ay) (a_rank ay) (a_count ay + a_count ax))
       else
         let* va := set_nth va y (mkAtom x (a_rank ay) (a_count ay)) in
         set_nth va x (mkAtom (a_parent ax) (a_rank ax) (a_count ax + a_count ay))) in
    let* ax := nth_error va x in
    let* ay := nth_error va y in
    let* va :=
      (if a_rank ax =? a_rank ay then set_nth va x (mkAtom (a_parent ax) (S (a_rank ax)) (a_count ax))
       else Some va) in
    Some (true, mkDset (ds_dist s - 1) va).

(** :67-69 add_count *)
Definition ds_add_count (s : dset) (x c : nat) : option dset :=
  let* '(r, s) := ds_find s x in
  let* a := nth_error (ds_va s) r in
  let* va := set_nth (ds_va s) r (mkAtom (a_parent a) (a_rank a) (a_count a + c)) in
  Some (mkDset (ds_dist s) va).

(** :71-73 count *)
Definition ds_count (s : dset) (x : nat) : option (nat * dset) :=
  let* '(r, s) := ds_find s x in
  let* a := nth_error (ds_va s) r in
  Some (a_count a, s).

(** :75-77, :79-81 *)
Definition ds_distinct (s : dset) : nat := ds_dist s.
Definition ds_size (s : dset) : nat := length (ds_va s).
