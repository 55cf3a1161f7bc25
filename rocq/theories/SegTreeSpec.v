(** What a client of segment_tree sees: an array of values and the set of positions
    written through operator[] whose index has not been rebuilt yet. *)
From Verif Require Import Lib SegTreeModel.

Record seg_abs (T : Type) := { vals : list T; dirty : list nat }.
Arguments vals {T}. Arguments dirty {T}.

Definition upd {T} (l : list T) (i : nat) (x : T) : list T := firstn i l ++ x :: skipn (S i) l.

Definition abs_do {T} (s : seg_abs T) (o : st_op T) : seg_abs T :=
  match o with
  | OpSet i x => {| vals := upd (vals s) i x; dirty := dirty s |}
  | OpWrite i x => {| vals := upd (vals s) i x; dirty := i :: dirty s |}
  | OpRebuild => {| vals := vals s; dirty := [] |}
  | OpRebuildAt i => {| vals := vals s; dirty := filter (fun j => negb (j =? i)) (dirty s) |}
  | OpRebuildRange b e =>
      {| vals := vals s; dirty := filter (fun j => negb ((b <=? j) && (j <? e))) (dirty s) |}
  end.
(** indices in range *)
Definition op_ok {T} (n : nat) (o : st_op T) : Prop :=
  match o with
  | OpSet i _ | OpWrite i _ | OpRebuildAt i => i < n
  | OpRebuild => True
  | OpRebuildRange b e => b < e <= n
  end.
(** left-to-right fold of the values at positions b <= i < e *)
Definition range_fold {T} (f : T -> T -> T) (id : T) (l : list T) (b e : nat) : T :=
  fold_left f (firstn (e - b) (skipn b l)) id.
