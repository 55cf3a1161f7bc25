(** Property C23: segment_tree. *)
From Verif Require Import Lib SegTreeModel SegTreeSpec SegTreeProofs.

(** After building from any sequence and any sequence of in-range operations (set, writes
    through operator[], full/point/range rebuild) nothing went out of bounds, each element
    reads back, and whenever no written position is left un-rebuilt every range query
    equals the left-to-right fold of the current values.  f: any monoid, commutative or not. *)
Theorem C23_segment_tree : forall (T : Type) (f : T -> T -> T) (id : T),
  (forall a b c, f a (f b c) = f (f a b) c) ->
  (forall a, f id a = a) -> (forall a, f a id = a) ->
  forall (xs : list T), exists cap v0,
  st_from f id xs = Some v0 /\ length xs <= cap /\
  forall os : list (st_op T), Forall (op_ok cap) os -> exists v,
    st_run f v0 os = Some v /\
    let s := fold_left abs_do os {| vals := xs ++ repeat id (cap - length xs); dirty := [] |} in
    st_size v = cap /\ length (vals s) = cap /\
    (forall i, st_at v i = nth_error (vals s) i) /\
    (dirty s = [] -> forall b e, b <= e <= cap ->
       st_get f v b e = Some (range_fold f id (vals s) b e)).
Proof.
  intros T f id A L R xs. destruct (from_rep f id A L R xs) as (h & v0 & E & Hl & _ & HR).
  exists (2 ^ h), v0. split; [exact E|]. split; [exact Hl|]. intros os Hos.
  destruct (run_rep f id A L R h os v0 _ HR Hos) as (v & Ev & HR').
  exists v. split; [exact Ev|]. cbv zeta. pose proof (rep_size f id A L R h v _ HR') as [S1 S2].
  split; [exact S1|]. split; [exact S2|]. split.
  - intros i. apply (at_rep f id A L R h v _ i HR').
  - intros D b e Hbe. apply (get_rep f id A L R h); assumption.
Qed.

(** The same for the constructor that only takes a size: all values are the neutral element. *)
Theorem C23_segment_tree_sized : forall (T : Type) (f : T -> T -> T) (id : T),
  (forall a b c, f a (f b c) = f (f a b) c) ->
  (forall a, f id a = a) -> (forall a, f a id = a) ->
  forall sz : nat, exists cap v0,
  st_make id sz = Some v0 /\ sz <= cap /\
  forall os : list (st_op T), Forall (op_ok cap) os -> exists v,
    st_run f v0 os = Some v /\
    let s := fold_left abs_do os {| vals := repeat id cap; dirty := [] |} in
    st_size v = cap /\ length (vals s) = cap /\
    (forall i, st_at v i = nth_error (vals s) i) /\
    (dirty s = [] -> forall b e, b <= e <= cap ->
       st_get f v b e = Some (range_fold f id (vals s) b e)).
Proof.
  intros T f id A L R sz. destruct (make_rep f id A L R sz) as (h & v0 & E & Hl & _ & HR).
  exists (2 ^ h), v0. split; [exact E|]. split; [exact Hl|]. intros os Hos.
  destruct (run_rep f id A L R h os v0 _ HR Hos) as (v & Ev & HR').
  exists v. split; [exact Ev|]. cbv zeta. pose proof (rep_size f id A L R h v _ HR') as [S1 S2].
  split; [exact S1|]. split; [exact S2|]. split.
  - intros i. apply (at_rep f id A L R h v _ i HR').
  - intros D b e Hbe. apply (get_rep f id A L R h); assumption.
Qed.

(** a non-commutative instance, with a dirty write and a range rebuild *)
Example C23_case :
  let f := @app nat in
  (forall a b c, f a (f b c) = f (f a b) c) /\
  (let* v := st_from f [] [[1];[2];[3];[4];[5]] in
   let* v := st_run f v [OpSet 1 [20]; OpWrite 4 [50]; OpWrite 3 [40]; OpRebuildRange 3 5] in
   st_get f v 1 5) = Some [20;3;40;50] /\
  Forall (op_ok 8) [OpSet 1 [20]; OpWrite 4 [50]; OpWrite 3 [40]; OpRebuildRange 3 5].
Proof.
  cbv zeta. split; [intros; apply app_assoc|]. split; [reflexivity|].
  repeat constructor.
Qed.
Print Assumptions C23_segment_tree.
Print Assumptions C23_segment_tree_sized.
