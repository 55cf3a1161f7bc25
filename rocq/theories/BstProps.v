(** C28: binary search trees keep the order of their entries under every operation. *)
From Verif Require Import Lib BstModel BstSpec BstProofs BstProofs9 BstProofs10 BstProofs11 BstProofs12 BstProofs13.
Open Scope nat_scope.

Section C28.
Context {V K : Type}.
Variable key : V -> K.
Variable cmp : K -> K -> bool.
Notation entry := (nat * V * Z)%type.
Notation heap := (heap (V := V)).
Implicit Types (h : heap) (es a b m : list entry).

(** the constructor gives an empty tree and leaves every other tree alone *)
Theorem C28_init h : let '(h', m) := bst_init h in
  bst_rep h' m [] /\ (forall n2 es2, bst_rep h n2 es2 -> bst_rep h' n2 es2 /\ apart m [] n2 es2) /\ (forall p, live h' p = true <-> live h p = true \/ p = m).
Proof.
  pose proof (init_run h) as H. destruct (bst_init h) as (h', m). destruct H as (E & R & O & _ & L & _). split; [exact R|split; [exact O|]]. intros p. rewrite L. unfold upd. destruct (Nat.eqb_spec p m); intuition congruence.
Qed.
(** find, lower_bound, upper_bound, count_less, count_less_or_equal, count *)
Theorem C28_lookup (SW : strict_weak cmp) d h nil es q : bst_rep h nil es -> sorted key cmp d es ->
  bst_find key cmp d h nil q = Some (first_it nil (filter (equiv key cmp q) es)) /\
  lower_bound key cmp h nil q = Some (first_it nil (filter (fun e => negb (less key cmp q e)) es)) /\
  upper_bound key cmp h nil q = Some (first_it nil (filter (greater key cmp q) es)) /\
  count_less key cmp h nil q = Some (total (filter (less key cmp q) es)) /\
  count_less_or_equal key cmp h nil q = Some (total (filter (fun e => negb (greater key cmp q e)) es)) /\
  bst_count key cmp d h nil q = Some (total (filter (equiv key cmp q) es)).
Proof. exact (lookups key cmp SW d h nil es q). Qed.
(** size, empty, begin, find_kth *)
Theorem C28_size_kth h nil es : bst_rep h nil es ->
  bst_size h nil = Some (total es) /\ bst_empty h nil = Some (match es with [] => true | _ => false end) /\ bst_begin h nil = Some (first_it nil es) /\
  (forall n, find_kth h nil n = Some (at_pos nil n es)).
Proof. exact (sizes h nil es). Qed.
(** an iterator at an entry: dereferencing, ++, --, count, position and + off *)
Theorem C28_iterator h nil a e b : bst_rep h nil (a ++ e :: b) ->
  inorder_next h (eid e) = Some (first_it nil b) /\ inorder_prev h (eid e) = Some (last_it nil a) /\ inorder_pos h (eid e) = Some (total a, nil) /\
  gval h (eid e) = Some (evl e) /\ node_count h (eid e) = Some (ecn e) /\ (forall off, inorder_add h (eid e) off = Some (at_pos nil (total a + off)%Z (a ++ e :: b))).
Proof. exact (iterators h nil a e b). Qed.
(** the iterator end() *)
Theorem C28_iterator_end h nil es : bst_rep h nil es ->
  inorder_next h nil = Some (first_it nil es) /\ inorder_prev h nil = Some (last_it nil es) /\ inorder_pos h nil = Some (total es, nil) /\
  (forall off, inorder_add h nil off = Some (at_pos nil (total es + off)%Z es)).
Proof. exact (iterators_end h nil es). Qed.
(** insert: the entries keep their order, all iterators stay valid *)
Theorem C28_insert (SW : strict_weak cmp) d h nil es v cnt : bst_rep h nil es -> sorted key cmp d es -> unit_counts d es -> (1 <= cnt)%Z ->
  exists h', bst_insert key cmp d h nil v cnt = Some (h', inserted_at key cmp d (next h) v es) /\ becomes h h' nil es (inserted key cmp d (next h) v cnt es) /\
    sorted key cmp d (inserted key cmp d (next h) v cnt es) /\ unit_counts d (inserted key cmp d (next h) v cnt es).
Proof. exact (insert_run key cmp SW d h nil es v cnt). Qed.
(** insert_before at an iterator, with no hypothesis on the order *)
Theorem C28_insert_before d h nil a b v cnt : bst_rep h nil (a ++ b) -> (1 <= cnt)%Z ->
  exists h', insert_before d h nil (first_it nil b) v cnt = Some (h', next h) /\ becomes h h' nil (a ++ b) (a ++ (next h, v, times d cnt) :: b).
Proof. exact (insert_before_run d h nil a b v cnt). Qed.
(** erase by key *)
Theorem C28_erase_key (SW : strict_weak cmp) d h nil es q cnt : bst_rep h nil es -> sorted key cmp d es -> unit_counts d es -> (1 <= cnt)%Z ->
  exists h' it, bst_erase key cmp d h nil q cnt = Some (h', it) /\ becomes h h' nil es (erased key cmp d q cnt es) /\
    sorted key cmp d (erased key cmp d q cnt es) /\ unit_counts d (erased key cmp d q cnt es).
Proof. exact (erase_run key cmp SW d h nil es q cnt). Qed.
(** erase at an iterator: the other iterators stay valid *)
Theorem C28_erase_iterator d h nil a e b cnt : bst_rep h nil (a ++ e :: b) -> (1 <= cnt)%Z -> unit_counts d (a ++ e :: b) ->
  exists h' it, erase_node d h nil (eid e) cnt = Some (h', it) /\ becomes h h' nil (a ++ e :: b) (a ++ minus d cnt e ++ b).
Proof. intros R C U. destruct (erase_at d h nil a e b cnt R C U) as (h' & it & E & B & _). eauto. Qed.
(** erase of a range of iterators *)
Theorem C28_erase_range d h nil a m b cnt : bst_rep h nil (a ++ m ++ b) -> (1 <= cnt)%Z -> unit_counts d (a ++ m ++ b) ->
  exists h', erase_range d h nil (first_it nil (m ++ b)) (first_it nil b) cnt = Some (h', first_it nil b) /\ becomes h h' nil (a ++ m ++ b) (a ++ flat_map (minus d cnt) m ++ b).
Proof. exact (erase_range_at d h nil a m b cnt). Qed.
(** the copy constructor: an equal and independent tree *)
Theorem C28_copy h nil es : bst_rep h nil es ->
  exists h' nil' es', bst_copy h nil = Some (h', nil') /\ bst_rep h' nil' es' /\ strip es' = strip es /\
    (forall n2 es2, bst_rep h n2 es2 -> bst_rep h' n2 es2 /\ apart nil' es' n2 es2) /\ (forall p, live h' p = true <-> live h p = true \/ In p (nil' :: ids es')).
Proof.
  intros R. destruct (copy_run h nil es R) as (h' & n' & es' & E & R' & M & O & L). exists h', n', es'. split; [exact E|split; [exact R'|split; [|split; [exact O|exact L]]]].
  unfold strip. apply (f_equal (map (fun x : V * Z => (0, fst x, snd x)))) in M. rewrite !map_map in M. exact M.
Qed.
(** the destructor frees every node, once *)
Theorem C28_destroy h nil es : bst_rep h nil es ->
  exists h', bst_destroy h nil = Some h' /\ (forall p, live h' p = true <-> live h p = true /\ ~ In p (nil :: ids es)) /\ (forall n2 es2, bst_rep h n2 es2 -> apart nil es n2 es2 -> bst_rep h' n2 es2).
Proof. exact (destroy_run h nil es). Qed.
(** operator == and operator < *)
Theorem C28_compare h n1 n2 es1 es2 : bst_rep h n1 es1 -> bst_rep h n2 es2 ->
  bst_eq key cmp h n1 n2 = Some (seq_eq key cmp es1 es2) /\ bst_lt key cmp h n1 n2 = Some (seq_lt key cmp es1 es2).
Proof. exact (rel_run key cmp h n1 n2 es1 es2). Qed.
(** every history of insertions and erasures, and the destruction after it: nothing fails, the entries are those of the sequence of
    effects, other trees on the heap are kept, and no memory is leaked *)
Theorem C28_history (SW : strict_weak cmp) d h (ops : list (bst_op V K)) : Forall (fun o => 1 <= op_count o)%Z ops ->
  let '(h0, m) := bst_init h in
  exists h1 es h2, ops_run key cmp d m ops h0 = Some h1 /\ bst_rep h1 m es /\ sorted key cmp d es /\ unit_counts d es /\
    strip es = fold_left (fun s o => op_effect key cmp d o s) ops [] /\ (forall n2 es2, bst_rep h n2 es2 -> bst_rep h1 n2 es2 /\ apart m es n2 es2) /\
    bst_destroy h1 m = Some h2 /\ (forall p, live h2 p = true -> live h p = true) /\ (forall n2 es2, bst_rep h n2 es2 -> bst_rep h2 n2 es2).
Proof.
  intros C. pose proof (init_run h) as H. destruct (bst_init h) as (h0, m). destruct H as (E & R & O & _ & L & _).
  destruct (history_run key cmp SW d m ops C h0 [] R) as (h1 & es & E1 & R1 & S1 & U1 & T1 & L1 & O1); [constructor|destruct d; constructor|].
  destruct (destroy_run h1 m es R1) as (h2 & E2 & L2 & O2).
  assert (KO : forall n2 es2, bst_rep h n2 es2 -> bst_rep h1 n2 es2 /\ apart m es n2 es2) by (intros n2 es2 Q; destruct (O _ _ Q) as (Q1 & Q2); exact (O1 _ _ Q1 Q2)).
  exists h1, es, h2. split; [exact E1|split; [exact R1|split; [exact S1|split; [exact U1|split; [exact T1|split; [exact KO|split; [exact E2|split]]]]]]].
  - intros p Hp. apply L2 in Hp as (Hp & N). apply L1 in Hp as [(Hp & _)|Hp]; [|contradiction]. rewrite L in Hp. unfold upd in Hp. destruct (Nat.eqb_spec p m) as [Q|Q]; [exfalso; apply N; left; congruence|exact Hp].
  - intros n2 es2 Q. destruct (KO _ _ Q) as (Q1 & Q2). exact (O2 _ _ Q1 Q2).
Qed.
(** what clear() really does: on an empty tree it frees the sentinel and then writes to it; otherwise it frees the root alone *)
Theorem C28_clear_refuted h nil es : bst_rep h nil es ->
  match es with
  | [] => bst_clear h nil = None
  | _ => exists h' p, bst_clear h nil = Some h' /\ bst_rep h' nil [] /\ In p (ids es) /\ (forall q, live h' q = true <-> live h q = true /\ q <> p)
  end.
Proof.
  intros R. pose proof (clear_run h nil es R) as H. destruct es as [|e es]; [exact H|]. destruct H as (h' & p & E & I & R' & L). exists h', p. split; [exact E|split; [exact R'|split; [exact I|]]].
  intros q. rewrite L. unfold upd. destruct (Nat.eqb_spec q p); intuition congruence.
Qed.
End C28.

(** operator == does not see the multiplicities of mode COUNT: trees with sizes 1 and 2 are equal *)
Theorem C28_eq_counts_refuted : exists (h : heap (V := Z)) n1 n2 es1 es2, bst_rep h n1 es1 /\ bst_rep h n2 es2 /\ total es1 <> total es2 /\ bst_eq (fun x => x) Z.ltb h n1 n2 = Some true.
Proof.
  assert (SW : strict_weak Z.ltb) by (split; [intros x; apply Z.ltb_irrefl|split; intros x y z; rewrite !Z.ltb_lt; lia]).
  set (i1 := bst_init (heap_new (V := Z))). destruct i1 as (h1, n1) eqn:E1. pose proof (C28_init (heap_new (V := Z))) as H1. fold i1 in H1. rewrite E1 in H1. destruct H1 as (R1 & _).
  destruct (C28_insert (fun x => x) Z.ltb SW COUNT h1 n1 [] 7%Z 1%Z R1) as (h2 & _ & (R2 & _) & _); [constructor|exact I|lia|]. pose proof (C28_init h2) as H3. destruct (bst_init h2) as (h3, n3). destruct H3 as (R3 & O3 & _).
  destruct (O3 _ _ R2) as (R4 & A4). destruct (C28_insert (fun x => x) Z.ltb SW COUNT h3 n3 [] 7%Z 2%Z R3) as (h5 & _ & (R5 & O5 & _) & _); [constructor|exact I|lia|].
  destruct (O5 _ _ R4 A4) as (R6 & _). exists h5, n1, n3. eexists _, _. split; [exact R6|split; [exact R5|split; [cbn; lia|]]]. destruct (C28_compare (fun x => x) Z.ltb _ _ _ _ _ R6 R5) as (E & _). rewrite E. reflexivity.
Qed.

(** a concrete tree: insertions and erasures of the model, and what the lookups give *)
Definition case_ops : list (bst_op Z Z) := [OpInsert 5 1; OpInsert 2 3; OpInsert 8 1; OpInsert 1 1; OpInsert 3 2; OpInsert 7 1; OpInsert 2 1; OpErase 5 1; OpErase 3 1]%Z.
Example C28_case :
  strict_weak Z.ltb /\ Forall (fun o => 1 <= op_count o)%Z case_ops /\
  (let '(h0, m) := bst_init (heap_new (V := Z)) in
   exists h, ops_run (fun x => x) Z.ltb COUNT m case_ops h0 = Some h /\
     (let* b := bst_begin h m in let* v := gval h b in Some v) = Some 1%Z /\ bst_size h m = Some 8%Z /\
     (let* it := find_kth h m 4%Z in let* v := gval h it in Some v) = Some 2%Z /\ (let* it := upper_bound (fun x => x) Z.ltb h m 3%Z in gval h it) = Some 7%Z /\
     count_less (fun x => x) Z.ltb h m 7%Z = Some 6%Z /\ bst_count (fun x => x) Z.ltb COUNT h m 2%Z = Some 4%Z).
Proof.
  split; [split; [intros x; apply Z.ltb_irrefl|split; intros x y z; rewrite !Z.ltb_lt; lia]|split; [repeat constructor; cbn; lia|]].
  cbn beta iota delta [bst_init]. eexists. split; [vm_compute; reflexivity|]. repeat split; vm_compute; reflexivity.
Qed.

Print Assumptions C28_init.
Print Assumptions C28_lookup.
Print Assumptions C28_size_kth.
Print Assumptions C28_iterator.
Print Assumptions C28_iterator_end.
Print Assumptions C28_insert.
Print Assumptions C28_insert_before.
Print Assumptions C28_erase_key.
Print Assumptions C28_erase_iterator.
Print Assumptions C28_erase_range.
Print Assumptions C28_copy.
Print Assumptions C28_destroy.
Print Assumptions C28_compare.
Print Assumptions C28_history.
Print Assumptions C28_clear_refuted.
Print Assumptions C28_eq_counts_refuted.
