(** C29: a treap performs the operations of the plain tree, for every outcome of the random generator, and keeps the heap order of the priorities. *)
From Verif Require Import Lib BstModel BstSpec BstProofs BstProofs9 BstProofs10 BstProofs11 BstProofs12 BstProofs13 TreapModel TreapSpec TreapProofs2 TreapProofs3 TreapProofs4.
Open Scope nat_scope.

Section C29.
Context {V K : Type}.
Variable key : V -> K.
Variable cmp : K -> K -> bool.
Notation entry := (nat * V * Z)%type.
Notation heap := (heap (V := V)).
Implicit Types (h : heap) (es a b m : list entry).

(** insert: the entries and the iterator of the plain tree (C28_insert); the node gets the random priority z, all others keep theirs; the heap order
    is kept when the node is new, and also when an old node does not get a greater priority *)
Theorem C29_insert (SW : strict_weak cmp) d h nil es v cnt z : bst_rep h nil es -> sorted key cmp d es -> unit_counts d es -> (1 <= cnt)%Z -> (0 <= z)%Z ->
  let it := inserted_at key cmp d (next h) v es in let es' := inserted key cmp d (next h) v cnt es in
  exists h', treap_insert key cmp d h nil v cnt z = Some (h', it) /\ becomes h h' nil es es' /\ sorted key cmp d es' /\ unit_counts d es' /\
    bal h' it = z /\ (forall p, In p (ids es) -> p <> it -> bal h' p = bal h p) /\ (heap_ordered h es -> it = next h \/ (z <= bal h it)%Z -> heap_ordered h' es').
Proof. exact (treap_insert_run K key cmp SW d h nil es v cnt z). Qed.
(** insert_before *)
Theorem C29_insert_before d h nil a b v cnt z : bst_rep h nil (a ++ b) -> (1 <= cnt)%Z -> (0 <= z)%Z ->
  let es' := a ++ (next h, v, times d cnt) :: b in
  exists h', treap_insert_before d h nil (first_it nil b) v cnt z = Some (h', next h) /\ becomes h h' nil (a ++ b) es' /\
    bal h' (next h) = z /\ (forall p, In p (ids (a ++ b)) -> bal h' p = bal h p) /\ (heap_ordered h (a ++ b) -> heap_ordered h' es').
Proof. exact (treap_before_run d h nil a b v cnt z). Qed.
(** erase by key *)
Theorem C29_erase_key (SW : strict_weak cmp) d h nil es q cnt : bst_rep h nil es -> sorted key cmp d es -> unit_counts d es -> (1 <= cnt)%Z ->
  let es' := erased key cmp d q cnt es in
  exists h' res, treap_erase key cmp d h nil q cnt = Some (h', res) /\ becomes h h' nil es es' /\ sorted key cmp d es' /\ unit_counts d es' /\
    priorities_kept h h' es es' /\ (heap_ordered h es -> clean_op key cmp d (OpErase q cnt) es -> heap_ordered h' es').
Proof. exact (treap_erase_run key cmp SW d h nil es q cnt). Qed.
(** erase at an iterator *)
Theorem C29_erase_iterator d h nil a e b cnt : bst_rep h nil (a ++ e :: b) -> (1 <= cnt)%Z -> unit_counts d (a ++ e :: b) ->
  let es' := a ++ minus d cnt e ++ b in
  exists h' it, treap_erase_at d h nil (eid e) cnt = Some (h', it) /\ becomes h h' nil (a ++ e :: b) es' /\
    priorities_kept h h' (a ++ e :: b) es' /\ (heap_ordered h (a ++ e :: b) -> minus d cnt e = [] -> heap_ordered h' es').
Proof. intros R C U es'. destruct (treap_erase_at_run d h nil a e b cnt R C U) as (h' & it & E & B & _ & P & O). exists h', it. auto. Qed.
(** erase of a range of iterators *)
Theorem C29_erase_range d h nil a m b cnt : bst_rep h nil (a ++ m ++ b) -> (1 <= cnt)%Z -> unit_counts d (a ++ m ++ b) ->
  let es' := a ++ flat_map (minus d cnt) m ++ b in
  exists h' res, treap_erase_range d h nil (first_it nil (m ++ b)) (first_it nil b) cnt = Some (h', res) /\ becomes h h' nil (a ++ m ++ b) es' /\
    priorities_kept h h' (a ++ m ++ b) es' /\ (heap_ordered h (a ++ m ++ b) -> flat_map (minus d cnt) m = [] -> heap_ordered h' es').
Proof. intros R C U es'. destruct (treap_range_run d h nil a m b cnt R C U) as (h' & res & E & _ & B & P & O). exists h', res. auto. Qed.
(** the copy of a treap is a treap with the same entries *)
Theorem C29_copy h nil es : bst_rep h nil es -> heap_ordered h es ->
  exists h' nil' es', bst_copy h nil = Some (h', nil') /\ bst_rep h' nil' es' /\ strip es' = strip es /\ heap_ordered h' es'.
Proof. exact (treap_copy_run key h nil es). Qed.
(** every history, for every sequence of random numbers: nothing fails, the entries are those of the plain tree (the right hand side is the one of
    C28_history and does not mention the random numbers), other trees are kept, nothing is leaked, and without partial erasures and
    repeated insertions the priorities are in heap order *)
Theorem C29_history (SW : strict_weak cmp) d h (ops : list (bst_op V K * Z)) : Forall (fun o => (1 <= op_count (fst o))%Z /\ (0 <= snd o)%Z) ops ->
  let '(h0, m) := bst_init h in
  exists h1 es h2, treap_ops_run key cmp d m ops h0 = Some h1 /\ bst_rep h1 m es /\ sorted key cmp d es /\ unit_counts d es /\
    strip es = fold_left (fun s o => op_effect key cmp d o s) (map fst ops) [] /\ (forall n2 es2, bst_rep h n2 es2 -> bst_rep h1 n2 es2 /\ apart m es n2 es2) /\
    (clean_ops key cmp d (map fst ops) [] -> heap_ordered h1 es) /\
    bst_destroy h1 m = Some h2 /\ (forall p, live h2 p = true -> live h p = true) /\ (forall n2 es2, bst_rep h n2 es2 -> bst_rep h2 n2 es2).
Proof.
  intros C. pose proof (init_run h) as H. destruct (bst_init h) as (h0, m). destruct H as (E & R & O & _ & L & _).
  destruct (treap_history_run key cmp SW d m ops C h0 [] R) as (h1 & es & E1 & R1 & S1 & U1 & T1 & L1 & O1 & HO1); [constructor|destruct d; constructor|].
  destruct (destroy_run h1 m es R1) as (h2 & E2 & L2 & O2).
  assert (KO : forall n2 es2, bst_rep h n2 es2 -> bst_rep h1 n2 es2 /\ apart m es n2 es2) by (intros n2 es2 Q; destruct (O _ _ Q) as (Q1 & Q2); exact (O1 _ _ Q1 Q2)).
  exists h1, es, h2. split; [exact E1|split; [exact R1|split; [exact S1|split; [exact U1|split; [exact T1|split; [exact KO|split; [|split; [exact E2|split]]]]]]]].
  - intros CL. apply HO1; [intros p []|exact CL].
  - intros p Hp. apply L2 in Hp as (Hp & N). apply L1 in Hp as [(Hp & _)|Hp]; [|contradiction]. rewrite L in Hp. unfold upd in Hp. destruct (Nat.eqb_spec p m) as [Q|Q]; [exfalso; apply N; left; congruence|exact Hp].
  - intros n2 es2 Q. destruct (KO _ _ Q) as (Q1 & Q2). exact (O2 _ _ Q1 Q2).
Qed.
(** erasing an empty range does not return the position after the range but an iterator without a node *)
Theorem C29_empty_range_refuted d h nil a b cnt : bst_rep h nil (a ++ b) -> (1 <= cnt)%Z -> unit_counts d (a ++ b) ->
  treap_erase_range d h nil (first_it nil b) (first_it nil b) cnt = Some (h, None).
Proof. intros R C U. destruct (treap_range_run d h nil a [] b cnt R C U) as (h' & res & E & M & _). destruct (M eq_refl) as (-> & ->). exact E. Qed.
End C29.

Lemma Zltb_strict : strict_weak Z.ltb.
Proof. split; [intros x; apply Z.ltb_irrefl|split; intros x y z; rewrite !Z.ltb_lt; lia]. Qed.
(** insert of a key that is already there draws a new priority for its node and can break the heap order *)
Theorem C29_reinsert_refuted : exists ops : list (bst_op Z Z * Z), Forall (fun o => (1 <= op_count (fst o))%Z /\ (0 <= snd o)%Z) ops /\
  let '(h0, m) := bst_init heap_new in forall d, d <> STORE -> exists h es, treap_ops_run (fun x => x) Z.ltb d m ops h0 = Some h /\ bst_rep h m es /\ ~ heap_ordered h es.
Proof.
  exists [(OpInsert 1 1, 5); (OpInsert 2 1, 7); (OpInsert 1 1, 9)]%Z. split; [repeat constructor; cbn; lia|]. destruct (bst_init heap_new) as (h0, m) eqn:Ei. intros d Nd.
  pose proof (C29_history (fun x : Z => x) Z.ltb Zltb_strict d heap_new [(OpInsert 1 1, 5); (OpInsert 2 1, 7); (OpInsert 1 1, 9)]%Z) as Q. rewrite Ei in Q. destruct Q as (h & es & _ & E & R & _ & _ & T & _); [repeat constructor; cbn; lia|].
  exists h, es. split; [exact E|split; [exact R|]]. intros HO. injection Ei as <- <-.
  assert (X : bst_begin h 0 = Some 1 /\ inorder_next h 1 = Some 2 /\ (bal h 2 < bal h (par h 2))%Z). { destruct d; [| |congruence]; vm_compute in E; injection E as <-; vm_compute; auto. }
  destruct X as (X1 & X2 & X3). assert (I : In 2 (ids es)); [|specialize (HO 2 I); lia].
  destruct (sizes h 0 es R) as (_ & _ & B & _). rewrite X1 in B. destruct es as [|[[p u] c] [|[[p' u'] c'] es]]; [discriminate| |].
  - destruct d; [| |congruence]; discriminate T.
  - cbn in B. injection B as <-. destruct (iterators h 0 [] (1, u, c) ((p', u', c') :: es) R) as (N & _). cbn in N. rewrite X2 in N. injection N as <-. right. now left.
Qed.
(** erasing some copies of a key in mode COUNT moves its node down and leaves it there *)
Theorem C29_partial_erase_refuted : exists ops : list (bst_op Z Z * Z), Forall (fun o => (1 <= op_count (fst o))%Z /\ (0 <= snd o)%Z) ops /\
  let '(h0, m) := bst_init heap_new in exists h es, treap_ops_run (fun x => x) Z.ltb COUNT m ops h0 = Some h /\ bst_rep h m es /\ ~ heap_ordered h es.
Proof.
  exists [(OpInsert 2 2, 1); (OpInsert 1 1, 5); (OpInsert 3 1, 7); (OpErase 2 1, 0)]%Z. split; [repeat constructor; cbn; lia|]. destruct (bst_init heap_new) as (h0, m) eqn:Ei.
  pose proof (C29_history (fun x : Z => x) Z.ltb Zltb_strict COUNT heap_new [(OpInsert 2 2, 1); (OpInsert 1 1, 5); (OpInsert 3 1, 7); (OpErase 2 1, 0)]%Z) as Q. rewrite Ei in Q. destruct Q as (h & es & _ & E & R & _ & _ & T & _); [repeat constructor; cbn; lia|].
  exists h, es. split; [exact E|split; [exact R|]]. intros HO. injection Ei as <- <-.
  assert (X : bst_begin h 0 = Some 2 /\ inorder_next h 2 = Some 1 /\ (bal h 1 < bal h (par h 1))%Z). { vm_compute in E. injection E as <-. vm_compute. auto. }
  destruct X as (X1 & X2 & X3). assert (I : In 1 (ids es)); [|specialize (HO 1 I); lia].
  destruct (sizes h 0 es R) as (_ & _ & B & _). rewrite X1 in B. destruct es as [|[[p u] c] [|[[p' u'] c'] es]]; [discriminate|discriminate T|].
  cbn in B. injection B as <-. destruct (iterators h 0 [] (2, u, c) ((p', u', c') :: es) R) as (N & _). cbn in N. rewrite X2 in N. injection N as <-. right. now left.
Qed.

(** a concrete treap: two different sequences of random numbers give different shapes and the same entries *)
Definition case_treap : list (bst_op Z Z) := [OpInsert 5 1; OpInsert 2 1; OpInsert 8 1; OpInsert 1 1; OpInsert 3 1; OpInsert 7 1; OpErase 5 1; OpErase 3 1]%Z.
Definition case_rnd1 : list Z := [50; 20; 80; 10; 30; 70; 0; 0]%Z.
Definition case_rnd2 : list Z := [1; 90; 2; 40; 35; 7; 0; 0]%Z.
Example C29_case :
  strict_weak Z.ltb /\ clean_ops (fun x => x) Z.ltb STORE case_treap [] /\
  (let '(h0, m) := bst_init (heap_new (V := Z)) in
   (exists h, treap_ops_run (fun x => x) Z.ltb STORE m (combine case_treap case_rnd1) h0 = Some h /\ glft h m = Some 4 /\ bst_size h m = Some 4%Z /\ (let* it := find_kth h m 2%Z in gval h it) = Some 7%Z) /\
   (exists h, treap_ops_run (fun x => x) Z.ltb STORE m (combine case_treap case_rnd2) h0 = Some h /\ glft h m = Some 3 /\ bst_size h m = Some 4%Z /\ (let* it := find_kth h m 2%Z in gval h it) = Some 7%Z)).
Proof.
  split; [exact Zltb_strict|split; [cbn; repeat split; left; (reflexivity || discriminate)|]].
  cbn beta iota delta [bst_init]. split; (eexists; split; [vm_compute; reflexivity|]; repeat split; vm_compute; reflexivity).
Qed.

Print Assumptions C29_insert.
Print Assumptions C29_insert_before.
Print Assumptions C29_erase_key.
Print Assumptions C29_erase_iterator.
Print Assumptions C29_erase_range.
Print Assumptions C29_copy.
Print Assumptions C29_history.
Print Assumptions C29_empty_range_refuted.
Print Assumptions C29_reinsert_refuted.
Print Assumptions C29_partial_erase_refuted.
