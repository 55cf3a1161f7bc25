(** C26: disjoint_set maintains the partition generated by the united pairs. *)
From Verif Require Import Lib SegTreeProofs DisjointSetModel DisjointSetSpec DisjointSetProofs.
From Coq Require Import Relations.

(** After every history of calls on disjoint_set(sz), none of which fails: *)
Theorem C26_disjoint_set :
  forall (sz : nat) (os : list ds_op), exists s,
    ds_run (ds_clear sz) os = Some s /\
    ds_size s = ds_extent sz os /\
    (* the number of classes *)
    (forall reps, transversal (ds_size s) (ds_pairs os) reps -> ds_distinct s = length reps) /\
    (exists reps, transversal (ds_size s) (ds_pairs os) reps) /\
    (* find agrees exactly with connectivity, and stays inside the class *)
    (forall x y, exists rx s1 ry s2,
        ds_find s x = Some (rx, s1) /\ ds_find s1 y = Some (ry, s2) /\
        (rx = ry <-> conn (ds_pairs os) x y) /\ conn (ds_pairs os) x rx) /\
    (* count is the weight of the class *)
    (forall x, exists c s1, ds_count s x = Some (c, s1) /\
        forall cls, class_of (ds_size s1) (ds_pairs os) x cls -> c = list_sum (map (ds_weight os) cls)) /\
    (* unite reports whether the classes were distinct *)
    (forall x y, exists b s1, ds_unite s x y = Some (b, s1) /\ (b = true <-> ~ conn (ds_pairs os) x y)).
Proof.
  intros sz os. destruct (run_after sz os [] (ds_clear sz) (clear_after sz)) as (s & E & H). cbn [app] in H.
  exists s. split; [exact E|]. destruct H as (rt & I & A & Sz). split; [exact Sz|].
  pose proof (i_good _ _ _ I) as g.
  assert (T : transversal (ds_size s) (ds_pairs os) (filter (fun z => rt z =? z) (seq 0 (ds_size s)))).
  { apply transversal_roots; [exact A|intros x; apply (g_idem _ _ x g)|apply (g_rt _ _ g)]. }
  split; [|split; [|split; [|split]]].
  - intros reps Hr. unfold ds_distinct. rewrite (i_dist _ _ _ I). now apply (transversal_length _ _ _ _ T).
  - eexists. exact T.
  - intros x y. destruct (find_inv s rt _ x I) as (s1 & E1 & I1 & _).
    destruct (find_inv s1 rt _ y I1) as (s2 & E2 & _). exists (rt x), s1, (rt y), s2.
    split; [exact E1|]. split; [exact E2|]. split; [apply A|]. apply A. symmetry. apply (g_idem _ _ x g).
  - intros x. destruct (find_inv s rt _ x I) as (s1 & E1 & I1 & S1). unfold ds_count. rewrite E1. cbn [obind].
    pose proof (i_good _ _ _ I1) as g1. assert (Hx : x < length (ds_va s1)) by (unfold ds_size in S1 at 1; lia).
    rewrite (nth_error_nth_in (ds_va s1) (rt x) d0) by (now apply (g_rt _ _ g1)). cbn [obind].
    do 2 eexists. split; [reflexivity|]. intros cls [Nd Hcls].
    rewrite (i_count _ _ _ I1 x Hx). unfold csum. apply list_sum_perm_cls; [apply NoDup_filter, seq_NoDup|exact Nd|].
    intros z. rewrite Hcls, filter_In, in_seq, Nat.eqb_eq. unfold ds_size.
    split; intros [H1 H2]; split; try lia; [apply A; congruence|symmetry; now apply A].
  - intros x y. destruct (unite_inv s rt _ x y I) as (b & s1 & rt' & E1 & _ & _ & Hb & _).
    exists b, s1. split; [exact E1|]. rewrite Hb. split; intros H H'; apply H, A, H'.
Qed.

Example C26_case :
  let os := [DUnite 0 1; DUnite 2 3; DAddCount 3 10; DUnite 1 3; DFind 6] in
  (let* s := ds_run (ds_clear 5) os in
   let* '(c, _) := ds_count s 0 in
   let* '(b, _) := ds_unite s 0 2 in
   let* '(b', _) := ds_unite s 0 4 in
   Some (ds_size s, ds_distinct s, c, b, b')) = Some (7, 4, 14, false, true) /\
  conn (ds_pairs os) 0 2 /\ class_of 7 (ds_pairs os) 0 [0;1;2;3].
Proof.
  cbv zeta. split; [reflexivity|].
  assert (C01 : conn (ds_pairs [DUnite 0 1; DUnite 2 3; DAddCount 3 10; DUnite 1 3; DFind 6]) 0 1) by (apply rst_step; cbn; auto).
  assert (C23 : conn (ds_pairs [DUnite 0 1; DUnite 2 3; DAddCount 3 10; DUnite 1 3; DFind 6]) 2 3) by (apply rst_step; cbn; auto).
  assert (C13 : conn (ds_pairs [DUnite 0 1; DUnite 2 3; DAddCount 3 10; DUnite 1 3; DFind 6]) 1 3) by (apply rst_step; cbn; auto).
  assert (C02 : conn (ds_pairs [DUnite 0 1; DUnite 2 3; DAddCount 3 10; DUnite 1 3; DFind 6]) 0 2).
  { eapply rst_trans; [exact C01|]. eapply rst_trans; [exact C13|]. apply rst_sym; exact C23. }
  split; [exact C02|]. split; [repeat constructor; cbn; intuition discriminate|].
  intros z. split.
  - intros [<-|[<-|[<-|[<-|[]]]]]; (split; [lia|]); [apply rst_refl|exact C01|exact C02|].
    eapply rst_trans; [exact C01|exact C13].
  - intros [_ H].
    assert (K : forall a b, conn (ds_pairs [DUnite 0 1; DUnite 2 3; DAddCount 3 10; DUnite 1 3; DFind 6]) a b -> (a <= 3 <-> b <= 3)).
    { clear. intros a b H. induction H; [cbn in H|reflexivity|tauto|tauto].
      intuition; match goal with H : (_, _) = (_, _) |- _ => injection H as <- <- end; lia. }
    apply K in H. cbn. lia.
Qed.
Print Assumptions C26_disjoint_set.
