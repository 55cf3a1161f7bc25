(** C101-C102: link-cut trees. *)
From Verif Require Import Lib LctModel LctSpec LctRun LctProofs LctProofs2.
From Coq Require Import Arith Lia Permutation.
Open Scope nat_scope.

Section Laws.
  Context {T : Type} (f_up : T -> T -> T -> T) (id : T) {V M : Type} (own : T -> V) (agg : T -> M) (elt : V -> M) (unit_ : M) (op_ : M -> M -> M).
  (** a value has a part of its own and an aggregate part; f_up recomputes the latter *)
  Hypothesis Assoc : forall a b c, op_ a (op_ b c) = op_ (op_ a b) c.
  Hypothesis UnitL : forall a, op_ unit_ a = a.
  Hypothesis UnitR : forall a, op_ a unit_ = a.
  Hypothesis Own : forall v l r, own (f_up v l r) = own v.
  Hypothesis Agg : forall v l r, agg (f_up v l r) = op_ (agg l) (op_ (elt (own v)) (agg r)).
  Hypothesis AggId : agg id = unit_.

  (** C101: every history of adding, linking, cutting, querying and assigning *)
  Theorem C101_history (dflt : V) (os : list (@op T)) : legal own (no_nodes dflt) os ->
    exists s rs, run_ops f_up (lct_new id) os = Some (s, rs) /\ lsize s = fsize (fold_left (next own) os (no_nodes dflt)) /\ correct own agg elt unit_ op_ (no_nodes dflt) os rs.
  Proof.
    intros L. destruct (ops_ok f_up id own agg elt unit_ op_ Assoc UnitL UnitR Own Agg AggId os (lct_new id) (no_nodes dflt) (inv_new id own agg elt unit_ op_ dflt) L) as (s & rs & E & H & C).
    exists s, rs. split; [exact E|]. split; [apply H|exact C].
  Qed.
  (** C101: building from a range of values is adding them one by one *)
  Theorem C101_from_values (vs : list T) : run_ops f_up (lct_new id) (map Add vs) = Some (lct_of_list id vs, map Node (seq 1 (length vs))).
  Proof.
    unfold lct_of_list. change 1 with (S (@lsize T (lct_new id))). generalize (lct_new id). induction vs as [|v vs IH]; intros s; [reflexivity|]. cbn [map run_ops run_op fold_left length seq]. unfold lct_add. cbv zeta iota. cbn [fst obind]. rewrite IH. reflexivity.
  Qed.

  (** C102: searching the path from the root to v: the callback's sign tells where the searched depth k lies *)
  Theorem C102_traverse (dflt : V) (os os' : list (@op T)) (v : nat) (l : list nat) (f : T -> T -> T -> Z -> Z) (k : Z) :
    legal own (no_nodes dflt) os -> let fs := fold_left (next own) os (no_nodes dflt) in
    is_node fs v -> lineage (fparent fs) v l -> steers own (fval fs) (rev l) f k -> legal own fs os' ->
    exists s rs s' s'' rs', run_ops f_up (lct_new id) os = Some (s, rs) /\
      lct_traverse f_up s v f = Some (s', if (0 <=? k)%Z && (k <? Z.of_nat (length l))%Z then nth (Z.to_nat k) (rev l) 0 else 0) /\
      run_ops f_up s' os' = Some (s'', rs') /\ correct own agg elt unit_ op_ fs os' rs'.
  Proof.
    intros L fs Hv Lv St L'. destruct (ops_ok f_up id own agg elt unit_ op_ Assoc UnitL UnitR Own Agg AggId os (lct_new id) (no_nodes dflt) (inv_new id own agg elt unit_ op_ dflt) L) as (s & rs & E & H & _). fold fs in H.
    pose proof H as (Es & Fr & A & Rp). destruct (acc f_up id own agg elt unit_ op_ Assoc UnitL UnitR Own Agg AggId _ _ _ _ _ v Fr Rp Hv) as (h1 & a & lt & R1 & E1 & Rp1 & _ & L1 & _).
    assert (El := lin_det _ _ _ Lv _ L1). assert (Ep : rev l = io (Nd lt v Lf)) by (rewrite El; cbn [rev io]; now rewrite rev_involutive).
    destruct (head_facts id own agg elt unit_ op_ _ _ _ _ _ _ _ Rp1) as (Nil & I1 & _).
    pose proof (size_le id own agg elt unit_ op_ _ _ _ _ _ _ _ Rp1) as Hs.
    assert (H' : Inv id own agg elt unit_ op_ (mk_lct (lsize s) h1) fs) by (split; [exact Es|split; [exact Fr|]; eexists; exact Rp1]).
    destruct (ops_ok f_up id own agg elt unit_ op_ Assoc UnitL UnitR Own Agg AggId os' _ fs H' L') as (s'' & rs' & E' & _ & C').
    exists s, rs, (mk_lct (lsize s) h1), s'', rs'. split; [exact E|]. split; [|split; [exact E'|exact C']].
    unfold lct_traverse. rewrite (at_ok id own agg elt unit_ op_ s fs v H Hv). cbn [obind]. rewrite Es, E1. cbn [obind].
    assert (Et := trav_ok id own (fval fs) h1 (rev l) f k). rewrite Ep in Et.
    specialize (Et ltac:(intros i w Hi x b c Hx; rewrite <- Ep in Hi; pose proof (St i w Hi x b c Hx) as Sg; destruct (f x b c (Z.of_nat i)) eqn:Ef; cbn [Z.sgn] in Sg; lia) Nil (Nd lt v Lf) 0 (S (fsize fs)) [] [] (Z.of_nat (nsz (h1 (nlf (h1 v))))) I1).
    cbn [top length app] in Et. rewrite app_nil_r in Et. rewrite Et by (reflexivity || lia). cbn [obind Nat.add]. rewrite Nat.sub_0_r, <- Ep, rev_length. reflexivity.
  Qed.
End Laws.

(** a history with concatenation, which does not commute *)
Definition word_up (v l r : nat * list nat) : nat * list nat := (fst v, snd l ++ fst v :: snd r).
Definition word_id : nat * list nat := (0, []).
Definition sample_ops : list (@op (nat * list nat)) :=
  [Add (7, []); Add (8, []); Add (9, []); Add (5, []); Link 2 1; Link 3 2; Link 4 2; Get 4; Lca 3 4; Depth 3; Parent 2; Root 4; Set_ 2 (6, []); Get 3; Cut 2; Lca 1 3; Get 4; Parent 2].
Example C101_case :
  (forall a b c : list nat, a ++ (b ++ c) = (a ++ b) ++ c) /\ (forall v l r, fst (word_up v l r) = fst v) /\ (forall v l r, snd (word_up v l r) = snd l ++ ([fst v] ++ snd r)) /\ snd word_id = [] /\
  legal fst (no_nodes 0) sample_ops /\
  option_map snd (run_ops word_up (lct_new word_id) sample_ops) =
    Some [Node 1; Node 2; Node 3; Node 4; Done; Done; Done; Value (5, [7; 8; 5]); Node 2; Number 2; Node 1; Node 1; Done; Value (9, [7; 6; 9]); Done; Node 0; Value (5, [6; 5]); Node 0].
Proof.
  split; [intros; now rewrite app_assoc|]. split; [reflexivity|]. split; [reflexivity|]. split; [reflexivity|]. split; [|vm_compute; reflexivity].
  unfold sample_ops. cbn [legal legal_op next fsize fparent fval no_nodes]. unfold is_node. cbn [fsize].
  repeat match goal with |- _ /\ _ => split end; try lia; try reflexivity; try exact I; intros l L J.
  - rewrite (lin_det _ _ _ L [1] (lin_node _ 1 [] ltac:(discriminate) (lin_none _))) in J. destruct J as [J|[]]; discriminate J.
  - rewrite (lin_det _ _ _ L [2; 1] (lin_node _ 2 [1] ltac:(discriminate) (lin_node _ 1 [] ltac:(discriminate) (lin_none _)))) in J. destruct J as [J|[J|[]]]; discriminate J.
  - rewrite (lin_det _ _ _ L [2; 1] (lin_node _ 2 [1] ltac:(discriminate) (lin_node _ 1 [] ltac:(discriminate) (lin_none _)))) in J. destruct J as [J|[J|[]]]; discriminate J.
Qed.
(** C101: a node that has a parent already is not linked to the new one; its root is *)
Theorem C101_link_non_root_refuted : ~ (forall os v p, legal fst (no_nodes 0) os -> let fs := fold_left (next fst) os (no_nodes 0) in
  is_node fs v -> is_node fs p -> (forall l, lineage (fparent fs) p l -> ~ In v l) ->
  exists s s' s'' rs, run_ops word_up (lct_new word_id) os = Some (s, rs) /\ run_op word_up s (Link v p) = Some (s', Done) /\ run_op word_up s' (Parent v) = Some (s'', Node p)).
Proof.
  intros H. destruct (H [Add (1, []); Add (2, []); Add (3, []); Link 2 1] 2 3) as (s & s' & s'' & rs & E1 & E2 & E3).
  - cbn [legal legal_op next fsize fparent fval no_nodes]. unfold is_node. cbn [fsize]. repeat match goal with |- _ /\ _ => split end; try lia; try reflexivity; try exact I. intros l L J.
    rewrite (lin_det _ _ _ L [1] (lin_node _ 1 [] ltac:(discriminate) (lin_none _))) in J. destruct J as [J|[]]; discriminate J.
  - unfold is_node. cbn. lia.
  - unfold is_node. cbn. lia.
  - intros l L J. rewrite (lin_det _ _ _ L [3] (lin_node _ 3 [] ltac:(discriminate) (lin_none _))) in J. destruct J as [J|[]]; discriminate J.
  - assert (C : option_map snd (obind (run_ops word_up (lct_new word_id) [Add (1, []); Add (2, []); Add (3, []); Link 2 1]) (fun '(s, _) => obind (run_op word_up s (Link 2 3)) (fun '(s', _) => run_op word_up s' (Parent 2)))) = Some (Node 1)) by (vm_compute; reflexivity).
    rewrite E1 in C. cbn [obind] in C. rewrite E2 in C. cbn [obind] in C. rewrite E3 in C. discriminate C.
Qed.
Example C102_case : steers (T := nat * list nat) fst (fval (fold_left (next fst) sample_ops (no_nodes 0))) [2; 4] (fun _ _ _ d => 0 - d)%Z 0 /\
  option_map snd (obind (run_ops word_up (lct_new word_id) sample_ops) (fun '(s, _) => lct_traverse word_up s 4 (fun _ _ _ d => 0 - d)%Z)) = Some 2.
Proof. split; [|vm_compute; reflexivity]. intros i v H a b c _. reflexivity. Qed.
Print Assumptions C101_history.
Print Assumptions C101_from_values.
Print Assumptions C102_traverse.
Print Assumptions C101_link_non_root_refuted.
