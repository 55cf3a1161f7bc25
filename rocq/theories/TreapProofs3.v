(** Treaps: erasure, copies and histories. *)
From Verif Require Import Lib BstModel BstSpec BstProofs BstProofs2 BstProofs3 BstProofs4 BstProofs5 BstProofs8 BstProofs9 BstProofs10 BstProofs11 BstProofs12 BstProofs13 TreapModel TreapSpec TreapProofs TreapProofs2.
Open Scope nat_scope.

Section P.
Context {V : Type}.
Notation entry := (nat * V * Z)%type.
Notation heap := (heap (V := V)).
Notation tree := (tree V).
Notation ctx := (ctx (V := V)).
Implicit Types (h : heap) (k : ctx) (t l r : tree).

Lemma retrace_down_run h nil k l p v c b r : tok h nil k (Node l p v c b r) -> pos_counts (entries (plug k (Node l p v c b r))) ->
  exists h' k' l' r', retrace_down h nil p = Some h' /\ tok h' nil k' (Node l' p v c b r') /\ xent (plug k' (Node l' p v c b r')) = xent (plug k (Node l p v c b r)) /\
    becomes h h' nil (entries (plug k (Node l p v c b r))) (entries (plug k (Node l p v c b r))) /\ next h' = next h /\ (l' = Leaf \/ r' = Leaf) /\
    (chok k -> hok (topb k) l -> hok (topb k) r -> chok k' /\ hok (topb k') l' /\ hok (topb k') r').
Proof.
  intros T P. unfold retrace_down. rewrite (tok_ne_nil _ _ _ _ _ _ _ _ _ T).
  destruct (down_loop nil p v c b (length (tids l) + length (tids r)) k l r h (loops h) (le_n _) T) as (h' & k' & l' & r' & E' & T' & X & S' & L' & N' & LR & HO); [pose proof (tok_len _ _ _ _ T) as Q; rewrite tlen_node in Q; unfold loops; lia|].
  exists h', k', l', r'. split; [exact E'|split; [exact T'|split; [exact X|]]].
  assert (EE : entries (plug k' (Node l' p v c b r')) = entries (plug k (Node l p v c b r))) by (apply xent_eq_entries, X).
  split; [|split; [congruence|split; [exact LR|exact HO]]].
  rewrite <- EE at 2. apply becomes_same; auto; [rewrite EE; exact P|rewrite EE; reflexivity].
Qed.
Lemma erase_node_one d h nil k l p v c b r cnt : tok h nil k (Node l p v c b r) -> l = Leaf \/ r = Leaf -> (c <= mcnt d cnt)%Z ->
  exists h', erase_node d h nil p cnt = Some (h', ctop nil k) /\ tok h' nil k (match l with Leaf => r | _ => l end).
Proof.
  intros H CS L. unfold erase_node. rewrite (tok_is_nil _ _ _ _ _ _ _ _ _ H). cbn [obind]. rewrite (tok_count _ _ _ _ _ _ _ _ _ H). cbn [obind]. fold (mcnt d cnt).
  destruct (Z.ltb_spec (mcnt d cnt) c) as [Q|_]; [lia|]. pose proof (tok_get _ _ _ _ _ _ _ _ _ H) as (_ & Gl & Gr & _).
  rewrite Gl. cbn [obind]. rewrite (tok_rt_nil _ _ _ _ (tok_left _ _ _ _ _ _ _ _ _ H)). cbn [obind]. rewrite Gr. cbn [obind]. rewrite (tok_rt_nil _ _ _ _ (tok_right _ _ _ _ _ _ _ _ _ H)). cbn [obind].
  replace (negb match l with Leaf => true | _ => false end && negb match r with Leaf => true | _ => false end) with false by (destruct CS as [-> | ->]; [reflexivity|destruct l; reflexivity]). cbn [obind].
  destruct (remove_run h nil k l p v c b r H CS) as (h' & E & T & _). eauto.
Qed.
Lemma prio_sub h h' nil t t' : tree_rep h nil t -> tree_rep h' nil t' -> (forall p v c b, In (p, v, c, b) (xent t) -> In p (ids (entries t')) -> exists v' c', In (p, v', c', b) (xent t')) -> priorities_kept h h' (entries t) (entries t').
Proof.
  intros TR TR' H p Hp Hp'. apply xent_in in Hp as (v & c & b & Hp). destruct (H _ _ _ _ Hp Hp') as (v' & c' & Hq). rewrite (xent_bal h nil t p v c b TR Hp). exact (xent_bal h' nil t' p v' c' b TR' Hq).
Qed.

Lemma treap_erase_at_run d h nil (a : list entry) e b cnt : bst_rep h nil (a ++ e :: b) -> (1 <= cnt)%Z -> unit_counts d (a ++ e :: b) ->
  let es' := a ++ minus d cnt e ++ b in
  exists h' it, treap_erase_at d h nil (eid e) cnt = Some (h', it) /\ becomes h h' nil (a ++ e :: b) es' /\ next h' = next h /\
    priorities_kept h h' (a ++ e :: b) es' /\ (heap_ordered h (a ++ e :: b) -> minus d cnt e = [] -> heap_ordered h' es').
Proof.
  intros R C U es'. destruct (rep_zip _ _ _ _ _ R) as (k & l & bl & r & T & Ea & Eb & P).
  assert (E : entries (plug k (Node l (eid e) (evl e) (ecn e) bl r)) = a ++ e :: b) by (rewrite entries_plug; cbn [entries]; rewrite Ea, Eb, <- !app_assoc; destruct e as [[? ?] ?]; reflexivity).
  destruct (retrace_down_run h nil k l _ _ _ bl r T) as (h1 & k1 & l1 & r1 & E1 & T1 & X1 & B1 & N1 & LR & HO); [rewrite E; exact P|]. rewrite E in B1.
  destruct (erase_at d h1 nil a e b cnt (proj1 B1) C U) as (h2 & it & E2 & B2 & N2). fold es' in B2. exists h2, it. unfold treap_erase_at. rewrite E1. cbn [obind]. split; [exact E2|].
  assert (P1 : entries (plug k1 (Node l1 (eid e) (evl e) (ecn e) bl r1)) = a ++ e :: b) by (rewrite (xent_eq_entries _ _ X1); exact E).
  split; [apply (becomes_trans h h1 h2 nil _ _ _ B1 B2); [apply incl_refl|exact R]|split; [congruence|]].
  assert (TR : tree_rep h nil (plug k (Node l (eid e) (evl e) (ecn e) bl r))) by (apply tok_tree; [exact T|rewrite E; exact P]).
  assert (P' : pos_counts es') by (destruct B2 as ((t & TR2 & <-) & _); apply TR2).
  assert (M : minus d cnt e = if (mcnt d cnt <? ecn e)%Z then [(eid e, evl e, (ecn e - mcnt d cnt)%Z)] else []).
  { unfold minus, mcnt. destruct d; [|reflexivity|]; cbn in U; rewrite Forall_app, Forall_cons_iff in U; destruct U as (_ & -> & _); reflexivity. }
  assert (EL : entries l1 = [] \/ l1 <> Leaf) by (destruct l1; [now left|right; discriminate]).
  assert (AB : forall l2 x r2, entries (plug k1 (Node l2 x (evl e) (ecn e) bl r2)) = a ++ e :: b -> True) by auto. clear AB.
  assert (AB : cleft k1 ++ entries l1 = a /\ entries r1 ++ cright k1 = b).
  { assert (Q := P1). rewrite entries_plug in Q. cbn [entries] in Q. rewrite <- app_assoc in Q. cbn [app] in Q. rewrite app_assoc in Q.
    assert (ND : NoDup (ids (a ++ e :: b))) by (exact (rep_nodup' _ _ _ R)).
    assert (NDa : ~ In (eid e) (ids a)). { rewrite ids_app, ids_cons in ND. apply NoDup_remove_2 in ND. rewrite in_app_iff in ND. tauto. }
    assert (NDl : ~ In (eid e) (ids (cleft k1 ++ entries l1))). { rewrite <- Q in ND. rewrite ids_app, ids_cons in ND. cbn [eid fst] in ND. apply NoDup_remove_2 in ND. rewrite in_app_iff in ND. tauto. }
    revert Q NDa NDl. generalize (cleft k1 ++ entries l1) as u. clear. intros u. revert a. induction u as [|x u IH]; intros [|y a] Q Na Nl; cbn [app] in Q.
    - injection Q as _ Q. auto.
    - injection Q as Q _. exfalso. apply Na. left. rewrite <- Q. reflexivity.
    - injection Q as Q _. exfalso. apply Nl. left. rewrite Q. reflexivity.
    - injection Q as -> Q. destruct (IH a Q) as (-> & E); [intros H; apply Na; right; exact H|intros H; apply Nl; right; exact H|]. auto. }
  destruct AB as (A1 & A2). destruct (Z.ltb_spec (mcnt d cnt) (ecn e)) as [L|L].
  - destruct (erase_node_less d h1 nil k1 l1 (eid e) (evl e) (ecn e) bl r1 cnt T1 L) as (h2' & E2' & T2 & _). rewrite E2 in E2'. injection E2' as <- ->.
    assert (X2 : entries (plug k1 (Node l1 (eid e) (evl e) (ecn e - mcnt d cnt) bl r1)) = es') by (unfold es'; rewrite M, entries_plug; cbn [entries]; rewrite <- A1, <- A2, <- !app_assoc; reflexivity).
    assert (TR2 : tree_rep h2 nil (plug k1 (Node l1 (eid e) (evl e) (ecn e - mcnt d cnt) bl r1))) by (apply tok_tree; [exact T2|rewrite X2; exact P']).
    split; [|rewrite M; discriminate]. rewrite <- E, <- X2. apply (prio_sub h h2 nil); [exact TR|exact TR2|]. intros p v c pb Hp _. rewrite <- X1 in Hp. rewrite xent_plug in *. cbn [xent] in *. rewrite !in_app_iff in Hp. cbn [In] in Hp.
    destruct Hp as [Hp|[[Hp|[Hp|Hp]]|Hp]]; [exists v, c|exists v, c|injection Hp as <- <- <- <-; exists (evl e), (ecn e - mcnt d cnt)%Z|exists v, c|exists v, c]; rewrite !in_app_iff; cbn [In]; auto.
  - destruct (erase_node_one d h1 nil k1 l1 (eid e) (evl e) (ecn e) bl r1 cnt T1 LR L) as (h2' & E2' & T2). rewrite E2 in E2'. injection E2' as <- ->. set (ch := match l1 with Leaf => r1 | _ => l1 end) in *.
    assert (Xc : xent ch = xent l1 ++ xent r1) by (unfold ch; destruct LR as [-> | ->]; [reflexivity|destruct l1; [reflexivity|now rewrite app_nil_r]]).
    assert (X2 : entries (plug k1 ch) = es'). { unfold es'. rewrite M, entries_plug, <- A1, <- A2. rewrite <- (xent_entries ch), Xc, map_app, !xent_entries. cbn [app]. rewrite <- !app_assoc. reflexivity. }
    assert (TR2 : tree_rep h2 nil (plug k1 ch)) by (apply tok_tree; [exact T2|rewrite X2; exact P']). split.
    + rewrite <- E, <- X2. apply (prio_sub h h2 nil); [exact TR|exact TR2|]. intros p v c pb Hp Hq. exists v, c. rewrite <- X1 in Hp. rewrite xent_plug in *. cbn [xent] in *. rewrite Xc. rewrite !in_app_iff in Hp. cbn [In] in Hp. rewrite !in_app_iff.
      destruct Hp as [Hp|[[Hp|[Hp|Hp]]|Hp]]; auto. exfalso. injection Hp as <- <- <- <-. rewrite X2 in Hq. unfold es' in Hq. rewrite M in Hq. cbn [app] in Hq.
      assert (ND : NoDup (ids (a ++ e :: b))) by (exact (rep_nodup' _ _ _ R)). rewrite ids_app, ids_cons in ND. apply NoDup_remove_2 in ND. rewrite ids_app in Hq. contradiction.
    + intros Ho _. rewrite <- E in Ho. apply (order_tree h nil _ TR) in Ho. apply hok_plug in Ho as (Ho & H1 & H2 & H3). rewrite <- X2. apply (order_tree h2 nil _ TR2). apply hok_plug.
      destruct (HO Ho (hok_mono _ _ _ H1 H2) (hok_mono _ _ _ H1 H3)) as (C1 & C2 & C3). split; [exact C1|]. unfold ch. destruct l1; assumption.
Qed.

Lemma prio_trans h h1 h2 (es es1 es2 : list entry) : priorities_kept h h1 es es1 -> priorities_kept h1 h2 es1 es2 -> incl (ids es2) (ids es1) -> priorities_kept h h2 es es2.
Proof. intros H1 H2 I p Hp Hp2. rewrite (H2 p); auto. Qed.
Lemma minus_ids_in d cnt (e : entry) a b : incl (ids (a ++ minus d cnt e ++ b)) (ids (a ++ e :: b)).
Proof.
  intros x Hx. rewrite !ids_app, !in_app_iff in Hx. rewrite ids_app, ids_cons, in_app_iff. cbn [In]. destruct Hx as [Hx|[Hx|Hx]]; auto. apply minus_ids in Hx as [Hx|[]]. auto.
Qed.
Lemma treap_range_loop d cnt nil : (1 <= cnt)%Z -> forall m (a b : list entry) h fuel res, bst_rep h nil (a ++ m ++ b) -> unit_counts d (a ++ m ++ b) -> length m < fuel ->
  exists h' res', while fuel (fun '(h, p, res) =>
    if p =? first_it nil b then Some (inr (h, res)) else
    let* b' := inorder_next h p in let* '(h, it) := treap_erase_at d h nil p cnt in Some (inl (h, b', Some it))) (h, first_it nil (m ++ b), res) = Some (h', res') /\ (m = [] -> h' = h /\ res' = res) /\
    becomes h h' nil (a ++ m ++ b) (a ++ flat_map (minus d cnt) m ++ b) /\ next h' = next h /\
    priorities_kept h h' (a ++ m ++ b) (a ++ flat_map (minus d cnt) m ++ b) /\
    (heap_ordered h (a ++ m ++ b) -> flat_map (minus d cnt) m = [] -> heap_ordered h' (a ++ flat_map (minus d cnt) m ++ b)).
Proof.
  intros C. induction m as [|e m IH]; intros a b h fuel res R U L; (destruct fuel as [|fuel]; [cbn in L; lia|]); cbn [while].
  - cbn [app flat_map]. rewrite Nat.eqb_refl. exists h, res. split; [reflexivity|split; [auto|split; [apply becomes_refl; exact R|split; [reflexivity|split; [intros p _ _; reflexivity|auto]]]]].
  - assert (NE : (first_it nil ((e :: m) ++ b) =? first_it nil b) = false).
    { apply Nat.eqb_neq. cbn [app first_it]. pose proof (rep_nodup _ _ _ R) as ND. intros E. destruct b as [|x b]; cbn [first_it] in E.
      - apply NoDup_cons_iff in ND as (ND & _). apply ND. rewrite <- E, ids_app, in_app_iff. right. now left.
      - apply NoDup_cons_iff in ND as (_ & ND). rewrite ids_app in ND. cbn [app] in ND. rewrite ids_cons in ND. apply NoDup_remove_2 in ND. apply ND. rewrite in_app_iff, ids_app, ids_cons, in_app_iff. right. right. left. now symmetry. }
    rewrite NE. cbn [app first_it]. destruct (iterators h nil a e (m ++ b) R) as (Nx & _). rewrite Nx. cbn [obind].
    destruct (treap_erase_at_run d h nil a e (m ++ b) cnt R C U) as (h1 & it & E1 & B1 & N1 & K1 & O1). rewrite E1. cbn [obind].
    assert (U1 : unit_counts d ((a ++ minus d cnt e) ++ m ++ b)).
    { unfold unit_counts in *. destruct d; [|exact I|]; cbn [minus]; rewrite app_nil_r; apply Forall_app in U as (U1 & U2); apply Forall_cons_iff in U2 as (_ & U2); apply Forall_app; auto. }
    assert (R1 : bst_rep h1 nil ((a ++ minus d cnt e) ++ m ++ b)) by (rewrite <- app_assoc; exact (proj1 B1)).
    destruct (IH (a ++ minus d cnt e) b h1 fuel (Some it) R1 U1) as (h2 & res2 & E2 & _ & B2 & N2 & K2 & O2); [cbn in L; lia|]. rewrite <- !app_assoc in B2, K2, O2.
    exists h2, res2. split; [exact E2|split; [discriminate|]]. cbn [flat_map]. rewrite <- app_assoc. split; [|split; [congruence|split]].
    + apply (becomes_trans h h1 h2 nil _ _ _ B1 B2); [apply minus_ids_in|exact R].
    + apply (prio_trans h h1 h2 _ _ _ K1 K2). intros x Hx. rewrite !ids_app, !in_app_iff in *. destruct Hx as [Hx|[Hx|[Hx|Hx]]]; auto. right. right. left. clear - Hx. induction m as [|y m IH]; [exact Hx|]. cbn [flat_map] in Hx. rewrite ids_app, in_app_iff in Hx. destruct Hx as [Hx|Hx]; [left; apply minus_ids in Hx as [Hx|[]]; exact Hx|right; auto].
    + intros Ho Q. apply app_eq_nil in Q as (Q1 & Q2). apply O2; [apply O1; assumption|exact Q2].
Qed.
Lemma treap_range_run d h nil (a m b : list entry) cnt : bst_rep h nil (a ++ m ++ b) -> (1 <= cnt)%Z -> unit_counts d (a ++ m ++ b) ->
  exists h' res, treap_erase_range d h nil (first_it nil (m ++ b)) (first_it nil b) cnt = Some (h', res) /\ (m = [] -> h' = h /\ res = None) /\
    becomes h h' nil (a ++ m ++ b) (a ++ flat_map (minus d cnt) m ++ b) /\
    priorities_kept h h' (a ++ m ++ b) (a ++ flat_map (minus d cnt) m ++ b) /\
    (heap_ordered h (a ++ m ++ b) -> flat_map (minus d cnt) m = [] -> heap_ordered h' (a ++ flat_map (minus d cnt) m ++ b)).
Proof.
  intros R C U. destruct (treap_range_loop d cnt nil C m a b h (loops h) None R U) as (h' & res & E & M & B & _ & K & O); [|exists h', res; auto 10].
  destruct (rep_tok _ _ _ R) as (t & T & Et & _). pose proof (tok_tid_len _ _ _ T) as L. unfold tids, ids in L. rewrite Et, map_length, !app_length in L. unfold loops. lia.
Qed.
End P.
