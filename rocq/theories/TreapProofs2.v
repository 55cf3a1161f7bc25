(** Treaps: insertion. *)
From Verif Require Import Lib BstModel BstSpec BstProofs BstProofs2 BstProofs3 BstProofs4 BstProofs5 BstProofs8 BstProofs9 BstProofs10 BstProofs11 BstProofs12 TreapModel TreapSpec TreapProofs.
Open Scope nat_scope.

Section P.
Context {V : Type}.
Notation entry := (nat * V * Z)%type.
Notation heap := (heap (V := V)).
Notation tree := (tree V).
Notation ctx := (ctx (V := V)).
Implicit Types (h : heap) (k : ctx) (t l r : tree).

Lemma becomes_trans2 h h1 h2 nil (es es1 es2 : list entry) : becomes h h1 nil es es1 -> becomes h1 h2 nil es1 es2 -> incl (ids es1) (ids es2) -> becomes h h2 nil es es2.
Proof.
  intros (R1 & O1 & M1) (R2 & O2 & M2) I. split; [exact R2|split].
  - intros n es' R' A. destruct (O1 _ _ R' A) as (R3 & A3). exact (O2 _ _ R3 A3).
  - intros p. rewrite (M2 p), (M1 p). split.
    + intros [([H|[H|H]] & N)|H]; [auto|right; now left|contradiction|auto].
    + intros [H|H]; [|auto]. destruct (in_dec Nat.eq_dec p (ids es1)) as [Hp|Hp]; [right; right; apply I, Hp|left; auto].
Qed.
Lemma tok_ne_nil h nil k l p v c b r : tok h nil k (Node l p v c b r) -> (p =? nil) = false.
Proof.
  intros T. apply Nat.eqb_neq. intros ->. pose proof (tok_is_nil _ _ _ _ _ _ _ _ _ T) as Q. rewrite (tok_nil_nil _ _ _ _ T) in Q. discriminate.
Qed.
Lemma entries_b k l p v c b b' r : entries (plug k (Node l p v c b r)) = entries (plug k (Node (V := V) l p v c b' r)).
Proof. rewrite !entries_plug. reflexivity. Qed.

Lemma retrace_up_run h nil k l p v c b r z : tok h nil k (Node l p v c b r) -> pos_counts (entries (plug k (Node l p v c b r))) -> (0 <= z)%Z ->
  exists h' k' l' r', retrace_up h nil p z = Some h' /\ tok h' nil k' (Node l' p v c z r') /\ xent (plug k' (Node l' p v c z r')) = xent (plug k (Node l p v c z r)) /\
    becomes h h' nil (entries (plug k (Node l p v c b r))) (entries (plug k (Node l p v c b r))) /\ next h' = next h /\
    (chok k -> hok (topb k) l -> hok (topb k) r -> hok z l -> hok z r -> heap_ordered h' (entries (plug k (Node l p v c b r)))).
Proof.
  intros T P Z. unfold retrace_up. rewrite (tok_ne_nil _ _ _ _ _ _ _ _ _ T). destruct (sbal_tok h nil k l p v c b r z T) as (h1 & E1 & T1 & S1 & L1 & N1). rewrite E1. cbn [obind].
  destruct (up_loop nil p v c z Z k l r h1 (loops h1) T1) as (h' & k' & l' & r' & E' & T' & X & S' & L' & N' & HO); [pose proof (tok_len _ _ _ _ T1); unfold loops; lia|].
  exists h', k', l', r'. split; [exact E'|split; [exact T'|split; [exact X|]]].
  assert (EE : entries (plug k' (Node l' p v c z r')) = entries (plug k (Node l p v c b r))) by (rewrite (entries_b k l p v c b z r); apply xent_eq_entries, X).
  split; [|split; [congruence|]].
  - rewrite <- EE at 2. apply becomes_same; auto; [rewrite EE; exact P| |congruence|congruence|rewrite EE; reflexivity].
    intros x Hx. apply (same_trans h h1); [auto|]. apply S'. exact (out_imp nil _ _ _ _ x eq_refl Hx).
  - intros C H1 H2 H3 H4. rewrite <- EE. apply (order_tok h' nil); [exact T'|rewrite EE; exact P|]. apply HO; assumption.
Qed.

Variables K : Type.
Variable key : V -> K.
Variable cmp : K -> K -> bool.
Hypothesis SW : strict_weak cmp.

(** what insert does to the tree *)
Lemma insert_tok d h nil (es : list entry) v cnt : bst_rep h nil es -> sorted key cmp d es -> unit_counts d es -> (1 <= cnt)%Z ->
  exists h1 k l w c bl r, bst_insert key cmp d h nil v cnt = Some (h1, inserted_at key cmp d (next h) v es) /\
    tok h1 nil k (Node l (inserted_at key cmp d (next h) v es) w c bl r) /\ entries (plug k (Node l (inserted_at key cmp d (next h) v es) w c bl r)) = inserted key cmp d (next h) v cnt es /\
    ((inserted_at key cmp d (next h) v es = next h /\ l = Leaf /\ r = Leaf /\ tree_rep h nil (plug k Leaf) /\ entries (plug k Leaf) = es) \/
     (exists c0, tree_rep h nil (plug k (Node l (inserted_at key cmp d (next h) v es) w c0 bl r)) /\ entries (plug k (Node l (inserted_at key cmp d (next h) v es) w c0 bl r)) = es)).
Proof.
  intros R S U C. destruct (insert_run key cmp SW d h nil es v cnt R S U C) as (h1 & E1 & (R1 & _) & _). set (q := key v).
  destruct (sorted_split key cmp SW d q es S) as (a & m & b & Es & A & M & B & LM).
  assert (A1 : Forall (fun e => less key cmp q e = true) a) by (eapply Forall_impl; [|exact A]; cbn; tauto).
  assert (A2 : Forall (fun e => greater key cmp q e = false) a) by (eapply Forall_impl; [|exact A]; cbn; tauto).
  assert (A3 : Forall (fun e => equiv key cmp q e = false) a) by (eapply Forall_impl; [|exact A]; cbn; tauto).
  assert (M2 : Forall (fun e => greater key cmp q e = false) m) by (eapply Forall_impl; [|exact M]; cbn; tauto).
  assert (M3 : Forall (fun e => equiv key cmp q e = true) m) by (eapply Forall_impl; [|exact M]; cbn; tauto).
  assert (B2 : Forall (fun e => greater key cmp q e = true) b) by (eapply Forall_impl; [|exact B]; cbn; tauto).
  assert (B3 : Forall (fun e => equiv key cmp q e = false) b) by (eapply Forall_impl; [|exact B]; cbn; tauto).
  destruct (rep_tok _ _ _ R) as (t & T & E & P). pose proof (tok_tid_len _ _ _ T) as L. assert (Rt := tok_root _ _ _ T).
  assert (CS : (d = STORE \/ m = []) \/ d <> STORE /\ exists e, m = [e]).
  { destruct LM as [LM|LM]; [auto|]. destruct m as [|e m]; [auto|]. destruct m; [|cbn in LM; lia]. destruct d; [right|right|auto]; (split; [discriminate|eauto]). }
  pose proof E1 as E1'. unfold bst_insert in E1'. rewrite Rt in E1'. cbn [obind] in E1'. fold q in E1'. destruct CS as [CS|(ND & e & ->)].
  - assert (EN : inserted key cmp d (next h) v cnt es = (a ++ m) ++ (next h, v, mcnt d cnt) :: b).
    { assert (F : filter (fun e => negb (greater key cmp q e)) es ++ (next h, v, times d cnt) :: filter (greater key cmp q) es = (a ++ m) ++ (next h, v, mcnt d cnt) :: b).
      { rewrite Es, !filter_app, (filter_nall _ a A2), (filter_nall _ m M2), (filter_nnone _ b B2), (filter_none _ a A2), (filter_none _ m M2), (filter_all _ b B2), app_nil_r. reflexivity. }
      unfold BstSpec.inserted. fold q. rewrite F. destruct d; [| |reflexivity]; (destruct CS as [CS| ->]; [discriminate|]); rewrite Es, existsb_none by (apply Forall_app; auto); reflexivity. }
    assert (IA : inserted_at key cmp d (next h) v es = next h).
    { unfold BstSpec.inserted_at. fold q. destruct d; [| |reflexivity]; (destruct CS as [CS| ->]; [discriminate|]); rewrite Es, find_none' by (apply Forall_app; auto); reflexivity. }
    rewrite EN. rewrite IA in *. assert (F1 : entries t = (a ++ m) ++ b) by (rewrite E, <- app_assoc; exact Es).
    assert (AM : Forall (fun e => greater key cmp q e = false) (a ++ m)) by (apply Forall_app; auto).
    destruct (insert_loop_new key cmp d h nil q t [] (loops h) (a ++ m) b T L F1 AM B2) as (k' & El & Pk & Lk & Rk).
    { destruct CS as [CS| ->]; [auto|right]. rewrite app_nil_r. exact A1. }
    cbn [ctop isL] in El. rewrite El in E1'. cbn [obind] in E1'. cbn [plug cleft cright app] in Pk, Lk, Rk. rewrite app_nil_r in Rk.
    assert (T0 := T). apply (tok_move _ _ [] t k' _ Pk) in T. destruct (insert_node_new d h nil k' v cnt (isL k') T (or_intror eq_refl)) as (h' & bl & Ei & T' & S' & Lv & Nx).
    rewrite Ei in E1'. injection E1' as <-. exists h', k', Leaf, v, (mcnt d cnt), bl, Leaf. split; [exact E1|split; [exact T'|split; [rewrite entries_plug, Lk, Rk; reflexivity|left]]].
    split; [reflexivity|split; [reflexivity|split; [reflexivity|]]]. assert (E3 : entries (plug k' (V := V) Leaf) = es) by (rewrite entries_plug, Lk, Rk, Es; cbn [entries app]; now rewrite <- app_assoc).
    split; [|exact E3]. apply tok_tree; [exact T|rewrite E3; exact P].
  - cbn [app] in Es. apply Forall_cons_iff in M3 as (M3 & _).
    assert (IA : inserted_at key cmp d (next h) v es = eid e).
    { unfold BstSpec.inserted_at. fold q. rewrite Es, find_app' by exact A3. cbn [find]. rewrite M3. destruct d; [reflexivity|reflexivity|congruence]. }
    assert (EX : existsb (equiv key cmp q) es = true) by (apply existsb_exists; exists e; split; [rewrite Es; apply in_or_app; right; now left|exact M3]).
    assert (EN : inserted key cmp d (next h) v cnt es = a ++ (eid e, evl e, (ecn e + match d with COUNT => cnt | _ => 0 end)%Z) :: b).
    { unfold BstSpec.inserted. fold q. rewrite EX. destruct d; [| |congruence].
      - rewrite Z.add_0_r, Es. destruct e as [[? ?] ?]; reflexivity.
      - rewrite Es, map_app. cbn [map]. rewrite M3. f_equal; [|f_equal]; apply map_id_F; eapply Forall_impl; try exact A3; try exact B3; cbn; intros x ->; reflexivity. }
    rewrite EN. rewrite IA in *. assert (F1 : entries t = a ++ e :: b) by (rewrite E; exact Es).
    assert (AA : Forall (fun e => less key cmp q e = true /\ greater key cmp q e = false) a) by (eapply Forall_impl; [|exact A]; cbn; tauto).
    destruct (insert_loop_old key cmp d h nil q ND t [] (loops h) a b e T L F1 AA M3 B2) as (k' & l & bl & r & El & Pk & Lk & Rk).
    cbn [ctop isL] in El. rewrite El in E1'. cbn [obind plug cleft cright app] in *. rewrite app_nil_r in Rk.
    assert (E3 : entries (plug k' (Node l (eid e) (evl e) (ecn e) bl r)) = es) by (rewrite entries_plug; cbn [entries]; rewrite Es, <- Lk, <- Rk, <- !app_assoc; destruct e as [[? ?] ?]; reflexivity).
    apply (tok_move _ _ [] t k' _ Pk) in T. assert (TR : tree_rep h nil (plug k' (Node l (eid e) (evl e) (ecn e) bl r))) by (apply tok_tree; [exact T|rewrite E3; exact P]).
    destruct d; [| |congruence].
    + injection E1' as <-. exists h, k', l, (evl e), (ecn e), bl, r. rewrite Z.add_0_r. split; [exact E1|split; [exact T|split; [rewrite E3, Es; destruct e as [[? ?] ?]; reflexivity|right; eauto]]].
    + destruct (insert_node_old COUNT h nil k' l (eid e) (evl e) (ecn e) bl r v cnt (isL k') T (or_intror eq_refl)) as (h' & Ei & T' & S' & Lv & Nx). rewrite Ei in E1'. injection E1' as <-. cbn [mcnt] in *.
      exists h', k', l, (evl e), (ecn e + cnt)%Z, bl, r. split; [exact E1|split; [exact T'|split; [|right; eauto]]]. rewrite entries_plug; cbn [entries]; rewrite <- Lk, <- Rk, <- !app_assoc; reflexivity.
Qed.

(** priorities after a retrace *)
Lemma prio_new h h' nil k t k' l p v c z r v' c' : tree_rep h nil (plug k Leaf) -> tree_rep h' nil t -> xent t = xent (plug k' (Node l p v c z r)) -> k' = k -> l = Leaf -> r = Leaf -> v' = v -> c' = c ->
  bal h' p = z /\ (forall x, In x (ids (entries (plug k (V := V) Leaf))) -> bal h' x = bal h x).
Proof.
  intros TR TR' X -> -> -> -> ->. rewrite xent_plug in X. cbn [xent app] in X. split.
  - apply (xent_bal h' nil t p v c z TR'). rewrite X. apply in_or_app. right. now left.
  - intros x Hx. apply xent_in in Hx as (vx & cx & bx & Hx). rewrite (xent_bal h nil _ _ _ _ _ TR Hx). apply (xent_bal h' nil t x vx cx bx TR'). rewrite X. rewrite xent_plug in Hx. cbn [xent app] in Hx.
    apply in_app_iff in Hx as [Hx|Hx]; apply in_or_app; [left; exact Hx|right; right; exact Hx].
Qed.
Lemma prio_old h h' nil k t l p v c0 b r c z : tree_rep h nil (plug k (Node l p v c0 b r)) -> tree_rep h' nil t -> xent t = xent (plug k (Node l p v c z r)) ->
  bal h' p = z /\ (forall x, In x (ids (entries (plug k (Node l p v c0 b r)))) -> x <> p -> bal h' x = bal h x).
Proof.
  intros TR TR' X. split.
  - apply (xent_bal h' nil t p v c z TR'). rewrite X, xent_plug. apply in_or_app. right. apply in_or_app. left. cbn [xent]. apply in_or_app. right. now left.
  - intros x Hx Nx. apply xent_in in Hx as (vx & cx & bx & Hx). rewrite (xent_bal h nil _ _ _ _ _ TR Hx). apply (xent_bal h' nil t x vx cx bx TR'). rewrite X. rewrite xent_plug in *. cbn [xent] in *.
    rewrite !in_app_iff in *. cbn [In] in *. destruct Hx as [Hx|[[Hx|[Hx|Hx]]|Hx]]; auto. congruence.
Qed.

Lemma treap_insert_run d h nil (es : list entry) v cnt z : bst_rep h nil es -> sorted key cmp d es -> unit_counts d es -> (1 <= cnt)%Z -> (0 <= z)%Z ->
  let it := inserted_at key cmp d (next h) v es in let es' := inserted key cmp d (next h) v cnt es in
  exists h', treap_insert key cmp d h nil v cnt z = Some (h', it) /\ becomes h h' nil es es' /\ sorted key cmp d es' /\ unit_counts d es' /\
    bal h' it = z /\ (forall p, In p (ids es) -> p <> it -> bal h' p = bal h p) /\ (heap_ordered h es -> it = next h \/ (z <= bal h it)%Z -> heap_ordered h' es').
Proof.
  intros R S U C Z it es'. destruct (insert_tok d h nil es v cnt R S U C) as (h1 & k & l & w & c & bl & r & E1 & T1 & X1 & CS). fold it in E1, T1, X1, CS. fold es' in X1.
  destruct (insert_run key cmp SW d h nil es v cnt R S U C) as (h1' & E1' & B1 & S1 & U1). fold it in E1'. fold es' in B1, S1, U1. rewrite E1 in E1'. injection E1' as <-.
  assert (P1 : pos_counts es') by (destruct B1 as ((t & TR & <-) & _); apply TR).
  destruct (retrace_up_run h1 nil k l it w c bl r z T1) as (h' & k' & l' & r' & E' & T' & X' & B' & N' & HO); [rewrite X1; exact P1|exact Z|].
  rewrite X1 in B', HO. exists h'. unfold treap_insert. rewrite E1. cbn [obind]. rewrite E'. cbn [obind]. split; [reflexivity|]. split; [apply (becomes_trans2 h h1 h' nil es es' es' B1 B'); apply incl_refl|]. split; [exact S1|split; [exact U1|]].
  assert (X'' : entries (plug k' (Node l' it w c z r')) = es') by (rewrite (xent_eq_entries _ _ X'), <- X1; apply entries_b).
  assert (TR' : tree_rep h' nil (plug k' (Node l' it w c z r'))) by (apply tok_tree; [exact T'|rewrite X''; exact P1]).
  destruct CS as [(Ii & Ll & Lr & TR & Ee)|(c0 & TR & Ee)].
  - destruct (prio_new h h' nil k _ k l it w c z r w c TR TR' X' eq_refl Ll Lr eq_refl eq_refl) as (Q1 & Q2). rewrite Ee in Q2. split; [exact Q1|split; [auto|]]. intros Ho _. rewrite <- Ee in Ho. apply (order_tree h nil _ TR) in Ho. apply hok_plug in Ho as (Ho & _). subst l r. apply HO; [exact Ho|exact I..].
  - destruct (prio_old h h' nil k _ l it w c0 bl r c z TR TR' X') as (Q1 & Q2). rewrite Ee in Q2. split; [exact Q1|split; [auto|]]. intros Ho [I|I].
    + exfalso. assert (IN : In it (ids es)). { rewrite <- Ee, entries_plug. cbn [entries]. rewrite !ids_app, ids_cons, !in_app_iff. right. left. right. now left. }
      destruct TR as (_ & _ & _ & F & _). rewrite Forall_forall in F. assert (H := F it). rewrite Ee in H. specialize (H (or_intror IN)). lia.
    + assert (Bi : bal h it = bl) by (apply (xent_bal h nil _ it w c0 bl TR); rewrite xent_plug; cbn [xent]; rewrite !in_app_iff; right; left; right; now left). rewrite Bi in I.
      rewrite <- Ee in Ho. apply (order_tree h nil _ TR) in Ho. apply hok_plug in Ho as (Ho & H1 & H2 & H3). apply HO; [exact Ho|apply (hok_mono l bl); assumption|apply (hok_mono r bl); assumption|apply (hok_mono l bl); assumption|apply (hok_mono r bl); assumption].
Qed.

Lemma treap_before_run d h nil (a b : list entry) v cnt z : bst_rep h nil (a ++ b) -> (1 <= cnt)%Z -> (0 <= z)%Z ->
  let es' := a ++ (next h, v, times d cnt) :: b in
  exists h', treap_insert_before d h nil (first_it nil b) v cnt z = Some (h', next h) /\ becomes h h' nil (a ++ b) es' /\
    bal h' (next h) = z /\ (forall p, In p (ids (a ++ b)) -> bal h' p = bal h p) /\ (heap_ordered h (a ++ b) -> heap_ordered h' es').
Proof.
  intros R C Z es'. destruct (insert_before_run d h nil a b v cnt R C) as (h1 & E1 & B1). change (mcnt d cnt) with (times d cnt) in B1. fold es' in B1.
  destruct (before_tok h nil a b R) as (k & gl & E & T & G & Ka & Kb & P). pose proof E1 as E1'. unfold insert_before in E1'. destruct (glft h _) as [lx|]; [|discriminate]. cbn [obind] in *. destruct (is_nil h lx) as [g|]; [|discriminate]. cbn [obind] in *.
  destruct (if negb g then _ else _) as [it|]; [|discriminate]. cbn [obind] in *. injection E as -> ->. destruct (insert_node_new d h nil k v cnt gl T G) as (h1' & bl & Ei & T1 & S & L & N). rewrite Ei in E1'. injection E1' as <-.
  change (mcnt d cnt) with (times d cnt) in T1. assert (X1 : entries (plug k (Node Leaf (next h) v (times d cnt) bl Leaf)) = es') by (rewrite entries_plug, Ka, Kb; reflexivity).
  assert (P1 : pos_counts es') by (destruct B1 as ((t & TR & <-) & _); apply TR).
  destruct (retrace_up_run h1' nil k Leaf (next h) v (times d cnt) bl Leaf z T1) as (h' & k' & l' & r' & E' & T' & X' & B' & N' & HO); [rewrite X1; exact P1|exact Z|].
  rewrite X1 in B', HO. exists h'. unfold treap_insert_before. rewrite E1. cbn [obind]. rewrite E'. cbn [obind]. split; [reflexivity|]. split; [apply (becomes_trans2 h h1' h' nil (a ++ b) es' es' B1 B'); apply incl_refl|].
  assert (X'' : entries (plug k' (Node l' (next h) v (times d cnt) z r')) = es') by (rewrite (xent_eq_entries _ _ X'), <- X1; apply entries_b).
  assert (TR' : tree_rep h' nil (plug k' (Node l' (next h) v (times d cnt) z r'))) by (apply tok_tree; [exact T'|rewrite X''; exact P1]).
  assert (Ee : entries (plug k (V := V) Leaf) = a ++ b) by (rewrite entries_plug, Ka, Kb; reflexivity).
  assert (TR : tree_rep h nil (plug k Leaf)) by (apply tok_tree; [exact T|rewrite Ee; exact P]).
  destruct (prio_new h h' nil k _ k Leaf (next h) v (times d cnt) z Leaf v (times d cnt) TR TR' X' eq_refl eq_refl eq_refl eq_refl eq_refl) as (Q1 & Q2). rewrite Ee in Q2. split; [exact Q1|split; [exact Q2|]].
  intros Ho. rewrite <- Ee in Ho. apply (order_tree h nil _ TR) in Ho. apply hok_plug in Ho as (Ho & _). apply HO; [exact Ho|exact I..].
Qed.
End P.
