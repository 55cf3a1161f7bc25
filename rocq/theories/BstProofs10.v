(** Binary search trees: insertion and erasure at the level of the specification. *)
From Verif Require Import Lib BstModel BstSpec BstProofs BstProofs2 BstProofs3 BstProofs4 BstProofs5 BstProofs6 BstProofs7 BstProofs8 BstProofs9.
From Coq Require Import Permutation.
Open Scope nat_scope.

Section B.
Context {V : Type}.
Notation tree := (tree V).
Notation entry := (nat * V * Z)%type.
Notation heap := (heap (V := V)).
Notation ctx := (ctx (V := V)).
Implicit Types (h : heap) (t : tree) (k : ctx) (es a b : list entry).

Lemma out_in nil t k x : out nil t k x <-> ~ In x (nil :: ids (entries (plug k t))).
Proof.
  unfold out. assert (E : occ x (nil :: ids (entries (plug k t))) = Nat.b2n (nil =? x) + (occ x (tids t) + occ x (cids k))) by (cbn [occ]; fold (tids (plug k t)); rewrite tids_plug; reflexivity).
  rewrite <- E, occ_In. lia.
Qed.
Lemma tok_live h nil k t x : tok h nil k t -> In x (nil :: ids (entries (plug k t))) -> live h x = true.
Proof.
  intros T Hx. apply (tok_move h nil k t [] (plug k t) eq_refl) in T. destruct Hx as [<-|Hx]; [destruct T as ((L & _) & _); exact L|]. destruct (zipper _ _ Hx) as (k' & l & v & c & b & r & E). rewrite E in T.
  apply (tok_move h nil [] _ k' (Node l x v c b r) eq_refl) in T. pose proof (tok_get _ _ _ _ _ _ _ _ _ T) as (G & _). apply live_of_gpar in G. tauto.
Qed.
Lemma tok_tree h nil k t : tok h nil k t -> pos_counts (entries (plug k t)) -> tree_rep h nil (plug k t).
Proof. intros T P. apply tok_rep. auto. Qed.

Lemma tok_is_nil_dec (t : tree) : t = Leaf \/ t <> Leaf.
Proof. destruct t; [left; reflexivity|right; discriminate]. Qed.
Lemma becomes_same h h' nil k t k' t' : tok h nil k t -> pos_counts (entries (plug k t)) -> tok h' nil k' t' -> pos_counts (entries (plug k' t')) ->
  (forall x, out nil t k x -> same h h' x) -> live h' = live h -> next h' = next h -> ids (entries (plug k' t')) = ids (entries (plug k t)) -> becomes h h' nil (entries (plug k t)) (entries (plug k' t')).
Proof.
  intros T P T' P' S L N I. apply becomes_intro; [now apply tok_tree|now apply tok_tree|intros x _ Hx; apply S, out_in, Hx|lia|rewrite I; auto|].
  intros x. rewrite L, I. split; [|intros [(H & _)|H]; [exact H|exact (tok_live _ _ _ _ _ T H)]]. intros Hx. destruct (in_dec Nat.eq_dec x (ids (entries (plug k t)))); [right; now right|left; auto].
Qed.
Lemma becomes_add h h' nil k t k' t' a b e : tok h nil k t -> pos_counts (entries (plug k t)) -> tok h' nil k' t' -> pos_counts (entries (plug k' t')) ->
  (forall x, x <> next h -> out nil t k x -> same h h' x) -> live h' = upd (live h) (next h) true -> next h' = next h + 1 -> entries (plug k t) = a ++ b -> entries (plug k' t') = a ++ e :: b -> eid e = next h ->
  becomes h h' nil (a ++ b) (a ++ e :: b).
Proof.
  intros T P T' P' S L N E E' Ee. rewrite <- E, <- E'. assert (I : forall x, In x (ids (entries (plug k' t'))) <-> In x (ids (entries (plug k t))) \/ x = next h).
  { intros x. rewrite E, E', !ids_app, ids_cons, !in_app_iff. cbn [In]. rewrite Ee. intuition congruence. }
  apply becomes_intro; [now apply tok_tree|now apply tok_tree|intros x Lx Hx; apply S; [lia|apply out_in, Hx]|lia|intros x Hx; apply I in Hx as [Hx| ->]; auto|].
  intros x. rewrite L. unfold upd. cbn [In]. rewrite I. destruct (Nat.eqb_spec x (next h)) as [-> |Nx]; [tauto|].
  split; [|intros [(H & _)|[H|[H|H]]]; [exact H|..|contradiction]; apply (tok_live _ _ _ _ _ T); [left|right]; assumption].
  intros Hx. destruct (in_dec Nat.eq_dec x (ids (entries (plug k t)))); [right; right; now left|left; auto].
Qed.
Lemma becomes_del h h' nil k t k' t' a b e : tok h nil k t -> pos_counts (entries (plug k t)) -> tok h' nil k' t' -> pos_counts (entries (plug k' t')) ->
  (forall x, out nil t k x -> same h h' x) -> live h' = upd (live h) (eid e) false -> next h' = next h -> entries (plug k t) = a ++ e :: b -> entries (plug k' t') = a ++ b ->
  becomes h h' nil (a ++ e :: b) (a ++ b).
Proof.
  intros T P T' P' S L N E E'. pose proof (tok_tree _ _ _ _ T P) as TR. assert (ND : NoDup (nil :: ids (a ++ e :: b))) by (rewrite <- E; apply TR).
  assert (I : forall x, In x (ids (entries (plug k t))) <-> In x (ids (entries (plug k' t'))) \/ x = eid e) by (intros x; rewrite E, E', !ids_app, ids_cons, !in_app_iff; cbn [In]; intuition congruence).
  assert (NI : ~ In (eid e) (nil :: ids (a ++ b))).
  { rewrite ids_app, ids_cons in ND. rewrite ids_app. apply NoDup_cons_iff in ND as (N1 & N2). apply NoDup_remove_2 in N2. intros [->|H]; [|contradiction]. apply N1. rewrite in_app_iff. right. now left. }
  rewrite <- E, <- E'. rewrite <- E' in NI. apply becomes_intro; [exact TR|now apply tok_tree|intros x _ Hx; apply S, out_in, Hx|lia|intros x Hx; left; apply I; auto|].
  intros x. rewrite L. unfold upd. destruct (Nat.eqb_spec x (eid e)) as [-> |Nx].
  - split; [discriminate|]. intros [(_ & H)|H]; [|contradiction]. destruct H. apply I. auto.
  - cbn [In]. rewrite I. split; [|intros [(H & _)|[H|H]]; [exact H|..]; apply (tok_live _ _ _ _ _ T); [left; assumption|right; apply I; auto]].
    intros Hx. destruct (in_dec Nat.eq_dec x (ids (entries (plug k' t')))); [right; now right|left; split; [exact Hx|]]. intuition congruence.
Qed.
Lemma becomes_refl h nil es : bst_rep h nil es -> becomes h h nil es es.
Proof.
  intros R. split; [exact R|split]; [intros n2 es2 R2 A; auto|]. intros p. split; [|intros [(H & _)|H]; [exact H|]].
  - intros H. destruct (in_dec Nat.eq_dec p (ids es)); [right; now right|left; auto].
  - destruct R as (t & TR & <-). apply tok_0 in TR as (T & _). exact (tok_live _ _ [] _ _ T H).
Qed.
Lemma becomes_trans h h1 h2 nil es es1 es2 : becomes h h1 nil es es1 -> becomes h1 h2 nil es1 es2 -> incl (ids es1) (ids es) -> bst_rep h nil es -> becomes h h2 nil es es2.
Proof.
  intros (R1 & O1 & M1) (R2 & O2 & M2) I R. split; [exact R2|split].
  - intros n es' R' A. destruct (O1 _ _ R' A) as (R3 & A3). exact (O2 _ _ R3 A3).
  - intros p. rewrite (M2 p), (M1 p). split.
    + intros [([H|H] & N)|H]; [auto|right|auto]. destruct H as [H|H]; [now left|contradiction].
    + intros [(H1 & H2)|H]; [|auto]. left. split; [auto|]. intros Hp. apply H2, I, Hp.
Qed.
Lemma pos_app es1 es2 : pos_counts (es1 ++ es2) <-> pos_counts es1 /\ pos_counts es2.
Proof. apply Forall_app. Qed.
Lemma pos_cons (e : entry) es : pos_counts (e :: es) <-> (1 <= ecn e)%Z /\ pos_counts es.
Proof. apply Forall_cons_iff. Qed.

(** erasing at an iterator *)
Lemma erase_at d h nil a e b cnt : bst_rep h nil (a ++ e :: b) -> (1 <= cnt)%Z -> unit_counts d (a ++ e :: b) ->
  exists h' it, erase_node d h nil (eid e) cnt = Some (h', it) /\ becomes h h' nil (a ++ e :: b) (a ++ minus d cnt e ++ b) /\ next h' = next h.
Proof.
  intros R C U. destruct (rep_zip _ _ _ _ _ R) as (k & l & bl & r & T & Ea & Eb & P).
  assert (E : entries (plug k (Node l (eid e) (evl e) (ecn e) bl r)) = a ++ e :: b) by (rewrite entries_plug; cbn [entries]; rewrite Ea, Eb, <- !app_assoc; destruct e as [[? ?] ?]; reflexivity).
  assert (M : minus d cnt e = if (mcnt d cnt <? ecn e)%Z then [(eid e, evl e, (ecn e - mcnt d cnt)%Z)] else []).
  { unfold minus, mcnt. destruct d; [|reflexivity|]; cbn in U; rewrite Forall_app, Forall_cons_iff in U; destruct U as (_ & -> & _); reflexivity. }
  rewrite M. destruct (Z.ltb_spec (mcnt d cnt) (ecn e)) as [L|L].
  - destruct (erase_node_less d h nil k l (eid e) (evl e) (ecn e) bl r cnt T L) as (h' & Er & T' & S & Lv & Nx). exists h', (eid e). split; [exact Er|split; [|exact Nx]].
    assert (E' : entries (plug k (Node l (eid e) (evl e) (ecn e - mcnt d cnt) bl r)) = a ++ [(eid e, evl e, (ecn e - mcnt d cnt)%Z)] ++ b) by (rewrite entries_plug; cbn [entries]; rewrite Ea, Eb, <- !app_assoc; reflexivity).
    rewrite <- E, <- E'. apply becomes_same; auto; [rewrite E; exact P| |rewrite E, E'; cbn [app]; rewrite !ids_app, !ids_cons; reflexivity].
    rewrite E'. apply pos_app in P as (P1 & P2). apply pos_cons in P2 as (P2 & P3). apply pos_app. split; [exact P1|]. apply pos_cons. split; [unfold ecn in *; cbn [snd] in *; lia|exact P3].
  - destruct (erase_node_all d h nil k l (eid e) (evl e) (ecn e) bl r cnt T L) as (h' & k' & t' & Er & T' & E' & S & Lv & Nx). exists h', (ctop nil k'). split; [exact Er|split; [|exact Nx]]. cbn [app].
    assert (E2 : entries (plug k' t') = a ++ b) by (rewrite E', Ea, Eb, <- !app_assoc; reflexivity).
    apply (becomes_del h h' nil _ _ k' t' a b e T); auto; [rewrite E; exact P|]. rewrite E2. apply pos_app in P as (P1 & P2). apply pos_cons in P2 as (_ & P3). apply pos_app. auto.
Qed.
Lemma minus_ids d cnt (e : entry) : incl (ids (minus d cnt e)) [eid e].
Proof. unfold minus. destruct d; [apply incl_nil_l| |apply incl_nil_l]. destruct (_ <? _)%Z; [apply incl_refl|apply incl_nil_l]. Qed.
Lemma erase_range_run d cnt nil : (1 <= cnt)%Z -> forall m a b h fuel, bst_rep h nil (a ++ m ++ b) -> unit_counts d (a ++ m ++ b) -> length m < fuel ->
  exists h', while fuel (fun '(h, p) =>
    if p =? first_it nil b then Some (inr (h, p)) else
    let* b' := inorder_next h p in let* '(h, _) := erase_node d h nil p cnt in Some (inl (h, b'))) (h, first_it nil (m ++ b)) = Some (h', first_it nil b) /\
    becomes h h' nil (a ++ m ++ b) (a ++ flat_map (minus d cnt) m ++ b) /\ next h' = next h.
Proof.
  intros C. induction m as [|e m IH]; intros a b h fuel R U L; (destruct fuel as [|fuel]; [cbn in L; lia|]).
  - exists h. cbn [while app flat_map]. rewrite Nat.eqb_refl. split; [reflexivity|split; [apply becomes_refl; exact R|reflexivity]].
  - cbn [app first_it while length] in *. assert (ND := rep_nodup _ _ _ R).
    assert (Ne : (eid e =? first_it nil b) = false).
    { apply Nat.eqb_neq. intros Ee. rewrite ids_app, ids_cons, ids_app in ND. apply NoDup_cons_iff in ND as (N1 & N2). apply NoDup_remove_2 in N2. destruct b as [|e' b]; cbn [first_it] in Ee.
      - apply N1. rewrite Ee, !in_app_iff. right. now left.
      - apply N2. rewrite !in_app_iff, ids_cons. right. right. left. auto. }
    rewrite Ne. destruct (iterators _ _ _ _ _ R) as (Nx & _). rewrite Nx. cbn [obind].
    destruct (erase_at d h nil a e (m ++ b) cnt R C U) as (h1 & it & E1 & B1 & N1). rewrite E1. cbn [obind].
    assert (R1 : bst_rep h1 nil ((a ++ minus d cnt e) ++ m ++ b)) by (rewrite <- app_assoc; exact (proj1 B1)).
    destruct (IH (a ++ minus d cnt e) b h1 fuel R1) as (h2 & E2 & B2 & N2).
    + destruct d; cbn [unit_counts minus] in *; rewrite ?app_nil_r; try exact I; apply Forall_app in U as (U1 & U2); apply Forall_cons_iff in U2 as (_ & U2); apply Forall_app; auto.
    + lia.
    + exists h2. split; [exact E2|split; [|congruence]]. cbn [flat_map]. rewrite <- !app_assoc in B2. rewrite <- app_assoc. apply (becomes_trans h h1 h2 nil _ _ _ B1 B2); [|exact R].
      rewrite !ids_app, !ids_cons, !ids_app. intros x Hx. pose proof (minus_ids d cnt e x) as Mi. cbn [In]. rewrite !in_app_iff in Hx. rewrite !in_app_iff. cbn [In] in Mi |- *. rewrite !in_app_iff in *. tauto.
Qed.

(** insertion before an iterator *)
Lemma before_tok h nil a b : bst_rep h nil (a ++ b) -> exists k gl, (let* l := glft h (first_it nil b) in let* go_left := is_nil h l in let* it := (if negb go_left then inorder_prev h (first_it nil b) else Some (first_it nil b)) in Some (it, go_left)) = Some (ctop nil k, gl) /\
    tok h nil k Leaf /\ (k = [] \/ gl = isL k) /\ cleft k = a /\ cright k = b /\ pos_counts (a ++ b).
Proof.
  intros R. destruct b as [|e b].
    - destruct (rep_tok _ _ _ R) as (t & T & E & P). rewrite app_nil_r in *. cbn [first_it]. destruct (tok_nil _ _ _ _ T) as (_ & Gl & _). cbn [croot] in Gl. rewrite Gl. cbn [obind]. rewrite (tok_rt_nil _ _ _ _ T). cbn [obind]. destruct (tok_is_nil_dec t) as [-> |Nt].
      + cbn [negb obind]. exists [], true. cbn in E |- *. subst a. auto 10.
      + replace (match t with Leaf => true | _ => false end) with false by (destruct t; [congruence|reflexivity]). cbn [negb]. rewrite (prev_nil _ _ _ T). cbn [obind].
        destruct (rightmost [] t Nt) as (k' & l & p & w & c & bl & E1 & E2 & E3). apply (tok_move _ _ [] t k' _ E1) in T. apply tok_right in T. exists (FR false p w c bl l :: k'), false.
        cbn [cleft cright plug app] in *. split; [|split; [exact T|split; [now right|split; [|split; [|exact P]]]]]; cbn [cleft cright fl fs fp fv fc ctop].
        * do 2 f_equal. rewrite <- E2, last_it_app2 by (destruct (entries l); discriminate). rewrite (last_it_app2 nil (entries l) [(p, w, c)]) by discriminate. reflexivity.
        * rewrite <- E. exact E2.
        * exact E3.
    - destruct (rep_zip _ _ _ _ _ R) as (k & l & bl & r & T & Ea & Eb & P). cbn [first_it]. pose proof (tok_get _ _ _ _ _ _ _ _ _ T) as (_ & Gl & _). rewrite Gl. cbn [obind]. pose proof (tok_left _ _ _ _ _ _ _ _ _ T) as TL. rewrite (tok_rt_nil _ _ _ _ TL). cbn [obind].
      destruct (tok_is_nil_dec l) as [-> |Nl].
      + cbn [negb obind]. exists (FR true (eid e) (evl e) (ecn e) bl r :: k), true. cbn [ctop fp isL fl cleft cright fv fc fs entries app] in *. rewrite app_nil_r in Ea. split; [reflexivity|split; [exact TL|split; [now right|split; [now symmetry|split; [|exact P]]]]]. rewrite Eb. destruct e as [[? ?] ?]; reflexivity.
      + replace (match l with Leaf => true | _ => false end) with false by (destruct l; [congruence|reflexivity]). cbn [negb]. rewrite (prev_node _ _ _ _ _ _ _ _ _ T). cbn [obind].
        destruct (rightmost (FR true (eid e) (evl e) (ecn e) bl r :: k) l Nl) as (k' & l' & p & w & c & bl' & E1 & E2 & E3). apply (tok_move _ _ _ _ k' _ E1) in TL. apply tok_right in TL. exists (FR false p w c bl' l' :: k'), false.
        cbn [cleft cright fl fs fp fv fc ctop isL] in *. split; [|split; [exact TL|split; [now right|split; [|split; [|exact P]]]]].
        * do 2 f_equal. rewrite <- E2. rewrite last_it_app2 by (destruct (entries l'); discriminate). rewrite (last_it_app2 nil (entries l') [(p, w, c)]) by discriminate. reflexivity.
        * rewrite Ea. exact E2.
        * rewrite E3, Eb. destruct e as [[? ?] ?]; reflexivity.
Qed.
Lemma insert_before_run d h nil a b v cnt : bst_rep h nil (a ++ b) -> (1 <= cnt)%Z ->
  exists h', insert_before d h nil (first_it nil b) v cnt = Some (h', next h) /\ becomes h h' nil (a ++ b) (a ++ (next h, v, mcnt d cnt) :: b).
Proof.
  intros R C. assert (MC : (1 <= mcnt d cnt)%Z) by (unfold mcnt; destruct d; lia).
  pose proof (before_tok h nil a b R) as H.
  destruct H as (k & gl & E & T & G & <- & <- & P). unfold insert_before. destruct (glft h _) as [l|]; [|discriminate]. cbn [obind] in *. destruct (is_nil h l) as [g|]; [|discriminate]. cbn [obind] in *.
  destruct (if negb g then _ else _) as [it|]; [|discriminate]. cbn [obind] in *. injection E as -> ->.
  destruct (insert_node_new d h nil k v cnt gl T G) as (h' & bl & Ei & T' & S & L & N). exists h'. split; [exact Ei|].
  assert (E1 : entries (plug k (V := V) Leaf) = cleft k ++ cright k) by (rewrite entries_plug; reflexivity).
  assert (E2 : entries (plug k (Node Leaf (next h) v (mcnt d cnt) bl Leaf)) = cleft k ++ (next h, v, mcnt d cnt) :: cright k) by (rewrite entries_plug; reflexivity).
  apply (becomes_add h h' nil k Leaf k (Node Leaf (next h) v (mcnt d cnt) bl Leaf)); auto; [rewrite E1; exact P|].
  rewrite E2. apply pos_app in P as (P1 & P2). apply pos_app. split; [exact P1|]. apply pos_cons. split; [exact MC|exact P2].
Qed.
End B.
