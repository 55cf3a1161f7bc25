(** Treaps: rotations keep the sequence, retracing restores the heap order. *)
From Verif Require Import Lib BstModel BstSpec BstProofs BstProofs2 BstProofs3 BstProofs4 BstProofs5 BstProofs8 BstProofs9 BstProofs10 BstProofs11 BstProofs12 TreapModel TreapSpec.
Open Scope nat_scope.

Section P.
Context {V : Type}.
Notation entry := (nat * V * Z)%type.
Notation heap := (heap (V := V)).
Notation tree := (tree V).
Notation ctx := (ctx (V := V)).
Implicit Types (h : heap) (k : ctx) (t l r : tree).

(** the sequence with the priorities *)
Fixpoint xent t : list (nat * V * Z * Z) := match t with Leaf => [] | Node l p v c b r => xent l ++ (p, v, c, b) :: xent r end.
Fixpoint xl k : list (nat * V * Z * Z) := match k with [] => [] | f :: k => if fl f then xl k else xl k ++ xent (fs f) ++ [(fp f, fv f, fc f, fb f)] end.
Fixpoint xr k : list (nat * V * Z * Z) := match k with [] => [] | f :: k => if fl f then (fp f, fv f, fc f, fb f) :: xent (fs f) ++ xr k else xr k end.
Lemma xent_plug k : forall t, xent (plug k t) = xl k ++ xent t ++ xr k.
Proof.
  induction k as [|f k IH]; intros t; cbn [plug xl xr]; [now rewrite app_nil_r|]. rewrite IH. unfold up. destruct (fl f); cbn [xent]; rewrite <- !app_assoc; cbn [app]; rewrite <- ?app_assoc; reflexivity.
Qed.
Lemma xent_entries t : map fst (xent t) = entries t.
Proof. induction t as [|l IHl p v c b r IHr]; [reflexivity|]. cbn [xent entries]. rewrite map_app. cbn [map fst]. now rewrite IHl, IHr. Qed.
Lemma xent_eq_entries t t' : xent t = xent t' -> entries t = entries t'.
Proof. intros H. now rewrite <- !xent_entries, H. Qed.

(** heap order on trees *)
Fixpoint hok (m : Z) t : Prop := match t with Leaf => True | Node l p v c b r => (m <= b)%Z /\ hok b l /\ hok b r end.
Definition topb k : Z := match k with [] => 0%Z | f :: _ => fb f end.
Fixpoint chok k : Prop := match k with [] => True | f :: k => hok (fb f) (fs f) /\ (topb k <= fb f)%Z /\ chok k end.
Lemma hok_plug k : forall t, hok 0 (plug k t) <-> chok k /\ hok (topb k) t.
Proof.
  induction k as [|f k IH]; intros t; cbn [plug chok topb]; [tauto|]. rewrite IH. unfold up. destruct (fl f); cbn [hok]; tauto.
Qed.
Lemma hok_mono t m m' : (m' <= m)%Z -> hok m t -> hok m' t.
Proof. destruct t; cbn; [auto|]. intros L (H & ?). split; [lia|auto]. Qed.
Lemma recs_order nil h t : forall pa m, Forall (node_ok h) (recs nil pa t) -> (match t with Leaf => True | _ => bal h pa = m end) ->
  (hok m t <-> forall p, In p (tids t) -> (bal h (par h p) <= bal h p)%Z).
Proof.
  induction t as [|l IHl p v c b r IHr]; intros pa m F E; [cbn; split; [intros _ p []|auto]|].
  cbn [recs] in F. apply Forall_cons_iff in F as (F & F'). apply Forall_app in F' as (Fl & Fr). destruct F as (_ & F1 & _ & _ & _ & F2 & _). cbn [nid npar nb] in *.
  cbn [hok]. rewrite (IHl p b Fl) by (destruct l; [exact I|exact F2]). rewrite (IHr p b Fr) by (destruct r; [exact I|exact F2]). clear IHl IHr. rewrite tids_node. split.
  - intros (H1 & H2 & H3) x. rewrite in_app_iff. cbn [In]. intros [Hx|[<-|Hx]]; auto. rewrite F1, F2, E. exact H1.
  - intros H. split; [|split; intros x Hx; apply H; rewrite in_app_iff; cbn [In]; auto]. rewrite <- F2, <- E, <- F1. apply H. rewrite in_app_iff. right. now left.
Qed.
Lemma order_tree h nil t : tree_rep h nil t -> heap_ordered h (entries t) <-> hok 0 t.
Proof. intros ((_ & _ & _ & _ & _ & B) & F & _). symmetry. apply (recs_order nil h t nil 0%Z F). destruct t; auto. Qed.
Lemma order_tok h nil k t : tok h nil k t -> pos_counts (entries (plug k t)) -> heap_ordered h (entries (plug k t)) <-> chok k /\ hok (topb k) t.
Proof. intros T P. rewrite <- hok_plug. apply (order_tree h nil). now apply tok_tree. Qed.
Lemma xent_bal h nil t p v c b : tree_rep h nil t -> In (p, v, c, b) (xent t) -> bal h p = b.
Proof.
  intros (_ & F & _). revert F. generalize nil at 2. induction t as [|l IHl q w d e r IHr]; intros pa F; [intros []|]. cbn [recs] in F. apply Forall_cons_iff in F as (F & F'). apply Forall_app in F' as (Fl & Fr).
  cbn [xent]. rewrite in_app_iff. cbn [In]. intros [H|[H|H]]; [eapply IHl; eauto| |eapply IHr; eauto]. injection H as -> -> -> ->. apply F.
Qed.
Lemma xent_in t p : In p (tids t) -> exists v c b, In (p, v, c, b) (xent t).
Proof.
  unfold tids, ids. rewrite <- xent_entries, map_map. intros H. apply in_map_iff in H as ((((x & v) & c) & b) & <- & H). cbn. eauto.
Qed.

(** setting the priority *)
Lemma sbal_tok h nil k l p v c b r z : tok h nil k (Node l p v c b r) ->
  exists h', sbal h p z = Some h' /\ tok h' nil k (Node l p v c z r) /\ (forall x, out nil (Node l p v c b r) k x -> same h h' x) /\ live h' = live h /\ next h' = next h.
Proof.
  intros H. pose proof H as (A1 & A2 & A3 & A4 & A5). cbn [recs] in A2. apply Forall_cons_iff in A2 as (N & A2). apply Forall_app in A2 as (Al & Ar).
  unfold sbal. destruct N as (N1 & N2 & N3 & N4 & N5 & N6 & N7). cbn [nid npar nl nr ns nb nv] in *. rewrite N1. eexists. split; [reflexivity|].
  assert (O : forall x, Nat.b2n (nil =? x) + (occ x (tids l) + (Nat.b2n (p =? x) + occ x (tids r)) + occ x (cids k)) <= 1) by (intros x; specialize (A4 x); rewrite tids_node, occ_app in A4; cbn [occ] in A4; lia).
  set (h' := with_bal h (upd (bal h) p z)).
  assert (SS : forall x, x <> p -> same h h' x) by (intros x Nx; unfold same, h'; cbn; rewrite upd_ne by auto; auto 10).
  assert (Op := O p). rewrite Nat.eqb_refl in Op. cbn [Nat.b2n] in Op.
  split; [|split; [|split; reflexivity]].
  - split; [|split; [|split; [|split]]].
    + apply (nil_same h); [|exact A1]. apply SS. intros E. rewrite <- E in Op. rewrite Nat.eqb_refl in Op. cbn in Op. lia.
    + cbn [recs]. constructor; [|apply Forall_app; split].
      * unfold node_ok. cbn. rewrite upd_eq. auto 10.
      * apply (recs_same h); [|exact Al]. intros x Hx. apply SS. intros ->. lia.
      * apply (recs_same h); [|exact Ar]. intros x Hx. apply SS. intros ->. lia.
    + apply (crecs_same h); [|exact A3]. intros x Hx. apply SS. intros ->. lia.
    + exact A4.
    + exact A5.
  - intros x Hx. apply SS. intros ->. unfold out in Hx. rewrite tids_node, occ_app in Hx. cbn [occ] in Hx. rewrite Nat.eqb_refl in Hx. cbn in Hx. lia.
Qed.
Lemma out_ids nil k t k' t' x : ids (entries (plug k t)) = ids (entries (plug k' t')) -> out (V := V) nil t k x <-> out nil t' k' x.
Proof. intros H. rewrite !out_in, H. tauto. Qed.

Lemma out_imp nil k t k' t' x : ids (entries (plug k t)) = ids (entries (plug k' t')) -> out (V := V) nil t k x -> out nil t' k' x.
Proof. intros H. now apply out_ids. Qed.

(** retrace_up *)
Lemma up_loop nil p v c b : (0 <= b)%Z -> forall k l r h fuel, tok h nil k (Node l p v c b r) -> length k < fuel ->
  exists h' k' l' r', while fuel (fun h =>
    let* b := gbal h p in let* q := gpar h p in let* pb := gbal h q in
    if (b <? pb)%Z then
      let* q := gpar h p in let* l := glft h q in
      let* '(h, _) := (if l =? p then rotate_right h q else rotate_left h q) in Some (inl h)
    else Some (inr h)) h = Some h' /\ tok h' nil k' (Node l' p v c b r') /\ xent (plug k' (Node l' p v c b r')) = xent (plug k (Node l p v c b r)) /\
    (forall x, out nil (Node l p v c b r) k x -> same h h' x) /\ live h' = live h /\ next h' = next h /\
    (chok k -> hok (topb k) l -> hok (topb k) r -> hok b l -> hok b r -> chok k' /\ hok (topb k') (Node l' p v c b r')).
Proof.
  intros B. induction k as [|f k IH]; intros l r h fuel T L; (destruct fuel as [|fuel]; [cbn in L; lia|]); cbn [while]; pose proof (tok_get _ _ _ _ _ _ _ _ _ T) as (Gp & _ & _ & _ & Gb & _); rewrite Gb, Gp; cbn [obind ctop].
  - destruct (tok_nil _ _ _ _ T) as (_ & _ & _ & _ & Gn). rewrite Gn. cbn [obind]. destruct (Z.ltb_spec b 0) as [Q|_]; [lia|]. cbn. exists h, [], l, r. split; [reflexivity|split; [exact T|split; [reflexivity|split; [intros; apply same_refl|split; [reflexivity|split; [reflexivity|]]]]]]. cbn. tauto.
  - destruct f as [gl q w d e s]. cbn [fp]. pose proof T as Tq.
    assert (Gq : gpar h q = Some (ctop nil k) /\ glft h q = Some (if gl then p else rt nil s) /\ gbal h q = Some e).
    { destruct gl.
      - apply (tok_move h nil (FR true q w d e s :: k) (Node l p v c b r) k (Node (Node l p v c b r) q w d e s) eq_refl) in Tq. destruct (tok_get _ _ _ _ _ _ _ _ _ Tq) as (G1 & G2 & _ & _ & G3 & _). auto.
      - apply (tok_move h nil (FR false q w d e s :: k) (Node l p v c b r) k (Node s q w d e (Node l p v c b r)) eq_refl) in Tq. destruct (tok_get _ _ _ _ _ _ _ _ _ Tq) as (G1 & G2 & _ & _ & G3 & _). auto. }
    destruct Gq as (_ & Gl & Ge). rewrite Ge. cbn [obind]. destruct (Z.ltb_spec b e) as [Q|Q].
    + rewrite Gl. cbn [obind]. destruct gl.
      * rewrite Nat.eqb_refl. apply (tok_move h nil (FR true q w d e s :: k) (Node l p v c b r) k (Node (Node l p v c b r) q w d e s) eq_refl) in Tq. destruct (rotate_right_run h nil k s q w d e r p v c b l Tq) as (h1 & E1 & T1 & S1 & L1 & N1). rewrite E1. cbn [obind].
        destruct (IH _ _ _ fuel T1 ltac:(cbn in L; lia)) as (h' & k' & l' & r' & E' & T' & X & S' & L' & N' & HO). exists h', k', l', r'. split; [exact E'|split; [exact T'|split; [|split; [|split; [congruence|split; [congruence|]]]]]].
        -- rewrite X, !xent_plug. cbn [xl xr fl fs fp fv fc fb xent]. repeat (rewrite <- ?app_assoc; cbn [app]). reflexivity.
        -- intros x Hx. apply (same_trans h h1); [apply S1; refine (out_imp nil _ _ _ _ x _ Hx); reflexivity|]. apply S'. apply (out_ids nil k (Node l p v c b (Node r q w d e s)) (FR true q w d e s :: k) (Node l p v c b r)); [|exact Hx]. cbn [plug up fl fp fv fc fb fs]. rewrite !entries_plug. cbn [entries]. repeat (rewrite <- ?app_assoc; cbn [app]). reflexivity.
        -- cbn [chok topb fb fs]. intros (C1 & C2 & C3) H1 H2 H3 H4. apply HO; [exact C3|apply (hok_mono l e); [exact C2|exact H1]|cbn; auto|exact H3|cbn; split; [lia|auto]].
      * assert (Nq : (rt nil s =? p) = false). { rewrite Nat.eqb_sym. exact (rt_ne h nil k (Node l p v c b r) (FR false q w d e s) T ltac:(discriminate)). }
        rewrite Nq. apply (tok_move h nil (FR false q w d e s :: k) (Node l p v c b r) k (Node s q w d e (Node l p v c b r)) eq_refl) in Tq. destruct (rotate_left_run h nil k s q w d e l p v c b r Tq) as (h1 & E1 & T1 & S1 & L1 & N1). rewrite E1. cbn [obind].
        destruct (IH _ _ _ fuel T1 ltac:(cbn in L; lia)) as (h' & k' & l' & r' & E' & T' & X & S' & L' & N' & HO). exists h', k', l', r'. split; [exact E'|split; [exact T'|split; [|split; [|split; [congruence|split; [congruence|]]]]]].
        -- rewrite X, !xent_plug. cbn [xl xr fl fs fp fv fc fb xent]. repeat (rewrite <- ?app_assoc; cbn [app]). reflexivity.
        -- intros x Hx. apply (same_trans h h1); [apply S1; refine (out_imp nil _ _ _ _ x _ Hx); reflexivity|]. apply S'. apply (out_ids nil k (Node (Node s q w d e l) p v c b r) (FR false q w d e s :: k) (Node l p v c b r)); [|exact Hx]. cbn [plug up fl fp fv fc fb fs]. rewrite !entries_plug. cbn [entries]. repeat (rewrite <- ?app_assoc; cbn [app]). reflexivity.
        -- cbn [chok topb fb fs]. intros (C1 & C2 & C3) H1 H2 H3 H4. apply HO; [exact C3|cbn; auto|apply (hok_mono r e); [exact C2|exact H2]|cbn; split; [lia|auto]|exact H4].
    + exists h, (FR gl q w d e s :: k), l, r. split; [reflexivity|split; [exact T|split; [reflexivity|split; [intros; apply same_refl|split; [reflexivity|split; [reflexivity|]]]]]]. intros C H1 H2 H3 H4. split; [exact C|]. cbn [hok topb fb]. auto.
Qed.

(** retrace_down *)
Lemma down_loop nil p v c b : forall n k l r h fuel, length (tids l) + length (tids r) <= n -> tok h nil k (Node l p v c b r) -> n < fuel ->
  exists h' k' l' r', while fuel (fun h =>
    let* l := glft h p in let* r := grgt h p in
    if negb (l =? nil) && negb (r =? nil) then
      let* bl := gbal h l in let* br := gbal h r in
      let* '(h, _) := (if (bl <? br)%Z then rotate_right h p else rotate_left h p) in Some (inl h)
    else Some (inr h)) h = Some h' /\ tok h' nil k' (Node l' p v c b r') /\ xent (plug k' (Node l' p v c b r')) = xent (plug k (Node l p v c b r)) /\
    (forall x, out nil (Node l p v c b r) k x -> same h h' x) /\ live h' = live h /\ next h' = next h /\ (l' = Leaf \/ r' = Leaf) /\
    (chok k -> hok (topb k) l -> hok (topb k) r -> chok k' /\ hok (topb k') l' /\ hok (topb k') r').
Proof.
  induction n as [|n IH]; intros k l r h fuel M T L; (destruct fuel as [|fuel]; [lia|]); cbn [while]; pose proof (tok_get _ _ _ _ _ _ _ _ _ T) as (_ & Gl & Gr & _); rewrite Gl, Gr; cbn [obind].
  - destruct l; [|rewrite tlen_node in M; lia]. cbn [rt]. rewrite Nat.eqb_refl. cbn. exists h, k, Leaf, r. split; [reflexivity|split; [exact T|split; [reflexivity|split; [intros; apply same_refl|split; [reflexivity|split; [reflexivity|split; [now left|]]]]]]]. cbn. tauto.
  - assert (D : forall t k', tok h nil k' t -> t <> Leaf -> (rt nil t =? nil) = false).
    { intros t k' T' Nt. pose proof (tok_rt_nil _ _ _ _ T') as Q. destruct (Nat.eqb_spec (rt nil t) nil) as [E|]; [|reflexivity]. rewrite E, (tok_nil_nil _ _ _ _ T') in Q. destruct t; [congruence|discriminate]. }
    destruct l as [|ll q w d e lr]; [cbn [rt]; rewrite Nat.eqb_refl; cbn; exists h, k, Leaf, r; (split; [reflexivity|split; [exact T|split; [reflexivity|split; [intros; apply same_refl|split; [reflexivity|split; [reflexivity|split; [now left|]]]]]]]); cbn; tauto|].
    destruct r as [|rl q' w' d' e' rr].
    { rewrite (D _ _ (tok_left _ _ _ _ _ _ _ _ _ T)) by discriminate. cbn [rt]. rewrite Nat.eqb_refl. cbn [negb andb obind]. exists h, k, (Node ll q w d e lr), Leaf. split; [reflexivity|split; [exact T|split; [reflexivity|split; [intros; apply same_refl|split; [reflexivity|split; [reflexivity|split; [now right|]]]]]]]. tauto. }
    rewrite (D _ _ (tok_left _ _ _ _ _ _ _ _ _ T)), (D _ _ (tok_right _ _ _ _ _ _ _ _ _ T)) by discriminate. cbn [negb andb rt].
    pose proof (tok_get _ _ _ _ _ _ _ _ _ (tok_left _ _ _ _ _ _ _ _ _ T)) as (_ & _ & _ & _ & Gbl & _). pose proof (tok_get _ _ _ _ _ _ _ _ _ (tok_right _ _ _ _ _ _ _ _ _ T)) as (_ & _ & _ & _ & Gbr & _). rewrite Gbl, Gbr. cbn [obind].
    rewrite !tlen_node in M. destruct (Z.ltb_spec e e') as [Q|Q].
    + destruct (rotate_right_run h nil k _ p v c b lr q w d e ll T) as (h1 & E1 & T1 & S1 & L1 & N1). rewrite E1. cbn [obind]. apply tok_right in T1.
      match type of T1 with tok _ _ _ (Node ?L0 _ _ _ _ ?R0) => assert (M1 : length (tids L0) + length (tids R0) <= n) by (rewrite tlen_node; lia) end. destruct (IH _ _ _ _ fuel M1 T1 ltac:(lia)) as (h' & k' & l' & r' & E' & T' & X & S' & L' & N' & LR & HO). exists h', k', l', r'. split; [exact E'|split; [exact T'|split; [|split; [|split; [congruence|split; [congruence|split; [exact LR|]]]]]]].
      * rewrite X, !xent_plug. cbn [xl xr fl fs fp fv fc fb xent]. repeat (rewrite <- ?app_assoc; cbn [app]). reflexivity.
      * intros x Hx. apply (same_trans h h1); [apply S1, Hx|]. apply S'. revert Hx. apply (out_ids nil k). cbn [plug up fl fp fv fc fb fs]. rewrite !entries_plug. cbn [entries]. repeat (rewrite <- ?app_assoc; cbn [app]). reflexivity.
      * intros C (H1 & H2 & H3) (H4 & H5 & H6). apply HO; cbn [chok topb fb fs]; [auto|exact H3|cbn [hok]; split; [lia|auto]].
    + destruct (rotate_left_run h nil k _ p v c b rl q' w' d' e' rr T) as (h1 & E1 & T1 & S1 & L1 & N1). rewrite E1. cbn [obind]. apply tok_left in T1.
      match type of T1 with tok _ _ _ (Node ?L0 _ _ _ _ ?R0) => assert (M1 : length (tids L0) + length (tids R0) <= n) by (rewrite tlen_node; lia) end. destruct (IH _ _ _ _ fuel M1 T1 ltac:(lia)) as (h' & k' & l' & r' & E' & T' & X & S' & L' & N' & LR & HO). exists h', k', l', r'. split; [exact E'|split; [exact T'|split; [|split; [|split; [congruence|split; [congruence|split; [exact LR|]]]]]]].
      * rewrite X, !xent_plug. cbn [xl xr fl fs fp fv fc fb xent]. repeat (rewrite <- ?app_assoc; cbn [app]). reflexivity.
      * intros x Hx. apply (same_trans h h1); [apply S1, Hx|]. apply S'. revert Hx. apply (out_ids nil k). cbn [plug up fl fp fv fc fb fs]. rewrite !entries_plug. cbn [entries]. repeat (rewrite <- ?app_assoc; cbn [app]). reflexivity.
      * intros C (H1 & H2 & H3) (H4 & H5 & H6). apply HO; cbn [chok topb fb fs]; [auto|cbn [hok]; auto|exact H5].
Qed.
End P.
