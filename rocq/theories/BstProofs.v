(** Binary search trees on a heap: occurrence counting, contexts (zippers), moving in a represented tree, loops. *)
From Verif Require Import Lib BstModel BstSpec.
From Coq Require Import Permutation.
Open Scope nat_scope.

Fixpoint occ (x : nat) (l : list nat) : nat := match l with [] => 0 | a :: l => Nat.b2n (a =? x) + occ x l end.
Lemma occ_app x a b : occ x (a ++ b) = occ x a + occ x b.
Proof. induction a; cbn; lia. Qed.
Lemma occ_In x l : In x l <-> 1 <= occ x l.
Proof.
  induction l as [|a l IH]; cbn; [lia|]. rewrite IH. destruct (Nat.eqb_spec a x); cbn; split; intro H; try lia.
Qed.
Lemma NoDup_occ l : NoDup l <-> forall x, occ x l <= 1.
Proof.
  induction l as [|a l IH]; cbn.
  - split; [intros; lia|constructor].
  - rewrite NoDup_cons_iff, IH, occ_In. split.
    + intros (H1 & H2) x. specialize (H2 x). destruct (Nat.eqb_spec a x) as [->|]; cbn; lia.
    + intros H. split.
      * specialize (H a). rewrite Nat.eqb_refl in H. cbn in H. lia.
      * intros x. specialize (H x). lia.
Qed.
Lemma occ_perm x a b : Permutation a b -> occ x a = occ x b.
Proof. induction 1; cbn; lia. Qed.

Section P.
Context {V K : Type}.
Notation tree := (tree V).
Notation entry := (nat * V * Z)%type.
Notation heap := (heap (V := V)).

Lemma total_app (a b : list entry) : total (a ++ b) = (total a + total b)%Z.
Proof. induction a as [|e a IH]; cbn; [reflexivity|]. unfold total in *. rewrite IH. lia. Qed.
Lemma total_cons (e : entry) a : total (e :: a) = (ecn e + total a)%Z.
Proof. reflexivity. Qed.
Lemma ids_app (a b : list entry) : ids (a ++ b) = ids a ++ ids b.
Proof. apply map_app. Qed.
Lemma ids_cons (e : entry) b : ids (e :: b) = eid e :: ids b.
Proof. reflexivity. Qed.

Definition tids (t : tree) : list nat := ids (entries t).
Definition tsz (t : tree) : Z := total (entries t).
Lemma tids_node l p v c b r : tids (Node l p v c b r) = tids l ++ p :: tids r.
Proof. unfold tids. cbn [entries]. rewrite ids_app, ids_cons. reflexivity. Qed.
Lemma tsz_node l p v c b r : tsz (Node l p v c b r) = (tsz l + (c + tsz r))%Z.
Proof. unfold tsz. cbn [entries]. rewrite total_app, total_cons. reflexivity. Qed.

(** contexts: (left?, pointer, value, multiplicity, balance, sibling), innermost first *)
Record frame := FR { fl : bool; fp : nat; fv : V; fc : Z; fb : Z; fs : tree }.
Definition ctx := list frame.
Definition up (f : frame) (t : tree) : tree :=
  if fl f then Node t (fp f) (fv f) (fc f) (fb f) (fs f) else Node (fs f) (fp f) (fv f) (fc f) (fb f) t.
Fixpoint plug (k : ctx) (t : tree) : tree := match k with [] => t | f :: k => plug k (up f t) end.
Definition ctop (base : nat) (k : ctx) : nat := match k with [] => base | f :: _ => fp f end.
Fixpoint croot (k : ctx) (r : nat) : nat := match k with [] => r | f :: k => croot k (fp f) end.
Definition fsz (f : frame) (s : Z) : Z := (s + (fc f + tsz (fs f)))%Z.
Fixpoint csz (k : ctx) (s : Z) : Z := match k with [] => s | f :: k => csz k (fsz f s) end.
Definition frec (nil pa r : nat) (s : Z) (f : frame) : nrec V :=
  NR (fp f) pa (if fl f then r else rt nil (fs f)) (if fl f then rt nil (fs f) else r) (fsz f s) (fb f) (fv f).
Fixpoint crecs (nil base : nat) (k : ctx) (r : nat) (s : Z) : list (nrec V) :=
  match k with
  | [] => []
  | f :: k => frec nil (ctop base k) r s f :: recs nil (fp f) (fs f) ++ crecs nil base k (fp f) (fsz f s)
  end.
Fixpoint cids (k : ctx) : list nat := match k with [] => [] | f :: k => fp f :: tids (fs f) ++ cids k end.
Fixpoint cleft (k : ctx) : list entry := match k with [] => [] | f :: k => if fl f then cleft k else cleft k ++ entries (fs f) ++ [(fp f, fv f, fc f)] end.
Fixpoint cright (k : ctx) : list entry := match k with [] => [] | f :: k => if fl f then (fp f, fv f, fc f) :: entries (fs f) ++ cright k else cright k end.

Lemma entries_plug k : forall t, entries (plug k t) = cleft k ++ entries t ++ cright k.
Proof.
  induction k as [|f k IH]; intros t; cbn.
  - now rewrite app_nil_r.
  - rewrite IH. unfold up. destruct (fl f); cbn [entries]; rewrite <- ?app_assoc; reflexivity.
Qed.
Lemma plug_app k1 : forall k2 t, plug (k1 ++ k2) t = plug k2 (plug k1 t).
Proof. induction k1 as [|f k1 IH]; intros; cbn; [reflexivity|apply IH]. Qed.
Lemma rt_plug nil k : forall t, t <> Leaf \/ k <> [] -> rt nil (plug k t) = croot k (rt nil t).
Proof.
  induction k as [|f k IH]; intros t H; cbn.
  - reflexivity.
  - rewrite IH; [|left; unfold up; destruct (fl f); discriminate]. unfold up. destruct (fl f); reflexivity.
Qed.
Lemma rt_plug' nil k t : rt nil (plug k t) = croot k (rt nil t).
Proof. destruct k as [|f k]; [reflexivity|]. apply rt_plug. right. discriminate. Qed.
Lemma rt_up nil f t : rt nil (up f t) = fp f.
Proof. unfold up. destruct (fl f); reflexivity. Qed.
Lemma tsz_up f t : tsz (up f t) = fsz f (tsz t).
Proof. unfold up, fsz. destruct (fl f); rewrite tsz_node; lia. Qed.
Lemma tsz_plug k : forall t, tsz (plug k t) = csz k (tsz t).
Proof. induction k as [|f k IH]; intros t; cbn [plug csz]; [reflexivity|]. now rewrite IH, tsz_up. Qed.
Lemma total_plug k t : total (entries (plug k t)) = csz k (tsz t).
Proof. apply (tsz_plug k t). Qed.

Lemma recs_plug nil base k : forall t, Permutation (recs nil base (plug k t)) (recs nil (ctop base k) t ++ crecs nil base k (rt nil t) (tsz t)).
Proof.
  induction k as [|f k IH]; intros t; cbn [plug crecs ctop].
  - now rewrite app_nil_r.
  - rewrite IH. rewrite rt_up, tsz_up. unfold up at 1. pose proof (tsz_up f t) as E. unfold tsz at 1, up in E.
    destruct (fl f) eqn:F.
    + cbn [recs]. rewrite E. unfold frec. rewrite F. cbn [app].
      rewrite <- Permutation_middle. apply perm_skip. rewrite <- app_assoc. reflexivity.
    + cbn [recs]. rewrite E. unfold frec. rewrite F. cbn [app].
      rewrite <- Permutation_middle. apply perm_skip. rewrite <- app_assoc.
      rewrite app_assoc. rewrite (Permutation_app_comm (recs nil (fp f) (fs f)) (recs nil (fp f) t)). rewrite <- app_assoc. reflexivity.
Qed.
Lemma tids_plug x k : forall t, occ x (tids (plug k t)) = occ x (tids t) + occ x (cids k).
Proof.
  induction k as [|f k IH]; intros t; cbn [plug cids occ]; [lia|].
  rewrite IH, occ_app. unfold up. destruct (fl f); rewrite tids_node, occ_app; cbn [occ]; lia.
Qed.
Lemma recs_ids nil pa t : forall x, occ x (map nid (recs nil pa t)) = occ x (tids t).
Proof.
  revert pa. induction t as [|l IHl p v c b r IHr]; intros pa x; [reflexivity|].
  rewrite tids_node, occ_app. cbn [recs map nid occ]. rewrite map_app, occ_app, IHl, IHr. cbn [occ]. lia.
Qed.
Lemma crecs_ids nil base k : forall r s x, occ x (map nid (crecs nil base k r s)) = occ x (cids k).
Proof.
  induction k as [|f k IH]; intros r s x; [reflexivity|]. cbn [crecs cids map nid occ frec]. rewrite map_app, !occ_app, IH, recs_ids. reflexivity.
Qed.
Lemma cids_app x k1 k2 : occ x (cids (k1 ++ k2)) = occ x (cids k1) + occ x (cids k2).
Proof. induction k1 as [|f k1 IH]; cbn [app cids occ]; [lia|]. rewrite !occ_app, IH. lia. Qed.
Lemma ctop_app base k1 k2 : ctop base (k1 ++ k2) = ctop (ctop base k2) k1.
Proof. destruct k1; reflexivity. Qed.
Lemma croot_app k1 : forall k2 r, croot (k1 ++ k2) r = croot k2 (croot k1 r).
Proof. induction k1; intros; cbn; auto. Qed.
Lemma csz_app k1 : forall k2 s, csz (k1 ++ k2) s = csz k2 (csz k1 s).
Proof. induction k1; intros; cbn; auto. Qed.
Lemma crecs_app nil base k1 : forall k2 r s, crecs nil base (k1 ++ k2) r s = crecs nil (ctop base k2) k1 r s ++ crecs nil base k2 (croot k1 r) (csz k1 s).
Proof.
  induction k1 as [|f k1 IH]; intros; cbn [app crecs croot csz]; [reflexivity|]. rewrite IH, ctop_app. cbn [app]. now rewrite <- app_assoc.
Qed.
Lemma cleft_app k1 k2 : cleft (k1 ++ k2) = cleft k2 ++ cleft k1.
Proof. induction k1 as [|f k1 IH]; cbn; [now rewrite app_nil_r|]. destruct (fl f); rewrite IH; [reflexivity|now rewrite <- app_assoc]. Qed.
Lemma cright_app k1 k2 : cright (k1 ++ k2) = cright k1 ++ cright k2.
Proof. induction k1 as [|f k1 IH]; cbn; [reflexivity|]. destruct (fl f); rewrite IH; [cbn; now rewrite <- app_assoc|reflexivity]. Qed.

(** a represented tree seen from a hole *)
Definition tok (h : heap) (nil : nat) (k : ctx) (t : tree) : Prop :=
  nil_ok h nil (croot k (rt nil t)) /\ Forall (node_ok h) (recs nil (ctop nil k) t) /\ Forall (node_ok h) (crecs nil nil k (rt nil t) (tsz t)) /\
  (forall x, Nat.b2n (nil =? x) + (occ x (tids t) + occ x (cids k)) <= 1) /\ (forall x, 1 <= Nat.b2n (nil =? x) + (occ x (tids t) + occ x (cids k)) -> x < next h).
Definition pos_counts (es : list entry) : Prop := Forall (fun e => 1 <= ecn e)%Z es.
Lemma tok_rep h nil k t : tok h nil k t /\ pos_counts (entries (plug k t)) <-> tree_rep h nil (plug k t).
Proof.
  unfold tree_rep, tok. rewrite rt_plug'.
  assert (E : Forall (node_ok h) (recs nil nil (plug k t)) <-> Forall (node_ok h) (recs nil (ctop nil k) t) /\ Forall (node_ok h) (crecs nil nil k (rt nil t) (tsz t))).
  { rewrite <- Forall_app. split; intro H; [eapply Permutation_Forall; [apply recs_plug|exact H]|eapply Permutation_Forall; [symmetry; apply recs_plug|exact H]]. }
  rewrite E. fold (tids (plug k t)). rewrite NoDup_occ.
  assert (E1 : forall x, occ x (nil :: tids (plug k t)) = Nat.b2n (nil =? x) + (occ x (tids t) + occ x (cids k))) by (intro x; cbn [occ]; rewrite tids_plug; lia).
  unfold pos_counts. split.
  - intros ((H1 & H2 & H3 & H4 & H5) & H6). split; [exact H1|split; [split; [exact H2|exact H3]|split; [|split; [|exact H6]]]].
    + intro x. rewrite E1. apply H4.
    + apply Forall_forall. intros x Hx. apply H5. rewrite <- E1. now apply occ_In.
  - intros (H1 & (H2 & H3) & H4 & H5 & H6). split; [split; [exact H1|split; [exact H2|split; [exact H3|split]]]|exact H6].
    + intro x. rewrite <- E1. apply H4.
    + intros x Hx. rewrite Forall_forall in H5. apply H5. apply occ_In. rewrite E1. exact Hx.
Qed.
Lemma tok_0 h nil t : tok h nil [] t /\ pos_counts (entries t) <-> tree_rep h nil t.
Proof. apply (tok_rep h nil [] t). Qed.
Lemma tok_move h nil k1 t1 k2 t2 : plug k1 t1 = plug k2 t2 -> tok h nil k1 t1 -> tok h nil k2 t2.
Proof.
  intros E (A1 & A2 & A3 & A4 & A5).
  assert (Hr : Forall (node_ok h) (recs nil nil (plug k2 t2))).
  { rewrite <- E. eapply Permutation_Forall; [symmetry; apply recs_plug|]. now apply Forall_app. }
  eapply Permutation_Forall in Hr; [|apply recs_plug]. apply Forall_app in Hr as (Hr1 & Hr2).
  assert (Ho : forall x, occ x (tids t1) + occ x (cids k1) = occ x (tids t2) + occ x (cids k2)) by (intro x; rewrite <- !tids_plug, E; reflexivity).
  split; [|split; [|split; [|split]]].
  - rewrite <- rt_plug', <- E, rt_plug'. exact A1.
  - exact Hr1.
  - exact Hr2.
  - intro x. rewrite <- Ho. apply A4.
  - intros x. rewrite <- Ho. apply A5.
Qed.
Lemma tok_left h nil k l p v c b r : tok h nil k (Node l p v c b r) -> tok h nil (FR true p v c b r :: k) l.
Proof. apply tok_move. reflexivity. Qed.
Lemma tok_right h nil k l p v c b r : tok h nil k (Node l p v c b r) -> tok h nil (FR false p v c b l :: k) r.
Proof. apply tok_move. reflexivity. Qed.

(** finding a node *)
Lemma zipper (t : tree) p : In p (tids t) -> exists k l v c b r, t = plug k (Node l p v c b r).
Proof.
  assert (G : forall t k0, In p (tids t) -> exists k l v c b r, plug k0 t = plug k (Node l p v c b r)).
  { clear t. induction t as [|l IHl q v c b r IHr]; intros k0 H; [destruct H|].
    rewrite tids_node in H. apply in_app_or in H as [H|[->|H]].
    - apply (IHl (FR true q v c b r :: k0) H).
    - now exists k0, l, v, c, b, r.
    - apply (IHr (FR false q v c b l :: k0) H). }
  intro H. apply (G t [] H).
Qed.
(** the node of an entry *)
Lemma zipper_entry (t : tree) a e z : entries t = a ++ e :: z -> NoDup (tids t) ->
  exists k l b r, t = plug k (Node l (eid e) (evl e) (ecn e) b r) /\ a = cleft k ++ entries l /\ z = entries r ++ cright k.
Proof.
  intros E ND. assert (Hin : In (eid e) (tids t)) by (unfold tids; rewrite E, ids_app, ids_cons; apply in_or_app; right; now left).
  destruct (zipper t (eid e) Hin) as (k & l & v & c & b & r & ->).
  rewrite entries_plug in E. cbn [entries] in E.
  assert (E2 : (cleft k ++ entries l) ++ (eid e, v, c) :: (entries r ++ cright k) = a ++ e :: z) by (rewrite <- E; now rewrite <- !app_assoc).
  assert (U : NoDup (ids (a ++ e :: z))) by (rewrite <- E; unfold tids in ND; rewrite entries_plug in ND; exact ND).
  assert (S : forall (a1 a2 z1 z2 : list entry) e1 e2, eid e1 = eid e2 -> a1 ++ e1 :: z1 = a2 ++ e2 :: z2 -> NoDup (ids (a2 ++ e2 :: z2)) -> a1 = a2 /\ e1 = e2 /\ z1 = z2).
  { clear. induction a1 as [|x a1 IH]; intros a2 z1 z2 e1 e2 Hid E ND.
    - destruct a2 as [|y a2].
      + injection E as -> ->. auto.
      + exfalso. cbn in E. injection E as -> ->. cbn in ND. inversion ND as [|? ? H1 H2]; subst. apply H1. change (In (eid y) (ids (a2 ++ e2 :: z2))). rewrite ids_app, ids_cons, <- Hid. apply in_or_app. right. now left.
    - destruct a2 as [|y a2].
      + exfalso. cbn in E. injection E as -> <-. cbn in ND. inversion ND as [|? ? H1 H2]; subst. apply H1. change (In (eid e2) (ids (a1 ++ e1 :: z1))). rewrite ids_app, ids_cons, Hid. apply in_or_app. right. now left.
      + cbn in E. injection E as -> E. cbn in ND. inversion ND as [|? ? H1 H2]; subst. destruct (IH a2 z1 z2 e1 e2 Hid E H2) as (-> & -> & ->). auto. }
  destruct (S _ _ _ _ (eid e, v, c) e eq_refl E2 U) as (<- & <- & <-). exists k, l, b, r. auto.
Qed.

(** reading *)
Lemma node_ok_get (h : heap) (x : nrec V) : node_ok h x -> gpar h (nid x) = Some (npar x) /\ glft h (nid x) = Some (nl x) /\ grgt h (nid x) = Some (nr x) /\ gsiz h (nid x) = Some (ns x) /\ gbal h (nid x) = Some (nb x) /\ gval h (nid x) = Some (nv x).
Proof. intros (A & B1 & B2 & B3 & B4 & B5 & B6). unfold gpar, glft, grgt, gsiz, gbal, gval. rewrite A. repeat split; congruence. Qed.
Lemma nil_ok_get (h : heap) nil r : nil_ok h nil r -> gpar h nil = Some nil /\ glft h nil = Some r /\ grgt h nil = Some r /\ gsiz h nil = Some 0%Z /\ gbal h nil = Some 0%Z.
Proof. intros (A & B1 & B2 & B3 & B4 & B5). unfold gpar, glft, grgt, gsiz, gbal. rewrite A. repeat split; congruence. Qed.
Lemma tok_get h nil k l p v c b r : tok h nil k (Node l p v c b r) ->
  gpar h p = Some (ctop nil k) /\ glft h p = Some (rt nil l) /\ grgt h p = Some (rt nil r) /\ gsiz h p = Some (tsz (Node l p v c b r)) /\ gbal h p = Some b /\ gval h p = Some v.
Proof. intros (_ & A & _). cbn [recs] in A. inversion A as [|? ? H _]; subst. apply (node_ok_get h _ H). Qed.
Lemma ctop_in nil k : k = [] /\ ctop nil k = nil \/ 1 <= occ (ctop nil k) (cids k).
Proof. destruct k as [|f k]; [now left|right]. cbn. rewrite Nat.eqb_refl. cbn. lia. Qed.
Lemma rt_in nil (t : tree) : t = Leaf /\ rt nil t = nil \/ 1 <= occ (rt nil t) (tids t).
Proof. destruct t; [now left|right]. rewrite tids_node, occ_app. cbn. rewrite Nat.eqb_refl. cbn. lia. Qed.
Lemma tok_is_nil h nil k l p v c b r : tok h nil k (Node l p v c b r) -> is_nil h p = Some false.
Proof.
  intros H. unfold is_nil. destruct (tok_get _ _ _ _ _ _ _ _ _ H) as (-> & _). cbn. f_equal. apply Nat.eqb_neq. intro E.
  destruct H as (_ & _ & _ & H & _). specialize (H p). rewrite tids_node, occ_app in H. cbn [occ] in H. rewrite Nat.eqb_refl in H. cbn in H.
  destruct (ctop_in nil k) as [(-> & E2)|E2].
  - rewrite E2 in E. subst. rewrite Nat.eqb_refl in H. cbn in H. lia.
  - rewrite E in E2. lia.
Qed.
Lemma tok_nil h nil k t : tok h nil k t -> gpar h nil = Some nil /\ glft h nil = Some (croot k (rt nil t)) /\ grgt h nil = Some (croot k (rt nil t)) /\ gsiz h nil = Some 0%Z /\ gbal h nil = Some 0%Z.
Proof. intros (H & _). now apply nil_ok_get. Qed.
Lemma tok_nil_nil h nil k t : tok h nil k t -> is_nil h nil = Some true.
Proof. intro H. unfold is_nil. destruct (tok_nil _ _ _ _ H) as (-> & _). cbn. now rewrite Nat.eqb_refl. Qed.
Lemma tok_rt_nil h nil k t : tok h nil k t -> is_nil h (rt nil t) = Some (match t with Leaf => true | _ => false end).
Proof. destruct t; intro H; [eapply tok_nil_nil; eauto|eapply tok_is_nil; eauto]. Qed.
Lemma tok_rt_siz h nil k t : tok h nil k t -> gsiz h (rt nil t) = Some (tsz t).
Proof. destruct t; intro H; [apply (tok_nil _ _ _ _ H)|eapply tok_get; eauto]. Qed.
Lemma tok_siz h nil k l p v c b r : tok h nil k (Node l p v c b r) -> gsiz h (rt nil l) = Some (tsz l) /\ gsiz h (rt nil r) = Some (tsz r).
Proof. intro H. split; eapply tok_rt_siz; [eapply tok_left|eapply tok_right]; eauto. Qed.
Lemma tok_count h nil k l p v c b r : tok h nil k (Node l p v c b r) -> node_count h p = Some c.
Proof.
  intros H. unfold node_count. rewrite (tok_is_nil _ _ _ _ _ _ _ _ _ H). cbn [obind].
  destruct (tok_get _ _ _ _ _ _ _ _ _ H) as (_ & -> & -> & -> & _). destruct (tok_siz _ _ _ _ _ _ _ _ _ H) as (E1 & E2). cbn [obind]. rewrite E1, E2. cbn [obind]. rewrite tsz_node. f_equal. lia.
Qed.
Lemma tok_root h nil t : tok h nil [] t -> bst_root h nil = Some (rt nil t).
Proof. intro H. apply (tok_nil _ _ _ _ H). Qed.

(** fuel: a represented tree has fewer nodes than numbers used *)
Lemma length_bound (l : list nat) n : NoDup l -> (forall x, In x l -> x < n) -> length l <= n.
Proof.
  intros H1 H2. rewrite <- (seq_length n 0). apply NoDup_incl_length; [exact H1|]. intros x Hx. apply in_seq. specialize (H2 x Hx). lia.
Qed.
Lemma tok_len h nil k t : tok h nil k t -> length (tids t) + length k < next h.
Proof.
  intros (_ & _ & _ & H1 & H2).
  assert (L : length (nil :: tids t ++ cids k) <= next h).
  { apply length_bound.
    - apply NoDup_occ. intro x. cbn [occ]. rewrite occ_app. apply H1.
    - intros x Hx. apply H2. apply occ_In in Hx. cbn [occ] in Hx. rewrite occ_app in Hx. exact Hx. }
  cbn [length] in L. rewrite app_length in L.
  assert (length k <= length (cids k)). { clear. induction k as [|f k IH]; cbn; [lia|]. rewrite app_length. lia. }
  lia.
Qed.
Lemma tlen_node l p v c b r : length (tids (Node l p v c b r)) = length (tids l) + S (length (tids r)).
Proof. rewrite tids_node, app_length. reflexivity. Qed.
End P.
