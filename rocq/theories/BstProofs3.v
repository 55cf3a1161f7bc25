(** Binary search trees: propagation of sizes, relinking, insertion, rotations. *)
From Verif Require Import Lib BstModel BstSpec BstProofs.
From Coq Require Import Permutation.
Open Scope nat_scope.

Section P.
Context {V K : Type}.
Notation tree := (tree V).
Notation entry := (nat * V * Z)%type.
Notation heap := (heap (V := V)).
Implicit Types (h : heap) (t : tree).

Lemma upd_eq {A} (f : nat -> A) p x : upd f p x p = x.
Proof. unfold upd. now rewrite Nat.eqb_refl. Qed.
Lemma upd_ne {A} (f : nat -> A) p x q : q <> p -> upd f p x q = f q.
Proof. intro H. unfold upd. now rewrite (proj2 (Nat.eqb_neq _ _) H). Qed.

(** the node of p is the same in both heaps *)
Definition same h h' (p : nat) : Prop :=
  live h' p = live h p /\ par h' p = par h p /\ lft h' p = lft h p /\ rgt h' p = rgt h p /\ siz h' p = siz h p /\ bal h' p = bal h p /\ val h' p = val h p.
Lemma same_refl h p : same h h p.
Proof. repeat split. Qed.
Lemma same_trans h1 h2 h3 p : same h1 h2 p -> same h2 h3 p -> same h1 h3 p.
Proof. unfold same. intuition congruence. Qed.
Lemma node_ok_same h h' (x : nrec V) : same h h' (nid x) -> node_ok h x -> node_ok h' x.
Proof. unfold same, node_ok. intuition congruence. Qed.
Lemma Forall_same h h' (L : list (nrec V)) : (forall x, 1 <= occ x (map nid L) -> same h h' x) -> Forall (node_ok h) L -> Forall (node_ok h') L.
Proof.
  intros H HF. rewrite Forall_forall in *. intros y Hy. apply (node_ok_same h); [|auto]. apply H. apply occ_In. now apply in_map.
Qed.
Lemma recs_same h h' nil pa t : (forall x, 1 <= occ x (tids t) -> same h h' x) -> Forall (node_ok h) (recs nil pa t) -> Forall (node_ok h') (recs nil pa t).
Proof. intros H. apply Forall_same. intro x. rewrite recs_ids. apply H. Qed.
Lemma crecs_same h h' nil base k r s : (forall x, 1 <= occ x (cids k) -> same h h' x) -> Forall (node_ok h) (crecs nil base k r s) -> Forall (node_ok h') (crecs nil base k r s).
Proof. intros H. apply Forall_same. intro x. rewrite crecs_ids. apply H. Qed.
Lemma nil_same h h' nil root : same h h' nil -> nil_ok h nil root -> nil_ok h' nil root.
Proof. unfold same, nil_ok. intuition congruence. Qed.
Lemma tok_same h h' nil k t : (forall x, 1 <= Nat.b2n (nil =? x) + (occ x (tids t) + occ x (cids k)) -> same h h' x) -> next h <= next h' -> tok h nil k t -> tok h' nil k t.
Proof.
  intros H N (A1 & A2 & A3 & A4 & A5). split; [|split; [|split; [|split]]].
  - apply (nil_same h); [|auto]. apply H. rewrite Nat.eqb_refl. cbn. lia.
  - apply (recs_same h); [|auto]. intros x Hx. apply H. lia.
  - apply (crecs_same h); [|auto]. intros x Hx. apply H. lia.
  - auto.
  - intros x Hx. specialize (A5 x Hx). lia.
Qed.
(** the parent of the root changes *)
Lemma recs_reparent h h' nil a b t :
  (forall x, 1 <= occ x (tids t) -> x <> rt nil t -> same h h' x) ->
  (t <> Leaf -> let x := rt nil t in live h' x = live h x /\ par h' x = b /\ lft h' x = lft h x /\ rgt h' x = rgt h x /\ siz h' x = siz h x /\ bal h' x = bal h x /\ val h' x = val h x) ->
  (forall x, occ x (tids t) <= 1) ->
  Forall (node_ok h) (recs nil a t) -> Forall (node_ok h') (recs nil b t).
Proof.
  destruct t as [|l p v c bb r]; intros H1 H2 H3 H; [constructor|]. cbn [recs rt] in *. specialize (H2 ltac:(discriminate)). cbn in H2.
  inversion H as [|? ? N1 N2]; subst. apply Forall_app in N2 as (N2 & N3).
  assert (Hp := H3 p). rewrite tids_node, occ_app in Hp. cbn [occ] in Hp. rewrite Nat.eqb_refl in Hp. cbn in Hp.
  constructor; [destruct H2 as (C1 & C2 & C3 & C4 & C5 & C6 & C7); destruct N1 as (D1 & D2 & D3 & D4 & D5 & D6 & D7); cbn [nid npar nl nr ns nb nv] in *; unfold node_ok; cbn [nid npar nl nr ns nb nv]; rewrite C1, C2, C3, C4, C5, C6, C7; auto 10|].
  apply Forall_app. split; (eapply recs_same; [|eassumption]); intros x Hx; (apply H1; [rewrite tids_node, occ_app; cbn [occ]; lia|intros ->; lia]).
Qed.

(** sizes *)
Lemma with_siz_id h : with_siz h (siz h) = h.
Proof. destruct h; reflexivity. Qed.
Definition spine (k : ctx (V := V)) : list nat := map fp k.
Lemma spine_occ x (k : ctx (V := V)) : occ x (spine k) <= occ x (cids k).
Proof. unfold spine. induction k as [|f k IH]; cbn [map cids occ]; [lia|]. rewrite occ_app. lia. Qed.
Lemma node_ok_siz h f (x : nrec V) : f (nid x) = siz h (nid x) -> node_ok h x -> node_ok (with_siz h f) x.
Proof. unfold node_ok. cbn. intuition congruence. Qed.
Lemma Forall_siz h f (L : list (nrec V)) : (forall x, 1 <= occ x (map nid L) -> f x = siz h x) -> Forall (node_ok h) L -> Forall (node_ok (with_siz h f)) L.
Proof. intros H HF. rewrite Forall_forall in *. intros y Hy. apply node_ok_siz; [|auto]. apply H. apply occ_In. now apply in_map. Qed.

Lemma prop_loop nil e d : forall k r s h fuel, Forall (node_ok h) (crecs nil e k r s) -> (forall x, occ x (cids k) <= 1) -> occ e (cids k) = 0 -> length k < fuel ->
  exists f, while fuel (fun '(h, tmp) =>
    if tmp =? e then Some (inr h) else
    let* s := gsiz h tmp in let* h := ssiz h tmp (s + d)%Z in let* q := gpar h tmp in Some (inl (h, q))) (h, ctop e k) = Some (with_siz h f) /\
    Forall (node_ok (with_siz h f)) (crecs nil e k r (s + d)) /\ (forall x, occ x (spine k) = 0 -> f x = siz h x).
Proof.
  induction k as [|f k IH]; intros r s h fuel H HN HE HF; (destruct fuel as [|fuel]; [lia|]).
  - exists (siz h). cbn [while ctop]. rewrite Nat.eqb_refl, with_siz_id. repeat split. constructor.
  - cbn [while ctop]. cbn [cids occ] in HE. rewrite occ_app in HE.
    assert (Hne : (fp f =? e) = false) by (apply Nat.eqb_neq; intros E; rewrite E, Nat.eqb_refl in HE; cbn in HE; lia). rewrite Hne.
    cbn [crecs] in H. inversion H as [|? ? H1 H2]; subst. apply Forall_app in H2 as (H2 & H3).
    destruct (node_ok_get _ _ H1) as (G1 & _ & _ & G4 & _). cbn [nid npar ns frec] in G1, G4. rewrite G4. cbn [obind].
    destruct H1 as (Hl & Hp & Hlf & Hrg & Hs & Hb & Hv). cbn [nid npar ns nl nr nb nv frec] in *.
    unfold ssiz at 1. rewrite Hl. cbn [obind]. unfold gpar at 1. cbn [live par with_siz]. rewrite Hl. cbn [obind]. rewrite Hp.
    set (h1 := with_siz h (upd (siz h) (fp f) (fsz f s + d)%Z)).
    assert (Hn := HN (fp f)). cbn [cids occ] in Hn. rewrite Nat.eqb_refl, occ_app in Hn. cbn in Hn.
    destruct (IH (fp f) (fsz f s) h1 fuel) as (g & Eg & G & Gs).
    + apply Forall_siz; [|exact H3]. intros x Hx. rewrite crecs_ids in Hx. apply upd_ne. intros ->. lia.
    + intro x. specialize (HN x). cbn [cids occ] in HN. rewrite occ_app in HN. lia.
    + lia.
    + cbn in HF. lia.
    + exists g. assert (E1 : with_siz h1 g = with_siz h g) by reflexivity. rewrite E1 in *. split; [exact Eg|split].
      * assert (Gf : g (fp f) = (fsz f s + d)%Z). { rewrite Gs; [apply upd_eq|]. pose proof (spine_occ (fp f) k). lia. }
        cbn [crecs]. replace (fsz f (s + d)) with (fsz f s + d)%Z by (unfold fsz; lia). constructor; [|apply Forall_app; split; [|exact G]].
        -- unfold node_ok. cbn. rewrite Gf. unfold fsz. repeat split; auto. lia.
        -- apply Forall_siz; [|exact H2]. intros x Hx. rewrite recs_ids in Hx. rewrite Gs; [|pose proof (spine_occ x k); specialize (HN x); cbn [cids occ] in HN; rewrite occ_app in HN; lia].
           apply upd_ne. intros ->. lia.
      * intros x Hx. cbn [spine map occ] in Hx. rewrite Gs by (unfold spine; lia). apply upd_ne. intros ->. rewrite Nat.eqb_refl in Hx. cbn in Hx. lia.
Qed.
Lemma crecs_fc nil base k pf b v c bl sib r s d : crecs (V := V) nil base (FR pf b v c bl sib :: k) r (s + d) = crecs nil base (FR pf b v (c + d) bl sib :: k) r s.
Proof. cbn [crecs fp fs]. unfold frec, fsz. cbn [fp fs fl fc fb fv]. replace (s + d + (c + tsz sib))%Z with (s + (c + d + tsz sib))%Z by lia. reflexivity. Qed.

Lemma occ_nil_ne (nil x : nat) n : Nat.b2n (nil =? x) + n <= 1 -> 1 <= n -> x <> nil.
Proof. intros H1 H2 ->. rewrite Nat.eqb_refl in H1. cbn in H1. lia. Qed.

Lemma propagate_node h nil k l p v c b r d : tok h nil k (Node l p v c b r) ->
  exists f, propagate_size h p nil d = Some (with_siz h f) /\ tok (with_siz h f) nil k (Node l p v (c + d) b r) /\
    (forall x, occ x (tids (Node l p v c b r)) + occ x (cids k) = 0 -> f x = siz h x).
Proof.
  intros H. unfold propagate_size. destruct (Z.eqb_spec d 0) as [->|Hd].
  - exists (siz h). rewrite with_siz_id, Z.add_0_r. auto.
  - pose proof (tok_left _ _ _ _ _ _ _ _ _ H) as H'. pose proof (tok_len _ _ _ _ H') as L. destruct H' as (A1 & A2 & A3 & A4 & A5).
    destruct (prop_loop nil nil d (FR true p v c b r :: k) (rt nil l) (tsz l) h (loops h) A3) as (f & Ef & Hf & Hs).
    + intro x. specialize (A4 x). lia.
    + specialize (A4 nil). rewrite Nat.eqb_refl in A4. cbn [Nat.b2n] in A4. lia.
    + unfold loops. lia.
    + cbn [ctop fp] in Ef. exists f. split; [exact Ef|].
      assert (U : forall x, occ x (tids l) >= 1 \/ x = nil -> f x = siz h x).
      { intros x Hx. apply Hs. specialize (A4 x). pose proof (spine_occ x (FR true p v c b r :: k)). destruct Hx as [Hx| ->]; [lia|]. rewrite Nat.eqb_refl in A4. cbn [Nat.b2n] in A4. lia. }
      rewrite crecs_fc in Hf. split.
      * apply (tok_move _ _ (FR true p v (c + d) b r :: k) l); [reflexivity|]. split; [|split; [|split; [|split]]].
        -- destruct A1 as (B1 & B2 & B3 & B4 & B5 & B6). unfold nil_ok. cbn. repeat split; auto. rewrite U by auto. exact B5.
        -- apply Forall_siz; [|exact A2]. intros x Hx. rewrite recs_ids in Hx. apply U. lia.
        -- exact Hf.
        -- exact A4.
        -- exact A5.
      * intros x Hx. apply Hs. pose proof (spine_occ x (FR true p v c b r :: k)) as Hsp. cbn [cids occ fp fs] in Hsp. rewrite tids_node, occ_app in Hx. cbn [occ] in Hx. rewrite occ_app in Hsp. lia.
Qed.
Lemma propagate_ctx h nil k r s d : Forall (node_ok h) (crecs nil nil k r s) -> (forall x, Nat.b2n (nil =? x) + occ x (cids k) <= 1) -> length k < next h ->
  exists f, propagate_size h (ctop nil k) nil d = Some (with_siz h f) /\ Forall (node_ok (with_siz h f)) (crecs nil nil k r (s + d)) /\ (forall x, occ x (cids k) = 0 -> f x = siz h x).
Proof.
  intros H HN L. unfold propagate_size. destruct (Z.eqb_spec d 0) as [->|Hd].
  - exists (siz h). rewrite with_siz_id, Z.add_0_r. auto.
  - destruct (prop_loop nil nil d k r s h (loops h) H) as (f & Ef & Hf & Hs).
    + intro x. specialize (HN x). lia.
    + specialize (HN nil). rewrite Nat.eqb_refl in HN. cbn [Nat.b2n] in HN. lia.
    + unfold loops. lia.
    + exists f. split; [exact Ef|]. split; [exact Hf|]. intros x Hx. apply Hs. pose proof (spine_occ x k). lia.
Qed.

(** a new child in the hole *)
Definition linked h h' (nil : nat) (k : ctx (V := V)) (r' : nat) : Prop :=
  match k with
  | [] => live h' nil = live h nil /\ par h' nil = par h nil /\ siz h' nil = siz h nil /\ bal h' nil = bal h nil /\ lft h' nil = r' /\ rgt h' nil = r'
  | f :: _ => same h h' nil /\
      let p := fp f in live h' p = live h p /\ par h' p = par h p /\ siz h' p = siz h p /\ bal h' p = bal h p /\ val h' p = val h p /\
      lft h' p = (if fl f then r' else lft h p) /\ rgt h' p = (if fl f then rgt h p else r')
  end /\ (forall x, 1 <= occ x (cids k) -> x <> ctop nil k -> same h h' x).
Lemma relink h h' nil k r r' s : (forall x, occ x (cids k) <= 1) -> nil_ok h nil (croot k r) -> Forall (node_ok h) (crecs nil nil k r s) -> linked h h' nil k r' ->
  nil_ok h' nil (croot k r') /\ Forall (node_ok h') (crecs nil nil k r' s).
Proof.
  intros HN A1 A2 (H1 & H2). destruct k as [|f k].
  - split; [|constructor]. cbn [croot] in *. unfold nil_ok in *. intuition congruence.
  - destruct H1 as (S0 & H1). cbn [croot] in *. split; [eapply nil_same; eauto|]. cbn [crecs] in *. inversion A2 as [|? ? N1 N2]; subst. cbn in H1.
    assert (Hn := HN (fp f)). cbn [cids occ ctop] in *. rewrite Nat.eqb_refl, occ_app in Hn. cbn in Hn.
    constructor.
    + destruct N1 as (B1 & B2 & B3 & B4 & B5 & B6 & B7). cbn in *. unfold node_ok. cbn [nid npar nl nr ns nb nv frec]. destruct H1 as (C1 & C2 & C3 & C4 & C5 & C6 & C7).
      rewrite C1, C2, C3, C4, C5, C6, C7, B1, B2, B5, B6, B7, B3, B4. destruct (fl f); auto 10.
    + eapply Forall_same; [|exact N2]. intros x Hx. rewrite map_app, occ_app, recs_ids, crecs_ids in Hx. apply H2; [rewrite occ_app; lia|]. intros ->. lia.
Qed.

(** make_link with the old child as a pure function of the heap *)
Definition mlo h (p ch old : nat) (n : bool) : heap :=
  {| live := live h; par := if n then par h else upd (par h) ch p; lft := if lft h p =? old then upd (lft h) p ch else lft h; rgt := if rgt h p =? old then upd (rgt h) p ch else rgt h;
     bal := bal h; siz := siz h; val := val h; next := next h |}.
Lemma mlo_run h p ch old n : live h p = true -> is_nil h ch = Some n -> make_link_old h p ch old = Some (mlo h p ch old n).
Proof.
  intros Hp Hn. unfold make_link_old, grgt at 1. rewrite Hp. cbn [obind].
  assert (Hc : live h ch = true /\ n = (par h ch =? ch)) by (unfold is_nil, gpar in Hn; destruct (live h ch); cbn in Hn; [|discriminate]; injection Hn as <-; auto).
  destruct Hc as (Hc & ->). unfold mlo.
  destruct (Nat.eqb_spec (rgt h p) old) as [E1|E1].
  - unfold srgt. rewrite Hp. cbn [obind]. unfold glft. cbn [live lft with_rgt]. rewrite Hp. cbn [obind]. destruct (lft h p =? old).
    + unfold slft. cbn [live lft with_rgt]. rewrite Hp. cbn [obind]. unfold is_nil, gpar. cbn [live par with_rgt with_lft]. rewrite Hc. cbn [obind]. unfold spar. cbn [live par with_rgt with_lft]. rewrite Hc.
      destruct (par h ch =? ch); reflexivity.
    + cbn [obind]. unfold is_nil, gpar. cbn [live par with_rgt with_lft]. rewrite Hc. cbn [obind]. unfold spar. cbn [live par with_rgt with_lft]. rewrite Hc. destruct (par h ch =? ch); reflexivity.
  - cbn [obind]. unfold glft. rewrite Hp. cbn [obind]. destruct (lft h p =? old).
    + unfold slft. rewrite Hp. cbn [obind]. unfold is_nil, gpar. cbn [live par with_rgt with_lft]. rewrite Hc. cbn [obind]. unfold spar. cbn [live par with_rgt with_lft]. rewrite Hc. destruct (par h ch =? ch); reflexivity.
    + cbn [obind]. unfold is_nil, gpar. rewrite Hc. cbn [obind]. unfold spar. rewrite Hc. destruct (par h ch =? ch); destruct h; reflexivity.
Qed.
(** the child pointers of the top of a context *)
Lemma top_links h nil k t : tok h nil k t -> t <> Leaf ->
  live h (ctop nil k) = true /\
  (lft h (ctop nil k) =? rt nil t) = match k with [] => true | f :: _ => fl f end /\ (rgt h (ctop nil k) =? rt nil t) = match k with [] => true | f :: _ => negb (fl f) end.
Proof.
  intros H N. destruct k as [|f k].
  - destruct H as ((B1 & B2 & B3 & B4 & _) & _). cbn [ctop croot] in *. rewrite B3, B4, Nat.eqb_refl. auto.
  - destruct H as (_ & _ & B & Hn & _). cbn [crecs ctop] in *. inversion B as [|? ? B1 _]; subst. destruct B1 as (C1 & C2 & C3 & C4 & _). cbn in C1, C2, C3, C4. rewrite C1, C3, C4.
    assert (NE : (rt nil (fs f) =? rt nil t) = false).
    { apply Nat.eqb_neq. intro E. specialize (Hn (rt nil t)). cbn [cids occ] in Hn. rewrite occ_app in Hn. destruct (rt_in nil t) as [(-> & _)|E1]; [congruence|]. destruct (rt_in nil (fs f)) as [(_ & E2)|E2].
      - rewrite E2 in E. rewrite <- E in Hn, E1. rewrite Nat.eqb_refl in Hn. cbn in Hn. lia.
      - rewrite E in E2. lia. }
    destruct (fl f); rewrite NE, Nat.eqb_refl; auto.
Qed.
End P.
Ltac updx := unfold upd; repeat (match goal with |- context [?a =? ?b] => destruct (Nat.eqb_spec a b); try (subst; congruence) end).
