(** Binary search trees: construction, copies, destruction and comparison. *)
From Verif Require Import Lib BstModel BstSpec BstProofs BstProofs2 BstProofs3 BstProofs4 BstProofs5 BstProofs6 BstProofs7 BstProofs8 BstProofs9 BstProofs10 BstProofs11.
From Coq Require Import Permutation.
Open Scope nat_scope.

Section P.
Context {V : Type}.
Notation tree := (tree V).
Notation entry := (nat * V * Z)%type.
Notation heap := (heap (V := V)).
Notation ctx := (ctx (V := V)).
Implicit Types (h : heap) (t : tree) (k : ctx) (es : list entry).

(** the empty tree *)
Lemma init_run h : let '(h', m) := bst_init h in m = next h /\ bst_rep h' m [] /\ (forall n2 es2, bst_rep h n2 es2 -> bst_rep h' n2 es2 /\ apart m [] n2 es2) /\ (forall x, x <> m -> same h h' x) /\ live h' = upd (live h) m true /\ next h' = next h + 1.
Proof.
  cbn. split; [reflexivity|]. set (n := next h). match goal with |- bst_rep ?hh _ _ /\ _ => set (h1 := hh) end.
  assert (SS : forall x, x <> n -> same h h1 x) by (intros x Nx; unfold same; cbn; rewrite !upd_ne by auto; auto 10).
  split; [|split; [|split; [exact SS|auto]]].
  - exists Leaf. split; [|reflexivity]. apply tok_0. split; [|constructor]. split; [|split; [constructor|split; [constructor|]]].
    + unfold nil_ok. cbn. rewrite !upd_eq. auto 10.
    + cbn. split; [intros x; destruct (n =? x); cbn; lia|intros x; destruct (Nat.eqb_spec n x); cbn; lia].
  - intros n2 es2 (t & T & <-). pose proof T as T'. apply tok_0 in T' as (T' & P). destruct T as (_ & _ & _ & Hlt & _). rewrite Forall_forall in Hlt. split.
    + exists t. split; [|reflexivity]. apply tok_0. split; [|exact P]. apply (tok_same h); [|cbn; lia|exact T']. intros x Hx. apply SS. intros ->. destruct T' as (_ & _ & _ & _ & A5). specialize (A5 n Hx). unfold n in A5. lia.
    + intros x [<-|[]] Hx. specialize (Hlt _ Hx). unfold n in Hlt. lia.
Qed.

(** the clone of a tree, its nodes numbered from n *)
Fixpoint ct (n : nat) (t : tree) : tree * nat :=
  match t with
  | Leaf => (Leaf, n)
  | Node l p v c b r => let '(l', n1) := ct (n + 1) l in let '(r', n2) := ct n1 r in (Node l' n v c b r', n2)
  end.
Lemma ct_le t : forall n, n <= snd (ct n t).
Proof. induction t as [|l IHl p v c b r IHr]; intros n; [cbn; lia|]. cbn [ct]. specialize (IHl (n + 1)). destruct (ct (n + 1) l) as (l' & n1). cbn in IHl. specialize (IHr n1). destruct (ct n1 r). cbn in *. lia. Qed.
Lemma ct_vals t : forall n, map snd (map (fun e : entry => (eid e, (evl e, ecn e))) (entries (fst (ct n t)))) = map (fun e : entry => (evl e, ecn e)) (entries t).
Proof.
  induction t as [|l IHl p v c b r IHr]; intros n; [reflexivity|]. cbn [ct]. specialize (IHl (n + 1)). destruct (ct (n + 1) l) as (l' & n1). specialize (IHr n1). destruct (ct n1 r) as (r' & n2). cbn [fst entries] in *.
  rewrite !map_app. cbn [map snd]. rewrite IHl, IHr. reflexivity.
Qed.
Lemma ct_total t n : total (entries (fst (ct n t))) = total (entries t).
Proof.
  assert (G : forall a b : list entry, map (fun e : entry => (evl e, ecn e)) a = map (fun e : entry => (evl e, ecn e)) b -> total a = total b).
  { induction a as [|x a IH]; intros [|y b] E; try discriminate; [reflexivity|]. cbn in E. injection E as _ E1 E2. rewrite !total_cons. rewrite (IH _ E2). lia. }
  apply G. rewrite <- (ct_vals t n), map_map. reflexivity.
Qed.
Lemma ct_occ t : forall n x, occ x (tids (fst (ct n t))) = if (n <=? x) && (x <? snd (ct n t)) then 1 else 0.
Proof.
  induction t as [|l IHl p v c b r IHr]; intros n x; [cbn [ct fst snd]; destruct (Nat.leb_spec n x), (Nat.ltb_spec x n); cbn; auto; lia|]. cbn [ct]. pose proof (ct_le l (n + 1)) as L1. specialize (IHl (n + 1) x). destruct (ct (n + 1) l) as (l' & n1). cbn [fst snd] in *. pose proof (ct_le r n1) as L2. specialize (IHr n1 x). destruct (ct n1 r) as (r' & n2). cbn [fst snd] in *.
  rewrite tids_node, occ_app. cbn [occ]. rewrite IHl, IHr. destruct (Nat.leb_spec (n + 1) x), (Nat.ltb_spec x n1), (Nat.leb_spec n1 x), (Nat.ltb_spec x n2), (Nat.leb_spec n x), (Nat.eqb_spec n x); cbn; lia.
Qed.
Lemma ct_rt nil t n : rt nil (fst (ct n t)) = match t with Leaf => nil | _ => n end.
Proof. destruct t; [reflexivity|]. cbn [ct]. destruct (ct (n + 1) t1) as (l' & n1). destruct (ct n1 t2). reflexivity. Qed.
Lemma ct_leaf t n : fst (ct n t) = Leaf <-> t = Leaf.
Proof. destruct t; [cbn; tauto|]. cbn [ct]. destruct (ct (n + 1) t1) as (l' & n1). destruct (ct n1 t2). cbn. split; discriminate. Qed.

Lemma attach h n nil' gl t : live h n = true -> par h n = nil' -> n <> nil' -> live h nil' = true -> par h nil' = nil' -> Forall (node_ok h) (recs nil' nil' t) ->
  (forall x, Nat.b2n (nil' =? x) + Nat.b2n (n =? x) + occ x (tids t) <= 1) ->
  exists h', make_link h n (rt nil' t) gl = Some h' /\ Forall (node_ok h') (recs nil' n t) /\ (forall x, x <> n -> occ x (tids t) = 0 -> same h h' x) /\ live h' = live h /\ next h' = next h /\
    par h' n = par h n /\ val h' n = val h n /\ bal h' n = bal h n /\ siz h' n = siz h n /\ lft h' n = (if gl then rt nil' t else lft h n) /\ rgt h' n = (if gl then rgt h n else rt nil' t).
Proof.
  intros Ln Pn Nn L0 P0 R O. set (nt := match t with Leaf => true | _ => false end).
  assert (In1 : is_nil h n = Some false) by (unfold is_nil, gpar; rewrite Ln, Pn; cbn; f_equal; apply Nat.eqb_neq; auto).
  assert (In2 : is_nil h (rt nil' t) = Some nt).
  { unfold nt. destruct t as [|l p v c b r]; cbn [rt]; unfold is_nil, gpar; [rewrite L0, P0; cbn; now rewrite Nat.eqb_refl|]. cbn [recs] in R. apply Forall_cons_iff in R as ((R1 & R2 & _) & _). cbn in R1, R2. rewrite R1, R2. cbn. f_equal. apply Nat.eqb_neq. intros E. specialize (O p). rewrite tids_node, occ_app in O. cbn [occ] in O. rewrite E, !Nat.eqb_refl in O. cbn in O. lia. }
  exists (mlk h n (rt nil' t) gl false nt). rewrite (mlk_run _ _ _ _ _ _ In1 In2). split; [reflexivity|].
  assert (Nx : forall x, 1 <= occ x (tids t) -> x <> n) by (intros x Hx ->; specialize (O n); rewrite Nat.eqb_refl in O; cbn in O; lia).
  assert (Nr : nt = false -> 1 <= occ (rt nil' t) (tids t)) by (unfold nt; intros E; destruct (rt_in nil' t) as [(E' & _)|E']; [rewrite E' in E; discriminate|exact E']).
  split; [|split].
  - apply (recs_reparent h _ nil' nil' n); [| |intro x; specialize (O x); lia|exact R].
    + intros x Hx Nr'. specialize (Nx x Hx). unfold same. cbn. destruct nt, gl; cbn; rewrite ?upd_ne by auto; auto 10.
    + intros Nt. cbn. assert (En : nt = false) by (unfold nt; destruct t; [congruence|reflexivity]). specialize (Nr En). apply Nx in Nr. rewrite En. cbn. destruct gl; cbn; rewrite ?upd_eq, ?upd_ne by auto; auto 10.
  - intros x X1 X2. unfold same. cbn. assert (X3 : nt = false -> x <> rt nil' t) by (intros E ->; specialize (Nr E); lia). destruct nt; destruct gl; cbn; rewrite ?upd_ne by auto; auto 10.
  - cbn. split; [reflexivity|split; [reflexivity|]]. assert (X3 : nt = false -> n <> rt nil' t) by (intros E Q; specialize (Nr E); apply Nx in Nr; congruence). destruct nt, gl; cbn; rewrite ?upd_eq; rewrite ?upd_ne by auto; auto 10.
Qed.
Lemma clone_run nil nil' : forall t k h fuel, tok h nil k t -> live h nil' = true -> par h nil' = nil' -> nil' < next h -> length (tids t) < fuel ->
  let '(t', n') := ct (next h) t in exists h', clone_subtree fuel h nil' (rt nil t) = Some (h', rt nil' t') /\ next h' = n' /\ Forall (node_ok h') (recs nil' nil' t') /\
    (forall x, x < next h -> same h h' x) /\ (forall x, live h' x = live h x || ((next h <=? x) && (x <? n'))).
Proof.
  induction t as [|l IHl p v c b r IHr]; intros k h fuel T Ln Pn Nn HF; (destruct fuel as [|fuel]; [lia|]).
  - cbn [ct clone_subtree rt]. rewrite (tok_nil_nil _ _ _ _ T). cbn [obind]. exists h. split; [reflexivity|split; [reflexivity|split; [constructor|split; [intros; apply same_refl|]]]].
    intros x. destruct (Nat.leb_spec (next h) x), (Nat.ltb_spec x (next h)); try lia; cbn; now rewrite orb_false_r.
  - rewrite tlen_node in HF. set (n := next h) in *. cbn [ct]. pose proof (ct_le l (n + 1)) as L1. pose proof (ct_occ l (n + 1)) as O1. pose proof (ct_rt nil' l (n + 1)) as Rl. pose proof (ct_total l (n + 1)) as Tl. pose proof (ct_leaf l (n + 1)) as Ll.
    specialize (IHl (FR true p v c b r :: k)). destruct (ct (n + 1) l) as (l' & n1) eqn:Cl. cbn [fst snd] in *.
    pose proof (ct_le r n1) as L2. pose proof (ct_occ r n1) as O2. pose proof (ct_rt nil' r n1) as Rr. pose proof (ct_total r n1) as Tr. pose proof (ct_leaf r n1) as Lr. specialize (IHr (FR false p v c b l :: k)). destruct (ct n1 r) as (r' & n2) eqn:Cr. cbn [fst snd] in *.
    cbn [rt clone_subtree]. rewrite (tok_is_nil _ _ _ _ _ _ _ _ _ T). cbn [obind]. pose proof (tok_get _ _ _ _ _ _ _ _ _ T) as (Gp & Gl & Gr & Gs & Gb & Gv). rewrite Gv. cbn [obind]. unfold bst_buy. fold n.
    unfold spar. cbn [live]. rewrite upd_eq. cbn [obind with_par live par lft rgt bal siz val next].
    match goal with |- context [glft ?hh p] => set (h1 := hh) end.
    assert (S1 : forall x, x < n -> same h h1 x) by (intros x Lx; unfold same; cbn; rewrite !upd_ne by lia; auto 10).
    assert (E1 : live h1 = upd (live h) n true) by reflexivity. assert (N1 : next h1 = n + 1) by reflexivity. assert (P1 : par h1 n = nil') by (cbn; apply upd_eq). assert (V1 : val h1 n = Some v) by (cbn; apply upd_eq). clearbody h1.
    assert (LT : forall x, 1 <= Nat.b2n (nil =? x) + (occ x (tids (Node l p v c b r)) + occ x (cids k)) -> x < n) by (apply T).
    assert (Hp : p < n) by (apply LT; rewrite tids_node, occ_app; cbn [occ]; rewrite Nat.eqb_refl; cbn; lia).
    assert (T1 : tok h1 nil k (Node l p v c b r)) by (apply (tok_same h); [intros x Hx; apply S1, LT, Hx|rewrite N1; unfold n; lia|exact T]).
    pose proof (tok_get _ _ _ _ _ _ _ _ _ T1) as (_ & Gl1 & _). rewrite Gl1. cbn [obind].
    assert (Q1 : same h h1 nil') by (apply S1; exact Nn). destruct Q1 as (Q1 & Q2 & _). rewrite Ln in Q1. rewrite Pn in Q2.
    specialize (IHl h1 fuel (tok_left _ _ _ _ _ _ _ _ _ T1) Q1 Q2). rewrite N1, Cl in IHl. destruct IHl as (h2 & C2 & N2 & R2 & S2 & E2); [lia|lia|]. rewrite C2. cbn [obind].
    assert (A : live h2 n = true /\ par h2 n = nil' /\ val h2 n = Some v). { destruct (S2 n ltac:(lia)) as (A1 & A2 & _ & _ & _ & _ & A3). rewrite A1, A2, A3, E1, upd_eq. auto. } destruct A as (A1 & A2 & A3).
    assert (B : live h2 nil' = true /\ par h2 nil' = nil'). { destruct (S2 nil' ltac:(lia)) as (B1 & B2 & _). rewrite B1, B2. auto. } destruct B as (B1 & B2).
    destruct (attach h2 n nil' true l' A1 A2 ltac:(lia) B1 B2 R2) as (h3 & C3 & R3 & S3 & L3 & N3 & A4 & A5 & A6 & A7 & A8 & A9).
    { intros x. rewrite O1. destruct (Nat.leb_spec (n + 1) x), (Nat.eqb_spec nil' x), (Nat.eqb_spec n x), (x <? n1); cbn [Nat.b2n andb]; lia. }
    rewrite C3. cbn [obind]. assert (OL : forall x, x < n + 1 -> occ x (tids l') = 0) by (intros x Hx; rewrite O1; destruct (Nat.leb_spec (n + 1) x); [lia|reflexivity]).
    assert (S03 : forall x, x < n -> same h h3 x). { intros x Hx. apply (same_trans h h1); [apply S1; exact Hx|]. apply (same_trans h1 h2); [apply S2; lia|]. apply S3; [lia|apply OL; lia]. }
    assert (T3 : tok h3 nil k (Node l p v c b r)) by (apply (tok_same h); [intros x Hx; apply S03, LT, Hx|unfold n in *; lia|exact T]).
    pose proof (tok_get _ _ _ _ _ _ _ _ _ T3) as (_ & _ & Gr3 & _). rewrite Gr3. cbn [obind].
    assert (Q3 : same h h3 nil') by (apply S03; exact Nn). destruct Q3 as (Q3 & Q4 & _). rewrite Ln in Q3. rewrite Pn in Q4.
    specialize (IHr h3 fuel (tok_right _ _ _ _ _ _ _ _ _ T3) Q3 Q4). rewrite N3, N2 in IHr. rewrite Cr in IHr. destruct IHr as (h4 & C4 & N4 & R4 & S4 & E4); [lia|lia|]. rewrite C4. cbn [obind].
    assert (A : live h4 n = true /\ par h4 n = nil' /\ val h4 n = Some v /\ lft h4 n = rt nil' l'). { destruct (S4 n ltac:(lia)) as (D1 & D2 & D3 & _ & _ & _ & D7). rewrite D1, D2, D3, D7, L3, A4, A5, A8. auto. } destruct A as (D1 & D2 & D3 & D4).
    assert (B : live h4 nil' = true /\ par h4 nil' = nil'). { destruct (S4 nil' ltac:(lia)) as (B3 & B4 & _). rewrite B3, B4. auto. } destruct B as (B3 & B4).
    destruct (attach h4 n nil' false r' D1 D2 ltac:(lia) B3 B4 R4) as (h5 & C5 & R5 & S5 & L5 & N5 & D5 & D6 & D7 & D8 & D9 & D10).
    { intros x. rewrite O2. destruct (Nat.leb_spec n1 x), (Nat.eqb_spec nil' x), (Nat.eqb_spec n x), (x <? n2); cbn [Nat.b2n andb]; lia. }
    rewrite C5. cbn [obind]. assert (OR : forall x, x < n1 -> occ x (tids r') = 0) by (intros x Hx; rewrite O2; destruct (Nat.leb_spec n1 x); [lia|reflexivity]).
    assert (S05 : forall x, x < n -> same h h5 x). { intros x Hx. apply (same_trans h h3); [apply S03; exact Hx|]. apply (same_trans h3 h4); [apply S4; lia|]. apply S5; [lia|apply OR; lia]. }
    destruct (S05 p Hp) as (F1 & F2 & F3 & F4 & F5 & F6 & F7). unfold gbal at 1. rewrite F1. destruct (live_of_gpar _ _ _ Gp) as (LP & _). rewrite LP. cbn [obind]. rewrite F6. unfold sbal. rewrite L5, D1. cbn [obind].
    unfold gsiz at 1. cbn [live with_bal siz]. rewrite F1, LP. cbn [obind]. rewrite F5. unfold ssiz. cbn [live with_bal]. rewrite L5, D1. cbn [obind].
    match goal with |- context [Some (?hh, n)] => set (h6 := hh) end. exists h6. split; [reflexivity|].
    assert (S6 : forall x, x <> n -> same h5 h6 x) by (intros x Hx; unfold same; cbn; rewrite !upd_ne by auto; auto 10).
    split; [cbn; congruence|]. split; [|split].
    + cbn [recs]. constructor; [|apply Forall_app; split].
      * unfold node_ok. unfold h6. cbn [nid npar nl nr ns nb nv live par lft rgt siz bal val with_siz with_bal entries]. rewrite !upd_eq, L5, D5, D6, D9, D10, D1, D2, D3, D4. apply siz_of in Gs. apply bal_of in Gb. rewrite Gs, Gb. rewrite total_app, total_cons, Tl, Tr. rewrite tsz_node. unfold tsz. repeat split.
      * apply (recs_same h3); [|exact R3]. intros x Hx. rewrite O1 in Hx. destruct (Nat.leb_spec (n + 1) x); [|cbn in Hx; lia]. destruct (Nat.ltb_spec x n1); [|cbn in Hx; lia].
        apply (same_trans h3 h4); [apply S4; lia|]. apply (same_trans h4 h5); [apply S5; [lia|apply OR; lia]|]. apply S6. lia.
      * apply (recs_same h5); [|exact R5]. intros x Hx. rewrite O2 in Hx. destruct (Nat.leb_spec n1 x); [|cbn in Hx; lia]. apply S6. lia.
    + intros x Hx. apply (same_trans h h5); [apply S05; exact Hx|apply S6; lia].
    + intros x. unfold h6. cbn [live with_siz with_bal]. rewrite L5, E4, L3, E2, E1. unfold upd. destruct (Nat.eqb_spec x n) as [-> |Nx].
      * rewrite Nat.leb_refl. assert (Q : (n <? n2) = true) by (apply Nat.ltb_lt; lia). rewrite Q. cbn. now rewrite orb_true_r.
      * rewrite <- !orb_assoc. f_equal. destruct (Nat.leb_spec (n + 1) x), (Nat.ltb_spec x n1), (Nat.leb_spec n1 x), (Nat.ltb_spec x n2), (Nat.leb_spec n x); cbn; try reflexivity; lia.
Qed.

Lemma copy_tree h nil t : tree_rep h nil t -> let t' := fst (ct (next h + 1) t) in
  exists h', bst_copy h nil = Some (h', next h) /\ tree_rep h' (next h) t' /\ (forall x, x < next h -> same h h' x) /\ next h < next h' /\
    (forall x, live h' x = true <-> live h x = true \/ In x (next h :: ids (entries t'))) /\ (forall x, In x (next h :: ids (entries t')) -> next h <= x).
Proof.
  intros TR t'. pose proof TR as TR'. apply tok_0 in TR' as (T & P). unfold bst_copy. pose proof (init_run h) as IR. cbn in IR. unfold bst_init. cbn [obind].
  match goal with |- context [bst_root ?hh nil] => set (h1 := hh) in * end. destruct IR as (_ & (t0 & TR0 & Et0) & _ & S1 & _ & _). set (m := next h) in *. assert (N1 : next h1 = m + 1) by reflexivity. assert (L1 : live h1 = upd (live h) m true) by reflexivity. assert (Hm : next h = m) by reflexivity. clearbody h1. clearbody m.
  assert (t0 = Leaf) by (destruct t0; [reflexivity|cbn in Et0; destruct (entries t0_1); discriminate]). subst t0. destruct TR0 as ((I1 & I2 & I3 & I4 & I5 & I6) & _).
  assert (LT : forall x, 1 <= Nat.b2n (nil =? x) + (occ x (tids t) + 0) -> x < m) by (rewrite <- Hm; apply T).
  assert (T1 : tok h1 nil [] t) by (apply (tok_same h); [intros x Hx; apply S1; apply LT in Hx; lia|lia|exact T]).
  rewrite (tok_root _ _ _ T1). cbn [obind]. pose proof (tok_tid_len _ _ _ T1) as L.
  pose proof (clone_run nil m t [] h1 (loops h1) T1 I1 I2 ltac:(lia) L) as CR. pose proof (ct_occ t (m + 1)) as O. pose proof (ct_total t (m + 1)) as TT. pose proof (ct_le t (m + 1)) as LE. pose proof (ct_vals t (m + 1)) as VV. rewrite N1 in CR. unfold t'. clear t'. destruct (ct (m + 1) t) as (t' & n') eqn:Ct. cbn [fst snd] in *.
  destruct CR as (h2 & C2 & N2 & R2 & S2 & E2). rewrite C2. cbn [obind].
  destruct (S2 m ltac:(lia)) as (A1 & A2 & A3 & A4 & A5 & A6 & A7). rewrite I1 in A1. rewrite I2 in A2. rewrite I5 in A5. rewrite I6 in A6.
  assert (IN : is_nil h2 m = Some true) by (unfold is_nil, gpar; rewrite A1, A2; cbn; now rewrite Nat.eqb_refl).
  assert (Om : forall x, Nat.b2n (m =? x) + occ x (tids t') <= 1). { intros x. rewrite O. destruct (Nat.leb_spec (m + 1) x), (x <? n'), (Nat.eqb_spec m x); cbn [Nat.b2n andb]; lia. }
  assert (IC : is_nil h2 (rt m t') = Some (match t' with Leaf => true | _ => false end)).
  { destruct t' as [|l p v c b r]; [exact IN|]. cbn [rt recs] in *. apply Forall_cons_iff in R2 as ((R3 & R4 & _) & _). cbn in R3, R4. unfold is_nil, gpar. rewrite R3, R4. cbn. f_equal. apply Nat.eqb_neq. intros E. specialize (Om p). rewrite tids_node, occ_app in Om. cbn [occ] in Om. rewrite E, Nat.eqb_refl in Om. cbn in Om. lia. }
  rewrite (mlk_run _ _ _ _ _ _ IN IC). cbn [obind]. match goal with |- context [Some (?hh, m)] => set (h3 := hh) end. exists h3. split; [reflexivity|].
  assert (S3 : forall x, x <> m -> same h2 h3 x).
  { intros x Nx. unfold same. cbn. rewrite !upd_ne by auto. repeat split; auto. destruct t' as [|l p v c b r]; [reflexivity|]. cbn [rt]. unfold upd. destruct (Nat.eqb_spec x p) as [-> |]; [|reflexivity]. cbn [recs] in R2. apply Forall_cons_iff in R2 as ((_ & R4 & _) & _). cbn in R4. auto. }
  assert (P3 : par h3 m = m). { cbn. destruct t' as [|l p v c b r]; [exact A2|]. cbn [rt]. unfold upd. destruct (Nat.eqb_spec m p); [reflexivity|exact A2]. }
  split; [|split; [|split; [|split]]].
  - apply tok_0. split.
    + split; [|split; [|split; [constructor|split]]].
      * unfold nil_ok. rewrite P3. cbn [croot]. cbn. rewrite !upd_eq. auto 10.
      * cbn [ctop]. apply (recs_same h2); [|exact R2]. intros x Hx. apply S3. intros ->. specialize (Om m). rewrite Nat.eqb_refl in Om. cbn [Nat.b2n] in Om. lia.
      * cbn [cids occ]. intros x. specialize (Om x). lia.
      * cbn [cids occ]. intros x. rewrite O. cbn [next h3 mlk]. rewrite N2. destruct (Nat.eqb_spec m x), (Nat.leb_spec (m + 1) x), (Nat.ltb_spec x n'); cbn [Nat.b2n andb]; lia.
    + clear - VV P. unfold pos_counts in *. rewrite Forall_forall in *. intros e He. assert (H : In (evl e, ecn e) (map (fun e : entry => (evl e, ecn e)) (entries t))).
      { rewrite <- VV, map_map. apply in_map_iff. exists e. auto. }
      apply in_map_iff in H as (e' & E & He'). injection E as _ E. rewrite <- E. apply P. exact He'.
  - intros x Hx. apply (same_trans h h1); [apply S1; lia|]. apply (same_trans h1 h2); [apply S2; lia|]. apply S3. lia.
  - cbn [next h3 mlk]. lia.
  - intros x. cbn [live h3 mlk]. rewrite E2, L1. cbn [In]. fold (tids t'). rewrite (occ_In x (tids t')), O. unfold upd.
    destruct (Nat.eqb_spec x m) as [-> |Nx]; [split; intros; [auto|reflexivity]|]. destruct (Nat.leb_spec (m + 1) x), (Nat.ltb_spec x n'); cbn [andb]; rewrite ?orb_false_r, ?orb_true_r; split; intros H'; auto; try (destruct H' as [H'|[H'|H']]; auto; lia).
  - intros x. cbn [In]. fold (tids t'). rewrite (occ_In x (tids t')), O. intros [->|H]; [lia|]. destruct (Nat.leb_spec (m + 1) x); cbn [andb] in H; lia.
Qed.
Lemma copy_run h nil es : bst_rep h nil es ->
  exists h' nil' es', bst_copy h nil = Some (h', nil') /\ bst_rep h' nil' es' /\ map (fun e => (evl e, ecn e)) es' = map (fun e => (evl e, ecn e)) es /\
    (forall n2 es2, bst_rep h n2 es2 -> bst_rep h' n2 es2 /\ apart nil' es' n2 es2) /\ (forall x, live h' x = true <-> live h x = true \/ In x (nil' :: ids es')).
Proof.
  intros (t & TR & <-). destruct (copy_tree h nil t TR) as (h' & E & TR' & S & N & L & G). exists h', (next h), (entries (fst (ct (next h + 1) t))). split; [exact E|]. split; [exists (fst (ct (next h + 1) t)); auto|].
  split; [rewrite <- (ct_vals t (next h + 1)), map_map; reflexivity|]. split; [|exact L]. intros n2 es2 (t2 & T2 & <-). pose proof T2 as T2'. apply tok_0 in T2' as (T2' & P2). split.
  - exists t2. split; [|reflexivity]. apply tok_0. split; [|exact P2]. apply (tok_same h); [|lia|exact T2']. intros x Hx. apply S. apply T2' in Hx. exact Hx.
  - intros x Hx Hx2. destruct T2 as (_ & _ & _ & Hlt & _). rewrite Forall_forall in Hlt. specialize (Hlt x Hx2). specialize (G x Hx). lia.
Qed.

(** destruction *)
Definition same_links h h' : Prop := par h' = par h /\ lft h' = lft h /\ rgt h' = rgt h /\ siz h' = siz h /\ bal h' = bal h /\ val h' = val h /\ next h' = next h.
Lemma free_run nil : forall t pa h fuel, Forall (node_ok h) (recs nil pa t) -> live h nil = true -> par h nil = nil -> (forall x, Nat.b2n (nil =? x) + occ x (tids t) <= 1) -> occ pa (tids t) = 0 -> length (tids t) < fuel ->
  exists h', free_all fuel h (rt nil t) = Some h' /\ same_links h h' /\ (forall x, live h' x = if occ x (tids t) =? 0 then live h x else false).
Proof.
  induction t as [|l IHl p v c b r IHr]; intros pa h fuel R Ln Pn O Opa HF; (destruct fuel as [|fuel]; [lia|]).
  - cbn [free_all rt]. unfold is_nil, gpar. rewrite Ln, Pn. cbn [obind]. rewrite Nat.eqb_refl. exists h. split; [reflexivity|split; [repeat split|reflexivity]].
  - rewrite tlen_node in HF. cbn [recs] in R. apply Forall_cons_iff in R as ((R1 & R2 & R3 & R4 & _) & R). cbn in R1, R2, R3, R4. apply Forall_app in R as (Rl & Rr).
    assert (O' : forall x, Nat.b2n (nil =? x) + (occ x (tids l) + (Nat.b2n (p =? x) + occ x (tids r))) <= 1) by (intros x; specialize (O x); rewrite tids_node, occ_app in O; exact O).
    assert (Np : nil <> p) by (intros E; specialize (O' p); rewrite E, Nat.eqb_refl in O'; cbn in O'; lia).
    assert (Ol : occ p (tids l) = 0 /\ occ p (tids r) = 0) by (specialize (O' p); rewrite Nat.eqb_refl in O'; cbn in O'; lia). destruct Ol as (Ol & Or).
    assert (Onl : occ nil (tids l) = 0 /\ occ nil (tids r) = 0) by (specialize (O' nil); rewrite Nat.eqb_refl in O'; cbn in O'; lia). destruct Onl as (Onl & Onr).
    cbn [rt free_all]. unfold is_nil, gpar. rewrite R1, R2. cbn [obind]. assert (E : (pa =? p) = false) by (apply Nat.eqb_neq; intros ->; rewrite tids_node, occ_app in Opa; cbn [occ] in Opa; rewrite Nat.eqb_refl in Opa; cbn in Opa; lia). rewrite E.
    unfold glft. rewrite R1. cbn [obind]. rewrite R3. destruct (IHl p h fuel Rl Ln Pn) as (h1 & E1 & SL1 & L1); [intros x; specialize (O' x); lia|exact Ol|lia|]. rewrite E1. cbn [obind].
    destruct SL1 as (B1 & B2 & B3 & B4 & B5 & B6 & B7). unfold grgt. rewrite L1, Ol. cbn [Nat.eqb]. rewrite R1. cbn [obind]. rewrite B3, R4.
    assert (Rr1 : Forall (node_ok h1) (recs nil p r)). { apply (recs_same h); [|exact Rr]. intros x Hx. unfold same. rewrite L1, B1, B2, B3, B4, B5, B6. assert (Ox : occ x (tids l) = 0) by (specialize (O' x); lia). rewrite Ox. cbn. auto 10. }
    destruct (IHr p h1 fuel Rr1) as (h2 & E2 & SL2 & L2); [rewrite L1, Onl; cbn; exact Ln|rewrite B1; exact Pn|intros x; specialize (O' x); lia|exact Or|lia|]. rewrite E2. cbn [obind].
    destruct SL2 as (C1 & C2 & C3 & C4 & C5 & C6 & C7). unfold bst_free. rewrite L2, Or, L1, Ol. cbn [Nat.eqb]. rewrite R1. eexists. split; [reflexivity|]. split; [unfold same_links; cbn; repeat split; congruence|].
    intros x. cbn [live]. rewrite tids_node, occ_app. cbn [occ]. unfold upd. destruct (Nat.eqb_spec x p) as [-> |Nx].
    + rewrite Nat.eqb_refl. cbn [Nat.b2n]. destruct (Nat.eqb_spec (occ p (tids l) + (1 + occ p (tids r))) 0); [lia|reflexivity].
    + rewrite L2, L1. rewrite (proj2 (Nat.eqb_neq p x)) by auto. cbn [Nat.b2n]. cbn [Nat.add]. destruct (Nat.eqb_spec (occ x (tids r)) 0), (Nat.eqb_spec (occ x (tids l)) 0), (Nat.eqb_spec (occ x (tids l) + occ x (tids r)) 0); try lia; reflexivity.
Qed.
Lemma destroy_run h nil es : bst_rep h nil es -> exists h', bst_destroy h nil = Some h' /\ (forall x, live h' x = true <-> live h x = true /\ ~ In x (nil :: ids es)) /\ (forall n2 es2, bst_rep h n2 es2 -> apart nil es n2 es2 -> bst_rep h' n2 es2).
Proof.
  intros (t & TR & <-). pose proof TR as TR'. apply tok_0 in TR' as (T & P). pose proof T as ((I1 & I2 & I3 & I4 & I5 & I6) & A2 & _ & A4 & A5). cbn [ctop cids occ] in *. pose proof (tok_tid_len _ _ _ T) as L. unfold bst_destroy. rewrite (tok_root _ _ _ T). cbn [obind].
  assert (On : occ nil (tids t) = 0) by (specialize (A4 nil); rewrite Nat.eqb_refl in A4; cbn in A4; lia).
  destruct (free_run nil t nil h (loops h) A2 I1 I2) as (h1 & E1 & SL & L1); [intros x; specialize (A4 x); lia|exact On|exact L|]. rewrite E1. cbn [obind]. destruct SL as (B1 & B2 & B3 & B4 & B5 & B6 & B7).
  unfold bst_free. rewrite L1, On. cbn [Nat.eqb]. rewrite I1. eexists. split; [reflexivity|].
  assert (LV : forall x, upd (live h1) nil false x = true <-> live h x = true /\ ~ In x (nil :: ids (entries t))).
  { intros x. unfold upd. cbn [In]. fold (tids t). rewrite (occ_In x (tids t)), L1. destruct (Nat.eqb_spec x nil) as [-> |Nx]; [split; [discriminate|tauto]|]. destruct (Nat.eqb_spec (occ x (tids t)) 0) as [Q|Q]; [rewrite Q|]; split; intros H; try discriminate.
    - split; [exact H|]. intros [H'|H']; [congruence|lia].
    - tauto.
    - destruct H as (_ & H). destruct H. right. lia. }
  split; [exact LV|]. intros n2 es2 (t2 & T2 & <-) AP. exists t2. split; [|reflexivity]. pose proof T2 as T2'. apply tok_0 in T2' as (T2' & P2). apply tok_0. split; [|exact P2]. apply (tok_same h); [|cbn; lia|exact T2'].
  intros x Hx. assert (Hi : In x (n2 :: ids (entries t2))) by (cbn [cids occ] in Hx; apply occ_In; cbn [occ]; fold (tids t2); lia).
  unfold same. cbn [live par lft rgt siz bal val]. rewrite B1, B2, B3, B4, B5, B6. repeat split. assert (Lx : live h x = true) by (apply (tok_live h n2 [] t2); [exact T2'|exact Hi]). rewrite Lx. apply LV. split; [exact Lx|]. intros Hx'. exact (AP x Hx' Hi).
Qed.
End P.

Section C.
Context {V K : Type}.
Variable key : V -> K.
Variable cmp : K -> K -> bool.
Notation entry := (nat * V * Z)%type.
Notation heap := (heap (V := V)).
Implicit Types (h : heap).
Lemma it_end nil h es (a b : list entry) : bst_rep h nil es -> es = a ++ b -> (first_it nil b =? nil) = match b with [] => true | _ => false end.
Proof.
  intros R E. destruct b as [|e b]; cbn; [apply Nat.eqb_refl|]. apply Nat.eqb_neq. intros Ee. apply rep_nodup in R. rewrite E, ids_app, ids_cons in R. apply NoDup_cons_iff in R as (N & _). apply N. rewrite in_app_iff. right. left. exact Ee.
Qed.
Lemma eq_loop h n1 n2 es1 es2 : bst_rep h n1 es1 -> bst_rep h n2 es2 -> forall b1 (a1 a2 : list entry) b2 fuel, es1 = a1 ++ b1 -> es2 = a2 ++ b2 -> length b1 < fuel ->
  while fuel (fun '(b1, b2) =>
    if negb (b1 =? n1) && negb (b2 =? n2) then
      let* v1 := gval h b1 in let* v2 := gval h b2 in
      if cmp (key v1) (key v2) then Some (inr false) else if cmp (key v2) (key v1) then Some (inr false) else
      let* b1 := inorder_next h b1 in let* b2 := inorder_next h b2 in Some (inl (b1, b2))
    else Some (inr ((b1 =? n1) && (b2 =? n2)))) (first_it n1 b1, first_it n2 b2) = Some (seq_eq key cmp b1 b2).
Proof.
  intros R1 R2. induction b1 as [|e1 b1 IH]; intros a1 a2 b2 fuel E1 E2 L; (destruct fuel as [|fuel]; [cbn in L; lia|]); cbn [while]; rewrite (it_end n1 h es1 a1 _ R1 E1), (it_end n2 h es2 a2 _ R2 E2).
  - destruct b2; reflexivity.
  - destruct b2 as [|e2 b2]; [reflexivity|]. cbn [negb andb first_it]. pose proof R1 as R1'. rewrite E1 in R1'. pose proof R2 as R2'. rewrite E2 in R2'. destruct (iterators _ _ _ _ _ R1') as (N1 & _ & _ & V1 & _). destruct (iterators _ _ _ _ _ R2') as (N2 & _ & _ & V2 & _).
    rewrite V1, V2. cbn [obind seq_eq]. destruct (cmp (key (evl e1)) (key (evl e2))); [reflexivity|]. destruct (cmp (key (evl e2)) (key (evl e1))); [reflexivity|]. cbn [negb andb]. rewrite N1, N2. cbn [obind].
    apply (IH (a1 ++ [e1]) (a2 ++ [e2])); [rewrite <- app_assoc; exact E1|rewrite <- app_assoc; exact E2|cbn in L; lia].
Qed.
Lemma lt_loop h n1 n2 es1 es2 : bst_rep h n1 es1 -> bst_rep h n2 es2 -> forall b1 (a1 a2 : list entry) b2 fuel, es1 = a1 ++ b1 -> es2 = a2 ++ b2 -> length b1 < fuel ->
  while fuel (fun '(b1, b2) =>
    if negb (b1 =? n1) && negb (b2 =? n2) then
      let* v1 := gval h b1 in let* v2 := gval h b2 in
      if cmp (key v1) (key v2) then Some (inr true) else if cmp (key v2) (key v1) then Some (inr false) else
      let* b1 := inorder_next h b1 in let* b2 := inorder_next h b2 in Some (inl (b1, b2))
    else Some (inr ((b1 =? n1) && negb (b2 =? n2)))) (first_it n1 b1, first_it n2 b2) = Some (seq_lt key cmp b1 b2).
Proof.
  intros R1 R2. induction b1 as [|e1 b1 IH]; intros a1 a2 b2 fuel E1 E2 L; (destruct fuel as [|fuel]; [cbn in L; lia|]); cbn [while]; rewrite (it_end n1 h es1 a1 _ R1 E1), (it_end n2 h es2 a2 _ R2 E2).
  - destruct b2; reflexivity.
  - destruct b2 as [|e2 b2]; [reflexivity|]. cbn [negb andb first_it]. pose proof R1 as R1'. rewrite E1 in R1'. pose proof R2 as R2'. rewrite E2 in R2'. destruct (iterators _ _ _ _ _ R1') as (N1 & _ & _ & V1 & _). destruct (iterators _ _ _ _ _ R2') as (N2 & _ & _ & V2 & _).
    rewrite V1, V2. cbn [obind seq_lt]. destruct (cmp (key (evl e1)) (key (evl e2))); [reflexivity|]. destruct (cmp (key (evl e2)) (key (evl e1))); [reflexivity|]. cbn [negb andb orb]. rewrite N1, N2. cbn [obind].
    apply (IH (a1 ++ [e1]) (a2 ++ [e2])); [rewrite <- app_assoc; exact E1|rewrite <- app_assoc; exact E2|cbn in L; lia].
Qed.
Lemma rel_run h n1 n2 es1 es2 : bst_rep h n1 es1 -> bst_rep h n2 es2 -> bst_eq key cmp h n1 n2 = Some (seq_eq key cmp es1 es2) /\ bst_lt key cmp h n1 n2 = Some (seq_lt key cmp es1 es2).
Proof.
  intros R1 R2. destruct (sizes _ _ _ R1) as (_ & _ & B1 & _). destruct (sizes _ _ _ R2) as (_ & _ & B2 & _). unfold bst_eq, bst_lt. rewrite B1, B2. cbn [obind].
  assert (L : length es1 < loops h). { destruct (rep_tok _ _ _ R1) as (t & T & Et & _). pose proof (tok_tid_len _ _ _ T) as L. unfold tids, ids in L. rewrite Et, map_length in L. unfold loops. lia. }
  split; [apply (eq_loop h n1 n2 es1 es2 R1 R2 es1 [] [] es2)|apply (lt_loop h n1 n2 es1 es2 R1 R2 es1 [] [] es2)]; auto.
Qed.
End C.
