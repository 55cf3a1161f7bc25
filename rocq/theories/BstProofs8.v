(** Binary search trees: erasing a node, and erasing a range. *)
From Verif Require Import Lib BstModel BstSpec BstProofs BstProofs2 BstProofs3 BstProofs4 BstProofs5 BstProofs6 BstProofs7.
From Coq Require Import Permutation.
Open Scope nat_scope.

Section P.
Context {V : Type}.
Notation tree := (tree V).
Notation entry := (nat * V * Z)%type.
Notation heap := (heap (V := V)).
Notation ctx := (ctx (V := V)).
Implicit Types (h : heap) (t : tree) (k : ctx).

(** the removal of a node with at most one child *)
Lemma remove_run h nil k l p v c b r : tok h nil k (Node l p v c b r) -> l = Leaf \/ r = Leaf ->
  let ch := match l with Leaf => r | _ => l end in
  exists h', (let* l := glft h p in let* nl := is_nil h l in
    let* ch := (if negb nl then glft h p else grgt h p) in
    let* pp := gpar h p in let* h := make_link_old h pp ch p in
    let* h := propagate_size h pp nil (- c)%Z in
    let* h := bst_free h p in Some (h, pp)) = Some (h', ctop nil k) /\
    tok h' nil k ch /\ (forall x, out nil (Node l p v c b r) k x -> same h h' x) /\ live h' = upd (live h) p false /\ next h' = next h.
Proof.
  intros H HL ch. pose proof H as (A1 & A2 & A3 & A4 & A5). pose proof (tok_get _ _ _ _ _ _ _ _ _ H) as (Gp & Gl & Gr & _). cbn [rt] in A1, A3.
  destruct (live_of_gpar _ _ _ Gp) as (LP & PP). destruct (top_links _ _ _ _ H ltac:(discriminate)) as (Lt & TL & TR). cbn [rt] in TL, TR. set (top := ctop nil k) in *.
  pose proof (tok_left _ _ _ _ _ _ _ _ _ H) as HLf. pose proof (tok_right _ _ _ _ _ _ _ _ _ H) as HRt.
  rewrite Gl. cbn [obind]. rewrite (tok_rt_nil _ _ _ _ HLf). cbn [obind].
  assert (O : forall x, Nat.b2n (nil =? x) + (occ x (tids ch) + Nat.b2n (p =? x) + occ x (cids k)) <= 1).
  { intro x. specialize (A4 x). rewrite tids_node, occ_app in A4. cbn [occ] in A4. unfold ch. destruct HL as [-> | ->]; [|destruct l]; cbn [tids entries ids map occ] in *; lia. }
  assert (O' : forall x, occ x (tids (Node l p v c b r)) = occ x (tids ch) + Nat.b2n (p =? x)).
  { intro x. rewrite tids_node, occ_app. cbn [occ]. unfold ch. destruct HL as [-> | ->]; [|destruct l]; cbn [tids entries ids map occ] in *; try lia. }
  assert (Ec : (if negb match l with Leaf => true | _ => false end then Some (rt nil l) else grgt h p) = Some (rt nil ch)).
  { unfold ch. destruct l; cbn [negb]; [exact Gr|reflexivity]. }
  rewrite Ec. cbn [obind]. rewrite Gp. cbn [obind].
  assert (Nc : is_nil h (rt nil ch) = Some (match ch with Leaf => true | _ => false end)).
  { unfold ch. destruct l; [exact (tok_rt_nil _ _ _ _ HRt)|exact (tok_rt_nil _ _ _ _ HLf)]. }
  set (nc := match ch with Leaf => true | _ => false end) in *. rewrite (mlo_run h top (rt nil ch) p nc Lt Nc). cbn [obind].
  set (h1 := mlo h top (rt nil ch) p nc).
  assert (L1 : live h1 = live h) by reflexivity. assert (P1 : par h1 = if nc then par h else upd (par h) (rt nil ch) top) by reflexivity.
  assert (F1 : lft h1 = if isL k then upd (lft h) top (rt nil ch) else lft h) by (cbn; rewrite TL; unfold isL; destruct k; reflexivity).
  assert (R1 : rgt h1 = if isR k then upd (rgt h) top (rt nil ch) else rgt h) by (cbn; rewrite TR; unfold isR; destruct k; reflexivity).
  assert (S1 : siz h1 = siz h) by reflexivity. assert (B1 : bal h1 = bal h) by reflexivity. assert (V1 : val h1 = val h) by reflexivity. assert (N1 : next h1 = next h) by reflexivity. clearbody h1.
  assert (TO : 1 <= Nat.b2n (nil =? top) + occ top (cids k)) by (destruct (ctop_in nil k) as [(_ & E)|E]; fold top in E; [rewrite E, Nat.eqb_refl; cbn; lia|lia]).
  assert (CO : nc = false -> 1 <= occ (rt nil ch) (tids ch)). { unfold nc. intros E. destruct (rt_in nil ch) as [(E' & _)|E']; [rewrite E' in E; discriminate|exact E']. }
  assert (ZK : nil_ok h1 nil (croot k (rt nil ch)) /\ Forall (node_ok h1) (crecs nil nil k (rt nil ch) (tsz (Node l p v c b r)))).
  { apply (relink h h1 nil k p (rt nil ch)); [intro x; specialize (A4 x); lia|exact A1|exact A3|]. apply linked_intro; [|intro x; specialize (A4 x); lia].
    intros x Hx. fold top. rewrite L1, P1, F1, R1, S1, B1, V1. assert (Hx' : 1 <= Nat.b2n (nil =? x) + occ x (cids k)) by (destruct Hx as [-> |Hx]; [rewrite Nat.eqb_refl; cbn; lia|lia]).
    repeat split; [|destruct (isL k); reflexivity|destruct (isR k); reflexivity].
    destruct nc; [reflexivity|]. apply upd_ne. intros E. specialize (CO eq_refl). rewrite <- E in CO. specialize (O x). lia. }
  assert (ZC : Forall (node_ok h1) (recs nil top ch)).
  { assert (Q : Forall (node_ok h) (recs nil p ch)) by (unfold ch; destruct l; [apply HRt|apply HLf]).
    apply (recs_reparent h h1 nil p top); [| |intro x; specialize (O x); lia|exact Q].
    - intros x Hx Nx. unfold same. rewrite L1, P1, F1, R1, S1, B1, V1. assert (X : x <> top) by (intros ->; specialize (O top); lia). destruct nc, (isL k), (isR k); rewrite ?upd_ne by auto; auto 10.
    - intros NL. cbn. assert (En : nc = false) by (unfold nc; destruct ch; [congruence|reflexivity]). specialize (CO En). rewrite L1, P1, F1, R1, S1, B1, V1, En, upd_eq.
      assert (X : rt nil ch <> top) by (intros E; rewrite <- E in TO; specialize (O (rt nil ch)); lia). destruct (isL k), (isR k); rewrite ?upd_ne by auto; auto 10. }
  destruct ZK as (ZN & ZK).
  destruct (propagate_ctx h1 nil k (rt nil ch) (tsz (Node l p v c b r)) (- c)%Z ZK) as (f & Ef & Hf & Hs).
  { intro x. specialize (A4 x). lia. } { rewrite N1. pose proof (tok_len _ _ _ _ H). lia. }
  fold top in Ef. rewrite Ef. cbn [obind]. unfold bst_free. cbn [live with_siz]. rewrite L1, LP. cbn [obind].
  replace (tsz (Node l p v c b r) + - c)%Z with (tsz ch) in Hf by (rewrite tsz_node; unfold ch; destruct HL as [-> | ->]; [|destruct l]; cbn [tsz entries total fold_right]; change (tsz (V := V) Leaf) with 0%Z; lia).
  match goal with |- context [Some (?hh, top)] => set (h2 := hh) end. exists h2. split; [reflexivity|].
  assert (SS : forall x, x <> p -> same (with_siz h1 f) h2 x) by (intros x Nx; unfold same; cbn; rewrite upd_ne by auto; rewrite L1; auto 10).
  assert (S12 : forall x, x <> p -> occ x (cids k) = 0 -> same h1 h2 x) by (intros x Nx Ox; unfold same; cbn; rewrite upd_ne by auto; rewrite L1, Hs; auto 10).
  assert (Pk : forall x, 1 <= occ x (cids k) -> x <> p) by (intros x Hx ->; specialize (O p); rewrite Nat.eqb_refl in O; cbn in O; lia).
  assert (Pn : nil <> p) by (intros E; specialize (O p); rewrite E, Nat.eqb_refl in O; cbn in O; lia).
  assert (Pc : forall x, 1 <= occ x (tids ch) -> x <> p) by (intros x Hx ->; specialize (O p); rewrite Nat.eqb_refl in O; cbn in O; lia).
  split; [|split; [|split; [reflexivity|exact N1]]].
  - split; [|split; [|split; [|split]]].
    + apply (nil_same h1); [|exact ZN]. apply S12; [auto|]. specialize (O nil). rewrite Nat.eqb_refl in O. cbn in O. lia.
    + apply (recs_same h1); [|exact ZC]. intros x Hx. apply S12; [auto|]. specialize (O x). lia.
    + apply (crecs_same (with_siz h1 f)); [|exact Hf]. intros x Hx. apply SS. auto.
    + intro x. specialize (O x). lia.
    + intros x Hx. cbn. rewrite N1. apply A5. rewrite O'. lia.
  - intros x Hx. unfold out in Hx. rewrite O' in Hx. assert (X1 : x <> p) by (intros ->; rewrite Nat.eqb_refl in Hx; cbn in Hx; lia). apply (same_trans h h1); [|apply S12; [auto|lia]].
    assert (X2 : x <> top) by (intros ->; lia). unfold same. rewrite L1, P1, F1, R1, S1, B1, V1. 
    assert (X3 : (if nc then par h else upd (par h) (rt nil ch) top) x = par h x). { destruct nc; [reflexivity|]. apply upd_ne. intros E. specialize (CO eq_refl). rewrite <- E in CO. lia. }
    rewrite X3. destruct (isL k), (isR k); rewrite ?upd_ne by auto; auto 10.
Qed.

Lemma leftmost_frames (t : tree) : t <> Leaf -> exists kd r p v c b, t = plug kd (Node Leaf p v c b r) /\ Forall (fun f => fl f = true) kd /\ entries t = (p, v, c) :: entries r ++ cright kd /\ cleft kd = [].
Proof.
  intros N. assert (G : forall t (k : ctx), t <> Leaf -> Forall (fun f => fl f = true) k -> cleft k = [] -> exists kd r p v c b, plug k t = plug kd (Node Leaf p v c b r) /\ Forall (fun f => fl f = true) kd /\ entries t ++ cright k = (p, v, c) :: entries r ++ cright kd /\ cleft kd = []).
  { clear. induction t as [|l IH p v c b r _]; intros k N F E; [congruence|]. destruct l as [|ll q w d e lr].
    - exists k, r, p, v, c, b. auto.
    - destruct (IH (FR true p v c b r :: k)) as (kd & r' & p' & v' & c' & b' & E1 & E2 & E3 & E4); [discriminate|constructor; auto|exact E|].
      exists kd, r', p', v', c', b'. split; [exact E1|split; [exact E2|split; [|exact E4]]]. rewrite <- E3. cbn [cright fl fs fp fv fc entries]. rewrite <- !app_assoc. reflexivity. }
  destruct (G t [] N (Forall_nil _) eq_refl) as (kd & r & p & v & c & b & E1 & E2 & E3 & E4). exists kd, r, p, v, c, b. cbn [plug cright] in *. rewrite app_nil_r in E3. auto.
Qed.

Lemma erase_node_less d h nil k l p v c b r cnt : tok h nil k (Node l p v c b r) -> (mcnt d cnt < c)%Z ->
  exists h', erase_node d h nil p cnt = Some (h', p) /\ tok h' nil k (Node l p v (c - mcnt d cnt) b r) /\ (forall x, out nil (Node l p v c b r) k x -> same h h' x) /\ live h' = live h /\ next h' = next h.
Proof.
  intros H L. unfold erase_node. rewrite (tok_is_nil _ _ _ _ _ _ _ _ _ H). cbn [obind]. rewrite (tok_count _ _ _ _ _ _ _ _ _ H). cbn [obind]. fold (mcnt d cnt).
  destruct (Z.ltb_spec (mcnt d cnt) c) as [_|Q]; [|lia]. destruct (propagate_node h nil k l p v c b r (- mcnt d cnt)%Z H) as (f & Ef & Hf & Hs). rewrite Ef. cbn [obind].
  exists (with_siz h f). split; [reflexivity|split; [exact Hf|split; [|auto]]]. intros x Hx. unfold out in Hx. unfold same. cbn. rewrite Hs by lia. auto 10.
Qed.
Lemma erase_node_all d h nil k l p v c b r cnt : tok h nil k (Node l p v c b r) -> (c <= mcnt d cnt)%Z ->
  exists h' k' t', erase_node d h nil p cnt = Some (h', ctop nil k') /\ tok h' nil k' t' /\
    entries (plug k' t') = cleft k ++ entries l ++ entries r ++ cright k /\ (forall x, out nil (Node l p v c b r) k x -> same h h' x) /\ live h' = upd (live h) p false /\ next h' = next h.
Proof.
  intros H L. unfold erase_node. rewrite (tok_is_nil _ _ _ _ _ _ _ _ _ H). cbn [obind]. rewrite (tok_count _ _ _ _ _ _ _ _ _ H). cbn [obind]. fold (mcnt d cnt).
  destruct (Z.ltb_spec (mcnt d cnt) c) as [Q|_]; [lia|]. pose proof (tok_get _ _ _ _ _ _ _ _ _ H) as (_ & Gl & Gr & _).
  rewrite Gl. cbn [obind]. rewrite (tok_rt_nil _ _ _ _ (tok_left _ _ _ _ _ _ _ _ _ H)). cbn [obind]. rewrite Gr. cbn [obind]. rewrite (tok_rt_nil _ _ _ _ (tok_right _ _ _ _ _ _ _ _ _ H)). cbn [obind].
  assert (CS : l = Leaf \/ r = Leaf \/ (l <> Leaf /\ r <> Leaf)) by (destruct l; [auto|destruct r; [auto|right; right; split; discriminate]]).
  destruct CS as [CS|[CS|(Nl & Nr)]].
  - replace (negb match l with Leaf => true | _ => false end && negb match r with Leaf => true | _ => false end) with false by (rewrite CS; reflexivity). cbn [obind].
    destruct (remove_run h nil k l p v c b r H (or_introl CS)) as (h' & E & T & S & Lv & Nx). exists h', k, (match l with Leaf => r | _ => l end). split; [exact E|split; [exact T|split; [|auto]]].
    rewrite entries_plug. rewrite CS. reflexivity.
  - replace (negb match l with Leaf => true | _ => false end && negb match r with Leaf => true | _ => false end) with false by (rewrite CS; destruct l; reflexivity). cbn [obind].
    destruct (remove_run h nil k l p v c b r H (or_intror CS)) as (h' & E & T & S & Lv & Nx). exists h', k, (match l with Leaf => r | _ => l end). split; [exact E|split; [exact T|split; [|auto]]].
    rewrite entries_plug. rewrite CS. destruct l; reflexivity.
  - replace (negb match l with Leaf => true | _ => false end && negb match r with Leaf => true | _ => false end) with true by (destruct l; [congruence|]; destruct r; [congruence|reflexivity]).
    rewrite (next_node _ _ _ _ _ _ _ _ _ H). destruct (leftmost_frames r Nr) as (kd & rD & D & vD & cD & bD & Er & FL & Ee & EL). rewrite Ee. cbn [app first_it eid fst obind].
    rewrite Er in H. destruct (swap_tok h nil k kd l p v c b D vD cD bD rD H Nl FL) as (h1 & E1 & T1 & S1 & L1 & N1). rewrite E1. cbn [obind].
    destruct (remove_run h1 nil _ Leaf p v c bD rD T1 (or_introl eq_refl)) as (h' & E & T & S & Lv & Nx).
    exists h', (kd ++ FR false D vD cD b l :: k), rD. split; [exact E|split; [exact T|split; [|split; [|rewrite Lv, L1, Nx, N1; auto]]]].
    + rewrite entries_plug, cleft_app, cright_app, EL. cbn [cleft cright fl fs fp fv fc]. rewrite <- !app_assoc. cbn [app]. rewrite ?app_nil_l. reflexivity.
    + intros x Hx. rewrite <- Er in S1. apply (same_trans h h1); [auto|]. apply S. unfold out in *. rewrite Er in Hx. rewrite tids_node, !cids_app. cbn [cids fp fs]. rewrite !occ_app. cbn [occ]. rewrite !occ_app.
      rewrite tids_node, occ_app in Hx. cbn [occ] in Hx. rewrite tids_plug, tids_node, occ_app in Hx. cbn [occ] in Hx. lia.
Qed.
End P.
