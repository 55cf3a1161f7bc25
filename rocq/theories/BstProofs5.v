(** Binary search trees: insertion. *)
From Verif Require Import Lib BstModel BstSpec BstProofs BstProofs2 BstProofs3 BstProofs4.
From Coq Require Import Permutation.
Open Scope nat_scope.

Section P.
Context {V K : Type}.
Variable key : V -> K.
Variable cmp : K -> K -> bool.
Notation tree := (tree V).
Notation entry := (nat * V * Z)%type.
Notation heap := (heap (V := V)).
Implicit Types (h : heap) (t : tree).

Definition mlk h (p ch : nat) (gl np n : bool) : heap :=
  {| live := live h; par := if n then par h else upd (par h) ch p; lft := if np || gl then upd (lft h) p ch else lft h; rgt := if np || negb gl then upd (rgt h) p ch else rgt h;
     bal := bal h; siz := siz h; val := val h; next := next h |}.
Lemma mlk_run h p ch gl np n : is_nil h p = Some np -> is_nil h ch = Some n -> make_link h p ch gl = Some (mlk h p ch gl np n).
Proof.
  intros Hp Hn. unfold make_link. rewrite Hp. cbn [obind].
  assert (Hc : live h ch = true /\ n = (par h ch =? ch)) by (unfold is_nil, gpar in Hn; destruct (live h ch); cbn in Hn; [|discriminate]; injection Hn as <-; auto).
  assert (Hc2 : live h p = true /\ np = (par h p =? p)) by (unfold is_nil, gpar in Hp; destruct (live h p); cbn in Hp; [|discriminate]; injection Hp as <-; auto).
  destruct Hc as (Lc & Ec), Hc2 as (Lp & Ep). unfold mlk, slft, srgt, spar, is_nil, gpar. rewrite Lp.
  destruct (np || gl) eqn:E1; cbn [obind live par with_lft with_rgt]; rewrite Lp; cbn [obind]; rewrite <- Ep; destruct (np || negb gl) eqn:E2; cbn [obind live par lft rgt with_lft with_rgt]; rewrite ?Lp, Lc; cbn [obind]; rewrite <- Ec; destruct n; cbn; try reflexivity.
  - destruct h; reflexivity.
Qed.

Lemma fresh_out h nil k t : tok h nil k t -> Nat.b2n (nil =? next h) + (occ (next h) (tids t) + occ (next h) (cids k)) = 0.
Proof. intros (_ & _ & _ & _ & A5). specialize (A5 (next h)). lia. Qed.
Definition mcnt (d : dup) (cnt : Z) : Z := match d with COUNT => cnt | _ => 1%Z end.

Lemma insert_node_new d h nil k v cnt gl : tok h nil k Leaf -> (k = [] \/ gl = isL k) ->
  exists h' b, insert_node d h nil (ctop nil k) gl v cnt = Some (h', next h) /\ tok h' nil k (Node Leaf (next h) v (mcnt d cnt) b Leaf) /\
    (forall x, x <> next h -> out nil Leaf k x -> same h h' x) /\ live h' = upd (live h) (next h) true /\ next h' = next h + 1.
Proof.
  intros H HG. pose proof H as (A1 & A2 & A3 & A4 & A5). pose proof (fresh_out _ _ _ _ H) as FO. set (n := next h) in *. set (p := ctop nil k) in *.
  cbn [rt tids entries ids map occ] in *. change (tids Leaf) with (@Datatypes.nil nat) in *. cbn [occ] in *.
  assert (Nn : nil <> n) by (intros E; rewrite E, Nat.eqb_refl in FO; cbn in FO; lia).
  assert (Np : p <> n). { destruct (ctop_in nil k) as [(_ & E)|E]; fold p in E; [congruence|]. intros E2. rewrite E2 in E. lia. }
  assert (Lp : live h p = true /\ (if gl then lft h p else rgt h p) = nil /\ is_nil h p = Some (match k with [] => true | _ => false end)).
  { destruct k as [|f k].
    - destruct A1 as (B1 & B2 & B3 & B4 & _). cbn in *. subst p. unfold is_nil, gpar. rewrite B1. cbn. rewrite B2, Nat.eqb_refl. repeat split. destruct gl; auto.
    - destruct HG as [HG|HG]; [discriminate|]. cbn [crecs ctop] in *. apply Forall_cons_iff in A3 as (B & _). destruct B as (B1 & B2 & B3 & B4 & _). cbn in B1, B2, B3, B4. subst p. cbn [isL] in HG.
      split; [exact B1|]. split; [rewrite B3, B4; subst gl; destruct (fl f); reflexivity|]. unfold is_nil, gpar. rewrite B1. cbn [obind]. rewrite B2. f_equal. apply Nat.eqb_neq. intros E.
      specialize (A4 (fp f)). cbn [cids occ] in A4. rewrite Nat.eqb_refl, occ_app in A4. cbn in A4. destruct (ctop_in nil k) as [(_ & E2)|E2]; rewrite E in E2; [|lia]. rewrite E2, Nat.eqb_refl in A4. cbn in A4. lia. }
  destruct Lp as (Lp & Ech & Ein).
  unfold insert_node. replace (if gl then glft h p else grgt h p) with (Some nil) by (unfold glft, grgt; rewrite Lp; destruct gl; congruence). cbn [obind].
  rewrite (tok_nil_nil _ _ _ _ H). cbn [obind]. unfold bst_buy. fold n.
  set (h0 := {| live := upd (live h) n true; par := par h; lft := lft h; rgt := rgt h; bal := bal h; siz := siz h; val := upd (val h) n (Some v); next := n + 1 |}).
  unfold spar at 1. unfold h0 at 1. cbn [live]. rewrite upd_eq. cbn [obind]. unfold slft at 1. unfold h0 at 1. cbn [live with_par]. rewrite upd_eq. cbn [obind].
  unfold srgt at 1. unfold h0 at 1. cbn [live with_par with_lft]. rewrite upd_eq. cbn [obind]. unfold ssiz at 1. unfold h0 at 1. cbn [live with_par with_lft with_rgt]. rewrite upd_eq. cbn [obind].
  match goal with |- context [make_link ?hh _ _ _] => set (h1 := hh) end.
  assert (L1 : live h1 = upd (live h) n true) by reflexivity. assert (P1 : par h1 = upd (par h) n p) by reflexivity. assert (F1 : lft h1 = upd (lft h) n nil) by reflexivity.
  assert (R1 : rgt h1 = upd (rgt h) n nil) by reflexivity. assert (S1 : siz h1 = upd (siz h) n 0%Z) by reflexivity. assert (B1 : bal h1 = bal h) by reflexivity. assert (V1 : val h1 = upd (val h) n (Some v)) by reflexivity. assert (N1 : next h1 = n + 1) by reflexivity.
  clearbody h1. clear h0.
  rewrite (mlk_run h1 p n gl (match k with [] => true | _ => false end) false).
  2:{ unfold is_nil, gpar in *. rewrite L1, P1. rewrite !upd_ne by auto. exact Ein. }
  2:{ unfold is_nil, gpar. rewrite L1, P1, !upd_eq. cbn. f_equal. now apply Nat.eqb_neq. }
  cbn [obind].
  set (h2 := mlk h1 p n gl (match k with [] => true | _ => false end) false).
  assert (L2 : live h2 = upd (live h) n true) by (cbn; exact L1). assert (P2 : par h2 = upd (upd (par h) n p) n p) by (cbn; rewrite P1; reflexivity).
  assert (F2 : lft h2 = if isL k then upd (upd (lft h) n nil) p n else upd (lft h) n nil).
  { cbn. rewrite F1. destruct k as [|f k]; [reflexivity|]. destruct HG as [HG|HG]; [discriminate|]. cbn [orb]. subst gl. reflexivity. }
  assert (R2 : rgt h2 = if isR k then upd (upd (rgt h) n nil) p n else upd (rgt h) n nil).
  { cbn. rewrite R1. destruct k as [|f k]; [reflexivity|]. destruct HG as [HG|HG]; [discriminate|]. cbn [orb]. subst gl. reflexivity. }
  assert (S2 : siz h2 = upd (siz h) n 0%Z) by (cbn; exact S1). assert (B2 : bal h2 = bal h) by (cbn; exact B1). assert (V2 : val h2 = upd (val h) n (Some v)) by (cbn; exact V1). assert (N2 : next h2 = n + 1) by (cbn; exact N1).
  clearbody h2. clear L1 P1 F1 R1 S1 B1 V1 N1 h1.
  assert (T : tok h2 nil k (Node Leaf n v 0 (bal h n) Leaf)).
  { assert (LK : nil_ok h2 nil (croot k n) /\ Forall (node_ok h2) (crecs nil nil k n 0)).
    { apply (relink h h2 nil k nil n); [intro x; specialize (A4 x); lia|exact A1|exact A3|]. apply linked_intro; [|intro x; specialize (A4 x); lia]. intros x Hx. fold p.
      assert (Nx : x <> n) by (destruct Hx as [-> |Hx]; [auto|]; intros ->; lia).
      rewrite L2, P2, F2, R2, S2, B2, V2. rewrite !(upd_ne _ n _ x) by auto. repeat split; [destruct (isL k)|destruct (isR k)]; try reflexivity.
      - unfold upd. destruct (x =? p); [reflexivity|]. now rewrite (eqb_ne _ _ Nx).
      - now rewrite upd_ne.
      - unfold upd. destruct (x =? p); [reflexivity|]. now rewrite (eqb_ne _ _ Nx).
      - now rewrite upd_ne. }
    destruct LK as (LK1 & LK2). split; [exact LK1|split; [|split; [|split]]].
    - cbn [recs rt app]. constructor; [|constructor]. unfold node_ok. cbn [nid npar nl nr ns nb nv]. fold p. rewrite L2, P2, F2, R2, S2, B2, V2, !upd_eq. repeat split.
      + destruct (isL k); [rewrite upd_ne by auto|]; apply upd_eq.
      + destruct (isR k); [rewrite upd_ne by auto|]; apply upd_eq.
    - exact LK2.
    - intro x. unfold tids. cbn [entries app ids map eid fst occ]. specialize (A4 x). destruct (Nat.eqb_spec n x) as [<-|]; cbn; lia.
    - intro x. rewrite N2. unfold tids. cbn [entries app ids map eid fst occ]. intros Hx. destruct (Nat.eqb_spec n x) as [E|E]; [lia|]. cbn in Hx. specialize (A5 x ltac:(lia)). unfold n in *. lia. }
  destruct (propagate_node h2 nil k Leaf n v 0 (bal h n) Leaf (mcnt d cnt) T) as (f & Ef & Tf & Sf).
  change (match d with COUNT => cnt | _ => 1%Z end) with (mcnt d cnt). rewrite Ef. cbn [obind].
  exists (with_siz h2 f), (bal h n). split; [reflexivity|]. split; [rewrite Z.add_0_l in Tf; exact Tf|]. split; [|split; [exact L2|exact N2]].
  intros x Nx Ox. unfold out in Ox. cbn [occ] in Ox. assert (Fx : f x = siz h2 x).
  { apply Sf. unfold tids. cbn [entries app ids map eid fst occ]. destruct (Nat.eqb_spec n x); [congruence|]. change (tids Leaf) with (@Datatypes.nil nat) in Ox. cbn in *. lia. }
  assert (Xp : x <> p). { destruct (ctop_in nil k) as [(_ & E)|E]; fold p in E; intros ->; [rewrite E, Nat.eqb_refl in Ox; cbn in Ox; lia|]. lia. }
  unfold same. cbn [live par lft rgt siz bal val with_siz]. rewrite Fx, L2, P2, F2, R2, S2, B2, V2. rewrite !(upd_ne _ n _ x) by auto. repeat split; [destruct (isL k)|destruct (isR k)]; rewrite ?(upd_ne _ p _ x), ?(upd_ne _ n _ x) by auto; reflexivity.
Qed.
Lemma insert_node_old d h nil k l p w c b r v cnt gl : tok h nil k (Node l p w c b r) -> (k = [] \/ gl = isL k) ->
  exists h', insert_node d h nil (ctop nil k) gl v cnt = Some (h', p) /\ tok h' nil k (Node l p w (c + mcnt d cnt) b r) /\
    (forall x, out nil (Node l p w c b r) k x -> same h h' x) /\ live h' = live h /\ next h' = next h.
Proof.
  intros H HG. unfold insert_node.
  assert (E : (if gl then glft h (ctop nil k) else grgt h (ctop nil k)) = Some p).
  { destruct (top_links _ _ _ _ H ltac:(discriminate)) as (L & E1 & E2). cbn [rt] in E1, E2. unfold glft, grgt. rewrite L.
    destruct k as [|f k]; [apply Nat.eqb_eq in E1, E2; destruct gl; congruence|]. destruct HG as [HG|HG]; [discriminate|]. cbn [isL] in HG. subst gl.
    destruct (fl f); [apply Nat.eqb_eq in E1|apply Nat.eqb_eq in E2]; congruence. }
  rewrite E. cbn [obind]. rewrite (tok_is_nil _ _ _ _ _ _ _ _ _ H). cbn [obind].
  destruct (propagate_node h nil k l p w c b r (mcnt d cnt) H) as (f & Ef & Tf & Sf). change (match d with COUNT => cnt | _ => 1%Z end) with (mcnt d cnt). rewrite Ef. cbn [obind].
  exists (with_siz h f). split; [reflexivity|]. split; [exact Tf|]. split; [|auto]. intros x Ox. unfold same. cbn. rewrite Sf by (unfold out in Ox; lia). auto 10.
Qed.

(** the descent of insert *)
Lemma insert_loop_new d h nil q : forall t k fuel (a z : list entry), tok h nil k t -> length (tids t) < fuel ->
  entries t = a ++ z -> Forall (fun e => greater key cmp q e = false) a -> Forall (fun e => greater key cmp q e = true) z -> (d = STORE \/ Forall (fun e => less key cmp q e = true) a) ->
  exists k', while fuel (fun '(ptr, p, go_left) =>
    let* n := is_nil h ptr in if (n : bool) then Some (inr (inr (p, go_left))) else
    let* w := gval h ptr in
    if cmp q (key w) then let* l := glft h ptr in Some (inl (l, ptr, true)) else
    if cmp (key w) q then let* r := grgt h ptr in Some (inl (r, ptr, false)) else
    match d with
    | STORE => let* r := grgt h ptr in Some (inl (r, ptr, false))
    | COUNT => let* q := gpar h ptr in Some (inr (inr (q, go_left)))
    | IGNORE => Some (inr (inl ptr))
    end) (rt nil t, ctop nil k, isL k) = Some (inr (ctop nil k', isL k')) /\ plug k t = plug k' Leaf /\ cleft k' = cleft k ++ a /\ cright k' = z ++ cright k.
Proof.
  induction t as [|l IHl p v c b r IHr]; intros k fuel a z H HF E Ha Hz Hd; (destruct fuel as [|fuel]; [lia|]).
  - cbn [rt while]. rewrite (tok_nil_nil _ _ _ _ H). cbn [obind]. cbn in E. symmetry in E. apply app_eq_nil in E as (-> & ->). exists k. rewrite app_nil_r. auto.
  - rewrite tlen_node in HF. pose proof (tok_get _ _ _ _ _ _ _ _ _ H) as (Gp & Gl & Gr & _ & _ & Gv). cbn [rt while]. rewrite (tok_is_nil _ _ _ _ _ _ _ _ _ H). cbn [obind]. rewrite Gv. cbn [obind]. cbn [entries] in E.
    destruct (app_split _ _ _ _ _ E) as [(a' & -> & E2)|(b' & E2 & ->)].
    + apply Forall_mid in Ha as He. unfold greater in He. cbn in He. rewrite He.
      assert (Ha' := Ha). apply Forall_app in Ha' as (_ & Ha'). apply Forall_cons_iff in Ha' as (_ & Ha').
      assert (Hd' : d = STORE \/ Forall (fun e => less key cmp q e = true) a') by (destruct Hd as [Hd|Hd]; [auto|right]; apply Forall_app in Hd as (_ & Hd); apply Forall_cons_iff in Hd; tauto).
      destruct (IHr (FR false p v c b l :: k) fuel a' z (tok_right _ _ _ _ _ _ _ _ _ H) ltac:(lia) E2 Ha' Hz Hd') as (k' & Ek & Pk & Lk & Rk).
      exists k'. cbn [cleft cright fl fp fv fc fs] in Lk, Rk. cbn [ctop isL fl fp] in Ek. split; [|split; [exact Pk|split; [rewrite Lk, <- !app_assoc; reflexivity|exact Rk]]].
      rewrite Gr. cbn [obind]. destruct (cmp (key v) q) eqn:C; [exact Ek|]. destruct Hd as [->|Hd]; [exact Ek|]. exfalso. apply Forall_mid in Hd. unfold less in Hd. cbn in Hd. congruence.
    + apply Forall_mid in Hz as He. unfold greater in He. cbn in He. rewrite He, Gl. cbn [obind].
      apply Forall_app in Hz as (Hz & _). destruct (IHl (FR true p v c b r :: k) fuel a b' (tok_left _ _ _ _ _ _ _ _ _ H) ltac:(lia) E2 Ha Hz Hd) as (k' & Ek & Pk & Lk & Rk).
      exists k'. cbn [cleft cright fl fp fv fc fs] in Lk, Rk. cbn [ctop isL fl fp] in Ek. split; [exact Ek|split; [exact Pk|split; [exact Lk|rewrite Rk, <- !app_assoc; reflexivity]]].
Qed.
Lemma insert_loop_old d h nil q : d <> STORE -> forall t k fuel (a z : list entry) e, tok h nil k t -> length (tids t) < fuel ->
  entries t = a ++ e :: z -> Forall (fun e => less key cmp q e = true /\ greater key cmp q e = false) a -> equiv key cmp q e = true -> Forall (fun e => greater key cmp q e = true) z ->
  exists k' l b r, while fuel (fun '(ptr, p, go_left) =>
    let* n := is_nil h ptr in if (n : bool) then Some (inr (inr (p, go_left))) else
    let* w := gval h ptr in
    if cmp q (key w) then let* l := glft h ptr in Some (inl (l, ptr, true)) else
    if cmp (key w) q then let* r := grgt h ptr in Some (inl (r, ptr, false)) else
    match d with
    | STORE => let* r := grgt h ptr in Some (inl (r, ptr, false))
    | COUNT => let* q := gpar h ptr in Some (inr (inr (q, go_left)))
    | IGNORE => Some (inr (inl ptr))
    end) (rt nil t, ctop nil k, isL k) = Some (match d with IGNORE => inl (eid e) | _ => inr (ctop nil k', isL k') end) /\
    plug k t = plug k' (Node l (eid e) (evl e) (ecn e) b r) /\ cleft k' ++ entries l = cleft k ++ a /\ entries r ++ cright k' = z ++ cright k.
Proof.
  intros ND. induction t as [|l IHl p v c b r IHr]; intros k fuel a z e H HF E Ha He Hz; (destruct fuel as [|fuel]; [lia|]).
  - destruct a; discriminate.
  - rewrite tlen_node in HF. pose proof (tok_get _ _ _ _ _ _ _ _ _ H) as (Gp & Gl & Gr & _ & _ & Gv). cbn [rt while]. rewrite (tok_is_nil _ _ _ _ _ _ _ _ _ H). cbn [obind]. rewrite Gv. cbn [obind]. cbn [entries] in E.
    destruct (app_split _ _ _ _ _ E) as [(a' & -> & E2)|(b' & E2 & E3)].
    + apply Forall_mid in Ha as Hx. unfold greater, less in Hx. cbn in Hx. destruct Hx as (Hx1 & Hx2). rewrite Hx2, Hx1, Gr. cbn [obind].
      apply Forall_app in Ha as (_ & Ha). apply Forall_cons_iff in Ha as (_ & Ha).
      destruct (IHr (FR false p v c b l :: k) fuel a' z e (tok_right _ _ _ _ _ _ _ _ _ H) ltac:(lia) E2 Ha He Hz) as (k' & l' & b' & r' & Ek & Pk & Lk & Rk).
      exists k', l', b', r'. cbn [cleft cright fl fp fv fc fs] in Lk, Rk. cbn [ctop isL fl fp] in Ek. split; [exact Ek|split; [exact Pk|split; [rewrite Lk, <- !app_assoc; reflexivity|exact Rk]]].
    + destruct b' as [|e' b'].
      * cbn in E3. injection E3 as -> ->. rewrite app_nil_r in E2. subst a.
        unfold equiv in He. cbn in He. apply andb_true_iff in He as (He1 & He2). apply negb_true_iff in He1, He2. rewrite He1, He2.
        exists k, l, b, r. split; [|auto]. destruct d; [reflexivity| |congruence]. rewrite Gp. reflexivity.
      * cbn in E3. injection E3 as -> ->. apply Forall_mid in Hz as Hx. unfold greater in Hx. cbn in Hx. rewrite Hx, Gl. cbn [obind].
        apply Forall_app in Hz as (Hz & _). destruct (IHl (FR true p v c b r :: k) fuel a b' e' (tok_left _ _ _ _ _ _ _ _ _ H) ltac:(lia) E2 Ha He Hz) as (k' & l' & bb & r' & Ek & Pk & Lk & Rk).
        exists k', l', bb, r'. cbn [cleft cright fl fp fv fc fs] in Lk, Rk. cbn [ctop isL fl fp] in Ek. split; [exact Ek|split; [exact Pk|split; [exact Lk|rewrite Rk, <- !app_assoc; reflexivity]]].
Qed.
Lemma rightmost (k : ctx (V := V)) t : t <> Leaf -> exists k' l p v c b, plug k t = plug k' (Node l p v c b Leaf) /\ cleft k' ++ entries l ++ [(p, v, c)] = cleft k ++ entries t /\ cright k' = cright k.
Proof.
  revert k. induction t as [|l _ p v c b r IH]; intros k N; [congruence|]. destruct r as [|rl q w d e rr].
  - exists k, l, p, v, c, b. auto.
  - destruct (IH (FR false p v c b l :: k) ltac:(discriminate)) as (k' & l' & p' & v' & c' & b' & E1 & E2 & E3).
    exists k', l', p', v', c', b'. split; [exact E1|split; [|exact E3]]. rewrite E2. cbn [cleft fl fs fp fv fc entries]. rewrite <- !app_assoc. reflexivity.
Qed.
Lemma leftmost (k : ctx (V := V)) t : t <> Leaf -> exists k' r p v c b, plug k t = plug k' (Node Leaf p v c b r) /\ (p, v, c) :: entries r ++ cright k' = entries t ++ cright k /\ cleft k' = cleft k.
Proof.
  revert k. induction t as [|l IH p v c b r _]; intros k N; [congruence|]. destruct l as [|ll q w d e lr].
  - exists k, r, p, v, c, b. auto.
  - destruct (IH (FR true p v c b r :: k) ltac:(discriminate)) as (k' & l' & p' & v' & c' & b' & E1 & E2 & E3).
    exists k', l', p', v', c', b'. split; [exact E1|split; [|exact E3]]. rewrite E2. cbn [cright fl fs fp fv fc entries]. rewrite <- !app_assoc. reflexivity.
Qed.

(** from represented trees to the specification *)
Lemma becomes_intro h h' nil t t' : tree_rep h nil t -> tree_rep h' nil t' ->
  (forall x, x < next h -> ~ In x (nil :: ids (entries t)) -> same h h' x) -> next h <= next h' ->
  (forall x, In x (ids (entries t')) -> In x (ids (entries t)) \/ next h <= x) ->
  (forall x, live h' x = true <-> (live h x = true /\ ~ In x (ids (entries t))) \/ In x (nil :: ids (entries t'))) ->
  becomes h h' nil (entries t) (entries t').
Proof.
  intros H H' HS HN HI HM. split; [exists t'; auto|split; [|exact HM]].
  intros n2 es2 (t2 & T2 & <-) AP. split.
  - exists t2. split; [|reflexivity]. apply tok_0. apply tok_0 in T2 as (T2 & P2). split; [|exact P2]. apply (tok_same h); [|exact HN|exact T2]. intros x Hx.
    destruct T2 as (_ & _ & _ & _ & Hlt). apply HS; [now apply Hlt|]. intro Hi. apply (AP x Hi). cbn [cids occ] in Hx. apply occ_In. cbn [occ]. fold (tids t2). lia.
  - intros x Hx Hx2. destruct T2 as (_ & _ & _ & Hlt & _). rewrite Forall_forall in Hlt. specialize (Hlt x Hx2).
    destruct Hx as [<-|Hx]; [apply (AP nil); [now left|exact Hx2]|]. destruct (HI x Hx) as [Hi|Hi]; [|lia]. apply (AP x); [now right|exact Hx2].
Qed.
End P.
