(** Binary search trees: erasing a node. *)
From Verif Require Import Lib BstModel BstSpec BstProofs BstProofs2 BstProofs3 BstProofs4 BstProofs5 BstProofs6.
From Coq Require Import Permutation.
Open Scope nat_scope.

Section P.
Context {V K : Type}.
Notation tree := (tree V).
Notation entry := (nat * V * Z)%type.
Notation heap := (heap (V := V)).
Notation ctx := (ctx (V := V)).
Implicit Types (h : heap) (t : tree) (k : ctx).

Lemma croot_in k r : k <> [] -> 1 <= occ (croot k r) (cids k).
Proof.
  revert r. induction k as [|f k IH]; intros r N; [congruence|]. cbn [croot cids occ]. rewrite occ_app. destruct k as [|g k].
  - cbn [croot]. rewrite Nat.eqb_refl. cbn. lia.
  - specialize (IH (fp f) ltac:(discriminate)). lia.
Qed.
Lemma croot_indep k r r' : k <> [] -> croot k r = croot k r'.
Proof. destruct k; [congruence|reflexivity]. Qed.
Lemma csz_add k : forall s d, csz k (s + d) = (csz k s + d)%Z.
Proof. induction k as [|f k IH]; intros s d; cbn [csz]; [reflexivity|]. rewrite <- IH. f_equal. unfold fsz. lia. Qed.
Lemma croot_rec h nil base k : k <> [] -> forall r s, Forall (node_ok h) (crecs nil base k r s) ->
  live h (croot k r) = true /\ par h (croot k r) = base /\ siz h (croot k r) = csz k s.
Proof.
  induction k as [|f k IH]; intros N r s H; [congruence|]. cbn [croot csz crecs] in *. apply Forall_cons_iff in H as (H1 & H2). apply Forall_app in H2 as (_ & H2). destruct k as [|g k].
  - cbn [croot csz] in *. destruct H1 as (B1 & B2 & _ & _ & B5 & _). cbn in B1, B2, B5. auto.
  - apply IH; [discriminate|exact H2].
Qed.
Lemma crecs_rebase h h' nil base base' k : forall r s, (forall x, occ x (cids k) <= 1) -> Forall (node_ok h) (crecs nil base k r s) ->
  (forall x, 1 <= occ x (cids k) -> x <> croot k r -> same h h' x) ->
  (k <> [] -> let x := croot k r in live h' x = live h x /\ par h' x = base' /\ lft h' x = lft h x /\ rgt h' x = rgt h x /\ siz h' x = siz h x /\ bal h' x = bal h x /\ val h' x = val h x) ->
  Forall (node_ok h') (crecs nil base' k r s).
Proof.
  induction k as [|f k IH]; intros r s HN H H1 H2; [constructor|]. cbn [crecs croot] in *. apply Forall_cons_iff in H as (A1 & A2). apply Forall_app in A2 as (A2 & A3).
  specialize (H2 ltac:(discriminate)). cbn in H2.
  assert (Hf := HN (fp f)). cbn [cids occ] in Hf. rewrite Nat.eqb_refl, occ_app in Hf. cbn in Hf.
  assert (Rin : croot k (fp f) = fp f \/ 1 <= occ (croot k (fp f)) (cids k)) by (destruct k; [left; reflexivity|right; apply croot_in; discriminate]).
  constructor; [|apply Forall_app; split].
  - destruct k as [|g k].
    + cbn [croot ctop] in *. destruct A1 as (D1 & D2 & D3 & D4 & D5 & D6 & D7). destruct H2 as (C1 & C2 & C3 & C4 & C5 & C6 & C7). unfold node_ok. cbn [nid npar nl nr ns nb nv frec] in *. rewrite C1, C2, C3, C4, C5, C6, C7. auto 10.
    + apply (node_ok_same h); [|exact A1]. cbn [nid frec]. apply H1; [cbn [cids occ]; rewrite Nat.eqb_refl; cbn; lia|]. pose proof (croot_in (g :: k) (fp f) ltac:(discriminate)). intros E. rewrite <- E in H. lia.
  - apply (recs_same h); [|exact A2]. intros x Hx. apply H1; [cbn [cids occ]; rewrite occ_app; lia|]. intros ->. specialize (HN (croot k (fp f))). cbn [cids occ] in HN. rewrite occ_app in HN. destruct Rin as [E|Rin]; [rewrite E in *; lia|lia].
  - apply IH; auto.
    + intro x. specialize (HN x). cbn [cids occ] in HN. rewrite occ_app in HN. lia.
    + intros x Hx Nx. apply H1; [cbn [cids occ]; rewrite occ_app; lia|exact Nx].
Qed.
Lemma crecs_relink h h' nil base f k r r' s : (forall x, occ x (cids (f :: k)) <= 1) -> Forall (node_ok h) (crecs nil base (f :: k) r s) ->
  (forall x, 1 <= occ x (cids (f :: k)) -> x <> fp f -> same h h' x) ->
  (let x := fp f in live h' x = live h x /\ par h' x = par h x /\ lft h' x = (if fl f then r' else lft h x) /\ rgt h' x = (if fl f then rgt h x else r') /\ siz h' x = siz h x /\ bal h' x = bal h x /\ val h' x = val h x) ->
  Forall (node_ok h') (crecs nil base (f :: k) r' s).
Proof.
  intros HN H H1 H2. cbn [crecs] in *. apply Forall_cons_iff in H as (A1 & A2). cbn in H2.
  assert (Hf := HN (fp f)). cbn [cids occ] in Hf. rewrite Nat.eqb_refl, occ_app in Hf. cbn in Hf.
  constructor.
  - destruct A1 as (D1 & D2 & D3 & D4 & D5 & D6 & D7). destruct H2 as (C1 & C2 & C3 & C4 & C5 & C6 & C7). unfold node_ok. cbn [nid npar nl nr ns nb nv frec] in *. rewrite C1, C2, C3, C4, C5, C6, C7, D1, D2, D3, D4, D5, D6, D7. destruct (fl f); auto 10.
  - eapply Forall_same; [|exact A2]. intros x Hx. rewrite map_app, occ_app, recs_ids, crecs_ids in Hx. apply H1; [cbn [cids occ]; rewrite occ_app; lia|]. intros ->. lia.
Qed.
Lemma live_of_gpar h p x : gpar h p = Some x -> live h p = true /\ par h p = x.
Proof. unfold gpar. destruct (live h p); [|discriminate]. intros E. injection E as <-. auto. Qed.
Lemma lft_of h p x : glft h p = Some x -> lft h p = x. Proof. unfold glft. destruct (live h p); [|discriminate]. congruence. Qed.
Lemma rgt_of h p x : grgt h p = Some x -> rgt h p = x. Proof. unfold grgt. destruct (live h p); [|discriminate]. congruence. Qed.
Lemma siz_of h p x : gsiz h p = Some x -> siz h p = x. Proof. unfold gsiz. destruct (live h p); [|discriminate]. congruence. Qed.
Lemma bal_of h p x : gbal h p = Some x -> bal h p = x. Proof. unfold gbal. destruct (live h p); [|discriminate]. congruence. Qed.
Lemma val_of h p x : gval h p = Some x -> val h p = Some x. Proof. unfold gval. destruct (live h p); [|discriminate]. congruence. Qed.

Section Swap.
Context (h : heap) (nil : nat) (k kd : ctx) (l : tree) (P : nat) (vP : V) (cP bP : Z) (D : nat) (vD : V) (cD bD : Z) (rD : tree).
Let HD := Node Leaf D vD cD bD rD.
Let R := plug kd HD.
Hypothesis H : tok h nil k (Node l P vP cP bP R).
Hypothesis NL : l <> Leaf.
Hypothesis KL : Forall (fun f => fl f = true) kd.
Let top := ctop nil k.
Let n := (par h (rt nil rD) =? rt nil rD).
Let sD := tsz HD.
Let sP := tsz (Node l P vP cP bP R).

Lemma swap_O x : Nat.b2n (nil =? x) + (occ x (tids l) + (Nat.b2n (P =? x) + (Nat.b2n (D =? x) + occ x (tids rD) + occ x (cids kd))) + occ x (cids k)) <= 1.
Proof.
  destruct H as (_ & _ & _ & A4 & _). specialize (A4 x). rewrite tids_node, occ_app in A4. cbn [occ] in A4. unfold R in A4. rewrite tids_plug in A4. unfold HD in A4. rewrite tids_node in A4. cbn [tids entries ids map app occ] in A4. lia.
Qed.
Lemma swap_HD : tok h nil (kd ++ FR false P vP cP bP l :: k) HD.
Proof. apply (tok_move h nil k (Node l P vP cP bP R)); [|exact H]. unfold R. rewrite plug_app. reflexivity. Qed.
Lemma ne_occ a x : 1 <= occ x (tids l) + occ x (tids rD) + occ x (cids kd) + occ x (cids k) + Nat.b2n (nil =? x) -> (a = P \/ a = D) -> x <> a.
Proof. intros Hx Ha ->. pose proof (swap_O a) as O. destruct Ha as [-> | ->]; rewrite Nat.eqb_refl in O; cbn [Nat.b2n] in O; lia. Qed.
Lemma ne_kd a x : 1 <= occ x (cids kd) -> (a = P \/ a = D) -> x <> a.
Proof. intros Hx. apply ne_occ. lia. Qed.
Lemma ne_rD a x : 1 <= occ x (tids rD) -> (a = P \/ a = D) -> x <> a.
Proof. intros Hx. apply ne_occ. lia. Qed.
Lemma ne_l a x : 1 <= occ x (tids l) -> (a = P \/ a = D) -> x <> a.
Proof. intros Hx. apply ne_occ. lia. Qed.
Lemma ne_nil a : (a = P \/ a = D) -> nil <> a.
Proof. apply ne_occ. rewrite Nat.eqb_refl. cbn. lia. Qed.
Lemma ne_top a x : 1 <= Nat.b2n (nil =? x) + occ x (cids k) -> (a = P \/ a = D) -> x <> a.
Proof. intros Hx. apply ne_occ. lia. Qed.
Lemma kd_nil x : 1 <= occ x (cids kd) -> nil <> x.
Proof. intros Hx <-. pose proof (swap_O nil) as O. rewrite Nat.eqb_refl in O. cbn [Nat.b2n] in O. lia. Qed.
Lemma l_kd a x : 1 <= occ a (tids l) -> 1 <= occ x (cids kd) -> a <> x.
Proof. intros Ha Hx <-. pose proof (swap_O a) as O. lia. Qed.
Lemma rD_kd a x : 1 <= occ a (tids rD) -> 1 <= occ x (cids kd) -> a <> x.
Proof. intros Ha Hx <-. pose proof (swap_O a) as O. lia. Qed.
Lemma rD_l a x : 1 <= occ a (tids rD) -> 1 <= occ x (tids l) -> a <> x.
Proof. intros Ha Hx <-. pose proof (swap_O a) as O. lia. Qed.
Lemma kd_top a x : 1 <= occ a (cids kd) -> 1 <= Nat.b2n (nil =? x) + occ x (cids k) -> a <> x.
Proof. intros Ha Hx <-. pose proof (swap_O a) as O. lia. Qed.
Lemma l_top a x : 1 <= occ a (tids l) -> 1 <= Nat.b2n (nil =? x) + occ x (cids k) -> a <> x.
Proof. intros Ha Hx <-. pose proof (swap_O a) as O. lia. Qed.
Lemma l_nil a : 1 <= occ a (tids l) -> nil <> a.
Proof. intros Ha <-. pose proof (swap_O nil) as O. rewrite Nat.eqb_refl in O. cbn [Nat.b2n] in O. lia. Qed.
Lemma P_ne_D : P <> D.
Proof. intros E. pose proof (swap_O P) as O. rewrite <- E, !Nat.eqb_refl in O. cbn in O. lia. Qed.
Lemma top_occ : 1 <= Nat.b2n (nil =? top) + occ top (cids k).
Proof. destruct (ctop_in nil k) as [(_ & E)|E]; fold top in E; [rewrite E, Nat.eqb_refl; cbn; lia|lia]. Qed.
Lemma rD_occ : rD = Leaf /\ rt nil rD = nil /\ n = true \/ 1 <= occ (rt nil rD) (tids rD) /\ n = false.
Proof.
  pose proof swap_HD as S. apply tok_right in S. pose proof (tok_rt_nil _ _ _ _ S) as E. unfold is_nil in E. destruct (gpar h (rt nil rD)) as [q|] eqn:G; [|discriminate]. cbn in E. injection E as E.
  apply live_of_gpar in G as (_ & <-). fold n in E. destruct (rt_in nil rD) as [(E1 & E2)|E1].
  - left. rewrite E1 in E. auto.
  - right. split; [exact E1|]. destruct rD; [cbn in E1; lia|exact E].
Qed.
Lemma kd_recs : Forall (node_ok h) (crecs nil P kd D sD).
Proof. destruct swap_HD as (_ & _ & A & _). rewrite crecs_app in A. apply Forall_app in A as (A & _). exact A. Qed.

Lemma swap9 : exists h9, swap_with_descendant h P D = (let* dc := node_count h9 D in let* pc := node_count h9 P in propagate_size h9 P D (dc - pc)%Z) /\
  live h9 = live h /\ next h9 = next h /\ val h9 = val h /\
  (siz h9 P = sD /\ siz h9 D = sP /\ bal h9 P = bD /\ bal h9 D = bP) /\
  (par h9 P = ctop D kd /\ lft h9 P = nil /\ rgt h9 P = rt nil rD) /\
  (par h9 D = top /\ lft h9 D = rt nil l /\ rgt h9 D = croot kd P) /\
  (forall x, x <> P -> x <> D -> siz h9 x = siz h x /\ bal h9 x = bal h x /\
     par h9 x = (if (x =? rt nil l) || (negb (match kd with [] => true | _ => false end) && (x =? croot kd P)) then D else if (x =? rt nil rD) && negb n then P else par h x) /\
     lft h9 x = (if negb (match kd with [] => true | _ => false end) && (x =? ctop D kd) then P else if isL k then upd (lft h) top D x else lft h x) /\
     rgt h9 x = (if isR k then upd (rgt h) top D x else rgt h x)).
Proof.
  pose proof swap_O as O. pose proof swap_HD as SD. pose proof top_occ as TO. pose proof rD_occ as RO.
  pose proof (tok_get _ _ _ _ _ _ _ _ _ H) as (Gp & Gl & Gr & Gs & Gb & Gv).
  pose proof (tok_get _ _ _ _ _ _ _ _ _ SD) as (Dp & Dl & Dr & Ds & Db & Dv). fold HD in Ds. fold sD in Ds. fold sP in Gs.
  destruct (live_of_gpar _ _ _ Gp) as (LP & PP). destruct (live_of_gpar _ _ _ Dp) as (LD & PD). fold top in PP.
  destruct (top_links _ _ _ _ H ltac:(discriminate)) as (Lt & TL & TR). cbn [rt] in TL, TR. fold top in Lt, TL, TR.
  pose proof (tok_right _ _ _ _ _ _ _ _ _ SD) as SR. pose proof (tok_rt_siz _ _ _ _ SR) as Rs. assert (Lr : live h (rt nil rD) = true) by (unfold gsiz in Rs; destruct (live h (rt nil rD)); [reflexivity|discriminate]).
  pose proof (tok_left _ _ _ _ _ _ _ _ _ H) as HL. assert (exists ll a va ca ba lr, l = Node ll a va ca ba lr) as (ll & a & va & ca & ba & lr & El) by (clear - NL; destruct l; [congruence|eauto 10]).
  assert (Ea : rt nil l = a) by (rewrite El; reflexivity). rewrite El in HL. pose proof (tok_get _ _ _ _ _ _ _ _ _ HL) as (Ap & _). cbn [ctop fp] in Ap. destruct (live_of_gpar _ _ _ Ap) as (LA & PA).
  destruct (tok_nil _ _ _ _ H) as (Np & Nl & _). destruct (live_of_gpar _ _ _ Np) as (Ln & Pn).
  assert (AO : 1 <= occ a (tids l)) by (rewrite <- Ea; destruct (rt_in nil l) as [(E & _)|E]; [congruence|exact E]).
  apply lft_of in Gl, Dl. apply rgt_of in Gr, Dr. apply siz_of in Gs, Ds. apply bal_of in Gb, Db. cbn [rt] in Dl. rewrite Ea in Gl.
  assert (Nil1 : nil <> P) by (apply ne_nil; auto). assert (Nil2 : nil <> D) by (apply ne_nil; auto).
  assert (T1 : top <> P) by (apply ne_top; auto). assert (T2 : top <> D) by (apply ne_top; auto).
  assert (A1 : a <> P) by (apply ne_l; auto). assert (A2 : a <> D) by (apply ne_l; auto).
  pose proof P_ne_D as PDn. assert (NA : nil <> a) by (apply l_nil; auto).
  assert (R1 : rt nil rD <> P /\ rt nil rD <> D /\ rt nil rD <> a).
  { destruct RO as [(_ & -> & _)|(RO & _)]; [auto|]. split; [apply ne_rD; auto|split; [apply ne_rD; auto|apply rD_l; auto]]. }
  destruct R1 as (R1 & R2 & R3).
  assert (AT : a <> top) by (apply l_top; auto).
  assert (TLR : (lft h top =? P) = isL k /\ (rgt h top =? P) = isR k) by (unfold isL, isR; split; assumption). destruct TLR as (TL' & TR').
  assert (CK : kd = [] \/ exists f kd1, kd = f :: kd1) by (clear; destruct kd; eauto). destruct CK as [Ekd|(f & kd1 & Ekd)].
  - assert (ER : rt nil R = D) by (unfold R; rewrite Ekd; reflexivity). rewrite Ekd in PD |- *. cbn [ctop app fp croot] in PD |- *. rewrite ER in Gr.
    destruct (swap_adjacent h nil P D top a (rt nil rD)) as (h9 & E & F1 & F2 & F3 & F4 & F5 & (F6 & F7 & F8 & F9 & F10) & (F11 & F12 & F13) & (F14 & F15 & F16)); try assumption; try (apply not_eq_sym; assumption).
    fold n in F9, F10. exists h9. split; [exact E|]. split; [exact F1|split; [exact F3|split; [exact F2|]]].
    split; [rewrite F4, F5, !upd_eq, !(upd_ne _ D) by auto; rewrite !upd_eq; auto|]. split; [auto|]. split; [rewrite Ea; auto|].
    intros x X1 X2. rewrite F4, F5, !upd_ne by auto. split; [reflexivity|split; [reflexivity|]]. rewrite Ea. cbn [negb andb orb]. rewrite orb_false_r. rewrite F13, F16, TL', TR' by auto. split; [|auto].
    destruct (Nat.eqb_spec x a) as [-> |Xa]; [exact F8|]. destruct (Nat.eqb_spec x (rt nil rD)) as [-> |Xr]; [|apply F10; auto]. destruct n eqn:En; [apply F10; auto|]. cbn [negb andb]. auto.
  - assert (KN : kd <> []) by (rewrite Ekd; discriminate). assert (CI := croot_in kd P KN). set (z := croot kd P) in *.
    assert (CZ : croot kd D = z) by (apply croot_indep; exact KN). destruct (croot_rec _ _ _ _ KN _ _ kd_recs) as (Lz & Pz & _). rewrite CZ in Lz, Pz.
    assert (ER : rt nil R = z) by (unfold R; rewrite rt_plug'; exact CZ). rewrite ER in Gr.
    assert (ED : ctop nil (kd ++ FR false P vP cP bP l :: k) = fp f) by (rewrite Ekd; reflexivity). rewrite ED in PD.
    assert (ED2 : ctop D kd = fp f) by (rewrite Ekd; reflexivity).
    pose proof kd_recs as KR. rewrite Ekd in KR. cbn [crecs] in KR. apply Forall_cons_iff in KR as (KR & _). destruct KR as (K1 & K2 & K3 & K4 & _). cbn in K1, K2, K3, K4.
    assert (Ff : fl f = true) by (rewrite Ekd in KL; apply Forall_cons_iff in KL; tauto). rewrite Ff in K3, K4.
    assert (FI : 1 <= occ (fp f) (cids kd)) by (rewrite Ekd; cbn [cids occ]; rewrite Nat.eqb_refl; clear; cbn; lia).
    assert (FS : rt nil (fs f) <> D). { destruct (rt_in nil (fs f)) as [(_ & ->)|E1]; [auto|]. apply ne_kd; [|auto]. rewrite Ekd. cbn [cids occ]. rewrite occ_app. clear - E1. lia. }
    assert (Z1 : z <> P) by (apply ne_kd; auto). assert (Z2 : z <> D) by (apply ne_kd; auto). assert (F1' : fp f <> P) by (apply ne_kd; auto). assert (F2' : fp f <> D) by (apply ne_kd; auto).
    assert (F3' : fp f <> top) by (apply kd_top; auto). assert (AZ : a <> z) by (apply l_kd; auto).
    assert (NZ : nil <> z) by (apply kd_nil; auto). assert (NF : nil <> fp f) by (apply kd_nil; auto).
    assert (RZ : rt nil rD <> z). { destruct RO as [(_ & -> & _)|(RO & _)]; [auto|]. apply rD_kd; auto. }
    destruct (swap_far h nil P D top a (rt nil rD) (fp f) z) as (h9 & E & F1 & F2 & F3 & F4 & F5 & (F6 & F7 & F8 & F8b & F9 & F10) & (F11 & F12 & F12b & F13) & (F14 & F15 & F16)); try assumption; try (apply not_eq_sym; assumption); [rewrite K4; exact FS|].
    fold n in F9, F10. exists h9. split; [exact E|]. split; [exact F1|split; [exact F3|split; [exact F2|]]].
    split; [rewrite F4, F5, !upd_eq, !(upd_ne _ D) by auto; rewrite !upd_eq; auto|]. rewrite ED2. split; [auto|]. split; [rewrite Ea; auto|].
    intros x X1 X2. rewrite F4, F5, !upd_ne by auto. split; [reflexivity|split; [reflexivity|]]. rewrite Ea. replace (match kd with [] => true | _ :: _ => false end) with false by (rewrite Ekd; reflexivity). cbn [negb andb]. rewrite F16, TR' by auto.
    split; [|split; [|reflexivity]].
    + destruct (Nat.eqb_spec x a) as [-> |Xa]; [exact F8|]. destruct (Nat.eqb_spec x z) as [-> |Xz]; [exact F8b|]. cbn [orb]. destruct (Nat.eqb_spec x (rt nil rD)) as [-> |Xr]; [|apply F10; auto]. destruct n eqn:En; [apply F10; auto|]. cbn [negb andb]. auto.
    + destruct (Nat.eqb_spec x (fp f)) as [-> |Xf]; [exact F12b|]. rewrite F13, TL' by auto. reflexivity.
Qed.
Lemma rD_top a x : 1 <= occ a (tids rD) -> 1 <= Nat.b2n (nil =? x) + occ x (cids k) -> a <> x.
Proof. intros Ha Hx <-. pose proof (swap_O a) as O. lia. Qed.
Lemma rD_nil a : 1 <= occ a (tids rD) -> nil <> a.
Proof. intros Ha <-. pose proof (swap_O nil) as O. rewrite Nat.eqb_refl in O. cbn [Nat.b2n] in O. lia. Qed.
Lemma ctop_kd : kd <> [] -> 1 <= occ (ctop D kd) (cids kd).
Proof. clear. destruct kd as [|f kd']; [congruence|]. intros _. cbn [ctop cids occ]. rewrite Nat.eqb_refl. cbn. lia. Qed.
Lemma kdb_spec : match kd with [] => true | _ => false end = true /\ kd = [] \/ match kd with [] => true | _ => false end = false /\ kd <> [].
Proof. clear. destruct kd; [left|right]; split; congruence. Qed.

Lemma swap_tok : exists h', swap_with_descendant h P D = Some h' /\ tok h' nil (kd ++ FR false D vD cD bP l :: k) (Node Leaf P vP cP bD rD) /\
  (forall x, out nil (Node l P vP cP bP R) k x -> same h h' x) /\ live h' = live h /\ next h' = next h.
Proof.
  pose proof swap_O as O. pose proof swap_HD as SD. pose proof top_occ as TO. pose proof rD_occ as RO. pose proof kd_recs as KR.
  destruct swap9 as (h9 & E & F1 & F2 & F3 & (S1 & S2 & S3 & S4) & (P1 & P2 & P3) & (D1 & D2 & D3) & U).
  pose proof H as (A1 & A2 & A3 & A4 & A5). cbn [rt] in A1, A3.
  pose proof (tok_left _ _ _ _ _ _ _ _ _ H) as (_ & B2 & _). cbn [ctop fp] in B2.
  pose proof (tok_right _ _ _ _ _ _ _ _ _ SD) as (_ & C2 & _). cbn [ctop fp] in C2.
  pose proof (tok_get _ _ _ _ _ _ _ _ _ H) as (Gp & _ & _ & _ & _ & Gv). destruct (live_of_gpar _ _ _ Gp) as (LP & _). apply val_of in Gv.
  pose proof (tok_get _ _ _ _ _ _ _ _ _ SD) as (Dp & _ & _ & _ & _ & Dv). destruct (live_of_gpar _ _ _ Dp) as (LD & _). apply val_of in Dv.
  assert (LO : 1 <= occ (rt nil l) (tids l)) by (destruct (rt_in nil l) as [(Q & _)|Q]; [contradiction|exact Q]).
  assert (RO' : n = false -> 1 <= occ (rt nil rD) (tids rD)) by (destruct RO as [(_ & _ & Q)|(Q & _)]; [intros Q'; congruence|auto]).
  pose proof kdb_spec as KB. set (kb := match kd with [] => true | _ => false end) in *.
  assert (KO : kb = false -> 1 <= occ (croot kd P) (cids kd)) by (intros Q; apply croot_in; destruct KB as [(Q' & _)|(_ & Q')]; [congruence|exact Q']).
  assert (KO2 : kb = false -> 1 <= occ (ctop D kd) (cids kd)) by (intros Q; apply ctop_kd; destruct KB as [(Q' & _)|(_ & Q')]; [congruence|exact Q']).
  (* where the links change *)
  assert (UP : forall x, x <> P -> x <> D -> x <> rt nil l -> (kb = false -> x <> croot kd P) -> (n = false -> x <> rt nil rD) -> par h9 x = par h x).
  { intros x X1 X2 X3 X4 X5. destruct (U x X1 X2) as (_ & _ & -> & _). destruct (Nat.eqb_spec x (rt nil l)); [contradiction|]. cbn [orb].
    destruct (negb kb && (x =? croot kd P)) eqn:Q. { apply andb_prop in Q as (Q1 & Q2). apply negb_true_iff in Q1. apply Nat.eqb_eq in Q2. destruct (X4 Q1 Q2). }
    destruct ((x =? rt nil rD) && negb n) eqn:Q2; [|reflexivity]. apply andb_prop in Q2 as (Q1 & Q2). apply negb_true_iff in Q2. apply Nat.eqb_eq in Q1. destruct (X5 Q2 Q1). }
  assert (UL : forall x, x <> P -> x <> D -> (kb = false -> x <> ctop D kd) -> x <> top -> lft h9 x = lft h x).
  { intros x X1 X2 X3 X4. destruct (U x X1 X2) as (_ & _ & _ & -> & _). destruct (negb kb && (x =? ctop D kd)) eqn:Q. { apply andb_prop in Q as (Q1 & Q2). apply negb_true_iff in Q1. apply Nat.eqb_eq in Q2. destruct (X3 Q1 Q2). }
    rewrite upd_ne by auto. destruct (isL k); reflexivity. }
  assert (UR : forall x, x <> P -> x <> D -> x <> top -> rgt h9 x = rgt h x).
  { intros x X1 X2 X3. destruct (U x X1 X2) as (_ & _ & _ & _ & ->). rewrite upd_ne by auto. destruct (isR k); reflexivity. }
  assert (US : forall x, x <> P -> x <> D -> siz h9 x = siz h x /\ bal h9 x = bal h x) by (intros x X1 X2; destruct (U x X1 X2) as (Q1 & Q2 & _); auto).
  (* the parts of the tree in the intermediate heap *)
  assert (ZK : nil_ok h9 nil (croot k D) /\ Forall (node_ok h9) (crecs nil nil k D sP)).
  { apply (relink h h9 nil k P D); [intro x; specialize (O x); clear - O; lia|exact A1|exact A3|].
    apply linked_intro; [|intro x; specialize (O x); clear - O; lia].
    intros x Hx. assert (Hx' : 1 <= Nat.b2n (nil =? x) + occ x (cids k)) by (destruct Hx as [-> |Hx]; [rewrite Nat.eqb_refl; cbn; clear; lia|clear - Hx; lia]).
    assert (X1 : x <> P) by (apply ne_top; auto). assert (X2 : x <> D) by (apply ne_top; auto). destruct (US x X1 X2) as (Q1 & Q2). rewrite F1, F3. repeat split; auto.
    - apply UP; auto.
      + intros E1. rewrite E1 in Hx'. exact (l_top _ _ LO Hx' eq_refl).
      + intros Q. apply not_eq_sym, kd_top; auto.
      + intros Q. apply not_eq_sym, rD_top; auto.
    - destruct (U x X1 X2) as (_ & _ & _ & -> & _). destruct (negb kb && (x =? ctop D kd)) eqn:Q; [|reflexivity]. apply andb_prop in Q as (Q3 & Q4). apply negb_true_iff in Q3. apply Nat.eqb_eq in Q4. exfalso. revert Q4. apply not_eq_sym, kd_top; auto.
    - destruct (U x X1 X2) as (_ & _ & _ & _ & ->). reflexivity. }
  assert (ZL : Forall (node_ok h9) (recs nil D l)).
  { apply (recs_reparent h h9 nil P D); [| |intro x; specialize (O x); clear - O; lia|exact B2].
    - intros x Hx Nx. assert (X1 : x <> P) by (apply ne_l; auto). assert (X2 : x <> D) by (apply ne_l; auto). assert (X3 : x <> top) by (apply l_top; auto). destruct (US x X1 X2) as (Q1 & Q2). unfold same. rewrite F1, F3.
      rewrite UP, UL, UR; auto 10; try (intros Q; apply l_kd; solve [auto]). intros Q. apply not_eq_sym, rD_l; auto.
    - intros _. cbn. assert (X1 : rt nil l <> P) by (apply ne_l; auto). assert (X2 : rt nil l <> D) by (apply ne_l; auto). assert (X3 : rt nil l <> top) by (apply l_top; auto). destruct (US _ X1 X2) as (Q1 & Q2). rewrite F1, F3.
      rewrite UL, UR; auto; [|intros Q; apply l_kd; auto]. destruct (U _ X1 X2) as (_ & _ & -> & _). rewrite Nat.eqb_refl. cbn [orb]. auto 10. }
  assert (ZR : Forall (node_ok h9) (recs nil P rD)).
  { apply (recs_reparent h h9 nil D P); [| |intro x; specialize (O x); clear - O; lia|exact C2].
    - intros x Hx Nx. assert (X1 : x <> P) by (apply ne_rD; auto). assert (X2 : x <> D) by (apply ne_rD; auto). assert (X3 : x <> top) by (apply rD_top; auto). destruct (US x X1 X2) as (Q1 & Q2). unfold same. rewrite F1, F3.
      rewrite UP, UL, UR; auto 10; try (intros Q; apply rD_kd; solve [auto]). apply rD_l; auto.
    - intros NR. cbn. assert (RD : 1 <= occ (rt nil rD) (tids rD) /\ n = false) by (destruct RO as [(Q & _)|Q]; [contradiction|exact Q]). destruct RD as (RD & En).
      assert (X1 : rt nil rD <> P) by (apply ne_rD; auto). assert (X2 : rt nil rD <> D) by (apply ne_rD; auto). assert (X3 : rt nil rD <> top) by (apply rD_top; auto). destruct (US _ X1 X2) as (Q1 & Q2). rewrite F1, F3.
      rewrite UL, UR; auto; [|intros Q; apply rD_kd; auto]. destruct (U _ X1 X2) as (_ & _ & -> & _). rewrite En, Nat.eqb_refl. cbn [negb andb].
      assert (N1 : (rt nil rD =? rt nil l) = false) by (apply Nat.eqb_neq, rD_l; auto). rewrite N1. cbn [orb].
      assert (N2 : negb kb && (rt nil rD =? croot kd P) = false). { destruct kb eqn:Q; [reflexivity|]. cbn [negb andb]. apply Nat.eqb_neq, rD_kd; auto. } rewrite N2. auto 10. }
  assert (ZKD : Forall (node_ok h9) (crecs nil D kd P sD)).
  { destruct KB as [(_ & ->)|(Kb & KN)]; [constructor|]. specialize (KO Kb). specialize (KO2 Kb). rewrite Kb in *. clear RO'.
    assert (OK1 : forall x, occ x (cids kd) <= 1) by (intro x; specialize (O x); clear - O; lia).
    assert (KX : forall x, 1 <= occ x (cids kd) -> x <> P /\ x <> D /\ x <> top /\ x <> rt nil l /\ (n = false -> x <> rt nil rD)).
    { intros x Hx. split; [apply ne_kd; auto|split; [apply ne_kd; auto|split; [apply kd_top; auto|split; [apply not_eq_sym, l_kd; auto|]]]]. intros Q. apply not_eq_sym, rD_kd; auto. destruct RO as [(_ & _ & Q')|(Q' & _)]; [congruence|exact Q']. }
    assert (CE : croot kd D = croot kd P) by (apply croot_indep; exact KN).
    assert (Z1 : Forall (node_ok (with_par h (par h9))) (crecs nil D kd D sD)).
    { apply (crecs_rebase h _ nil P D); auto.
      - intros x Hx Nx. rewrite CE in Nx. destruct (KX x Hx) as (X1 & X2 & X3 & X4 & X5). unfold same. cbn. rewrite UP; auto 10.
      - intros _. cbn. rewrite CE. destruct (KX _ KO) as (X1 & X2 & X3 & X4 & X5). destruct (U _ X1 X2) as (_ & _ & -> & _). rewrite Nat.eqb_refl. cbn [negb andb]. rewrite orb_true_r. auto 10. }
    clear CE. revert Z1 KX OK1 U KO2 UL. clear - KL F1 F3 UR US KN. destruct kd as [|f kd']; [congruence|]. intros Z1 KX OK1 U KO2 UL. cbn [ctop] in KO2.
    apply (crecs_relink (with_par h (par h9)) h9 nil D f kd' D P sD); auto.
    - intros x Hx Nx. destruct (KX x Hx) as (X1 & X2 & X3 & _ & _). destruct (US x X1 X2) as (Q1 & Q2). unfold same. cbn. rewrite F1, F3, UL, UR; auto 10.
    - cbn. destruct (KX _ KO2) as (X1 & X2 & X3 & _ & _). destruct (US _ X1 X2) as (Q1 & Q2). apply Forall_cons_iff in KL as (-> & _). rewrite F1, F3, UR; auto. destruct (U _ X1 X2) as (_ & _ & _ & -> & _). rewrite Nat.eqb_refl. cbn. auto 10. }
  (* the counts *)
  assert (Nn : live h9 nil = true /\ siz h9 nil = 0%Z) by (destruct ZK as ((Q1 & _ & _ & _ & Q2 & _) & _); auto). destruct Nn as (Ln & Sn).
  assert (SR : live h9 (rt nil rD) = true /\ siz h9 (rt nil rD) = tsz rD).
  { clear - ZR Ln Sn. destruct rD as [|rl q w d e rr]; [auto|]. cbn [recs] in ZR. apply Forall_cons_iff in ZR as (Q & _). destruct Q as (Q1 & _ & _ & _ & Q2 & _). auto. }
  assert (SL : live h9 (rt nil l) = true /\ siz h9 (rt nil l) = tsz l).
  { clear - ZL Ln Sn. destruct l as [|rl q w d e rr]; [auto|]. cbn [recs] in ZL. apply Forall_cons_iff in ZL as (Q & _). destruct Q as (Q1 & _ & _ & _ & Q2 & _). auto. }
  assert (SC : live h9 (croot kd P) = true /\ siz h9 (croot kd P) = csz kd sD).
  { destruct KB as [(_ & ->)|(Kb & KN)]; [cbn [croot csz]; rewrite F1; auto|]. destruct (croot_rec _ _ _ _ KN _ _ ZKD) as (Q1 & _ & Q2). auto. }
  assert (ND : node_count h9 D = Some cP).
  { destruct SL as (Q1 & Q2). destruct SC as (Q3 & Q4). rewrite F1 in Q1, Q3. unfold node_count, is_nil, gpar, gsiz, glft, grgt. rewrite F1.
    repeat first [rewrite LD|rewrite D1|rewrite D2|rewrite D3|rewrite Q1|rewrite Q3|rewrite (proj2 (Nat.eqb_neq top D)) by (apply ne_top; auto)|progress cbn [obind]]. rewrite S2, Q2, Q4. f_equal. unfold sP. rewrite tsz_node. unfold R. rewrite tsz_plug. fold sD. clear. lia. }
  assert (CTP : ctop D kd <> P). { destruct KB as [(_ & Q)|(Kb & KN)]; [rewrite Q; apply not_eq_sym, P_ne_D|apply ne_kd; auto]. }
  assert (NP : node_count h9 P = Some cD).
  { destruct SR as (Q3 & Q4). rewrite F1 in Q3. rewrite F1 in Ln. unfold node_count, is_nil, gpar, gsiz, glft, grgt. rewrite F1.
    repeat first [rewrite LP|rewrite P1|rewrite P2|rewrite P3|rewrite Ln|rewrite Q3|rewrite (proj2 (Nat.eqb_neq _ P) CTP)|progress cbn [obind]]. rewrite S1, Sn, Q4. f_equal. unfold sD, HD. rewrite tsz_node. change (tsz (V := V) Leaf) with 0%Z. clear. lia. }
  rewrite E, ND. cbn [obind]. rewrite NP. cbn [obind].
  (* the sizes on the path from D up to P's old position *)
  set (dl := (cP - cD)%Z).
  assert (PR : exists f, propagate_size h9 P D dl = Some (with_siz h9 f) /\ Forall (node_ok (with_siz h9 f)) (crecs nil D (FR false P vP cD bD Leaf :: kd) (rt nil rD) (tsz rD + dl)) /\ (forall x, occ x (spine (FR false P vP cD bD Leaf :: kd)) = 0 -> f x = siz h9 x)).
  { assert (Z0 : Forall (node_ok h9) (crecs nil D (FR false P vP cD bD Leaf :: kd) (rt nil rD) (tsz rD))).
    { cbn [crecs]. constructor; [|cbn [fs recs app fp]; unfold fsz; cbn [fs fc]; replace (tsz rD + (cD + tsz Leaf))%Z with sD by (unfold sD, HD; rewrite tsz_node; clear; lia); exact ZKD].
      unfold node_ok, frec. cbn [nid npar nl nr ns nb nv fp fl fs fv fb]. rewrite F1, F3, P1, P2, P3, S1, S3, LP, Gv. unfold fsz. cbn [fs fc rt]. repeat split; auto. unfold sD, HD. rewrite tsz_node. clear. lia. }
    unfold propagate_size. destruct (Z.eqb_spec dl 0) as [Ez|Nz].
    - exists (siz h9). rewrite with_siz_id, Ez, Z.add_0_r. auto.
    - destruct (prop_loop nil D dl (FR false P vP cD bD Leaf :: kd) (rt nil rD) (tsz rD) h9 (loops h9) Z0) as (f & Ef & Hf & Hs).
      + intro x. cbn [cids fp fs tids entries ids map app occ]. specialize (O x). clear - O. lia.
      + cbn [cids fp fs tids entries ids map app occ]. specialize (O D). rewrite Nat.eqb_refl in O. cbn [Nat.b2n] in O. clear - O. lia.
      + unfold loops. rewrite F2. pose proof (tok_len _ _ _ _ SD) as L. rewrite app_length in L. cbn [length] in L |- *. clear - L. lia.
      + exists f. auto. }
  destruct PR as (f & Ef & Hf & Hs). exists (with_siz h9 f). split; [exact Ef|].
  rewrite crecs_fc in Hf. replace (cD + dl)%Z with cP in Hf by (unfold dl; clear; lia).
  assert (NS : forall x, occ x (spine (FR false P vP cD bD Leaf :: kd)) <> 0 -> x = P \/ 1 <= occ x (cids kd)).
  { intros x Hx. cbn [spine map fp occ] in Hx. pose proof (spine_occ x kd) as Q. unfold spine in Q. destruct (Nat.eqb_spec P x) as [-> |_]; [auto|]. right. cbn in Hx. clear - Hx Q. lia. }
  assert (SS : forall x, x <> P -> occ x (cids kd) = 0 -> same h9 (with_siz h9 f) x).
  { intros x X1 X2. unfold same. cbn. rewrite Hs; auto 10. destruct (Nat.eq_dec (occ x (spine (FR false P vP cD bD Leaf :: kd))) 0) as [|Q]; [assumption|]. destruct (NS x Q); [contradiction|clear - X2 H0; lia]. }
  assert (SZ : tsz (Node Leaf P vP cP bD rD) = (sD + dl)%Z) by (unfold sD, HD, dl; rewrite !tsz_node; clear; lia).
  split; [|split; [|split; [exact F1|exact F2]]].
  - unfold tok. rewrite croot_app, ctop_app, crecs_app. cbn [rt croot ctop fp]. cbn [croot crecs].
    assert (NP0 : nil <> P) by (apply ne_nil; auto). assert (OD : occ D (cids kd) = 0) by (pose proof (O D) as Q; rewrite Nat.eqb_refl in Q; cbn [Nat.b2n] in Q; clear - Q; lia).
    assert (On : occ nil (cids kd) = 0) by (pose proof (O nil) as Q; rewrite Nat.eqb_refl in Q; cbn [Nat.b2n] in Q; clear - Q; lia).
    pose proof Hf as Hf'. cbn [crecs] in Hf'. apply Forall_cons_iff in Hf' as (HfP & Hfk). cbn [fs recs app fp] in Hfk.
    assert (FZ : fsz (FR false P vP cP bD Leaf) (tsz rD) = tsz (Node Leaf P vP cP bD rD)) by (unfold fsz; cbn [fs fc]; rewrite tsz_node; clear; lia).
    assert (FD : fsz (FR false D vD cD bP l) (csz kd (tsz (Node Leaf P vP cP bD rD))) = sP).
    { unfold fsz. cbn [fs fc]. rewrite SZ, csz_add. unfold sP, dl. rewrite tsz_node. unfold R. rewrite tsz_plug. fold sD. clear. lia. }
    split; [|split; [|split; [|split]]].
    + destruct ZK as (ZK & _). apply (nil_same h9); [|exact ZK]. apply SS; auto.
    + cbn [recs]. rewrite app_nil_l. constructor; [|apply (recs_same h9); [|exact ZR]; intros x Hx; apply SS; [apply ne_rD; auto|specialize (O x); clear - O Hx; lia]].
      destruct HfP as (Q1 & Q2 & Q3 & Q4 & Q5 & Q6 & Q7). unfold node_ok. cbn [frec nid npar nl nr ns nb nv fp fl fs fv fb rt] in *. rewrite FZ in Q5. auto 10.
    + rewrite FZ in Hfk. apply Forall_app. split; [exact Hfk|]. constructor; [|rewrite FD; apply Forall_app; split].
      * unfold node_ok, frec. cbn [nid npar nl nr ns nb nv fp fl fs fv fb]. rewrite FD. assert (SSD : same h9 (with_siz h9 f) D) by (apply SS; [apply not_eq_sym, P_ne_D|exact OD]). destruct SSD as (Q1 & Q2 & Q3 & Q4 & Q5 & Q6 & Q7). rewrite Q1, Q2, Q3, Q4, Q5, Q6, Q7, F1, F3, D1, D2, D3, S2, S4, LD, Dv. auto 10.
      * cbn [fs fp]. apply (recs_same h9); [|exact ZL]. intros x Hx. apply SS; [apply ne_l; auto|specialize (O x); clear - O Hx; lia].
      * cbn [fp]. destruct ZK as (_ & ZK). apply (crecs_same h9); [|exact ZK]. intros x Hx. apply SS; [apply ne_top; [clear - Hx; lia|auto]|specialize (O x); clear - O Hx; lia].
    + intro x. specialize (O x). rewrite tids_node, !cids_app. cbn [cids fp fs]. rewrite !occ_app. cbn [occ]. rewrite !occ_app. change (occ x (tids (V := V) Leaf)) with 0. clear - O. lia.
    + intros x Hx. cbn. rewrite F2. apply A5. rewrite tids_node, !cids_app in Hx. cbn [cids fp fs] in Hx. rewrite !occ_app in Hx. cbn [occ] in Hx. rewrite !occ_app in Hx. change (occ x (tids (V := V) Leaf)) with 0 in Hx.
      rewrite tids_node, occ_app. cbn [occ]. unfold R. rewrite tids_plug. unfold HD. rewrite tids_node, occ_app. cbn [occ]. clear - Hx. lia.
  - intros x Hx. unfold out in Hx. rewrite tids_node, occ_app in Hx. cbn [occ] in Hx. unfold R in Hx. rewrite tids_plug in Hx. unfold HD in Hx. rewrite tids_node, occ_app in Hx. cbn [occ] in Hx.
    assert (X1 : x <> P) by (intros ->; rewrite Nat.eqb_refl in Hx; cbn in Hx; clear - Hx; lia). assert (X2 : x <> D) by (intros ->; rewrite Nat.eqb_refl in Hx; cbn in Hx; clear - Hx; lia).
    assert (X3 : occ x (cids kd) = 0) by (clear - Hx; lia).
    apply (same_trans h h9); [|apply SS; auto]. assert (X4 : occ x (tids l) = 0) by (clear - Hx; lia). assert (X5 : occ x (tids rD) = 0) by (clear - Hx; lia).
    assert (X6 : x <> top) by (intros ->; clear - Hx TO; lia). destruct (US x X1 X2) as (Q1 & Q2). unfold same. rewrite F1, F3, UP, UL, UR; auto 10.
    + intros Q Q'. rewrite <- Q' in KO2. specialize (KO2 Q). clear - KO2 X3. lia.
    + intros Q'. rewrite <- Q' in LO. clear - LO X4. lia.
    + intros Q Q'. rewrite <- Q' in KO. specialize (KO Q). clear - KO X3. lia.
    + intros Q Q'. rewrite <- Q' in RO'. specialize (RO' Q). clear - RO' X5. lia.
Qed.
End Swap.
End P.
