(** Binary search trees: rotations and insertion. *)
From Verif Require Import Lib BstModel BstSpec BstProofs BstProofs3.
From Coq Require Import Permutation.
Open Scope nat_scope.

Section P.
Context {V K : Type}.
Notation tree := (tree V).
Notation entry := (nat * V * Z)%type.
Notation heap := (heap (V := V)).
Implicit Types (h : heap) (t : tree).

(** outside of the tree *)
Definition out (nil : nat) (t : tree) (k : ctx (V := V)) (x : nat) : Prop := Nat.b2n (nil =? x) + (occ x (tids t) + occ x (cids k)) = 0.
Definition isL (k : ctx (V := V)) : bool := match k with [] => true | f :: _ => fl f end.
Definition isR (k : ctx (V := V)) : bool := match k with [] => true | f :: _ => negb (fl f) end.
Lemma mlo_lft h nil k t ch n x : tok h nil k t -> t <> Leaf -> lft (mlo h (ctop nil k) ch (rt nil t) n) x = if isL k then upd (lft h) (ctop nil k) ch x else lft h x.
Proof. intros H N. destruct (top_links _ _ _ _ H N) as (_ & E & _). cbn. rewrite E. unfold isL. destruct k as [|f k]; [reflexivity|]. destruct (fl f); reflexivity. Qed.
Lemma mlo_rgt h nil k t ch n x : tok h nil k t -> t <> Leaf -> rgt (mlo h (ctop nil k) ch (rt nil t) n) x = if isR k then upd (rgt h) (ctop nil k) ch x else rgt h x.
Proof. intros H N. destruct (top_links _ _ _ _ H N) as (_ & _ & E). cbn. rewrite E. unfold isR. destruct k as [|f k]; [reflexivity|]. destruct (negb (fl f)); reflexivity. Qed.
(** linked from pointwise equations *)
Lemma linked_intro h h' nil k r' :
  (forall x, x = nil \/ 1 <= occ x (cids k) -> live h' x = live h x /\ par h' x = par h x /\ siz h' x = siz h x /\ bal h' x = bal h x /\ val h' x = val h x /\
     lft h' x = (if isL k then upd (lft h) (ctop nil k) r' x else lft h x) /\ rgt h' x = (if isR k then upd (rgt h) (ctop nil k) r' x else rgt h x)) ->
  (forall x, Nat.b2n (nil =? x) + occ x (cids k) <= 1) -> linked h h' nil k r'.
Proof.
  intros H HN. destruct k as [|f k].
  - split; [|cbn; intros; lia]. destruct (H nil (or_introl eq_refl)) as (A1 & A2 & A3 & A4 & A5 & A6 & A7). cbn [isL isR ctop] in *. rewrite upd_eq in *. auto 10.
  - cbn [ctop cids] in *. assert (Nn : nil <> fp f). { specialize (HN nil). cbn [occ] in HN. rewrite Nat.eqb_refl in HN. intros E. rewrite E, Nat.eqb_refl in HN. cbn in HN. lia. }
    split; [split|].
    + destruct (H nil (or_introl eq_refl)) as (A1 & A2 & A3 & A4 & A5 & A6 & A7). rewrite (upd_ne _ _ _ _ Nn) in A6. rewrite (upd_ne _ _ _ _ Nn) in A7. unfold same. destruct (isL (f :: k)), (isR (f :: k)); auto 10.
    + destruct (H (fp f)) as (A1 & A2 & A3 & A4 & A5 & A6 & A7); [right; cbn [occ]; rewrite Nat.eqb_refl; cbn; lia|]. rewrite !upd_eq in *. cbn [isL isR] in *. cbn. destruct (fl f); cbn [negb] in *; auto 10.
    + intros x Hx Nx. destruct (H x) as (A1 & A2 & A3 & A4 & A5 & A6 & A7); [auto|]. rewrite (upd_ne _ _ _ _ Nx) in A6. rewrite (upd_ne _ _ _ _ Nx) in A7. unfold same. destruct (isL (f :: k)), (isR (f :: k)); auto 10.
Qed.
Lemma eqb_ne a b : a <> b -> (a =? b) = false. Proof. apply Nat.eqb_neq. Qed.

Lemma rotate_left_run h nil k l p v c b rl q w d e rr : tok h nil k (Node l p v c b (Node rl q w d e rr)) ->
  exists h', rotate_left h p = Some (h', q) /\ tok h' nil k (Node (Node l p v c b rl) q w d e rr) /\
    (forall x, out nil (Node l p v c b (Node rl q w d e rr)) k x -> same h h' x) /\ live h' = live h /\ next h' = next h.
Proof.
  intros H. pose proof H as (A1 & A2 & A3 & A4 & A5). pose proof (tok_get _ _ _ _ _ _ _ _ _ H) as (Gp & Gl & Gr & Gs & Gb & Gv). cbn [rt] in Gr.
  pose proof (tok_right _ _ _ _ _ _ _ _ _ H) as Hq. pose proof (tok_get _ _ _ _ _ _ _ _ _ Hq) as (Gqp & Gql & Gqr & Gqs & Gqb & Gqv).
  pose proof (tok_left _ _ _ _ _ _ _ _ _ Hq) as Hrl. pose proof (tok_rt_siz _ _ _ _ Hrl) as Grls. pose proof (tok_rt_nil _ _ _ _ Hrl) as Grln. set (n := match rl with Leaf => true | _ => false end) in *.
  pose proof (tok_is_nil _ _ _ _ _ _ _ _ _ Hq) as Gqn. destruct (top_links _ _ _ _ H ltac:(discriminate)) as (Lt & _ & _).
  assert (O : forall x, Nat.b2n (nil =? x) + (occ x (tids l) + (Nat.b2n (p =? x) + (occ x (tids rl) + (Nat.b2n (q =? x) + occ x (tids rr)))) + occ x (cids k)) <= 1).
  { intro x. specialize (A4 x). rewrite !tids_node, !occ_app in A4. cbn [occ] in A4. rewrite occ_app in A4. cbn [occ] in A4. exact A4. }
  assert (Lp : live h p = true) by (unfold gpar in Gp; destruct (live h p); [reflexivity|discriminate]).
  assert (Lq : live h q = true) by (unfold gpar in Gqp; destruct (live h q); [reflexivity|discriminate]).
  assert (Lr : live h (rt nil rl) = true) by (unfold gsiz in Grls; destruct (live h (rt nil rl)); [reflexivity|discriminate]).
  assert (Npq : p <> q) by (intros E; specialize (O p); rewrite E, !Nat.eqb_refl in O; cbn in O; lia).
  assert (Np : p <> nil) by (intros E; specialize (O p); rewrite E, !Nat.eqb_refl in O; cbn in O; lia).
  assert (Nq : q <> nil) by (intros E; specialize (O q); rewrite E, !Nat.eqb_refl in O; cbn in O; lia).
  set (top := ctop nil k) in *.
  assert (Ntop : top <> p /\ top <> q).
  { destruct (ctop_in nil k) as [(_ & E)|E]; fold top in E; [rewrite E; auto|]. split; intros E2; rewrite E2 in E; [specialize (O p)|specialize (O q)]; rewrite Nat.eqb_refl in O; cbn in O; lia. }
  destruct Ntop as (Ntp & Ntq).
  assert (Nr : rt nil rl <> p /\ rt nil rl <> q).
  { destruct (rt_in nil rl) as [(_ & E)|E]; [rewrite E; auto|]. split; intros E2; rewrite E2 in E; [specialize (O p)|specialize (O q)]; rewrite Nat.eqb_refl in O; cbn in O; lia. }
  destruct Nr as (Nrp & Nrq).
  unfold gpar in Gp, Gqp. unfold glft in Gl, Gql. unfold grgt in Gr, Gqr. unfold gsiz in Gs, Gqs, Grls. unfold gbal in Gb, Gqb. unfold gval in Gv, Gqv. rewrite Lp in *. rewrite Lq in *. rewrite Lr in *.
  injection Gp as Gp. injection Gqp as Gqp. injection Gl as Gl. injection Gql as Gql. injection Gr as Gr. injection Gqr as Gqr. injection Gs as Gs. injection Gqs as Gqs. injection Grls as Grls. injection Gb as Gb. injection Gqb as Gqb.
  unfold rotate_left. unfold grgt at 1. rewrite Lp. cbn [obind]. unfold gsiz at 1. rewrite Lp. cbn [obind]. unfold gpar at 1. rewrite Lp. cbn [obind]. rewrite Gr, Gp.
  rewrite (mlo_run h top q p false Lt Gqn). cbn [obind].
  pose proof (fun x => mlo_lft h nil k _ q false x H ltac:(discriminate)) as L1. pose proof (fun x => mlo_rgt h nil k _ q false x H ltac:(discriminate)) as R1. cbn [rt] in L1, R1. fold top in L1, R1.
  set (h1 := mlo h top q p false) in *.
  assert (P1 : par h1 = upd (par h) q top) by reflexivity.
  assert (Live1 : live h1 = live h) by reflexivity. assert (Siz1 : siz h1 = siz h) by reflexivity. assert (Bal1 : bal h1 = bal h) by reflexivity. assert (Val1 : val h1 = val h) by reflexivity. assert (Nx1 : next h1 = next h) by reflexivity.
  clearbody h1.
  assert (L1q : lft h1 q = rt nil rl) by (rewrite L1, upd_ne by auto; destruct (isL k); exact Gql).
  assert (L1p : lft h1 p = rt nil l) by (rewrite L1, upd_ne by auto; destruct (isL k); exact Gl).
  assert (R1q : rgt h1 q = rt nil rr) by (rewrite R1, upd_ne by auto; destruct (isR k); exact Gqr).
  assert (R1p : rgt h1 p = q) by (rewrite R1, upd_ne by auto; destruct (isR k); exact Gr).
  unfold glft at 1. rewrite Live1, Lq. cbn [obind]. rewrite L1q.
  assert (Rn : is_nil h1 (rt nil rl) = Some n).
  { unfold is_nil, gpar in *. rewrite Live1, Lr in *. cbn [obind] in *. rewrite P1, upd_ne by auto. exact Grln. }
  rewrite (mlo_run h1 p (rt nil rl) q n); [|rewrite Live1; exact Lp|exact Rn]. cbn [obind].
  assert (Nlq : rt nil l <> q). { destruct (rt_in nil l) as [(_ & E)|E]; [rewrite E; auto|]. intros E2; rewrite E2 in E; specialize (O q); rewrite Nat.eqb_refl in O; cbn in O; lia. }
  set (h2 := mlo h1 p (rt nil rl) q n).
  assert (P2 : par h2 = if n then par h1 else upd (par h1) (rt nil rl) p) by reflexivity.
  assert (L2 : lft h2 = lft h1) by (cbn; rewrite L1p, (eqb_ne _ _ Nlq); reflexivity).
  assert (R2 : rgt h2 = upd (rgt h1) p (rt nil rl)) by (cbn; rewrite R1p, Nat.eqb_refl; reflexivity).
  assert (Live2 : live h2 = live h1) by reflexivity. assert (Siz2 : siz h2 = siz h1) by reflexivity. assert (Bal2 : bal h2 = bal h1) by reflexivity. assert (Val2 : val h2 = val h1) by reflexivity. assert (Nx2 : next h2 = next h1) by reflexivity.
  clearbody h2. unfold gsiz at 1. rewrite Live2, Live1, Lp. cbn [obind]. unfold glft at 1. rewrite Live2, Live1, Lq. cbn [obind]. rewrite L2, L1q.
  unfold gsiz at 1. rewrite Live2, Live1, Lr. cbn [obind]. unfold gsiz at 1. rewrite Live2, Live1, Lq. cbn [obind].
  unfold ssiz at 1. rewrite Live2, Live1, Lp. cbn [obind]. unfold slft. cbn [live with_siz]. rewrite Live2, Live1, Lq. cbn [obind]. unfold spar. cbn [live with_siz with_lft]. rewrite Live2, Live1, Lp. cbn [obind].
  unfold ssiz. cbn [live with_siz with_lft with_par]. rewrite Live2, Live1, Lq. cbn [obind].
  eexists. split; [reflexivity|].
  match goal with |- tok ?hh _ _ _ /\ _ => set (hF := hh) end.
  assert (FL : live hF = live h) by (unfold hF; cbn; congruence). assert (FN : next hF = next h) by (unfold hF; cbn; congruence).
  assert (FB : bal hF = bal h) by (unfold hF; cbn; congruence). assert (FV : val hF = val h) by (unfold hF; cbn; congruence).
  assert (FP : par hF = upd (if n then upd (par h) q top else upd (upd (par h) q top) (rt nil rl) p) p q) by (unfold hF; cbn; rewrite P2, P1; reflexivity).
  assert (FLf : lft hF = upd (lft h1) q p) by (unfold hF; cbn; rewrite L2; reflexivity).
  assert (FRg : rgt hF = upd (rgt h1) p (rt nil rl)) by (unfold hF; cbn; rewrite R2; reflexivity).
  assert (FS : siz hF = upd (upd (siz h) p (siz h p + (siz h (rt nil rl) - siz h q))%Z) q (siz h p)) by (unfold hF; cbn; rewrite Siz2, Siz1; reflexivity).
  clearbody hF.
  assert (SM : forall x, x <> p -> x <> q -> x <> top -> (x <> rt nil rl \/ n = true) -> same h hF x).
  { intros x X1 X2 X3 X4. unfold same. rewrite FL, FP, FLf, FRg, FS, FB, FV. rewrite !upd_ne by auto. rewrite L1, R1, !upd_ne by auto.
    repeat split; try reflexivity; [|destruct (isL k); reflexivity|destruct (isR k); reflexivity].
    destruct n; [now rewrite upd_ne|]. destruct X4 as [X4|X4]; [|discriminate]. now rewrite !upd_ne. }
  assert (NRL : n = false -> 1 <= occ (rt nil rl) (tids rl)) by (destruct (rt_in nil rl) as [(E & _)|E]; [subst n; rewrite E; discriminate|auto]).
  assert (TOP : 1 <= Nat.b2n (nil =? top) + occ top (cids k)) by (destruct (ctop_in nil k) as [(_ & E)|E]; fold top in E; [rewrite E, Nat.eqb_refl; cbn; lia|lia]).
  assert (PV : val h p = Some v /\ val h q = Some w) by auto. destruct PV as (PV & QV).
  split; [|split; [|auto]].
  - assert (LK : nil_ok hF nil (croot k q) /\ Forall (node_ok hF) (crecs nil nil k q (tsz (Node l p v c b (Node rl q w d e rr))))).
    { apply (relink h hF nil k p q); [intro x; specialize (O x); lia|exact A1|exact A3|].
      apply linked_intro; [|intro x; specialize (O x); lia]. intros x Hx. fold top.
      assert (Xp : x <> p /\ x <> q).
      { destruct Hx as [-> |Hx]; [auto|]. split; intros ->; [specialize (O p)|specialize (O q)]; rewrite Nat.eqb_refl in O; cbn in O; lia. }
      destruct Xp as (Xp & Xq).
      assert (Xr : n = true \/ x <> rt nil rl).
      { destruct n; [auto|right]. specialize (NRL eq_refl). intros ->. specialize (O (rt nil rl)). destruct Hx as [E|Hx]; [rewrite E, Nat.eqb_refl in O; rewrite E in NRL; cbn in O; lia|lia]. }
      rewrite FL, FP, FS, FB, FV, FLf, FRg. repeat first [rewrite (upd_ne _ p _ x) by auto|rewrite (upd_ne _ q _ x) by auto]. rewrite L1, R1. repeat split; try reflexivity.
      destruct n; [now rewrite upd_ne|]. destruct Xr as [Xr|Xr]; [discriminate|]. now rewrite !upd_ne. }
    destruct LK as (LK1 & LK2).
    assert (SZ : tsz (Node l p v c b (Node rl q w d e rr)) = tsz (Node (Node l p v c b rl) q w d e rr)) by (rewrite !tsz_node; lia).
    split; [exact LK1|split; [|split; [|split]]].
    + fold top. cbn [recs rt] in A2 |- *. apply Forall_cons_iff in A2 as (N1 & N2). apply Forall_app in N2 as (N2 & N3). apply Forall_cons_iff in N3 as (N4 & N5). apply Forall_app in N5 as (N5 & N6).
      constructor; [|apply Forall_app; split; [constructor; [|apply Forall_app; split]|]].
      * unfold node_ok. cbn [nid npar nl nr ns nb nv]. rewrite FL, FP, FLf, FRg, FS, FB, FV. rewrite (upd_ne _ p _ q) by auto. rewrite !upd_eq. rewrite (upd_ne _ p _ q) by auto. rewrite R1q.
        repeat split; auto. { destruct n; [apply upd_eq|]. rewrite upd_ne by auto. apply upd_eq. } { rewrite Gs. exact SZ. }
      * unfold node_ok. cbn [nid npar nl nr ns nb nv]. rewrite FL, FP, FLf, FRg, FS, FB, FV. rewrite (upd_ne _ q _ p) by auto. rewrite !upd_eq. rewrite (upd_ne _ q _ p) by auto. rewrite upd_eq, L1p, Grls, Gs, Gqs.
        repeat split; auto. fold (tsz (Node l p v c b rl)). rewrite !tsz_node. lia.
      * apply (recs_same h); [|exact N2]. intros x Hx. pose proof (O x) as Ox. apply SM.
        -- intros ->. rewrite Nat.eqb_refl in Ox. cbn in Ox. lia.
        -- intros ->. rewrite Nat.eqb_refl in Ox. cbn in Ox. lia.
        -- intros ->. lia.
        -- destruct n; [now right|left]. specialize (NRL eq_refl). intros ->. lia.
      * apply (recs_reparent h hF nil q p); [| | |exact N5].
        -- intros x Hx Nx. pose proof (O x) as Ox. apply SM; [| | |now left].
           ++ intros ->. rewrite Nat.eqb_refl in Ox. cbn in Ox. lia.
           ++ intros ->. rewrite Nat.eqb_refl in Ox. cbn in Ox. lia.
           ++ intros ->. lia.
        -- intros Nl. assert (n = false) as -> by (unfold n; destruct rl; congruence). specialize (NRL eq_refl). cbn.
           assert (Xt : rt nil rl <> top) by (intros E; rewrite <- E in TOP; specialize (O (rt nil rl)); lia).
           rewrite FL, FP, FLf, FRg, FS, FB, FV. repeat first [rewrite (upd_ne _ p) by auto|rewrite (upd_ne _ q) by auto]. rewrite upd_eq, L1, R1, !(upd_ne _ top) by auto. repeat split; auto; [destruct (isL k); reflexivity|destruct (isR k); reflexivity].
        -- intro x. specialize (O x). lia.
      * apply (recs_same h); [|exact N6]. intros x Hx. pose proof (O x) as Ox. apply SM.
        -- intros ->. rewrite Nat.eqb_refl in Ox. cbn in Ox. lia.
        -- intros ->. rewrite Nat.eqb_refl in Ox. cbn in Ox. lia.
        -- intros ->. lia.
        -- destruct n; [now right|left]. specialize (NRL eq_refl). intros ->. lia.
    + cbn [rt]. rewrite <- SZ. exact LK2.
    + intro x. specialize (O x). clear - O. rewrite !tids_node, !occ_app. cbn [occ]. rewrite ?occ_app. cbn [occ]. lia.
    + intro x. rewrite FN. intros Hx. apply A5. clear - Hx. rewrite !tids_node, !occ_app in Hx |- *. cbn [occ] in Hx |- *. rewrite ?occ_app in Hx. rewrite ?occ_app. cbn [occ] in Hx |- *. lia.
  - intros x Hx. unfold out in Hx. rewrite !tids_node, !occ_app in Hx. cbn [occ] in Hx. rewrite occ_app in Hx. cbn [occ] in Hx. apply SM.
    + intros ->. rewrite Nat.eqb_refl in Hx. cbn in Hx. lia.
    + intros ->. rewrite Nat.eqb_refl in Hx. cbn in Hx. lia.
    + intros ->. lia.
    + destruct n; [now right|left]. specialize (NRL eq_refl). intros ->. lia.
Qed.
Lemma rotate_right_run h nil k r p v c b lr q w d e ll : tok h nil k (Node (Node ll q w d e lr) p v c b r) ->
  exists h', rotate_right h p = Some (h', q) /\ tok h' nil k (Node ll q w d e (Node lr p v c b r)) /\
    (forall x, out nil (Node (Node ll q w d e lr) p v c b r) k x -> same h h' x) /\ live h' = live h /\ next h' = next h.
Proof.
  intros H. pose proof H as (A1 & A2 & A3 & A4 & A5). pose proof (tok_get _ _ _ _ _ _ _ _ _ H) as (Gp & Gl & Gr & Gs & Gb & Gv). cbn [rt] in Gl.
  pose proof (tok_left _ _ _ _ _ _ _ _ _ H) as Hq. pose proof (tok_get _ _ _ _ _ _ _ _ _ Hq) as (Gqp & Gql & Gqr & Gqs & Gqb & Gqv).
  pose proof (tok_right _ _ _ _ _ _ _ _ _ Hq) as Hrl. pose proof (tok_rt_siz _ _ _ _ Hrl) as Grls. pose proof (tok_rt_nil _ _ _ _ Hrl) as Grln. set (n := match lr with Leaf => true | _ => false end) in *.
  pose proof (tok_is_nil _ _ _ _ _ _ _ _ _ Hq) as Gqn. destruct (top_links _ _ _ _ H ltac:(discriminate)) as (Lt & _ & _).
  assert (O : forall x, Nat.b2n (nil =? x) + (occ x (tids r) + (Nat.b2n (p =? x) + (occ x (tids lr) + (Nat.b2n (q =? x) + occ x (tids ll)))) + occ x (cids k)) <= 1).
  { intro x. specialize (A4 x). rewrite !tids_node, !occ_app in A4. cbn [occ] in A4. clear - A4. lia. }
  assert (Lp : live h p = true) by (unfold gpar in Gp; destruct (live h p); [reflexivity|discriminate]).
  assert (Lq : live h q = true) by (unfold gpar in Gqp; destruct (live h q); [reflexivity|discriminate]).
  assert (Lr : live h (rt nil lr) = true) by (unfold gsiz in Grls; destruct (live h (rt nil lr)); [reflexivity|discriminate]).
  assert (Npq : p <> q) by (intros E; specialize (O p); rewrite E, !Nat.eqb_refl in O; cbn in O; lia).
  assert (Np : p <> nil) by (intros E; specialize (O p); rewrite E, !Nat.eqb_refl in O; cbn in O; lia).
  assert (Nq : q <> nil) by (intros E; specialize (O q); rewrite E, !Nat.eqb_refl in O; cbn in O; lia).
  set (top := ctop nil k) in *.
  assert (Ntop : top <> p /\ top <> q).
  { destruct (ctop_in nil k) as [(_ & E)|E]; fold top in E; [rewrite E; auto|]. split; intros E2; rewrite E2 in E; [specialize (O p)|specialize (O q)]; rewrite Nat.eqb_refl in O; cbn in O; lia. }
  destruct Ntop as (Ntp & Ntq).
  assert (Nr : rt nil lr <> p /\ rt nil lr <> q).
  { destruct (rt_in nil lr) as [(_ & E)|E]; [rewrite E; auto|]. split; intros E2; rewrite E2 in E; [specialize (O p)|specialize (O q)]; rewrite Nat.eqb_refl in O; cbn in O; lia. }
  destruct Nr as (Nrp & Nrq).
  unfold gpar in Gp, Gqp. unfold grgt in Gr, Gqr. unfold glft in Gl, Gql. unfold gsiz in Gs, Gqs, Grls. unfold gbal in Gb, Gqb. unfold gval in Gv, Gqv. rewrite Lp in *. rewrite Lq in *. rewrite Lr in *.
  injection Gp as Gp. injection Gqp as Gqp. injection Gr as Gr. injection Gqr as Gqr. injection Gl as Gl. injection Gql as Gql. injection Gs as Gs. injection Gqs as Gqs. injection Grls as Grls. injection Gb as Gb. injection Gqb as Gqb.
  unfold rotate_right. unfold glft at 1. rewrite Lp. cbn [obind]. unfold gsiz at 1. rewrite Lp. cbn [obind]. unfold gpar at 1. rewrite Lp. cbn [obind]. rewrite Gl, Gp.
  rewrite (mlo_run h top q p false Lt Gqn). cbn [obind].
  pose proof (fun x => mlo_rgt h nil k _ q false x H ltac:(discriminate)) as L1. pose proof (fun x => mlo_lft h nil k _ q false x H ltac:(discriminate)) as R1. cbn [rt] in L1, R1. fold top in L1, R1.
  set (h1 := mlo h top q p false) in *.
  assert (P1 : par h1 = upd (par h) q top) by reflexivity.
  assert (Live1 : live h1 = live h) by reflexivity. assert (Siz1 : siz h1 = siz h) by reflexivity. assert (Bal1 : bal h1 = bal h) by reflexivity. assert (Val1 : val h1 = val h) by reflexivity. assert (Nx1 : next h1 = next h) by reflexivity.
  clearbody h1.
  assert (L1q : rgt h1 q = rt nil lr) by (rewrite L1, upd_ne by auto; destruct (isR k); exact Gqr).
  assert (L1p : rgt h1 p = rt nil r) by (rewrite L1, upd_ne by auto; destruct (isR k); exact Gr).
  assert (R1q : lft h1 q = rt nil ll) by (rewrite R1, upd_ne by auto; destruct (isL k); exact Gql).
  assert (R1p : lft h1 p = q) by (rewrite R1, upd_ne by auto; destruct (isL k); exact Gl).
  unfold grgt at 1. rewrite Live1, Lq. cbn [obind]. rewrite L1q.
  assert (Rn : is_nil h1 (rt nil lr) = Some n).
  { unfold is_nil, gpar in *. rewrite Live1, Lr in *. cbn [obind] in *. rewrite P1, upd_ne by auto. exact Grln. }
  rewrite (mlo_run h1 p (rt nil lr) q n); [|rewrite Live1; exact Lp|exact Rn]. cbn [obind].
  assert (Nlq : rt nil r <> q). { destruct (rt_in nil r) as [(_ & E)|E]; [rewrite E; auto|]. intros E2; rewrite E2 in E; specialize (O q); rewrite Nat.eqb_refl in O; cbn in O; lia. }
  set (h2 := mlo h1 p (rt nil lr) q n).
  assert (P2 : par h2 = if n then par h1 else upd (par h1) (rt nil lr) p) by reflexivity.
  assert (L2 : rgt h2 = rgt h1) by (cbn; rewrite L1p, (eqb_ne _ _ Nlq); reflexivity).
  assert (R2 : lft h2 = upd (lft h1) p (rt nil lr)) by (cbn; rewrite R1p, Nat.eqb_refl; reflexivity).
  assert (Live2 : live h2 = live h1) by reflexivity. assert (Siz2 : siz h2 = siz h1) by reflexivity. assert (Bal2 : bal h2 = bal h1) by reflexivity. assert (Val2 : val h2 = val h1) by reflexivity. assert (Nx2 : next h2 = next h1) by reflexivity.
  clearbody h2. unfold gsiz at 1. rewrite Live2, Live1, Lp. cbn [obind]. unfold grgt at 1. rewrite Live2, Live1, Lq. cbn [obind]. rewrite L2, L1q.
  unfold gsiz at 1. rewrite Live2, Live1, Lr. cbn [obind]. unfold gsiz at 1. rewrite Live2, Live1, Lq. cbn [obind].
  unfold ssiz at 1. rewrite Live2, Live1, Lp. cbn [obind]. unfold srgt. cbn [live with_siz]. rewrite Live2, Live1, Lq. cbn [obind]. unfold spar. cbn [live with_siz with_rgt]. rewrite Live2, Live1, Lp. cbn [obind].
  unfold ssiz. cbn [live with_siz with_rgt with_par]. rewrite Live2, Live1, Lq. cbn [obind].
  eexists. split; [reflexivity|].
  match goal with |- tok ?hh _ _ _ /\ _ => set (hF := hh) end.
  assert (FL : live hF = live h) by (unfold hF; cbn; congruence). assert (FN : next hF = next h) by (unfold hF; cbn; congruence).
  assert (FB : bal hF = bal h) by (unfold hF; cbn; congruence). assert (FV : val hF = val h) by (unfold hF; cbn; congruence).
  assert (FP : par hF = upd (if n then upd (par h) q top else upd (upd (par h) q top) (rt nil lr) p) p q) by (unfold hF; cbn; rewrite P2, P1; reflexivity).
  assert (FLf : rgt hF = upd (rgt h1) q p) by (unfold hF; cbn; rewrite L2; reflexivity).
  assert (FRg : lft hF = upd (lft h1) p (rt nil lr)) by (unfold hF; cbn; rewrite R2; reflexivity).
  assert (FS : siz hF = upd (upd (siz h) p (siz h p + (siz h (rt nil lr) - siz h q))%Z) q (siz h p)) by (unfold hF; cbn; rewrite Siz2, Siz1; reflexivity).
  clearbody hF.
  assert (SM : forall x, x <> p -> x <> q -> x <> top -> (x <> rt nil lr \/ n = true) -> same h hF x).
  { intros x X1 X2 X3 X4. unfold same. rewrite FL, FP, FLf, FRg, FS, FB, FV. rewrite !upd_ne by auto. rewrite L1, R1, !upd_ne by auto.
    repeat split; try reflexivity; [|destruct (isL k); reflexivity|destruct (isR k); reflexivity].
    destruct n; [now rewrite upd_ne|]. destruct X4 as [X4|X4]; [|discriminate]. now rewrite !upd_ne. }
  assert (NRL : n = false -> 1 <= occ (rt nil lr) (tids lr)) by (destruct (rt_in nil lr) as [(E & _)|E]; [subst n; rewrite E; discriminate|auto]).
  assert (TOP : 1 <= Nat.b2n (nil =? top) + occ top (cids k)) by (destruct (ctop_in nil k) as [(_ & E)|E]; fold top in E; [rewrite E, Nat.eqb_refl; cbn; lia|lia]).
  assert (PV : val h p = Some v /\ val h q = Some w) by auto. destruct PV as (PV & QV).
  split; [|split; [|auto]].
  - assert (LK : nil_ok hF nil (croot k q) /\ Forall (node_ok hF) (crecs nil nil k q (tsz (Node (Node ll q w d e lr) p v c b r)))).
    { apply (relink h hF nil k p q); [intro x; specialize (O x); lia|exact A1|exact A3|].
      apply linked_intro; [|intro x; specialize (O x); lia]. intros x Hx. fold top.
      assert (Xp : x <> p /\ x <> q).
      { destruct Hx as [-> |Hx]; [auto|]. split; intros ->; [specialize (O p)|specialize (O q)]; rewrite Nat.eqb_refl in O; cbn in O; lia. }
      destruct Xp as (Xp & Xq).
      assert (Xr : n = true \/ x <> rt nil lr).
      { destruct n; [auto|right]. specialize (NRL eq_refl). intros ->. specialize (O (rt nil lr)). destruct Hx as [E|Hx]; [rewrite E, Nat.eqb_refl in O; rewrite E in NRL; cbn in O; lia|lia]. }
      rewrite FL, FP, FS, FB, FV, FLf, FRg. repeat first [rewrite (upd_ne _ p _ x) by auto|rewrite (upd_ne _ q _ x) by auto]. rewrite L1, R1. repeat split; try reflexivity.
      destruct n; [now rewrite upd_ne|]. destruct Xr as [Xr|Xr]; [discriminate|]. now rewrite !upd_ne. }
    destruct LK as (LK1 & LK2).
    assert (SZ : tsz (Node (Node ll q w d e lr) p v c b r) = tsz (Node ll q w d e (Node lr p v c b r))) by (rewrite !tsz_node; lia).
    split; [exact LK1|split; [|split; [|split]]].
    + fold top. cbn [recs rt] in A2 |- *. apply Forall_cons_iff in A2 as (N1 & N2). apply Forall_app in N2 as (N2 & N3). apply Forall_cons_iff in N2 as (N4 & N2). apply Forall_app in N2 as (N6 & N5).
      constructor; [|apply Forall_app; split; [|constructor; [|apply Forall_app; split]]].
      * unfold node_ok. cbn [nid npar nl nr ns nb nv]. rewrite FL, FP, FLf, FRg, FS, FB, FV. rewrite (upd_ne _ p _ q) by auto. rewrite !upd_eq. rewrite (upd_ne _ p _ q) by auto. rewrite R1q.
        repeat split; auto. { destruct n; [apply upd_eq|]. rewrite upd_ne by auto. apply upd_eq. } { rewrite Gs. exact SZ. }
      * apply (recs_same h); [|exact N6]. intros x Hx. pose proof (O x) as Ox. apply SM.
        -- intros ->. rewrite Nat.eqb_refl in Ox. cbn in Ox. lia.
        -- intros ->. rewrite Nat.eqb_refl in Ox. cbn in Ox. lia.
        -- intros ->. lia.
        -- destruct n; [now right|left]. specialize (NRL eq_refl). intros ->. lia.
      * unfold node_ok. cbn [nid npar nl nr ns nb nv]. rewrite FL, FP, FLf, FRg, FS, FB, FV. rewrite (upd_ne _ q _ p) by auto. rewrite !upd_eq. rewrite (upd_ne _ q _ p) by auto. rewrite upd_eq, L1p, Grls, Gs, Gqs.
        repeat split; auto. fold (tsz (Node lr p v c b r)). rewrite !tsz_node. lia.
      * apply (recs_reparent h hF nil q p); [| | |exact N5].
        -- intros x Hx Nx. pose proof (O x) as Ox. apply SM; [| | |now left].
           ++ intros ->. rewrite Nat.eqb_refl in Ox. cbn in Ox. lia.
           ++ intros ->. rewrite Nat.eqb_refl in Ox. cbn in Ox. lia.
           ++ intros ->. lia.
        -- intros Nl. assert (n = false) as -> by (unfold n; destruct lr; congruence). specialize (NRL eq_refl). cbn.
           assert (Xt : rt nil lr <> top) by (intros E; rewrite <- E in TOP; specialize (O (rt nil lr)); lia).
           rewrite FL, FP, FLf, FRg, FS, FB, FV. repeat first [rewrite (upd_ne _ p) by auto|rewrite (upd_ne _ q) by auto]. rewrite upd_eq, L1, R1, !(upd_ne _ top) by auto. repeat split; auto; [destruct (isL k); reflexivity|destruct (isR k); reflexivity].
        -- intro x. specialize (O x). lia.
      * apply (recs_same h); [|exact N3]. intros x Hx. pose proof (O x) as Ox. apply SM.
        -- intros ->. rewrite Nat.eqb_refl in Ox. cbn in Ox. lia.
        -- intros ->. rewrite Nat.eqb_refl in Ox. cbn in Ox. lia.
        -- intros ->. lia.
        -- destruct n; [now right|left]. specialize (NRL eq_refl). intros ->. lia.
    + cbn [rt]. rewrite <- SZ. exact LK2.
    + intro x. specialize (O x). clear - O. rewrite !tids_node, !occ_app. cbn [occ]. rewrite ?occ_app. cbn [occ]. lia.
    + intro x. rewrite FN. intros Hx. apply A5. clear - Hx. rewrite !tids_node, !occ_app in Hx |- *. cbn [occ] in Hx |- *. rewrite ?occ_app in Hx. rewrite ?occ_app. cbn [occ] in Hx |- *. lia.
  - intros x Hx. unfold out in Hx. rewrite !tids_node, !occ_app in Hx. cbn [occ] in Hx. apply SM.
    + intros ->. rewrite Nat.eqb_refl in Hx. cbn in Hx. lia.
    + intros ->. rewrite Nat.eqb_refl in Hx. cbn in Hx. lia.
    + intros ->. lia.
    + destruct n; [now right|left]. specialize (NRL eq_refl). intros ->. lia.
Qed.
End P.
