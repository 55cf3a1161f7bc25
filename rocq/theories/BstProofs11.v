(** Binary search trees: insertion and erasure by key. *)
From Verif Require Import Lib BstModel BstSpec BstProofs BstProofs2 BstProofs3 BstProofs4 BstProofs5 BstProofs6 BstProofs7 BstProofs8 BstProofs9 BstProofs10.
From Coq Require Import Permutation.
Open Scope nat_scope.

Section P.
Context {V K : Type}.
Variable key : V -> K.
Variable cmp : K -> K -> bool.
Notation tree := (tree V).
Notation entry := (nat * V * Z)%type.
Notation heap := (heap (V := V)).
Notation ctx := (ctx (V := V)).
Implicit Types (h : heap) (t : tree) (k : ctx) (es : list entry).
Notation less := (less key cmp).
Notation greater := (greater key cmp).
Notation equiv := (equiv key cmp).
Notation sorted := (sorted key cmp).
Notation inserted := (inserted key cmp).
Notation inserted_at := (inserted_at key cmp).
Notation erased := (erased key cmp).
Hypothesis SW : strict_weak cmp.

Lemma existsb_none (f : entry -> bool) es : Forall (fun e => f e = false) es -> existsb f es = false.
Proof. induction 1 as [|x l H _ IH]; [reflexivity|]. cbn. now rewrite H, IH. Qed.
Lemma find_none' (f : entry -> bool) es : Forall (fun e => f e = false) es -> find f es = None.
Proof. induction 1 as [|x l H _ IH]; [reflexivity|]. cbn. now rewrite H, IH. Qed.
Lemma find_app' (f : entry -> bool) (a b : list entry) : Forall (fun e => f e = false) a -> find f (a ++ b) = find f b.
Proof. induction 1 as [|x l H _ IH]; [reflexivity|]. cbn. now rewrite H, IH. Qed.
Lemma map_ext_F (f g : entry -> entry) es : Forall (fun e => f e = g e) es -> map f es = map g es.
Proof. induction 1 as [|x l H _ IH]; [reflexivity|]. cbn. now rewrite H, IH. Qed.
Lemma map_id_F (f : entry -> entry) es : Forall (fun e => f e = e) es -> map f es = es.
Proof. induction 1 as [|x l H _ IH]; [reflexivity|]. cbn. now rewrite H, IH. Qed.

(** sorted lists and replaced, added or removed entries *)
Lemma sorted_app d (a b : list entry) : sorted d (a ++ b) <-> sorted d a /\ sorted d b /\ Forall (fun x => Forall (fun y => match d with STORE => cmp (key (evl y)) (key (evl x)) = false | _ => cmp (key (evl x)) (key (evl y)) = true end) b) a.
Proof.
  unfold BstSpec.sorted. induction a as [|x a IH]; cbn [app].
  - split; [intros H; repeat split; auto; constructor|tauto].
  - split.
    + intros H. inversion H as [|? ? H1 H2]; subst. apply IH in H2 as (H2 & H3 & H4). apply Forall_app in H1 as (H1 & H5). split; [constructor; assumption|split; [exact H3|constructor; assumption]].
    + intros (H1 & H2 & H3). inversion H1 as [|? ? H4 H5]; subst. apply Forall_cons_iff in H3 as (H3 & H6). constructor; [apply Forall_app; auto|]. apply IH. auto.
Qed.
Lemma sorted_cons d (e : entry) es : sorted d (e :: es) <-> sorted d es /\ Forall (fun y => match d with STORE => cmp (key (evl y)) (key (evl e)) = false | _ => cmp (key (evl e)) (key (evl y)) = true end) es.
Proof. unfold BstSpec.sorted. split; [intros H; inversion H; auto|intros (H1 & H2); constructor; auto]. Qed.
Lemma sorted_same_keys d es es' : map evl es = map evl es' -> sorted d es -> sorted d es'.
Proof.
  revert es'. induction es as [|e es IH]; intros [|e' es'] E H; try discriminate; [constructor|]. cbn in E. injection E as E1 E2. apply sorted_cons in H as (H1 & H2). apply sorted_cons. split; [auto|]. rewrite <- E1.
  clear - E2 H2. revert es' E2. induction H2 as [|x l Hx _ IH]; intros [|x' l'] E; try discriminate; constructor; cbn in E; injection E as E1 E2; [rewrite <- E1; exact Hx|auto].
Qed.
Lemma sorted_del d (a m b : list entry) : sorted d (a ++ m ++ b) -> sorted d (a ++ b).
Proof.
  rewrite !sorted_app. intros (H1 & (_ & H3 & _) & H4). split; [exact H1|split; [exact H3|]]. eapply Forall_impl; [|exact H4]. intros x Hx. apply Forall_app in Hx. tauto.
Qed.

Lemma insert_run d h nil es v cnt : bst_rep h nil es -> sorted d es -> unit_counts d es -> (1 <= cnt)%Z ->
  exists h', bst_insert key cmp d h nil v cnt = Some (h', inserted_at d (next h) v es) /\ becomes h h' nil es (inserted d (next h) v cnt es) /\
    sorted d (inserted d (next h) v cnt es) /\ unit_counts d (inserted d (next h) v cnt es).
Proof.
  intros R S U C. assert (MC : (1 <= mcnt d cnt)%Z) by (unfold mcnt; destruct d; lia). set (q := key v).
  destruct (sorted_split key cmp SW d q es S) as (a & m & b & Es & A & M & B & LM).
  assert (A1 : Forall (fun e => less q e = true) a) by (eapply Forall_impl; [|exact A]; cbn; tauto).
  assert (A2 : Forall (fun e => greater q e = false) a) by (eapply Forall_impl; [|exact A]; cbn; tauto).
  assert (A3 : Forall (fun e => equiv q e = false) a) by (eapply Forall_impl; [|exact A]; cbn; tauto).
  assert (M1 : Forall (fun e => less q e = false) m) by (eapply Forall_impl; [|exact M]; cbn; tauto).
  assert (M2 : Forall (fun e => greater q e = false) m) by (eapply Forall_impl; [|exact M]; cbn; tauto).
  assert (M3 : Forall (fun e => equiv q e = true) m) by (eapply Forall_impl; [|exact M]; cbn; tauto).
  assert (B1 : Forall (fun e => less q e = false) b) by (eapply Forall_impl; [|exact B]; cbn; tauto).
  assert (B2 : Forall (fun e => greater q e = true) b) by (eapply Forall_impl; [|exact B]; cbn; tauto).
  assert (B3 : Forall (fun e => equiv q e = false) b) by (eapply Forall_impl; [|exact B]; cbn; tauto).
  destruct (rep_tok _ _ _ R) as (t & T & E & P). pose proof (tok_tid_len _ _ _ T) as L. assert (Rt := tok_root _ _ _ T).
  assert (CS : (d = STORE \/ m = []) \/ d <> STORE /\ exists e, m = [e]).
  { destruct LM as [LM|LM]; [auto|]. destruct m as [|e m]; [auto|]. destruct m; [|cbn in LM; lia]. destruct d; [right|right|auto]; (split; [discriminate|eauto]). }
  unfold bst_insert. rewrite Rt. cbn [obind]. fold q. destruct CS as [CS|(ND & e & ->)].
  - assert (EN : inserted d (next h) v cnt es = (a ++ m) ++ (next h, v, mcnt d cnt) :: b).
    { assert (F : filter (fun e => negb (greater q e)) es ++ (next h, v, times d cnt) :: filter (greater q) es = (a ++ m) ++ (next h, v, mcnt d cnt) :: b).
      { rewrite Es, !filter_app, (filter_nall _ a A2), (filter_nall _ m M2), (filter_nnone _ b B2), (filter_none _ a A2), (filter_none _ m M2), (filter_all _ b B2), app_nil_r. reflexivity. }
      unfold BstSpec.inserted. fold q. rewrite F. destruct d; [| |reflexivity]; (destruct CS as [CS| ->]; [discriminate|]); rewrite Es, existsb_none by (apply Forall_app; auto); reflexivity. }
    assert (IA : inserted_at d (next h) v es = next h).
    { unfold BstSpec.inserted_at. fold q. destruct d; [| |reflexivity]; (destruct CS as [CS| ->]; [discriminate|]); rewrite Es, find_none' by (apply Forall_app; auto); reflexivity. }
    rewrite EN, IA. assert (E1 : entries t = (a ++ m) ++ b) by (rewrite E, <- app_assoc; exact Es).
    assert (AM : Forall (fun e => greater q e = false) (a ++ m)) by (apply Forall_app; auto).
    destruct (insert_loop_new key cmp d h nil q t [] (loops h) (a ++ m) b T L E1 AM B2) as (k' & El & Pk & Lk & Rk).
    { destruct CS as [CS| ->]; [auto|right]. rewrite app_nil_r. exact A1. }
    cbn [ctop isL] in El. rewrite El. cbn [obind]. cbn [plug cleft cright app] in Pk, Lk, Rk. rewrite app_nil_r in Rk.
    apply (tok_move _ _ [] t k' _ Pk) in T. destruct (insert_node_new d h nil k' v cnt (isL k') T (or_intror eq_refl)) as (h' & bl & Ei & T' & S' & Lv & Nx). exists h'. split; [exact Ei|].
    assert (E2 : entries (plug k' (Node Leaf (next h) v (mcnt d cnt) bl Leaf)) = (a ++ m) ++ (next h, v, mcnt d cnt) :: b) by (rewrite entries_plug, Lk, Rk; reflexivity).
    assert (E3 : entries (plug k' (V := V) Leaf) = (a ++ m) ++ b) by (rewrite entries_plug, Lk, Rk; reflexivity).
    assert (Es' : es = (a ++ m) ++ b) by (rewrite <- app_assoc; exact Es).
    assert (PP : pos_counts (a ++ m) /\ pos_counts b) by (apply pos_app; rewrite <- Es'; exact P). destruct PP as (P1 & P2).
    split; [|split].
    + rewrite Es'. apply (becomes_add h h' nil k' Leaf k' (Node Leaf (next h) v (mcnt d cnt) bl Leaf)); auto; [rewrite E3, <- Es'; exact P|]. rewrite E2. apply pos_app. split; [exact P1|]. apply pos_cons. auto.
    + rewrite Es' in S. apply sorted_app in S as (S1 & S2 & S3). apply sorted_app. split; [exact S1|]. split.
      * apply sorted_cons. split; [exact S2|]. eapply Forall_impl; [|exact B2]. unfold BstSpec.greater. intros y Hy. cbn [evl fst snd]. fold q. destruct d; auto. apply (sw_asym cmp SW). exact Hy.
      * destruct d; [| |].
        -- destruct CS as [CS| ->]; [discriminate|]. rewrite app_nil_r in *. rewrite Forall_forall in *. intros x Hx. constructor; [exact (A1 x Hx)|apply S3; exact Hx].
        -- destruct CS as [CS| ->]; [discriminate|]. rewrite app_nil_r in *. rewrite Forall_forall in *. intros x Hx. constructor; [exact (A1 x Hx)|apply S3; exact Hx].
        -- rewrite Forall_forall in *. intros x Hx. constructor; [exact (AM x Hx)|apply S3; exact Hx].
    + rewrite Es' in U. destruct d; [|exact I|]; cbn [unit_counts mcnt] in *; apply Forall_app in U as (U1 & U2); apply Forall_app; (split; [exact U1|constructor; [reflexivity|exact U2]]).
  - cbn [app] in Es. apply Forall_cons_iff in M3 as (M3 & _).
    assert (IA : inserted_at d (next h) v es = eid e).
    { unfold BstSpec.inserted_at. fold q. rewrite Es, find_app' by exact A3. cbn [find]. rewrite M3. destruct d; [reflexivity|reflexivity|congruence]. }
    assert (EX : existsb (equiv q) es = true) by (apply existsb_exists; exists e; split; [rewrite Es; apply in_or_app; right; now left|exact M3]).
    assert (EN : inserted d (next h) v cnt es = a ++ (eid e, evl e, (ecn e + match d with COUNT => cnt | _ => 0 end)%Z) :: b).
    { unfold BstSpec.inserted. fold q. rewrite EX. destruct d; [| |congruence].
      - rewrite Z.add_0_r, Es. destruct e as [[? ?] ?]; reflexivity.
      - rewrite Es, map_app. cbn [map]. rewrite M3. f_equal; [|f_equal]; apply map_id_F; eapply Forall_impl; try exact A3; try exact B3; cbn; intros x ->; reflexivity. }
    rewrite EN, IA. assert (E1 : entries t = a ++ e :: b) by (rewrite E; exact Es).
    assert (AA : Forall (fun e => less q e = true /\ greater q e = false) a) by (eapply Forall_impl; [|exact A]; cbn; tauto).
    destruct (insert_loop_old key cmp d h nil q ND t [] (loops h) a b e T L E1 AA M3 B2) as (k' & l & bl & r & El & Pk & Lk & Rk).
    cbn [ctop isL] in El. rewrite El. cbn [obind plug cleft cright app] in *. rewrite app_nil_r in Rk.
    assert (SO : sorted d (a ++ (eid e, evl e, (ecn e + match d with COUNT => cnt | _ => 0 end)%Z) :: b)) by (apply (sorted_same_keys d es); [rewrite Es, !map_app; reflexivity|exact S]).
    destruct d; [| |congruence].
    + exists h. rewrite Z.add_0_r in *. replace (eid e, evl e, ecn e) with e in * by (destruct e as [[? ?] ?]; reflexivity). rewrite <- Es in *. split; [reflexivity|split; [apply becomes_refl; exact R|auto]].
    + apply (tok_move _ _ [] t k' _ Pk) in T. destruct (insert_node_old COUNT h nil k' l (eid e) (evl e) (ecn e) bl r v cnt (isL k') T (or_intror eq_refl)) as (h' & Ei & T' & S' & Lv & Nx). exists h'. split; [exact Ei|]. cbn [mcnt] in *.
      assert (E2 : entries (plug k' (Node l (eid e) (evl e) (ecn e + cnt) bl r)) = a ++ (eid e, evl e, (ecn e + cnt)%Z) :: b) by (rewrite entries_plug; cbn [entries]; rewrite <- Lk, <- Rk, <- !app_assoc; reflexivity).
      assert (E3 : entries (plug k' (Node l (eid e) (evl e) (ecn e) bl r)) = a ++ e :: b) by (rewrite entries_plug; cbn [entries]; rewrite <- Lk, <- Rk, <- !app_assoc; destruct e as [[? ?] ?]; reflexivity).
      split; [|split; [exact SO|exact I]]. rewrite Es in P |- *. rewrite <- E2, <- E3. apply becomes_same; auto; [rewrite E3; exact P| |rewrite E2, E3, !ids_app, !ids_cons; reflexivity].
      rewrite E2. apply pos_app in P as (P1 & P2). apply pos_cons in P2 as (P2 & P3). apply pos_app. split; [exact P1|]. apply pos_cons. split; [cbn; lia|exact P3].
Qed.

Lemma flat_map_F (f g : entry -> list entry) es : Forall (fun e => f e = g e) es -> flat_map f es = flat_map g es.
Proof. induction 1 as [|x l H _ IH]; [reflexivity|]. cbn. now rewrite H, IH. Qed.
Lemma flat_map_id es : flat_map (fun e : entry => [e]) es = es.
Proof. induction es as [|e es IH]; [reflexivity|]. cbn. now rewrite IH. Qed.
Lemma erase_run d h nil es q cnt : bst_rep h nil es -> sorted d es -> unit_counts d es -> (1 <= cnt)%Z ->
  exists h' it, bst_erase key cmp d h nil q cnt = Some (h', it) /\ becomes h h' nil es (erased d q cnt es) /\ sorted d (erased d q cnt es) /\ unit_counts d (erased d q cnt es).
Proof.
  intros R S U C. destruct (lookups key cmp SW d h nil es q R S) as (Fi & Lo & Up & _). destruct (sorted_split key cmp SW d q es S) as (a & m & b & Es & A & M & B & LM).
  assert (A1 : Forall (fun e => less q e = true) a) by (eapply Forall_impl; [|exact A]; cbn; tauto).
  assert (A3 : Forall (fun e => equiv q e = false) a) by (eapply Forall_impl; [|exact A]; cbn; tauto).
  assert (M1 : Forall (fun e => less q e = false) m) by (eapply Forall_impl; [|exact M]; cbn; tauto).
  assert (M2 : Forall (fun e => greater q e = false) m) by (eapply Forall_impl; [|exact M]; cbn; tauto).
  assert (M3 : Forall (fun e => equiv q e = true) m) by (eapply Forall_impl; [|exact M]; cbn; tauto).
  assert (B1 : Forall (fun e => less q e = false) b) by (eapply Forall_impl; [|exact B]; cbn; tauto).
  assert (B2 : Forall (fun e => greater q e = true) b) by (eapply Forall_impl; [|exact B]; cbn; tauto).
  assert (B3 : Forall (fun e => equiv q e = false) b) by (eapply Forall_impl; [|exact B]; cbn; tauto).
  assert (A2 : Forall (fun e => greater q e = false) a) by (eapply Forall_impl; [|exact A]; cbn; tauto).
  assert (FE : filter (equiv q) es = m) by (rewrite Es, !filter_app, (filter_none _ a A3), (filter_all _ m M3), (filter_none _ b B3), app_nil_r; reflexivity).
  assert (FG : filter (greater q) es = b) by (rewrite Es, !filter_app, (filter_none _ a A2), (filter_none _ m M2), (filter_all _ b B2); reflexivity).
  assert (NL : filter (fun e => negb (less q e)) es = m ++ b) by (rewrite Es, !filter_app, (filter_nnone _ a A1), (filter_nall _ m M1), (filter_nall _ b B1); reflexivity).
  rewrite FE in Fi. rewrite FG in Up. rewrite NL in Lo.
  assert (EE : erased d q cnt es = a ++ flat_map (minus d cnt) m ++ b).
  { unfold BstSpec.erased. rewrite Es, !flat_map_app. f_equal; [|f_equal].
    - rewrite <- (flat_map_id a) at 2. apply flat_map_F. eapply Forall_impl; [|exact A3]. cbn. intros x ->. reflexivity.
    - apply flat_map_F. eapply Forall_impl; [|exact M3]. cbn. intros x ->. reflexivity.
    - rewrite <- (flat_map_id b) at 2. apply flat_map_F. eapply Forall_impl; [|exact B3]. cbn. intros x ->. reflexivity. }
  rewrite EE. assert (SU : sorted d (a ++ flat_map (minus d cnt) m ++ b) /\ unit_counts d (a ++ flat_map (minus d cnt) m ++ b)).
  { assert (SI : d <> COUNT -> flat_map (minus d cnt) m = []) by (intros Nd; clear - Nd; induction m as [|e m IH]; [reflexivity|]; cbn; rewrite IH; destruct d; [reflexivity|congruence|reflexivity]).
    destruct d.
    - rewrite SI by discriminate. cbn [app]. rewrite Es in S, U. split; [exact (sorted_del _ _ _ _ S)|]. cbn in *. rewrite !Forall_app in U. apply Forall_app. tauto.
    - split; [|exact I]. destruct LM as [LM|LM]; [discriminate|]. destruct m as [|e m]; [cbn; rewrite Es in S; exact S|]. destruct m; [|cbn in LM; lia]. cbn [flat_map minus]. rewrite app_nil_r. destruct (cnt <? ecn e)%Z.
      + apply (sorted_same_keys COUNT es); [rewrite Es, !map_app; reflexivity|exact S].
      + rewrite Es in S. exact (sorted_del _ _ _ _ S).
    - rewrite SI by discriminate. cbn [app]. rewrite Es in S, U. split; [exact (sorted_del _ _ _ _ S)|]. cbn in *. rewrite !Forall_app in U. apply Forall_app. tauto. }
  assert (KEY : d <> STORE -> exists h' it, erase_node d h nil (first_it nil m) cnt = Some (h', it) /\ becomes h h' nil es (a ++ flat_map (minus d cnt) m ++ b)).
  { intros Nd. destruct LM as [LM|LM]; [contradiction|]. destruct m as [|e m]; [|destruct m; [|cbn in LM; lia]].
    - exists h, nil. cbn [first_it]. destruct (rep_tok _ _ _ R) as (t & T & _). unfold erase_node. rewrite (tok_nil_nil _ _ _ _ T). cbn [obind flat_map app]. split; [reflexivity|]. cbn [app] in Es. rewrite <- Es. apply becomes_refl. exact R.
    - cbn [first_it flat_map app]. rewrite app_nil_r. cbn [app] in Es. rewrite Es in R, U. destruct (erase_at d h nil a e b cnt R C U) as (h' & it & E1 & E2 & _). exists h', it. rewrite Es. auto. }
  unfold bst_erase. destruct d.
  - rewrite Fi. cbn [obind]. destruct (KEY ltac:(discriminate)) as (h' & it & E1 & E2). exists h', it. auto.
  - rewrite Fi. cbn [obind]. destruct (KEY ltac:(discriminate)) as (h' & it & E1 & E2). exists h', it. auto.
  - rewrite Lo. cbn [obind]. rewrite Up. cbn [obind]. rewrite Es in R, U. destruct (erase_range_run STORE (2 ^ 31 - 1) nil ltac:(lia) m a b h (loops h) R U) as (h' & E1 & E2 & _).
    + destruct (rep_tok _ _ _ R) as (t & T & Et & _). pose proof (tok_tid_len _ _ _ T) as L. unfold tids, ids in L. rewrite Et, map_length, !app_length in L. unfold loops. lia.
    + exists h', (first_it nil b). split; [exact E1|split; [|exact SU]]. rewrite Es. replace (flat_map (minus STORE cnt) m) with (flat_map (minus STORE (2 ^ 31 - 1)) m) by (apply flat_map_ext; reflexivity). exact E2.
Qed.
Lemma erase_range_at d h nil (a m b : list entry) cnt : bst_rep h nil (a ++ m ++ b) -> (1 <= cnt)%Z -> unit_counts d (a ++ m ++ b) ->
  exists h', erase_range d h nil (first_it nil (m ++ b)) (first_it nil b) cnt = Some (h', first_it nil b) /\ becomes h h' nil (a ++ m ++ b) (a ++ flat_map (minus d cnt) m ++ b).
Proof.
  intros R C U. destruct (erase_range_run d cnt nil C m a b h (loops h) R U) as (h' & E1 & E2 & _); [|eauto].
  destruct (rep_tok _ _ _ R) as (t & T & Et & _). pose proof (tok_tid_len _ _ _ T) as L. unfold tids, ids in L. rewrite Et, map_length, !app_length in L. unfold loops. lia.
Qed.
End P.
