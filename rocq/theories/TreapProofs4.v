(** Treaps: erasure by key, copies and histories. *)
From Verif Require Import Lib BstModel BstSpec BstProofs BstProofs2 BstProofs3 BstProofs4 BstProofs5 BstProofs8 BstProofs9 BstProofs10 BstProofs11 BstProofs12 BstProofs13 TreapModel TreapSpec TreapProofs TreapProofs2 TreapProofs3.
Open Scope nat_scope.

Section P.
Context {V K : Type}.
Notation entry := (nat * V * Z)%type.
Notation heap := (heap (V := V)).
Notation tree := (tree V).
Notation ctx := (ctx (V := V)).
Variable key : V -> K.
Variable cmp : K -> K -> bool.
Hypothesis SW : strict_weak cmp.
Implicit Types (h : heap) (es : list entry).
Notation less := (less key cmp). Notation greater := (greater key cmp). Notation equiv := (equiv key cmp).

Lemma treap_erase_run d h nil es q cnt : bst_rep h nil es -> sorted key cmp d es -> unit_counts d es -> (1 <= cnt)%Z ->
  exists h' res, treap_erase key cmp d h nil q cnt = Some (h', res) /\ becomes h h' nil es (erased key cmp d q cnt es) /\ sorted key cmp d (erased key cmp d q cnt es) /\ unit_counts d (erased key cmp d q cnt es) /\
    priorities_kept h h' es (erased key cmp d q cnt es) /\ (heap_ordered h es -> clean_op key cmp d (OpErase q cnt) es -> heap_ordered h' (erased key cmp d q cnt es)).
Proof.
  intros R S U C. destruct (lookups key cmp SW d h nil es q R S) as (Fi & Lo & Up & _). destruct (erase_run key cmp SW d h nil es q cnt R S U C) as (_ & _ & _ & _ & SS & UU). destruct (sorted_split key cmp SW d q es S) as (a & m & b & Es & A & M & B & LM).
  assert (A1 : Forall (fun e => less q e = true) a) by (eapply Forall_impl; [|exact A]; cbn; tauto).
  assert (A3 : Forall (fun e => equiv q e = false) a) by (eapply Forall_impl; [|exact A]; cbn; tauto).
  assert (M1 : Forall (fun e => less q e = false) m) by (eapply Forall_impl; [|exact M]; cbn; tauto).
  assert (M2 : Forall (fun e => greater q e = false) m) by (eapply Forall_impl; [|exact M]; cbn; tauto).
  assert (M3 : Forall (fun e => equiv q e = true) m) by (eapply Forall_impl; [|exact M]; cbn; tauto).
  assert (B1 : Forall (fun e => less q e = false) b) by (eapply Forall_impl; [|exact B]; cbn; tauto).
  assert (B2 : Forall (fun e => greater q e = true) b) by (eapply Forall_impl; [|exact B]; cbn; tauto).
  assert (B3 : Forall (fun e => equiv q e = false) b) by (eapply Forall_impl; [|exact B]; cbn; tauto).
  assert (A2 : Forall (fun e => greater q e = false) a) by (eapply Forall_impl; [|exact A]; cbn; tauto).
  assert (FE : filter (equiv q) es = m) by (rewrite Es, !filter_app, (filter_none _ a A3), (filter_all _ m M3), (filter_none _ b B3), app_nil_r; reflexivity).
  assert (FG : filter (greater q) es = b) by (rewrite Es, !filter_app, (filter_none _ a A2), (filter_none _ m M2), (filter_all _ b B2); reflexivity).
  assert (NL : filter (fun e => negb (less q e)) es = m ++ b) by (rewrite Es, !filter_app, (filter_nnone _ a A1), (filter_nall _ m M1), (filter_nall _ b B1); reflexivity).
  rewrite FE in Fi. rewrite FG in Up. rewrite NL in Lo.
  assert (EE : erased key cmp d q cnt es = a ++ flat_map (minus d cnt) m ++ b).
  { unfold BstSpec.erased. rewrite Es, !flat_map_app. f_equal; [|f_equal].
    - rewrite <- (flat_map_id a) at 2. apply flat_map_F. eapply Forall_impl; [|exact A3]. cbn. intros x ->. reflexivity.
    - apply flat_map_F. eapply Forall_impl; [|exact M3]. cbn. intros x ->. reflexivity.
    - rewrite <- (flat_map_id b) at 2. apply flat_map_F. eapply Forall_impl; [|exact B3]. cbn. intros x ->. reflexivity. }
  rewrite EE in *.
  assert (CL : clean_op key cmp d (OpErase q cnt) es -> flat_map (minus d cnt) m = []).
  { intros [Nd|Q]; [clear - Nd; induction m as [|e m IH]; [reflexivity|]; cbn; rewrite IH; destruct d; [reflexivity|congruence|reflexivity]|].
    assert (Q' : Forall (fun e => ecn e <= cnt)%Z m). { rewrite Es, !Forall_app in Q. destruct Q as (_ & Q & _). clear - Q M3. rewrite Forall_forall in *. auto. }
    clear - Q'. induction Q' as [|e m Q _ IH]; [reflexivity|]. cbn. rewrite IH. unfold minus. destruct d; try reflexivity. destruct (Z.ltb_spec cnt (ecn e)); [lia|reflexivity]. }
  assert (KEY : d <> STORE -> exists h' it, treap_erase_at d h nil (first_it nil m) cnt = Some (h', it) /\ becomes h h' nil es (a ++ flat_map (minus d cnt) m ++ b) /\
    priorities_kept h h' es (a ++ flat_map (minus d cnt) m ++ b) /\ (heap_ordered h es -> flat_map (minus d cnt) m = [] -> heap_ordered h' (a ++ flat_map (minus d cnt) m ++ b))).
  { intros Nd. destruct LM as [LM|LM]; [contradiction|]. destruct m as [|e m]; [|destruct m; [|cbn in LM; lia]].
    - exists h, nil. cbn [first_it]. destruct (rep_tok _ _ _ R) as (t & T & _). unfold treap_erase_at, retrace_down. rewrite Nat.eqb_refl. cbn [obind]. unfold erase_node. rewrite (tok_nil_nil _ _ _ _ T). cbn [obind flat_map app]. split; [reflexivity|]. cbn [app] in Es. rewrite <- Es. split; [apply becomes_refl; exact R|split; [intros p _ _; reflexivity|auto]].
    - cbn [first_it flat_map app]. rewrite app_nil_r. cbn [app] in Es. rewrite Es in R, U. destruct (treap_erase_at_run d h nil a e b cnt R C U) as (h' & it & E1 & E2 & _ & E3 & E4). exists h', it. rewrite Es. auto. }
  unfold treap_erase. destruct d.
  - rewrite Fi. cbn [obind]. destruct (KEY ltac:(discriminate)) as (h' & it & E1 & E2 & E3 & E4). rewrite E1. cbn [obind]. exists h', (Some it). auto 10.
  - rewrite Fi. cbn [obind]. destruct (KEY ltac:(discriminate)) as (h' & it & E1 & E2 & E3 & E4). rewrite E1. cbn [obind]. exists h', (Some it). auto 10.
  - rewrite Lo. cbn [obind]. rewrite Up. cbn [obind]. rewrite Es in R, U. destruct (treap_range_run STORE h nil a m b (2 ^ 31 - 1) R ltac:(lia) U) as (h' & res & E1 & _ & E2 & E3 & E4).
    exists h', res. replace (flat_map (minus STORE cnt) m) with (flat_map (minus STORE (2 ^ 31 - 1)) m) in * by (apply flat_map_ext; reflexivity). rewrite <- Es in *. auto 10.
Qed.

Lemma clean_strip d o es : clean_op key cmp d o (strip es) <-> clean_op key cmp d o es.
Proof.
  destruct o as [v cnt|k cnt]; cbn [clean_op].
  - rewrite (existsb_strip (equiv (key v))) by (intros e e'; apply equiv_strip). tauto.
  - unfold strip. rewrite Forall_map. cbn [ecn snd]. tauto.
Qed.
Lemma treap_history_run d nil ops : Forall (fun o : bst_op V K * Z => (1 <= op_count (fst o))%Z /\ (0 <= snd o)%Z) ops -> forall h es, bst_rep h nil es -> sorted key cmp d es -> unit_counts d es ->
  exists h' es', treap_ops_run key cmp d nil ops h = Some h' /\ bst_rep h' nil es' /\ sorted key cmp d es' /\ unit_counts d es' /\ strip es' = fold_left (fun s o => op_effect key cmp d o s) (map fst ops) (strip es) /\
    (forall p, live h' p = true -> (live h p = true /\ ~ In p (ids es)) \/ In p (nil :: ids es')) /\ others_kept h h' nil es es' /\
    (heap_ordered h es -> clean_ops key cmp d (map fst ops) (strip es) -> heap_ordered h' es').
Proof.
  induction 1 as [|o ops (C & Zo) _ IH]; intros h es R S U.
  - exists h, es. cbn [treap_ops_run fold_left map]. destruct (becomes_refl h nil es R) as (_ & O & M). split; [reflexivity|split; [exact R|split; [exact S|split; [exact U|split; [reflexivity|split; [|split; [exact O|auto]]]]]]]. intros p Hp. apply M, Hp.
  - cbn [treap_ops_run fold_left map]. assert (ST : exists h1 es1, treap_op_run key cmp d nil o h = Some h1 /\ becomes h h1 nil es es1 /\ sorted key cmp d es1 /\ unit_counts d es1 /\ strip es1 = op_effect key cmp d (fst o) (strip es) /\
      (heap_ordered h es -> clean_op key cmp d (fst o) es -> heap_ordered h1 es1)).
    { destruct o as ([v cnt|k cnt], z); cbn [fst snd op_count] in C, Zo |- *; unfold treap_op_run; cbn [fst snd].
      - destruct (treap_insert_run K key cmp SW d h nil es v cnt z R S U C Zo) as (h1 & E & B & S1 & U1 & _ & _ & HO). exists h1, (inserted key cmp d (next h) v cnt es). rewrite E. cbn [obind]. split; [reflexivity|]. split; [exact B|split; [exact S1|split; [exact U1|split; [apply inserted_strip|]]]].
        intros Ho CL. apply HO; [exact Ho|]. left. unfold inserted_at. cbn [clean_op] in CL. destruct CL as [-> |CL]; [reflexivity|]. destruct d; [| |reflexivity]; (destruct (find (equiv (key v)) es) as [e|] eqn:F; [|reflexivity]); apply find_some in F as (F1 & F2); exfalso; (assert (X : existsb (equiv (key v)) es = true) by (apply existsb_exists; eauto)); congruence.
      - destruct (treap_erase_run d h nil es k cnt R S U C) as (h1 & it & E & B & S1 & U1 & _ & HO). exists h1, (erased key cmp d k cnt es). rewrite E. cbn [obind]. split; [reflexivity|]. split; [exact B|split; [exact S1|split; [exact U1|split; [apply erased_strip|exact HO]]]]. }
    destruct ST as (h1 & es1 & E1 & (R1 & O1 & M1) & S1 & U1 & T1 & HO1). rewrite E1. cbn [obind]. destruct (IH h1 es1 R1 S1 U1) as (h2 & es2 & E2 & R2 & S2 & U2 & T2 & L2 & O2 & HO2). exists h2, es2. split; [exact E2|].
    split; [exact R2|split; [exact S2|split; [exact U2|split; [rewrite T2, T1; reflexivity|split; [|split]]]]].
    + intros p Hp. destruct (L2 p Hp) as [(Hp' & N)|Hp']; [|now right]. apply M1 in Hp' as [Hp'|[Hp'|Hp']]; [now left|right; now left|contradiction].
    + intros n2 e2 R' A. destruct (O1 _ _ R' A) as (R3 & A3). exact (O2 _ _ R3 A3).
    + intros Ho. cbn [clean_ops]. intros (CL1 & CL2). apply HO2; [apply HO1; [exact Ho|now apply clean_strip]|rewrite T1; exact CL2].
Qed.
Lemma ct_hok (t : tree) : forall n m, hok m (fst (ct n t)) <-> hok m t.
Proof.
  induction t as [|l IHl p v c b r IHr]; intros n m; [reflexivity|]. cbn [ct]. destruct (ct (n + 1) l) as (l', n1) eqn:El. destruct (ct n1 r) as (r', n2) eqn:Er. cbn [fst hok].
  specialize (IHl (n + 1) b). rewrite El in IHl. specialize (IHr n1 b). rewrite Er in IHr. cbn [fst] in *. tauto.
Qed.
Lemma treap_copy_run h nil es : bst_rep h nil es -> heap_ordered h es ->
  exists h' nil' es', bst_copy h nil = Some (h', nil') /\ bst_rep h' nil' es' /\ strip es' = strip es /\ heap_ordered h' es'.
Proof.
  intros (t & TR & <-) Ho. destruct (copy_tree h nil t TR) as (h' & E & TR' & _). exists h', (next h), (entries (fst (ct (next h + 1) t))). split; [exact E|]. split; [exists (fst (ct (next h + 1) t)); auto|].
  split; [|apply (order_tree h' _ _ TR'), ct_hok, (order_tree h nil _ TR), Ho]. pose proof (ct_vals t (next h + 1)) as Q. unfold strip. apply (f_equal (map (fun x : V * Z => (0, fst x, snd x)))) in Q. rewrite !map_map in Q. exact Q.
Qed.
End P.
