(** Binary search trees: histories, and clear(). *)
From Verif Require Import Lib BstModel BstSpec BstProofs BstProofs2 BstProofs3 BstProofs4 BstProofs5 BstProofs6 BstProofs7 BstProofs8 BstProofs9 BstProofs10 BstProofs11 BstProofs12.
Open Scope nat_scope.

Section P.
Context {V K : Type}.
Variable key : V -> K.
Variable cmp : K -> K -> bool.
Notation entry := (nat * V * Z)%type.
Notation heap := (heap (V := V)).
Implicit Types (h : heap) (es : list entry).
Hypothesis SW : strict_weak cmp.

Lemma filter_strip (f : entry -> bool) es : (forall e e' : entry, evl e = evl e' -> ecn e = ecn e' -> f e = f e') -> filter f (strip es) = strip (filter f es).
Proof. intros H. induction es as [|e es IH]; [reflexivity|]. cbn. rewrite (H (0, evl e, ecn e) e eq_refl eq_refl). fold (strip es). destruct (f e); cbn; fold (strip (filter f es)); rewrite <- IH; reflexivity. Qed.
Lemma existsb_strip (f : entry -> bool) es : (forall e e' : entry, evl e = evl e' -> f e = f e') -> existsb f (strip es) = existsb f es.
Proof. intros H. induction es as [|e es IH]; [reflexivity|]. cbn. rewrite (H (0, evl e, ecn e) e eq_refl). fold (strip es). now rewrite IH. Qed.
Lemma strip_strip es : strip (strip es) = strip es.
Proof. unfold strip. rewrite map_map. reflexivity. Qed.
Lemma strip_app (a b : list entry) : strip (a ++ b) = strip a ++ strip b.
Proof. apply map_app. Qed.
Lemma equiv_strip q (e e' : entry) : evl e = evl e' -> equiv key cmp q e = equiv key cmp q e'.
Proof. unfold equiv. intros ->. reflexivity. Qed.
Lemma greater_strip q (e e' : entry) : evl e = evl e' -> greater key cmp q e = greater key cmp q e'.
Proof. unfold greater. intros ->. reflexivity. Qed.
Lemma inserted_strip d n v cnt es : strip (inserted key cmp d n v cnt es) = inserted key cmp d 0 v cnt (strip es).
Proof.
  assert (N : strip (filter (fun e => negb (greater key cmp (key v) e)) es ++ (n, v, times d cnt) :: filter (greater key cmp (key v)) es) =
    filter (fun e => negb (greater key cmp (key v) e)) (strip es) ++ (0, v, times d cnt) :: filter (greater key cmp (key v)) (strip es)).
  { rewrite strip_app. cbn [strip map]. rewrite !filter_strip; [reflexivity|..]; intros e e' E _; [apply greater_strip, E|now rewrite (greater_strip _ e e' E)]. }
  unfold inserted. rewrite (existsb_strip (equiv key cmp (key v))) by (intros e e'; apply equiv_strip). destruct d; [| |exact N]; destruct (existsb _ es); try exact N.
  - reflexivity.
  - unfold strip. rewrite !map_map. apply map_ext. intros e. rewrite (equiv_strip (key v) (0, evl e, ecn e) e) by reflexivity. destruct (equiv key cmp (key v) e); reflexivity.
Qed.
Lemma minus_strip d cnt (e : entry) : strip (minus d cnt e) = minus d cnt (0, evl e, ecn e).
Proof. unfold minus. destruct d; try reflexivity. cbn [ecn snd]. destruct (cnt <? ecn e)%Z; reflexivity. Qed.
Lemma erased_strip d q cnt es : strip (erased key cmp d q cnt es) = erased key cmp d q cnt (strip es).
Proof.
  unfold erased. induction es as [|e es IH]; [reflexivity|]. change (strip (e :: es)) with ((0, evl e, ecn e) :: strip es). cbn [flat_map]. rewrite strip_app. rewrite <- IH. rewrite (equiv_strip q (0, evl e, ecn e) e) by reflexivity. f_equal. destruct (equiv key cmp q e); [apply minus_strip|reflexivity].
Qed.
Lemma history_run d nil ops : Forall (fun o => 1 <= op_count o)%Z ops -> forall h es, bst_rep h nil es -> sorted key cmp d es -> unit_counts d es ->
  exists h' es', ops_run key cmp d nil ops h = Some h' /\ bst_rep h' nil es' /\ sorted key cmp d es' /\ unit_counts d es' /\ strip es' = fold_left (fun s o => op_effect key cmp d o s) ops (strip es) /\
    (forall p, live h' p = true -> (live h p = true /\ ~ In p (ids es)) \/ In p (nil :: ids es')) /\ others_kept h h' nil es es'.
Proof.
  induction 1 as [|o ops C _ IH]; intros h es R S U.
  - exists h, es. cbn [ops_run fold_left]. destruct (becomes_refl h nil es R) as (_ & O & M). split; [reflexivity|split; [exact R|split; [exact S|split; [exact U|split; [reflexivity|split; [|exact O]]]]]]. intros p Hp. apply M, Hp.
  - cbn [ops_run fold_left]. assert (ST : exists h1 es1, op_run key cmp d nil o h = Some h1 /\ becomes h h1 nil es es1 /\ sorted key cmp d es1 /\ unit_counts d es1 /\ strip es1 = op_effect key cmp d o (strip es)).
    { destruct o as [v cnt|k cnt]; cbn in C |- *.
      - destruct (insert_run key cmp SW d h nil es v cnt R S U C) as (h1 & E & B & S1 & U1). exists h1, (inserted key cmp d (next h) v cnt es). rewrite E. cbn [obind]. split; [reflexivity|]. split; [exact B|split; [exact S1|split; [exact U1|apply inserted_strip]]].
      - destruct (erase_run key cmp SW d h nil es k cnt R S U C) as (h1 & it & E & B & S1 & U1). exists h1, (erased key cmp d k cnt es). rewrite E. cbn [obind]. split; [reflexivity|]. split; [exact B|split; [exact S1|split; [exact U1|apply erased_strip]]]. }
    destruct ST as (h1 & es1 & E1 & (R1 & O1 & M1) & S1 & U1 & T1). rewrite E1. cbn [obind]. destruct (IH h1 es1 R1 S1 U1) as (h2 & es2 & E2 & R2 & S2 & U2 & T2 & L2 & O2). exists h2, es2. split; [exact E2|].
    split; [exact R2|split; [exact S2|split; [exact U2|split; [rewrite T2, T1; reflexivity|split]]]].
    + intros p Hp. destruct (L2 p Hp) as [(Hp' & N)|Hp']; [|now right]. apply M1 in Hp' as [Hp'|[Hp'|Hp']]; [now left|right; now left|contradiction].
    + intros n2 e2 R' A. destruct (O1 _ _ R' A) as (R3 & A3). exact (O2 _ _ R3 A3).
Qed.

End P.

Lemma clear_run {V} (h : heap (V := V)) nil es : bst_rep h nil es -> match es with [] => bst_clear h nil = None | _ => exists h' p, bst_clear h nil = Some h' /\ In p (ids es) /\ bst_rep h' nil [] /\ live h' = upd (live h) p false end.
Proof.
  intros (t & TR & <-). pose proof TR as TR'. apply tok_0 in TR' as (T & P). pose proof T as ((I1 & I2 & I3 & I4 & I5 & I6) & A2 & _ & A4 & A5). unfold bst_clear. rewrite (tok_root _ _ _ T). cbn [obind].
  destruct t as [|l p v c b r].
  - cbn [entries rt]. unfold bst_free. rewrite I1. cbn [obind]. unfold slft. cbn [live]. rewrite upd_eq. reflexivity.
  - cbn [entries rt]. destruct (entries l ++ (p, v, c) :: entries r) as [|e0 es0] eqn:Ee; [destruct (entries l); discriminate|]. rewrite <- Ee. clear e0 es0 Ee.
    assert (Np : p <> nil). { intros ->. destruct TR as (_ & _ & ND & _). apply NoDup_cons_iff in ND as (ND & _). apply ND. cbn [entries]. unfold ids. rewrite map_app, in_app_iff. right. now left. }
    assert (Lp : live h p = true). { destruct TR as (_ & F & _). cbn [recs] in F. apply Forall_cons_iff in F as (F & _). apply F. }
    unfold bst_free. rewrite Lp. cbn [obind]. unfold slft, srgt. cbn [live]. rewrite upd_ne by auto. rewrite I1. cbn [obind live with_lft]. cbn [live]. rewrite upd_ne by auto. rewrite I1.
    eexists _, p. split; [reflexivity|]. split; [unfold ids; rewrite map_app, in_app_iff; right; now left|]. split; [|reflexivity].
    exists Leaf. split; [|reflexivity]. split; [|split; [constructor|split; [cbn; constructor; [tauto|constructor]|split; [|constructor]]]].
    + unfold nil_ok. cbn. rewrite !upd_eq. rewrite upd_ne by auto. auto 10.
    + cbn. constructor; [|constructor]. destruct TR as (_ & _ & _ & F & _). apply Forall_cons_iff in F as (F & _). exact F.
Qed.
