(** Binary search trees: sortedness, lookups and iterators at the level of the specification. *)
From Verif Require Import Lib BstModel BstSpec BstProofs BstProofs2 BstProofs3 BstProofs4 BstProofs5 BstProofs6 BstProofs7 BstProofs8.
From Coq Require Import Permutation.
Open Scope nat_scope.

Section P.
Context {V K : Type}.
Variable key : V -> K.
Variable cmp : K -> K -> bool.
Notation tree := (tree V).
Notation entry := (nat * V * Z)%type.
Notation heap := (heap (V := V)).
Notation ctx := (ctx (V := V)).
Implicit Types (h : heap) (t : tree) (k : ctx) (es : list entry).
Notation less := (less key cmp).
Notation greater := (greater key cmp).
Notation equiv := (equiv key cmp).
Notation sorted := (sorted key cmp).

Lemma filter_all {A} (f : A -> bool) l : Forall (fun x => f x = true) l -> filter f l = l.
Proof. induction 1 as [|x l H _ IH]; [reflexivity|]. cbn. rewrite H, IH. reflexivity. Qed.
Lemma filter_none {A} (f : A -> bool) l : Forall (fun x => f x = false) l -> filter f l = [].
Proof. induction 1 as [|x l H _ IH]; [reflexivity|]. cbn. rewrite H, IH. reflexivity. Qed.
Lemma filter_nall {A} (f : A -> bool) l : Forall (fun x => f x = false) l -> filter (fun x => negb (f x)) l = l.
Proof. intros H. apply filter_all. eapply Forall_impl; [|exact H]. cbn. intros x ->. reflexivity. Qed.
Lemma filter_nnone {A} (f : A -> bool) l : Forall (fun x => f x = true) l -> filter (fun x => negb (f x)) l = [].
Proof. intros H. apply filter_none. eapply Forall_impl; [|exact H]. cbn. intros x ->. reflexivity. Qed.
Lemma filter_Forall {A} (f : A -> bool) l : Forall (fun x => f x = true) (filter f l).
Proof. apply Forall_forall. intros x H. apply filter_In in H. tauto. Qed.

Hypothesis SW : strict_weak cmp.
Lemma sw_asym x y : cmp x y = true -> cmp y x = false.
Proof. destruct SW as (I & T & _). intros H. destruct (cmp y x) eqn:E; [|reflexivity]. specialize (T _ _ _ H E). rewrite I in T. discriminate. Qed.
Lemma sorted_weak d es : sorted d es -> ForallOrdPairs (fun a b => cmp (key (evl b)) (key (evl a)) = false) es.
Proof. intros H. induction H as [|e es H1 _ IH]; constructor; [|exact IH]. eapply Forall_impl; [|exact H1]. intros x. destruct d; auto; apply sw_asym. Qed.
Lemma sorted_split d q es : sorted d es -> exists a m b, es = a ++ m ++ b /\
  Forall (fun e => less q e = true /\ greater q e = false /\ equiv q e = false) a /\ Forall (fun e => equiv q e = true /\ less q e = false /\ greater q e = false) m /\ Forall (fun e => greater q e = true /\ less q e = false /\ equiv q e = false) b /\ (d = STORE \/ length m <= 1).
Proof.
  intros H. assert (W := sorted_weak d es H). destruct SW as (I & T & N). unfold BstSpec.less, BstSpec.greater, BstSpec.equiv. induction H as [|e es H1 H2 IH].
  - exists [], [], []. cbn. repeat split; auto.
  - inversion W as [|? ? W1 W2]; subst. destruct (IH W2) as (a & m & b & -> & A1 & A2 & A3 & A4).
    destruct (cmp (key (evl e)) q) eqn:C1.
    + exists (e :: a), m, b. split; [reflexivity|]. split; [|auto]. constructor; [|exact A1]. rewrite (sw_asym _ _ C1), C1. auto.
    + assert (NA : a = []). { destruct a as [|x a]; [reflexivity|]. exfalso. apply Forall_cons_iff in A1 as ((A1 & _) & _). apply Forall_cons_iff in W1 as (W1 & _). destruct (N _ (key (evl e)) _ A1); congruence. }
      subst a. cbn [app] in *. destruct (cmp q (key (evl e))) eqn:C2.
      * assert (NM : m = []). { destruct m as [|x m]; [reflexivity|]. exfalso. apply Forall_cons_iff in A2 as ((_ & _ & A2) & _). apply Forall_cons_iff in W1 as (W1 & _). destruct (N _ (key (evl x)) _ C2); congruence. }
        subst m. exists [], [], (e :: b). split; [reflexivity|]. split; [constructor|split; [constructor|split; [|auto]]]. constructor; [|exact A3]. rewrite C1, C2. auto.
      * exists [], (e :: m), b. split; [reflexivity|]. split; [constructor|split; [|split; [exact A3|]]]; [constructor; [|exact A2]; rewrite C1, C2; auto|].
        destruct A4 as [A4|A4]; [auto|]. destruct m as [|x m]; [right; cbn; lia|]. left. apply Forall_cons_iff in H1 as (H1 & _). apply Forall_cons_iff in A2 as ((A2 & A5 & A6) & _).
        destruct d; [exfalso|exfalso|reflexivity]; destruct (N _ q _ H1); congruence.
Qed.
Lemma rep_tok h nil es : bst_rep h nil es -> exists t, tok h nil [] t /\ entries t = es /\ pos_counts es.
Proof. intros (t & T & <-). apply tok_0 in T as (T & P). exists t. auto. Qed.
Lemma rep_nodup h nil es : bst_rep h nil es -> NoDup (nil :: ids es).
Proof. intros (t & (_ & _ & N & _) & <-). exact N. Qed.
Lemma rep_nodup' h nil es : bst_rep h nil es -> NoDup (ids es).
Proof. intros R. apply rep_nodup in R. apply NoDup_cons_iff in R. tauto. Qed.
Lemma tok_tid_len h nil t : tok h nil [] t -> length (tids t) < next h + 2.
Proof. intros T. pose proof (tok_len _ _ _ _ T). cbn in H. lia. Qed.
Lemma Forall_proj {A} (P Q : A -> Prop) l : Forall (fun x => P x /\ Q x) l -> Forall P l /\ Forall Q l.
Proof. intros H. split; eapply Forall_impl; try exact H; cbn; tauto. Qed.

Lemma lookups d h nil es q : bst_rep h nil es -> sorted d es ->
  bst_find key cmp d h nil q = Some (first_it nil (filter (equiv q) es)) /\ lower_bound key cmp h nil q = Some (first_it nil (filter (fun e => negb (less q e)) es)) /\
  upper_bound key cmp h nil q = Some (first_it nil (filter (greater q) es)) /\ count_less key cmp h nil q = Some (total (filter (less q) es)) /\
  count_less_or_equal key cmp h nil q = Some (total (filter (fun e => negb (greater q e)) es)) /\ bst_count key cmp d h nil q = Some (total (filter (equiv q) es)).
Proof.
  intros R S. destruct (rep_tok _ _ _ R) as (t & T & E & P). pose proof (tok_tid_len _ _ _ T) as L. destruct (sorted_split d q es S) as (a & m & b & Es & A & M & B & LM).
  assert (A1 : Forall (fun e => less q e = true) a) by (eapply Forall_impl; [|exact A]; cbn; tauto).
  assert (A2 : Forall (fun e => greater q e = false) a) by (eapply Forall_impl; [|exact A]; cbn; tauto).
  assert (A3 : Forall (fun e => equiv q e = false) a) by (eapply Forall_impl; [|exact A]; cbn; tauto).
  assert (M1 : Forall (fun e => less q e = false) m) by (eapply Forall_impl; [|exact M]; cbn; tauto).
  assert (M2 : Forall (fun e => greater q e = false) m) by (eapply Forall_impl; [|exact M]; cbn; tauto).
  assert (M3 : Forall (fun e => equiv q e = true) m) by (eapply Forall_impl; [|exact M]; cbn; tauto).
  assert (B1 : Forall (fun e => less q e = false) b) by (eapply Forall_impl; [|exact B]; cbn; tauto).
  assert (B2 : Forall (fun e => greater q e = true) b) by (eapply Forall_impl; [|exact B]; cbn; tauto).
  assert (B3 : Forall (fun e => equiv q e = false) b) by (eapply Forall_impl; [|exact B]; cbn; tauto).
  assert (FE : filter (equiv q) es = m) by (rewrite Es, !filter_app, (filter_none _ a A3), (filter_all _ m M3), (filter_none _ b B3), app_nil_r; reflexivity).
  assert (FG : filter (greater q) es = b) by (rewrite Es, !filter_app, (filter_none _ a A2), (filter_none _ m M2), (filter_all _ b B2); reflexivity).
  assert (FL : filter (less q) es = a) by (rewrite Es, !filter_app, (filter_all _ a A1), (filter_none _ m M1), (filter_none _ b B1), !app_nil_r; reflexivity).
  assert (NL : filter (fun e => negb (less q e)) es = m ++ b).
  { rewrite Es, !filter_app, (filter_nnone _ a A1), (filter_nall _ m M1), (filter_nall _ b B1). reflexivity. }
  assert (NG : filter (fun e => negb (greater q e)) es = a ++ m).
  { rewrite Es, !filter_app, (filter_nall _ a A2), (filter_nall _ m M2), (filter_nnone _ b B2), app_nil_r. reflexivity. }
  rewrite FE, FG, FL, NL, NG. assert (E' : entries t = a ++ m ++ b) by (rewrite E; exact Es).
  assert (BB : Forall (fun e => less q e = false /\ greater q e = true) b) by (eapply Forall_impl; [|exact B]; cbn; tauto).
  assert (Rt := tok_root _ _ _ T).
  assert (Find : bst_find key cmp d h nil q = Some (first_it nil m)) by (unfold bst_find; rewrite Rt; cbn [obind]; apply (find_loop key cmp d h nil q t [] (loops h) nil a m b T L E' A1 M3 BB LM)).
  assert (AM : Forall (fun e => greater q e = false) (a ++ m)) by (apply Forall_app; auto).
  assert (MB : Forall (fun e => less q e = false) (m ++ b)) by (apply Forall_app; auto).
  assert (E2 : entries t = (a ++ m) ++ b) by (rewrite <- app_assoc; exact E').
  assert (CL : count_less key cmp h nil q = Some (total a)) by (unfold count_less; rewrite Rt; cbn [obind]; apply (count_less_loop key cmp h nil q t [] (loops h) 0%Z a (m ++ b) T L E' A1 MB)).
  assert (CE : count_less_or_equal key cmp h nil q = Some (total (a ++ m))) by (unfold count_less_or_equal; rewrite Rt; cbn [obind]; apply (count_le_loop key cmp h nil q t [] (loops h) 0%Z (a ++ m) b T L E2 AM B2)).
  split; [exact Find|]. split; [unfold lower_bound; rewrite Rt; cbn [obind]; apply (lower_loop key cmp h nil q t [] (loops h) nil a (m ++ b) T L E' A1 MB)|].
  split; [unfold upper_bound; rewrite Rt; cbn [obind]; apply (upper_loop key cmp h nil q t [] (loops h) nil (a ++ m) b T L E2 AM B2)|].
  split; [exact CL|split; [exact CE|]].
  assert (NC : d <> STORE -> node_count h (first_it nil m) = Some (total m)).
  { intros ND. destruct LM as [LM|LM]; [contradiction|]. destruct m as [|e m]; [|destruct m; [|cbn in LM; lia]].
    - cbn. unfold node_count. rewrite (tok_nil_nil _ _ _ _ T). reflexivity.
    - cbn [first_it total fold_right]. rewrite Z.add_0_r. destruct (zipper_entry t a e b E') as (k & l & bl & r & -> & _).
      + unfold tids. rewrite E. exact (rep_nodup' _ _ _ R).
      + apply (tok_count h nil k l (eid e) (evl e) (ecn e) bl r). exact (tok_move _ _ [] _ k _ eq_refl T). }
  unfold bst_count. destruct d; [rewrite Find; cbn [obind]; apply NC; discriminate|rewrite Find; cbn [obind]; apply NC; discriminate|].
  rewrite CE, CL. cbn [obind]. rewrite total_app. f_equal. lia.
Qed.
End P.

Section I.
Context {V : Type}.
Notation entry := (nat * V * Z)%type.
Notation heap := (heap (V := V)).
Implicit Types (h : heap) (es a b : list entry).
Lemma sizes h nil es : bst_rep h nil es ->
  bst_size h nil = Some (total es) /\ bst_empty h nil = Some (match es with [] => true | _ => false end) /\ bst_begin h nil = Some (first_it nil es) /\ (forall n, find_kth h nil n = Some (at_pos nil n es)).
Proof.
  intros R. destruct (rep_tok _ _ _ R) as (t & T & E & P). pose proof (tok_tid_len _ _ _ T) as L. assert (Rt := tok_root _ _ _ T). pose proof (tok_rt_siz _ _ _ _ T) as S.
  assert (B : bst_size h nil = Some (total es)) by (unfold bst_size; rewrite Rt; cbn [obind]; rewrite S; unfold tsz; now rewrite E).
  split; [exact B|]. split; [|split].
  - unfold bst_empty. rewrite B. cbn [obind]. f_equal. destruct es as [|e es]; [reflexivity|]. apply Z.eqb_neq. rewrite total_cons. unfold pos_counts in P. apply Forall_cons_iff in P as (P1 & P2). pose proof (total_pos _ P2). lia.
  - unfold bst_begin. rewrite (next_nil _ _ _ T). now rewrite E.
  - intros n. unfold find_kth, inorder_kth. rewrite Rt. cbn [obind]. rewrite <- E in P |- *. exact (kth_loop h nil t [] (loops h) n T L P).
Qed.
Lemma rep_zip h nil a e b : bst_rep h nil (a ++ e :: b) -> exists k l bl r, tok h nil k (Node l (eid e) (evl e) (ecn e) bl r) /\ a = cleft k ++ entries l /\ b = entries r ++ cright k /\ pos_counts (a ++ e :: b).
Proof.
  intros R. destruct (rep_tok _ _ _ R) as (t & T & E & P).
  destruct (zipper_entry t a e b E) as (k & l & bl & r & Et & Ea & Eb); [unfold tids; rewrite E; exact (rep_nodup' _ _ _ R)|]. exists k, l, bl, r. split; [|auto]. rewrite Et in T. exact (tok_move _ _ [] _ k _ eq_refl T).
Qed.
Lemma iterators h nil a e b : bst_rep h nil (a ++ e :: b) ->
  inorder_next h (eid e) = Some (first_it nil b) /\ inorder_prev h (eid e) = Some (last_it nil a) /\ inorder_pos h (eid e) = Some (total a, nil) /\ gval h (eid e) = Some (evl e) /\ node_count h (eid e) = Some (ecn e) /\
  (forall off, inorder_add h (eid e) off = Some (at_pos nil (total a + off)%Z (a ++ e :: b))).
Proof.
  intros R. destruct (sizes _ _ _ R) as (_ & _ & _ & KT). pose proof R as R'. apply rep_zip in R' as (k & l & bl & r & T & -> & -> & P).
  split; [exact (next_node _ _ _ _ _ _ _ _ _ T)|]. split; [exact (prev_node _ _ _ _ _ _ _ _ _ T)|]. assert (Ps := pos_node _ _ _ _ _ _ _ _ _ T). split; [exact Ps|].
  split; [apply (tok_get _ _ _ _ _ _ _ _ _ T)|]. split; [exact (tok_count _ _ _ _ _ _ _ _ _ T)|]. intros off. unfold inorder_add. rewrite Ps. cbn [obind]. apply KT.
Qed.
Lemma iterators_end h nil es : bst_rep h nil es ->
  inorder_next h nil = Some (first_it nil es) /\ inorder_prev h nil = Some (last_it nil es) /\ inorder_pos h nil = Some (total es, nil) /\ (forall off, inorder_add h nil off = Some (at_pos nil (total es + off)%Z es)).
Proof.
  intros R. destruct (sizes _ _ _ R) as (_ & _ & _ & KT). destruct (rep_tok _ _ _ R) as (t & T & <- & P). assert (Ps := pos_nil _ _ _ T).
  split; [exact (next_nil _ _ _ T)|split; [exact (prev_nil _ _ _ T)|split; [exact Ps|]]]. intros off. unfold inorder_add. rewrite Ps. cbn [obind]. apply KT.
Qed.
End I.
