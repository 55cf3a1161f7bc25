From Coq Require Import Permutation.
From Verif Require Import Lib AllocModel AllocSpec.
Open Scope nat_scope.

Definition good (n : nat) (a : alloc) (lv : list nat) : Prop :=
  cap a = n /\ avail a + length lv = n /\
  match ptrs a with None => lv = [] | Some l => length l = n /\ Permutation (firstn (avail a) l ++ lv) (seq 0 n) end.
Lemma good_new n : good n (alloc_new n) [].
Proof. repeat split; cbn; lia. Qed.
Lemma good_ensure n a lv m1 m2 ok a' : good n a lv -> alloc_ensure a m1 m2 = (ok, a') -> good n a' lv /\ (ok = true -> ptrs a' <> None) /\ (m1 = true -> m2 = true -> ok = true).
Proof.
  intros (G1 & G2 & G3) E. unfold alloc_ensure in E. destruct (ptrs a) as [l|] eqn:El.
  - injection E as <- <-. repeat split; auto; [rewrite El; exact G3|congruence].
  - destruct (negb (if data a then true else m1)) eqn:Ed.
    + injection E as <- <-. repeat split; auto; [rewrite El; exact G3|congruence|]. intros -> _. destruct (data a); discriminate.
    + destruct m2; cbn [negb] in E; injection E as <- <-.
      * repeat split; cbn; auto; [now rewrite seq_length|subst lv; cbn in G2; rewrite app_nil_r|congruence]. rewrite firstn_all2 by (rewrite seq_length; lia). rewrite G1. apply Permutation_refl.
      * repeat split; cbn; auto; congruence.
Qed.
Lemma firstn_last l a (c : nat) : nth_error l a = Some c -> firstn (S a) l = firstn a l ++ [c].
Proof. revert a. induction l as [|x l IH]; intros [|a] H; cbn in *; try discriminate; [congruence|]. f_equal. now apply IH. Qed.
Lemma firstn_put l l' a (c : nat) : set_nth l a c = Some l' -> firstn (S a) l' = firstn a l ++ [c].
Proof.
  revert a l'. induction l as [|x l IH]; intros [|a] l' H; cbn in *; try discriminate; [now injection H as <-|]. destruct (set_nth l a c) as [t|] eqn:E; cbn in H; [|discriminate]. injection H as <-. cbn. f_equal. now apply IH.
Qed.
Lemma allocate_ok n a lv k m1 m2 : good n a lv -> exists r a', allocate a k m1 m2 = Some (r, a') /\
  match r with Some c => k = 1 /\ c < n /\ ~ In c lv /\ good n a' (c :: lv) | None => good n a' lv /\ (k = 1 -> m1 = true -> m2 = true -> length lv = n) end.
Proof.
  intros G. unfold allocate. destruct (alloc_ensure a m1 m2) as (ok, a') eqn:E. destruct (good_ensure n a lv m1 m2 ok a' G E) as ((G1 & G2 & G3) & Hp & Hm). destruct (negb ok || negb (k =? 1) || (avail a' <? 1)) eqn:C.
  - exists None, a'. split; [reflexivity|]. split; [now repeat split|]. intros -> M1 M2. rewrite (Hm M1 M2) in C. cbn in C. destruct (Nat.leb_spec (avail a') 0); [lia|discriminate].
  - apply orb_false_iff in C as (C & C3). apply orb_false_iff in C as (C1 & C2). destruct ok; [|discriminate]. apply negb_false_iff, Nat.eqb_eq in C2. apply Nat.ltb_ge in C3. destruct (ptrs a') as [l|] eqn:El; [|exfalso; now apply Hp]. destruct G3 as (G3 & G4).
    destruct (nth_error l (avail a' - 1)) as [c|] eqn:Ec; [|apply nth_error_None in Ec; lia]. cbn [obind]. eexists _, _. split; [reflexivity|]. cbn iota. replace (avail a') with (S (avail a' - 1)) in G4 by lia. rewrite (firstn_last _ _ _ Ec), <- app_assoc in G4. cbn [app] in G4.
    assert (ND : NoDup (firstn (avail a' - 1) l ++ c :: lv)) by (eapply Permutation_NoDup; [apply Permutation_sym; exact G4|apply seq_NoDup]).
    split; [exact C2|]. split; [|split].
    + assert (I : In c (seq 0 n)) by (apply (Permutation_in _ G4); apply in_or_app; right; left; reflexivity). apply in_seq in I. lia.
    + apply NoDup_remove_2 in ND. intros I. apply ND. apply in_or_app. now right.
    + repeat split; cbn; auto; lia.
Qed.
Lemma remove_perm (lv : list nat) c : NoDup lv -> In c lv -> Permutation lv (c :: remove Nat.eq_dec c lv).
Proof.
  induction lv as [|x lv IH]; intros ND I; [destruct I|]. apply NoDup_cons_iff in ND as (N & ND). cbn [remove]. destruct (Nat.eq_dec c x) as [->|Nx].
  - rewrite notin_remove by exact N. apply Permutation_refl.
  - destruct I as [->|I]; [contradiction|]. eapply Permutation_trans; [apply perm_skip, (IH ND I)|apply perm_swap].
Qed.
Lemma deallocate_ok n a lv c : good n a lv -> In c lv -> exists a', deallocate a c = Some a' /\ good n a' (remove Nat.eq_dec c lv).
Proof.
  intros (G1 & G2 & G3) I. unfold deallocate. destruct (ptrs a) as [l|]; [|subst lv; destruct I]. destruct G3 as (G3 & G4). assert (Hl : 0 < length lv) by (destruct lv; [destruct I|cbn; lia]). destruct (set_nth_some l (avail a) c) as (l' & E); [lia|]. rewrite E. cbn [obind]. eexists. split; [reflexivity|].
  assert (ND : NoDup lv). { assert (ND : NoDup (firstn (avail a) l ++ lv)) by (eapply Permutation_NoDup; [apply Permutation_sym; exact G4|apply seq_NoDup]). clear - ND. induction (firstn (avail a) l) as [|x t IH]; [exact ND|]. cbn in ND. apply NoDup_cons_iff in ND as (_ & ND). auto. }
  pose proof (remove_perm lv c ND I) as P. pose proof (Permutation_length P) as PL. cbn [length] in PL. repeat split; cbn [cap avail ptrs]; auto; [lia|rewrite (set_nth_length _ _ _ _ E); exact G3|].
  rewrite Nat.add_1_r, (firstn_put _ _ _ _ E), <- app_assoc. cbn [app]. eapply Permutation_trans; [apply Permutation_app_head, Permutation_sym, P|exact G4].
Qed.
Lemma live_snoc es e : live (es ++ [e]) = after (live es) e.
Proof. unfold live. now rewrite fold_left_app. Qed.
Lemma run_good n os : forall a es0 a' es, good n a (live es0) -> run a os = Some (a', es) -> disciplined (es0 ++ es) ->
  good n a' (live (es0 ++ es)) /\ forall pre c post, es = pre ++ Got c :: post -> c < n /\ ~ In c (live (es0 ++ pre)).
Proof.
  induction os as [|o os IH]; intros a es0 a' es G E D; cbn [run] in E.
  - injection E as <- <-. rewrite app_nil_r. split; [exact G|]. intros [|? ?] c post H; discriminate.
  - destruct (step a o) as [(a1, e)|] eqn:Es; cbn [obind] in E; [|discriminate]. destruct (run a1 os) as [(a2, es')|] eqn:Er; cbn [obind] in E; [|discriminate]. injection E as <- <-.
    assert (X : good n a1 (live (es0 ++ [e])) /\ forall c, e = Got c -> c < n /\ ~ In c (live es0)).
    { rewrite live_snoc. unfold step in Es. destruct o as [k m1 m2|c].
      - destruct (allocate_ok n a (live es0) k m1 m2 G) as (r & a3 & E3 & H3). rewrite E3 in Es. cbn [obind] in Es. injection Es as <- <-. destruct r as [c|]; cbn [after].
        + destruct H3 as (_ & H3 & H4 & H5). split; [exact H5|]. intros c' [= <-]. auto.
        + split; [apply H3|discriminate].
      - assert (I : In c (live es0)). { destruct (deallocate a c) as [a3|]; cbn [obind] in Es; [|discriminate]. injection Es as <- <-. apply (D es0 c es'). reflexivity. }
        destruct (deallocate_ok n a (live es0) c G I) as (a3 & E3 & H3). rewrite E3 in Es. cbn [obind] in Es. injection Es as <- <-. split; [exact H3|discriminate]. }
    destruct X as (X1 & X2). replace (es0 ++ e :: es') with ((es0 ++ [e]) ++ es') in * by (rewrite <- app_assoc; reflexivity). destruct (IH a1 (es0 ++ [e]) a2 es' X1 Er D) as (Y1 & Y2). split; [exact Y1|]. intros [|e' pre] c post H; cbn [app] in H; injection H as H1 H2.
    + rewrite app_nil_r. now apply X2.
    + subst e'. destruct (Y2 pre c post H2) as (Z1 & Z2). split; [exact Z1|]. now rewrite <- app_assoc in Z2.
Qed.
