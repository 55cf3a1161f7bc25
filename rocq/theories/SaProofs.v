From Coq Require Import Lia Permutation.
From Verif Require Import Lib RmqModel RmqSpec RmqProps SaModel SaSpec.
Open Scope nat_scope.

(** ** common prefixes *)
Fixpoint lcpl (a b : list Z) : nat := match a, b with x :: a, y :: b => if (x =? y)%Z then S (lcpl a b) else 0 | _, _ => 0 end.
Lemma lcpl_comm : forall a b, lcpl a b = lcpl b a.
Proof. induction a as [|x a IH]; intros [|y b]; cbn; auto. rewrite Z.eqb_sym. destruct (y =? x)%Z; auto. Qed.
Lemma lcpl_refl : forall a, lcpl a a = length a.
Proof. induction a as [|x a IH]; cbn; [reflexivity|]. rewrite Z.eqb_refl. auto. Qed.
Lemma lcpl_le : forall a b, lcpl a b <= length a /\ lcpl a b <= length b.
Proof. induction a as [|x a IH]; intros [|y b]; cbn; try lia. destruct (x =? y)%Z; [specialize (IH b)|]; lia. Qed.
Lemma lcpl_is : forall a b, is_lcp (lcpl a b) a b.
Proof.
  intros a b. unfold is_lcp. split; [apply lcpl_le|]. split; [apply lcpl_le|]. revert b. induction a as [|x a IH]; intros [|y b]; cbn [lcpl length]; try (split; [reflexivity|]; intros m H1 H2 _; cbn in H1, H2; lia).
  destruct (Z.eqb_spec x y) as [->|N].
  - destruct (IH b) as (A & B). split; [cbn; now rewrite A|]. intros [|m] H1 H2 E; [lia|]. cbn in E. injection E as E. cbn in H1, H2. specialize (B m ltac:(lia) ltac:(lia) E). lia.
  - split; [reflexivity|]. intros [|m] H1 H2 E; [lia|]. cbn in E. congruence.
Qed.
Lemma lcpl_before : forall a b t, t < lcpl a b -> nth_error a t = nth_error b t.
Proof. induction a as [|x a IH]; intros [|y b] t H; cbn in *; try lia. destruct (Z.eqb_spec x y) as [->|N]; [|lia]. destruct t; [reflexivity|]. cbn. apply IH. lia. Qed.
Lemma lcpl_at : forall a b x y, nth_error a (lcpl a b) = Some x -> nth_error b (lcpl a b) = Some y -> x <> y.
Proof. induction a as [|u a IH]; intros [|v b] x y; cbn; try discriminate. destruct (Z.eqb_spec u v) as [->|N]; cbn; [apply IH|congruence]. Qed.
Lemma lex_irr : forall a, ~ lex_lt a a.
Proof. induction a as [|x a IH]; cbn; [auto|]. intros [H|(_ & H)]; [lia|auto]. Qed.
Lemma lex_trans : forall a b c, lex_lt a b -> lex_lt b c -> lex_lt a c.
Proof. induction a as [|x a IH]; intros [|y b] [|z c]; cbn; auto; try tauto. intros [H|(-> & H)] [K|(-> & K)]; [left; lia|now left|now left|right; eauto]. Qed.
Lemma lcpl_mid : forall a b c, lex_lt a b -> lex_lt b c -> lcpl a c = Nat.min (lcpl a b) (lcpl b c).
Proof.
  induction a as [|x a IH]; intros [|y b] [|z c]; cbn; auto; try tauto; try lia. intros [H|(-> & H)] [K|(-> & K)].
  - destruct (Z.eqb_spec x z); [lia|]. destruct (Z.eqb_spec x y); [lia|]. reflexivity.
  - destruct (Z.eqb_spec x z); [lia|]. reflexivity.
  - destruct (Z.eqb_spec y z); [lia|]. rewrite Nat.min_0_r. reflexivity.
  - rewrite Z.eqb_refl. rewrite (IH b c H K). reflexivity.
Qed.
(** ** comparing prefixes *)
Lemma cmp_prefix : forall a b m1 m2, m1 <= length a -> m2 <= length b ->
  let l := lcpl a b in
  if (l <? m1) && (l <? m2) then exists x y, nth_error a l = Some x /\ nth_error b l = Some y /\ orders (compareZ x y) (firstn m1 a) (firstn m2 b)
  else orders (compareZ (Z.of_nat m1) (Z.of_nat m2)) (firstn m1 a) (firstn m2 b).
Proof.
  assert (C : forall x y a b, x <> y -> orders (compareZ x y) (x :: a) (y :: b)).
  { intros x y a b N. unfold compareZ, orders. cbn. destruct (Z.ltb_spec x y); [left; auto|]. destruct (Z.ltb_spec y x); [right; left; auto|lia]. }
  assert (C2 : forall m1 m2, compareZ (Z.of_nat (S m1)) (Z.of_nat (S m2)) = compareZ (Z.of_nat m1) (Z.of_nat m2)).
  { intros. unfold compareZ. destruct (Z.ltb_spec (Z.of_nat (S m1)) (Z.of_nat (S m2))), (Z.ltb_spec (Z.of_nat m1) (Z.of_nat m2)), (Z.ltb_spec (Z.of_nat (S m2)) (Z.of_nat (S m1))), (Z.ltb_spec (Z.of_nat m2) (Z.of_nat m1)); try lia; reflexivity. }
  assert (C3 : forall r x a b, orders r a b -> orders r (x :: a) (x :: b)).
  { intros r x a b [(-> & H)|[(-> & H)|(-> & ->)]]; unfold orders; cbn; auto 6. }
  induction a as [|x a IH]; intros b m1 m2 H1 H2 l; unfold l.
  - cbn in H1. assert (m1 = 0) by lia. subst m1. cbn [lcpl Nat.ltb Nat.leb andb firstn]. destruct m2 as [|m2]; [right; right; auto|]. destruct b as [|y b]; [cbn in H2; lia|]. left. cbn. auto.
  - destruct b as [|y b]; [cbn in H2; assert (m2 = 0) by lia; subst m2; cbn [lcpl]; rewrite andb_false_r; destruct m1; [right; right; auto|right; left; cbn; auto]|].
    destruct m1 as [|m1]; [rewrite (proj2 (Nat.ltb_ge (lcpl (x :: a) (y :: b)) 0)) by lia; cbn [andb]; destruct m2; [right; right; auto|left; cbn; auto]|]. destruct m2 as [|m2]; [rewrite (proj2 (Nat.ltb_ge (lcpl (x :: a) (y :: b)) 0)) by lia; rewrite andb_false_r; right; left; cbn; auto|].
    cbn [lcpl firstn length] in *. destruct (Z.eqb_spec x y) as [->|N].
    + specialize (IH b m1 m2 ltac:(lia) ltac:(lia)). cbv zeta in IH. change (S (lcpl a b) <? S m1) with (lcpl a b <? m1). change (S (lcpl a b) <? S m2) with (lcpl a b <? m2). destruct ((lcpl a b <? m1) && (lcpl a b <? m2)).
      * destruct IH as (u & v & E1 & E2 & O). exists u, v. split; [exact E1|]. split; [exact E2|]. now apply C3.
      * rewrite C2. now apply C3.
    + cbn [Nat.ltb Nat.leb andb]. exists x, y. cbn [nth_error]. auto.
Qed.

Lemma nth_skipn (s : list Z) t : forall i, nth_error (skipn i s) t = nth_error s (i + t).
Proof. induction s as [|x l IH]; intros [|i]; cbn [skipn Nat.add nth_error]; [reflexivity|now destruct t|reflexivity|apply IH]. Qed.
Lemma suf_cons (s : list Z) : forall i, i < length s -> exists x, skipn i s = x :: skipn (S i) s.
Proof. induction s as [|x l IH]; intros i H; cbn in H; [lia|]. destruct i as [|i]; [now exists x|]. destruct (IH i) as (y & E); [lia|]. exists y. exact E. Qed.

Section Build.
  Variables (s : list Z) (sa : list nat).
  Local Notation n := (length s).
  Hypothesis Sorted : suffix_sorted s sa.
  Local Notation suf i := (skipn i s).

  Lemma sa_len : length sa = S n.
  Proof using Sorted. destruct Sorted as (P & _). now rewrite (Permutation_length P), seq_length. Qed.
  Lemma sa_lt k i : nth_error sa k = Some i -> i <= n.
  Proof using Sorted. intros E. destruct Sorted as (P & _). apply nth_error_In in E. apply (Permutation_in _ P), in_seq in E. lia. Qed.
  Lemma sa_nodup : NoDup sa.
  Proof using Sorted. destruct Sorted as (P & _). apply (Permutation_NoDup (Permutation_sym P)), seq_NoDup. Qed.
  Lemma sa_has i : i <= n -> exists k, nth_error sa k = Some i.
  Proof using Sorted. intros H. apply In_nth_error. destruct Sorted as (P & _). apply (Permutation_in _ (Permutation_sym P)), in_seq. lia. Qed.
  Lemma sa_inj k k' i : nth_error sa k = Some i -> nth_error sa k' = Some i -> k = k'.
  Proof using Sorted. intros E E'. apply (proj1 (NoDup_nth_error sa) sa_nodup); [apply nth_error_Some; congruence|congruence]. Qed.
  Lemma sa_order k k' i i' : nth_error sa k = Some i -> nth_error sa k' = Some i' -> lex_lt (suf i) (suf i') -> k < k'.
  Proof using Sorted.
    intros E E' L. destruct (Nat.lt_trichotomy k k') as [H|[H|H]]; [exact H| |]; exfalso.
    - subst k'. assert (i' = i) by congruence. subst. exact (lex_irr _ L).
    - destruct Sorted as (_ & Q). apply (lex_irr (suf i)). eapply lex_trans; [exact L|]. exact (Q k' k i' i H E' E).
  Qed.
  Lemma sa_first : nth_error sa 0 = Some n.
  Proof using Sorted.
    destruct (sa_has n) as (k & E); [lia|]. destruct k as [|k]; [exact E|]. exfalso. destruct (nth_error sa 0) as [i|] eqn:E0; [|apply nth_error_None in E0; rewrite sa_len in E0; lia].
    destruct Sorted as (_ & Q). specialize (Q 0 (S k) i n ltac:(lia) E0 E). rewrite skipn_all in Q. destruct (suf i); exact Q.
  Qed.
  (** the inverse *)
  Lemma inverse_ok : exists ord, build_inverse n sa = Some ord /\ length ord = S n /\ forall k i, nth_error sa k = Some i -> nth_error ord i = Some k.
  Proof using Sorted.
    unfold build_inverse. destruct (for_range_spec (fun m ord => length ord = S n /\ forall k i, k < m -> nth_error sa k = Some i -> nth_error ord i = Some k)
      (fun i ord => let* p := nth_error sa i in set_nth ord p i) 0 (S n) (repeat 0 (S n))) as (ord & E & L & H).
    - lia.
    - split; [apply repeat_length|]. intros; lia.
    - intros m ord Hm (L & H). destruct (nth_error sa m) as [p|] eqn:Ep; [|apply nth_error_None in Ep; rewrite sa_len in Ep; lia]. cbn [obind]. pose proof (sa_lt _ _ Ep).
      destruct (set_nth_some ord p m ltac:(lia)) as (ord' & E'). exists ord'. split; [exact E'|]. split; [rewrite (set_nth_length _ _ _ _ E'); exact L|]. intros k i Hk Ei. rewrite (set_nth_get _ _ _ _ i E').
      destruct (Nat.eqb_spec p i) as [<-|N]; [rewrite (sa_inj _ _ _ Ei Ep), ?Nat.eqb_refl; reflexivity|]. apply H; [|exact Ei]. assert (k <> m) by congruence. lia.
    - exists ord. split; [exact E|]. split; [exact L|]. intros k i Ei. apply H; [|exact Ei]. assert (k < length sa) by (apply nth_error_Some; congruence). rewrite sa_len in *. lia.
  Qed.
  Lemma grow_ok i j : i <= n -> j <= n -> forall fuel h, lcpl (suf i) (suf j) - h < fuel -> h <= lcpl (suf i) (suf j) ->
    grow fuel s i j h (Nat.min (n - j) (n - i)) = Some (lcpl (suf i) (suf j)).
  Proof using.
    intros Hi Hj. set (l := lcpl (suf i) (suf j)). pose proof (lcpl_le (suf i) (suf j)) as (L1 & L2). fold l in L1, L2. rewrite skipn_length in L1, L2. induction fuel as [|fuel IH]; intros h Hf Hh; [lia|]. cbn [grow].
    destruct (Nat.ltb_spec h (Nat.min (n - j) (n - i))) as [H|H]; [|f_equal; lia].
    destruct (nth_error s (i + h)) as [x|] eqn:Ex; [|apply nth_error_None in Ex; lia]. destruct (nth_error s (j + h)) as [y|] eqn:Ey; [|apply nth_error_None in Ey; lia]. cbn [obind].
    rewrite <- nth_skipn in Ex, Ey. destruct (Nat.eq_dec h l) as [->|N].
    - pose proof (lcpl_at _ _ _ _ Ex Ey) as D. destruct (Z.eqb_spec x y); [contradiction|reflexivity].
    - rewrite (lcpl_before (suf i) (suf j) h) in Ex by (fold l; lia). assert (x = y) by congruence. subst y. rewrite Z.eqb_refl. apply IH; lia.
  Qed.
  Variable ord : list nat.
  Hypothesis Lord : length ord = S n.
  Hypothesis Hord : forall k i, nth_error sa k = Some i -> nth_error ord i = Some k.

  Lemma ord_pred i : i < n -> exists r j, nth_error ord i = Some (S r) /\ nth_error sa (S r) = Some i /\ nth_error sa r = Some j /\ j <= n /\ lex_lt (suf j) (suf i).
  Proof using All.
    intros H. destruct (sa_has i ltac:(lia)) as ([|r] & E); [rewrite sa_first in E; injection E as E; lia|]. destruct (nth_error sa r) as [j|] eqn:Ej.
    - exists r, j. split; [now apply Hord|]. split; [exact E|]. split; [exact Ej|]. split; [now apply (sa_lt r)|]. destruct Sorted as (_ & Q). apply (Q r (S r)); auto.
    - apply nth_error_None in Ej. assert (S r < length sa) by (apply nth_error_Some; congruence). lia.
  Qed.
  Definition adj (r : nat) : nat := match nth_error sa r, nth_error sa (S r) with Some j, Some i => lcpl (suf i) (suf j) | _, _ => 0 end.
  Lemma kasai : exists lcp, build_lcp s sa ord = Some lcp /\ length lcp = n + 2 /\ forall r, r < n -> nth_error lcp r = Some (adj r).
  Proof using All.
    unfold build_lcp.
    destruct (for_range_spec (fun m '(h, lcp) => length lcp = n + 2 /\ (forall i r, i < m -> nth_error ord i = Some (S r) -> nth_error lcp r = Some (adj r)) /\
        (m < n -> forall r j, nth_error ord m = Some (S r) -> nth_error sa r = Some j -> h <= lcpl (suf m) (suf j))) (lcp_step s sa ord) 0 n (0, repeat 0 (n + 2))) as ([h lcp] & E & L & H & _).
    - lia.
    - split; [apply repeat_length|]. split; [intros; lia|]. intros; lia.
    - intros m [h lcp] Hm (L & H & Hh). destruct (ord_pred m ltac:(lia)) as (r & j & Eo & Es & Ej & Lj & Lt). unfold lcp_step. rewrite Eo. cbn [obind]. rewrite Ej. cbn [obind]. specialize (Hh ltac:(lia) r j Eo Ej).
      pose proof (lcpl_le (suf m) (suf j)) as (Q1 & _). rewrite skipn_length in Q1. rewrite grow_ok by lia. cbn [obind]. assert (Sr : S r < length sa) by (apply nth_error_Some; congruence). rewrite sa_len in Sr.
      destruct (set_nth_some lcp r (lcpl (suf m) (suf j)) ltac:(lia)) as (lcp' & E'). rewrite E'. cbn [obind]. eexists. split; [reflexivity|]. split; [rewrite (set_nth_length _ _ _ _ E'); exact L|]. split.
      + intros i r' Hi Ei. rewrite (set_nth_get _ _ _ _ r' E'). destruct (Nat.eqb_spec r r') as [<-|N]; [unfold adj; now rewrite Ej, Es|]. apply (H i); [|exact Ei]. assert (i <> m) by congruence. lia.
      + intros Hm' r' j' Eo' Ej'. destruct (Nat.ltb_spec 0 (lcpl (suf m) (suf j))) as [P|P]; [|lia].
        destruct (suf_cons s m) as (x & Ex); [lia|]. assert (Hj : j < n). { destruct (Nat.eq_dec j n) as [->|]; [|lia]. rewrite skipn_all, Ex in P. cbn in P. lia. }
        destruct (suf_cons s j Hj) as (y & Ey). rewrite Ex, Ey in P, Lt |- *. cbn [lcpl] in P |- *. destruct (Z.eqb_spec x y) as [<-|N]; [|lia]. cbn [lex_lt] in Lt. destruct Lt as [Lt|(_ & Lt)]; [lia|].
        destruct (sa_has (S j) ltac:(lia)) as (k & Ek). destruct (sa_has (S m) ltac:(lia)) as (k' & Ek'). pose proof (sa_order _ _ _ _ Ek Ek' Lt) as Lk. rewrite (Hord _ _ Ek') in Eo'. injection Eo' as ->.
        cbn [Nat.sub]. rewrite Nat.sub_0_r. destruct (Nat.eq_dec k r') as [->|Nk]; [assert (j' = S j) by congruence; subst; lia|]. destruct Sorted as (_ & Q).
        pose proof (Q k r' _ _ ltac:(lia) Ek Ej') as A1. pose proof (Q r' (S r') _ _ ltac:(lia) Ej' Ek') as A2. pose proof (lcpl_mid _ _ _ A1 A2) as Mid. rewrite (lcpl_comm (suf (S m)) (suf j')), (lcpl_comm (suf (S m)) (suf (S j))), Mid. lia.
    - rewrite E. cbn [obind]. exists lcp. split; [reflexivity|]. split; [exact L|]. intros r Hr. destruct (nth_error sa (S r)) as [i|] eqn:Ei; [|apply nth_error_None in Ei; rewrite sa_len in Ei; lia].
      assert (Hi : i < n). { pose proof (sa_lt _ _ Ei). destruct (Nat.eq_dec i n) as [->|]; [|lia]. pose proof (sa_inj _ _ _ Ei sa_first). lia. } apply (H i); [exact Hi|now apply Hord].
  Qed.
  Lemma adj_min x : forall d i j, nth_error sa x = Some i -> nth_error sa (x + S d) = Some j ->
    (forall k, x <= k < x + S d -> lcpl (suf i) (suf j) <= adj k) /\ exists k, x <= k < x + S d /\ adj k = lcpl (suf i) (suf j).
  Proof using All.
    induction d as [|d IH]; intros i j Ei Ej.
    - rewrite Nat.add_1_r in Ej. assert (A : adj x = lcpl (suf i) (suf j)) by (unfold adj; rewrite Ei, Ej; apply lcpl_comm). split; [intros k Hk; replace k with x by lia; lia|]. exists x. split; [lia|exact A].
    - rewrite Nat.add_succ_r in Ej. destruct (nth_error sa (x + S d)) as [m|] eqn:Em; [|apply nth_error_None in Em; assert (S (x + S d) < length sa) by (apply nth_error_Some; congruence); lia].
      destruct (IH i m Ei eq_refl) as (A & k0 & B & C). destruct Sorted as (_ & Q). pose proof (lcpl_mid _ _ _ (Q x (x + S d) _ _ ltac:(lia) Ei Em) (Q (x + S d) (S (x + S d)) _ _ ltac:(lia) Em Ej)) as Mid.
      assert (D : adj (x + S d) = lcpl (suf m) (suf j)) by (unfold adj; rewrite Em, Ej; apply lcpl_comm). split.
      + intros k Hk. destruct (Nat.eq_dec k (x + S d)) as [->|]; [lia|]. specialize (A k ltac:(lia)). lia.
      + destruct (Nat.le_gt_cases (lcpl (suf i) (suf m)) (lcpl (suf m) (suf j))); [exists k0|exists (x + S d)]; split; lia.
  Qed.
End Build.
