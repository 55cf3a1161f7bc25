(** Longest common prefixes and comparison of substrings by a suffix array (C163). *)
From Coq Require Import Lia Permutation.
From Verif Require Import Lib RmqModel RmqSpec RmqProps SaModel SaSpec SaProofs.
Open Scope nat_scope.

Lemma ltb_weak : strict_weak Nat.ltb.
Proof.
  split; [intro; apply Nat.ltb_irrefl|]. split.
  - intros x y E. apply Nat.ltb_lt in E. apply Nat.ltb_ge. lia.
  - intros x y z E1 E2. apply Nat.ltb_ge in E1, E2. apply Nat.ltb_ge. lia.
Qed.

(** Missing for the whole class: that the construction (SA-IS) yields the array [sa] sorted in this way. *)
Section Props.
  Variables (s : list Z) (sa : list nat).
  Hypothesis Sorted : suffix_sorted s sa.
  Hypothesis Size : (Z.of_nat (length s) + 2 < 2 ^ 31)%Z.
  Local Notation n := (length s).

  Lemma sa_run : exists t, sa_build s sa = Some t /\ a_string t = s /\ a_arr t = sa /\ (forall k i, nth_error sa k = Some i -> nth_error (a_ord t) i = Some k) /\
    forall i j, i <= n -> j <= n -> get_lcp t i j = Some (lcpl (skipn i s) (skipn j s)).
  Proof using Sorted Size.
    unfold sa_build. destruct (inverse_ok s sa Sorted) as (ord & Eo & Lo & Ho). rewrite Eo. cbn [obind]. destruct (kasai s sa Sorted ord Lo Ho) as (lcp & El & Ll & Hl). rewrite El. cbn [obind].
    destruct (C152_first_minimum nat Nat.ltb 8 0 lcp ltb_weak ltac:(lia) ltac:(lia)) as (r & Er & Q). unfold rmq_build. rewrite Er. cbn [obind]. eexists. split; [reflexivity|]. cbn [a_string a_arr a_ord]. split; [reflexivity|]. split; [reflexivity|]. split; [exact Ho|].
    assert (G : forall x y i j, x < y -> nth_error sa x = Some i -> nth_error sa y = Some j -> rmq_value r x y = Some (lcpl (skipn i s) (skipn j s))).
    { intros x y i j H Ei Ej. assert (Ly : y < length sa) by (apply nth_error_Some; congruence). rewrite (sa_len s sa Sorted) in Ly. destruct (Q x y ltac:(lia)) as (m & _ & (Rm & v & Ev & M & _) & Em). unfold rmq_value. rewrite Em, Ev. f_equal.
      replace y with (x + S (y - x - 1)) in Ej by lia. destruct (adj_min s sa Sorted ord Lo Ho x (y - x - 1) i j Ei Ej) as (A & k & Bk & Ck). replace (x + S (y - x - 1)) with y in * by lia.
      rewrite (Hl m ltac:(lia)) in Ev. injection Ev as <-. pose proof (A m Rm). specialize (M k _ Bk (Hl k ltac:(lia))). apply Nat.ltb_ge in M. lia. }
    intros i j Hi Hj. unfold get_lcp. cbn [a_string a_ord a_rmq]. destruct (Nat.eqb_spec i j) as [->|N]; [now rewrite lcpl_refl, skipn_length|].
    destruct (sa_has s sa Sorted i Hi) as (x & Ex). destruct (sa_has s sa Sorted j Hj) as (y & Ey). rewrite (Ho _ _ Ex), (Ho _ _ Ey). cbn [obind]. assert (x <> y) by congruence. destruct (Nat.ltb_spec y x) as [H'|H'].
    - rewrite (G y x j i H' Ey Ex), lcpl_comm. reflexivity.
    - apply (G x y i j); [lia|exact Ex|exact Ey].
  Qed.
  Theorem C163_lcp_partial : exists t, sa_build s sa = Some t /\
    (forall k, get_kth_suffix t k = nth_error sa k) /\
    (forall k i, k <= n -> i <= n -> get_suffix_order t i = Some k <-> get_kth_suffix t k = Some i) /\
    forall i j, i <= n -> j <= n -> exists l, get_lcp t i j = Some l /\ is_lcp l (skipn i s) (skipn j s).
  Proof using Sorted Size.
    destruct sa_run as (t & E & Es & Ea & Eo & G). exists t. split; [exact E|]. unfold get_kth_suffix, get_suffix_order. rewrite Ea. split; [reflexivity|]. split; [|intros i j Hi Hj; eexists; split; [now apply G|apply lcpl_is]].
    intros k i Hk Hi. split; [|apply Eo]. intros X. destruct (sa_has s sa Sorted i Hi) as (k' & Y). rewrite (Eo _ _ Y) in X. congruence.
  Qed.
  Theorem C163_compare_partial : exists t, sa_build s sa = Some t /\
    forall b1 e1 b2 e2, b1 <= e1 -> e1 <= n -> b2 <= e2 -> e2 <= n ->
      exists r, compare_substrings t b1 e1 b2 e2 = Some r /\ orders r (substring s b1 e1) (substring s b2 e2).
  Proof using Sorted Size.
    destruct sa_run as (t & E & Es & Ea & Eo & G). exists t. split; [exact E|]. intros b1 e1 b2 e2 H1 H2 H3 H4. unfold compare_substrings, substring.
    pose proof (cmp_prefix (skipn b1 s) (skipn b2 s) (e1 - b1) (e2 - b2)) as C. rewrite !skipn_length in C. specialize (C ltac:(lia) ltac:(lia)). cbv zeta in C.
    destruct (Nat.eqb_spec b1 b2) as [<-|N].
    - rewrite lcpl_refl, skipn_length in C. rewrite (proj2 (Nat.ltb_ge (n - b1) (e1 - b1))) in C by lia. cbn [andb] in C. eexists. split; [reflexivity|].
      replace (compareZ (Z.of_nat e1) (Z.of_nat e2)) with (compareZ (Z.of_nat (e1 - b1)) (Z.of_nat (e2 - b1))); [exact C|]. unfold compareZ. repeat match goal with |- context [(?a <? ?b)%Z] => destruct (Z.ltb_spec a b) end; lia.
    - rewrite G by lia. cbn [obind]. rewrite Es. set (l := lcpl (skipn b1 s) (skipn b2 s)) in *.
      replace (b1 + l <? e1) with (l <? e1 - b1) by (destruct (Nat.ltb_spec l (e1 - b1)), (Nat.ltb_spec (b1 + l) e1); lia). replace (b2 + l <? e2) with (l <? e2 - b2) by (destruct (Nat.ltb_spec l (e2 - b2)), (Nat.ltb_spec (b2 + l) e2); lia).
      destruct ((l <? e1 - b1) && (l <? e2 - b2)).
      + destruct C as (x & y & Ex & Ey & O). rewrite nth_skipn in Ex, Ey. rewrite Ex. cbn [obind]. rewrite Ey. cbn [obind]. eexists. split; [reflexivity|exact O].
      + eexists. split; [reflexivity|]. rewrite !Nat2Z.inj_sub in C by lia. exact C.
  Qed.
End Props.

(** "banana" *)
Definition banana : list Z := [2; 1; 3; 1; 3; 1]%Z.
Definition banana_sa : list nat := [6; 5; 3; 1; 0; 4; 2].
Example C163_case : suffix_sorted banana banana_sa /\
  (let* t := sa_build banana banana_sa in Some (get_lcp t 1 3, get_lcp t 2 4, get_lcp t 0 1, compare_substrings t 1 4 3 6, compare_substrings t 1 4 3 5, compare_substrings t 0 2 2 6)) = Some (Some 3, Some 2, Some 0, Some 0%Z, Some 1%Z, Some (-1)%Z).
Proof.
  split; [|vm_compute; reflexivity]. split.
  - apply NoDup_Permutation; [repeat constructor; cbn; intuition lia|apply seq_NoDup|]. intros x. rewrite in_seq. cbn. intuition lia.
  - intros x y i j H Ex Ey. do 7 (destruct x as [|x]; [injection Ex as <-; do 7 (destruct y as [|y]; [try lia; injection Ey as <-; cbn; intuition lia|]); destruct y; discriminate|]). destruct x; discriminate.
Qed.
Print Assumptions C163_lcp_partial.
Print Assumptions C163_compare_partial.
