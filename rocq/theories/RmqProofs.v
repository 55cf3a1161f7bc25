(** Ballot numbers rank the shapes of the stacks; stacks determine the minima. *)
From Coq Require Import ZArith List PeanoNat Lia Bool.
From Verif Require Import Lib BitsModel BitsSpec BitsProofs BitsProofs2 RmqModel RmqSpec.
Import ListNotations.

(** ** log2_32 *)
Lemma or_up_bits k x i : (0 <= i)%Z ->
  (Z.testbit (or_up k x) i = true <-> exists j, (i <= j < i + width k)%Z /\ Z.testbit x j = true).
Proof.
  revert i. induction k as [|k IH]; intros i Hi; cbn [or_up].
  - unfold width. cbn. split.
    + intros H. exists i. split; [lia|exact H].
    + intros (j & Hj & H). now replace i with j by lia.
  - unfold width in *. rewrite Nat2Z.inj_succ, Z.pow_succ_r by lia.
    assert (0 < 2 ^ Z.of_nat k)%Z by (apply Z.pow_pos_nonneg; lia).
    rewrite Z.lor_spec, orb_true_iff, Z.shiftr_spec, !IH by lia. split.
    + intros [(j & Hj & H0)|(j & Hj & H0)]; exists j; (split; [lia|exact H0]).
    + intros (j & Hj & H0). destruct (Z.lt_ge_cases j (i + 2 ^ Z.of_nat k)); [left|right]; exists j; (split; [lia|exact H0]).
Qed.
Lemma or_up_down k x : or_up k x = or_down k x.
Proof.
  apply Z.bits_inj'. intros i Hi. apply eq_true_iff_eq. rewrite or_up_bits, or_down_bits by exact Hi. reflexivity.
Qed.
Lemma log2_32_ok x : (0 <= x < 2 ^ 32)%Z -> log2_32 x = Some (Z.log2 x).
Proof. intro H. unfold log2_32. rewrite or_up_down. apply (ilog2_32_spec x). exact H. Qed.

(** ** ballot numbers *)
Lemma ballot_step p q : S p <= q -> ballot (S p) q = ballot (S p) (q - 1) + ballot p q.
Proof.
  destruct q as [|q]; [lia|]. intro H. replace (S q - 1) with q by lia.
  change (ballot (S p) (S q)) with (if S q <? S p then 0 else ballot (S p) q + ballot p (S q)).
  destruct (S q <? S p) eqn:E; [apply Nat.ltb_lt in E; lia|]. reflexivity.
Qed.
(** the sum of ballot p q, ballot p (q-1), ..., c terms *)
Fixpoint psum (p q c : nat) : nat := match c with O => 0 | S c => ballot p q + psum p (q - 1) c end.
Lemma psum_snoc p q c : psum p q (S c) = psum p q c + ballot p (q - c).
Proof.
  revert q. induction c as [|c IH]; intro q. { cbn. rewrite Nat.sub_0_r. lia. }
  change (psum p q (S (S c))) with (ballot p q + psum p (q - 1) (S c)). rewrite IH.
  cbn [psum]. replace (q - 1 - c) with (q - S c) by lia. lia.
Qed.
Lemma psum_le p q c d : c <= d -> psum p q c <= psum p q d.
Proof. induction 1 as [|d H IH]; [lia|]. rewrite psum_snoc. lia. Qed.
Lemma ballot_psum p q c : c + S p <= q -> ballot (S p) q = psum p q c + ballot (S p) (q - c).
Proof.
  induction c as [|c IH]; intro H. { cbn [psum]. rewrite Nat.sub_0_r. reflexivity. }
  rewrite IH by lia. rewrite psum_snoc, (ballot_step p (q - c)) by lia. replace (q - c - 1) with (q - S c) by lia. lia.
Qed.
(** the rank of a sequence of numbers of pops *)
Fixpoint rank (p q : nat) (cs : list nat) : nat :=
  match cs with [] => 0 | c :: cs => psum (p - 1) q c + rank (p - 1) (q - c) cs end.
Fixpoint valid (p q : nat) (cs : list nat) : Prop :=
  match cs with
  | [] => p = 0
  | c :: cs => 0 < p /\ c + p <= q /\ valid (p - 1) (q - c) cs
  end.
Lemma rank_lt cs : forall p q, p <= q -> valid p q cs -> rank p q cs < ballot p q.
Proof.
  induction cs as [|c cs IH]; intros p q L V; cbn [rank valid] in *.
  - subst p. cbn. lia.
  - destruct V as (P & C & V). destruct p as [|p]; [lia|]. replace (S p - 1) with p in * by lia.
    specialize (IH p (q - c) ltac:(lia) V). rewrite (ballot_psum p q c) by lia. rewrite (ballot_step p (q - c)) by lia. lia.
Qed.
Lemma rank_inj cs : forall cs' p q, p <= q -> valid p q cs -> valid p q cs' -> rank p q cs = rank p q cs' -> cs = cs'.
Proof.
  induction cs as [|c cs IH]; intros [|c' cs'] p q L V V' E; cbn [valid] in V, V'; try (exfalso; lia); [reflexivity|].
  destruct V as (P & C & V), V' as (_ & C' & V'). cbn [rank] in E.
  destruct p as [|p]; [lia|]. replace (S p - 1) with p in * by lia.
  pose proof (rank_lt cs p (q - c) ltac:(lia) V) as R. pose proof (rank_lt cs' p (q - c') ltac:(lia) V') as R'.
  assert (c = c').
  { destruct (Nat.lt_trichotomy c c') as [K|[K|K]]; [exfalso|exact K|exfalso].
    - pose proof (psum_le p q (S c) c' K). rewrite psum_snoc in H. lia.
    - pose proof (psum_le p q (S c') c K). rewrite psum_snoc in H. lia. }
  subst c'. f_equal. apply (IH cs' p (q - c)); [lia|exact V|exact V'|lia].
Qed.

Section P.
  Context {A : Type}.
  Variable comp : A -> A -> bool.
  Variable B : nat.
  Variable dflt : A.
  Hypothesis SW : strict_weak comp.

  Section Block.
    Variable p : list A.
    Definition v (i : nat) : A := nth i p dflt.
    Lemma v_nth i : length p = B -> i < B -> nth_error p i = Some (v i).
    Proof using. intros Lp H. apply nth_error_nth'. lia. Qed.
    Fixpoint popc (x : A) (s : list nat) : nat :=
      match s with [] => 0 | i :: t => if comp x (v i) then S (popc x t) else 0 end.
    Fixpoint stk (j : nat) : list nat :=
      match j with O => [] | S j => j :: skipn (popc (v j) (stk j)) (stk j) end.
    Definition cnt (j : nat) : nat := popc (v j) (stk j).
    Lemma popc_le x s : popc x s <= length s.
    Proof using. induction s as [|i t IH]; cbn; [lia|]. destruct (comp x (v i)); lia. Qed.

    (** what is on the stack *)
    Lemma stk_desc j : forall pre i post, stk j = pre ++ i :: post -> i < j /\ forall k, In k post -> k < i.
    Proof using.
      induction j as [|j IH]; intros pre i post E; cbn [stk] in E; [destruct pre; discriminate|].
      destruct pre as [|a pre]; cbn in E; injection E as E1 E2.
      - subst i. split; [lia|]. intros k K. rewrite <- E2 in K.
        assert (K' : In k (stk j)). { rewrite <- (firstn_skipn (popc (v j) (stk j)) (stk j)). apply in_or_app. right. exact K. }
        apply in_split in K' as (l1 & l2 & K'). apply (IH l1 k l2 K').
      - destruct (IH (firstn (popc (v j) (stk j)) (stk j) ++ pre) i post) as [H1 H2].
        { rewrite <- app_assoc, <- E2. symmetry. apply firstn_skipn. }
        split; [lia|exact H2].
    Qed.
    Lemma stk_chain j : forall pre i post k, stk j = pre ++ i :: post -> In k post -> comp (v i) (v k) = false.
    Proof using SW.
      destruct SW as (Irr & Asym & Tr).
      assert (SK : forall x s, (forall pre i post k, s = pre ++ i :: post -> In k post -> comp (v i) (v k) = false) ->
        forall k, In k (skipn (popc x s) s) -> comp x (v k) = false).
      { intros x s. induction s as [|i t IHs]; intros H k K; cbn in K; [destruct K|].
        destruct (comp x (v i)) eqn:C; cbn in K.
        - apply IHs; [|exact K]. intros pre i' post k' E K'. apply (H (i :: pre) i' post k'); [rewrite E; reflexivity|exact K'].
        - destruct K as [<-|K]; [exact C|]. apply Tr with (v i); [exact C|]. apply (H [] i t k); [reflexivity|exact K]. }
      induction j as [|j IH]; intros pre i post k E K; cbn [stk] in E; [destruct pre; discriminate|].
      destruct pre as [|a pre]; cbn in E; injection E as E1 E2.
      - subst i. apply (SK (v j) (stk j)); [exact IH|]. rewrite E2. exact K.
      - apply (IH (firstn (popc (v j) (stk j)) (stk j) ++ pre) i post k); [|exact K].
        rewrite <- app_assoc, <- E2. symmetry. apply firstn_skipn.
    Qed.
    Lemma stk_in j i : In i (stk j) <-> i < j /\ forall k, i < k < j -> comp (v k) (v i) = false.
    Proof using SW.
      destruct SW as (Irr & Asym & Tr).
      assert (SK1 : forall x s k, In k (skipn (popc x s) s) -> In k s).
      { intros x s k K. rewrite <- (firstn_skipn (popc x s) s). apply in_or_app. right. exact K. }
      assert (SK2 : forall x s k, In k s -> comp x (v k) = false -> In k (skipn (popc x s) s)).
      { intros x s. induction s as [|a t IHs]; intros k K C; cbn; [destruct K|].
        destruct (comp x (v a)) eqn:Ca; cbn; [|exact K]. destruct K as [->|K]; [congruence|]. apply IHs; assumption. }
      induction j as [|j IH]; cbn [stk]. { split; [intros []|lia]. }
      split.
      - intros [<-|K]. { split; [lia|]. intros k Hk. lia. }
        pose proof (SK1 _ _ _ K) as K1. apply IH in K1 as [H1 H2]. split; [lia|]. intros k Hk.
        destruct (Nat.eq_dec k j) as [->|N]; [|apply H2; lia].
        pose proof (in_split _ _ K) as (l1 & l2 & E).
        apply (stk_chain (S j) [] j (skipn (popc (v j) (stk j)) (stk j)) i eq_refl K).
      - intros [H1 H2]. destruct (Nat.eq_dec i j) as [->|N]; [left; reflexivity|right].
        apply SK2; [|apply H2; lia]. apply IH. split; [lia|]. intros k Hk. apply H2. lia.
    Qed.
    (** the first minimum of p[l..e) is the lowest element of the stack that is at least l *)
    Lemma first_min_stk l e m : length p = B -> l < e <= B ->
      (first_min comp p l e m <-> l <= m /\ In m (stk e) /\ forall i, In i (stk e) -> l <= i -> m <= i).
    Proof using SW.
      intros Lp H. destruct SW as (Irr & Asym & Tr). split.
      - intros (R & x & Ex & M1 & M2). rewrite v_nth in Ex by lia. injection Ex as <-.
        split; [lia|]. split.
        + apply stk_in. split; [lia|]. intros k Hk. apply (M1 k); [lia|]. apply v_nth; lia.
        + intros i Hi L. apply stk_in in Hi as [I1 I2]. destruct (Nat.lt_ge_cases i m) as [K|K]; [|exact K]. exfalso.
          pose proof (M2 i _ (conj L K) (v_nth i Lp ltac:(lia))). rewrite I2 in H0 by lia. discriminate.
      - intros (L & Hm & Low). apply stk_in in Hm as [E1 E2].
        assert (Left : forall k, l <= k < m -> comp (v m) (v k) = true).
        { (* by downward induction: otherwise some k would be on the stack *)
          assert (D : forall d k, m - k = d -> l <= k < m -> comp (v m) (v k) = true).
          { induction d as [d IHd] using lt_wf_ind. intros k Ed Hk.
            destruct (comp (v m) (v k)) eqn:C; [reflexivity|exfalso].
            assert (S1 : In k (stk e)).
            { apply stk_in. split; [lia|]. intros k' Hk'. destruct (Nat.lt_trichotomy k' m) as [K|[->|K]].
              - destruct (comp (v k') (v k)) eqn:C'; [|reflexivity]. exfalso.
                assert (T : comp (v m) (v k') = true) by (apply (IHd (m - k')); lia).
                pose proof (Tr (v m) (v k) (v k') C (Asym _ _ C')). congruence.
              - exact C.
              - apply Tr with (v m); [apply E2; lia|exact C]. }
            specialize (Low k S1 ltac:(lia)). lia. }
          intros k Hk. apply (D (m - k) k eq_refl Hk). }
        split; [lia|]. exists (v m). split; [apply v_nth; lia|]. split.
        + intros k y Hk Ey. rewrite v_nth in Ey by lia. injection Ey as <-.
          destruct (Nat.lt_trichotomy k m) as [K|[->|K]]; [apply Asym; apply Left; lia|apply Irr|apply E2; lia].
        + intros k y Hk Ey. rewrite v_nth in Ey by lia. injection Ey as <-. apply Left. exact Hk.
    Qed.

    (** the program keeps the values of the stack *)
    Fixpoint rel (rp : list A) (s : list nat) : Prop :=
      match s with [] => True | i :: t => nth_error rp (S (length t)) = Some (v i) /\ rel rp t end.
    Lemma pop_ok rp j x s : forall q N, j < B -> q + j = length s + B -> rel rp s ->
      pop_while comp B rp j x q N = Some (q - popc x s, N + psum (B - j - 1) q (popc x s)).
    Proof using.
      induction s as [|i t IH]; intros q N Hj Hq R; cbn [popc] in *.
      - cbn [length] in Hq. destruct q as [|q]; unfold pop_while; fold (pop_while comp B);
          (destruct (0 <? _ + j - B) eqn:E; [apply Nat.ltb_lt in E; lia|]); cbn [psum]; do 2 f_equal; lia.
      - cbn [length] in Hq. destruct R as [R1 R2]. destruct q as [|q]; [lia|].
        cbn [pop_while]. destruct (0 <? S q + j - B) eqn:E; [|apply Nat.ltb_ge in E; lia].
        replace (S q + j - B) with (S (length t)) by lia. rewrite R1. cbn [obind].
        destruct (comp x (v i)).
        + rewrite IH by (assumption || lia). cbn [psum]. replace (S q - 1) with q by lia. do 2 f_equal; lia.
        + cbn [psum]. do 2 f_equal; lia.
    Qed.
    Lemma rel_skipn rp c : forall s, rel rp s -> rel rp (skipn c s).
    Proof using. induction c as [|c IH]; intros [|i t] H; cbn; try exact H. apply IH. apply H. Qed.
    Lemma rel_set rp rp' h x s : set_nth rp h x = Some rp' -> length s < h -> rel rp s -> rel rp' s.
    Proof using.
      intros E. induction s as [|i t IH]; intros L R; cbn [rel length] in *; [exact Logic.I|]. destruct R as [R1 R2]. split; [|apply IH; [lia|exact R2]].
      rewrite (set_nth_get _ _ _ _ _ E). destruct (Nat.eqb_spec h (S (length t))); [lia|exact R1].
    Qed.
    Definition counts : list nat := map cnt (seq 0 B).
    Lemma stk_le j : length (stk j) <= j.
    Proof using. induction j as [|j IH]; cbn; [lia|]. rewrite skipn_length. lia. Qed.
    Lemma counts_valid_from d j : j + d = B -> valid d (d + length (stk j)) (map cnt (seq j d)).
    Proof using.
      revert j. induction d as [|d IH]; intros j H; cbn [seq map valid]; [reflexivity|].
      pose proof (popc_le (v j) (stk j)) as L. fold (cnt j) in L.
      split; [lia|]. split; [lia|]. replace (S d - 1) with d by lia.
      specialize (IH (S j) ltac:(lia)). cbn [stk length] in IH. rewrite skipn_length in IH. fold (cnt j) in IH.
      replace (S d + length (stk j) - cnt j) with (d + S (length (stk j) - cnt j)) by lia. exact IH.
    Qed.
    Lemma type_ok : length p = B -> block_type comp B dflt p = Some (rank B B counts) /\ valid B B counts.
    Proof using.
      intro Lp. split.
      2:{ pose proof (counts_valid_from B 0 eq_refl) as H. cbn [stk length] in H. rewrite Nat.add_0_r in H. exact H. }
      unfold block_type.
      destruct (for_range_spec (fun j (st : nat * nat * list A) => let '(q, N, rp) := st in
         q + j = length (stk j) + B /\ length rp = B + 1 /\ rel rp (stk j) /\
         N + rank (B - j) q (map cnt (seq j (B - j))) = rank B B counts) (type_step comp B p) 0 B (B, 0, repeat dflt (B + 1)))
        as (((q & N) & rp) & E & I0); [lia| | |].
      - cbn [stk length rel]. rewrite repeat_length, Nat.sub_0_r. repeat split; lia.
      - intros j ((q & N) & rp) Hj (Hq & Lrp & R & HN). unfold type_step. rewrite v_nth by lia. cbn [obind].
        rewrite (pop_ok rp j (v j) (stk j)) by (assumption || lia). cbn [obind]. fold (cnt j).
        pose proof (popc_le (v j) (stk j)) as L. fold (cnt j) in L. pose proof (stk_le j) as L2.
        destruct (set_nth_some rp (q - cnt j + j - B + 1) (v j)) as [rp' Er]; [lia|]. rewrite Er. cbn [obind].
        eexists. split; [reflexivity|]. cbn [stk length rel]. fold (cnt j). rewrite skipn_length.
        assert (Eh : q - cnt j + j - B + 1 = S (length (stk j) - cnt j)) by lia.
        split; [lia|]. split; [rewrite (set_nth_length _ _ _ _ Er); exact Lrp|]. split; [split|].
        + rewrite (set_nth_get _ _ _ _ _ Er), Eh, Nat.eqb_refl. reflexivity.
        + apply (rel_set rp rp' _ (v j) _ Er); [rewrite skipn_length; lia|]. apply rel_skipn. exact R.
        + rewrite <- HN. replace (B - j) with (S (B - S j)) by lia. cbn [seq map rank].
          replace (S (B - S j) - 1) with (B - S j) by lia. replace (B - j - 1) with (B - S j) by lia. lia.
      - rewrite E. cbn [obind]. destruct I0 as (_ & _ & _ & HN). rewrite Nat.sub_diag in HN. cbn in HN.
        f_equal. lia.
    Qed.
  End Block.

  (** blocks of the same type have the same minima *)
  Lemma same_counts_stk p p' : counts p = counts p' -> forall j, j <= B -> stk p j = stk p' j.
  Proof using.
    intros E j. induction j as [|j IH]; intro H; [reflexivity|]. cbn [stk]. rewrite IH by lia.
    assert (C : cnt p j = cnt p' j).
    { unfold counts in E.
      assert (G : forall q, nth_error (map (cnt q) (seq 0 B)) j = Some (cnt q j)).
      { intro q. apply map_nth_error. rewrite (nth_error_nth' _ 0) by (rewrite seq_length; lia). rewrite seq_nth by lia. reflexivity. }
      pose proof (G p) as G1. rewrite E, G in G1. congruence. }
    unfold cnt in C. rewrite IH in C by lia. rewrite C. reflexivity.
  Qed.
  Lemma same_type p p' N l e m : length p = B -> length p' = B ->
    block_type comp B dflt p = Some N -> block_type comp B dflt p' = Some N -> l < e <= B ->
    first_min comp p l e m -> first_min comp p' l e m.
  Proof using SW.
    intros L L' E E' R M. destruct (type_ok p L) as [T V], (type_ok p' L') as [T' V'].
    assert (C : counts p = counts p') by (apply (rank_inj (counts p) (counts p') B B); [lia|exact V|exact V'|congruence]).
    apply (first_min_stk p' l e m L' R). rewrite <- (same_counts_stk p p' C e) by lia. apply (first_min_stk p l e m L R). exact M.
  Qed.
  Lemma type_lt p N : length p = B -> block_type comp B dflt p = Some N -> N < ballot B B.
  Proof using.
    intros L E. destruct (type_ok p L) as [T V]. rewrite E in T. injection T as ->. apply rank_lt; [lia|exact V].
  Qed.
End P.
