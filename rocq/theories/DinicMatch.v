(** Correctness of the bipartite matching. *)
From Coq Require Import List PeanoNat ZArith Lia Bool.
From Verif Require Import Lib DinicModel DinicSpec DinicProofs DinicProofs2.
Import ListNotations.
Open Scope Z_scope.

Lemma sum_nonneg f l : (forall x, In x l -> 0 <= f x) -> 0 <= sum f l.
Proof. intro H. rewrite <- (sum_zero l). apply sum_le. exact H. Qed.
Lemma sum_one f l x : In x l -> (forall y, In y l -> 0 <= f y) -> f x <= sum f l.
Proof.
  induction l as [|z l IH]; intros H N; [destruct H|]. rewrite sum_cons. pose proof (N z (or_introl eq_refl)). pose proof (sum_nonneg f l (fun y Hy => N y (or_intror Hy))).
  destruct H as [->|H]; [lia|]. pose proof (IH H (fun y Hy => N y (or_intror Hy))). lia.
Qed.
Lemma sum_two f l x y : NoDup l -> In x l -> In y l -> x <> y -> (forall z, In z l -> 0 <= f z) -> f x + f y <= sum f l.
Proof.
  intro ND. induction ND as [|z l N1 N2 IH]; intros Hx Hy NE N; [destruct Hx|]. rewrite sum_cons. pose proof (N z (or_introl eq_refl)) as Nz.
  assert (N' : forall z, In z l -> 0 <= f z) by (intros w Hw; apply N; right; exact Hw).
  destruct Hx as [->|Hx], Hy as [->|Hy]; [congruence|pose proof (sum_one f l y Hy N')|pose proof (sum_one f l x Hx N')|pose proof (IH Hx Hy NE N')]; lia.
Qed.
Lemma sum_pos_ex f l : 0 < sum f l -> exists x, In x l /\ 0 < f x.
Proof.
  induction l as [|z l IH]; [rewrite sum_nil; lia|]. rewrite sum_cons. intro H. destruct (Z.lt_ge_cases 0 (f z)); [exists z; split; [left; reflexivity|assumption]|].
  destruct IH as (x & A & B); [lia|]. exists x. split; [right; exact A|exact B].
Qed.
Lemma sum_single f l x : NoDup l -> In x l -> (forall y, In y l -> y <> x -> f y = 0) -> sum f l = f x.
Proof.
  intros ND H Z. rewrite (sum_ext f (fun b => if Nat.eqb x b then f x else 0)); [apply sum_point; assumption|].
  intros y Hy. destruct (Nat.eqb x y) eqn:E; [apply Nat.eqb_eq in E; subst; reflexivity|]. apply Nat.eqb_neq in E. apply Z; congruence.
Qed.
Lemma sum_count f l : (forall x, In x l -> 0 <= f x <= 1) -> sum f l = Z.of_nat (length (filter (fun x => negb (f x =? 0)) l)).
Proof.
  induction l as [|z l IH]; intro H; [reflexivity|]. rewrite sum_cons, (IH (fun y Hy => H y (or_intror Hy))). pose proof (H z (or_introl eq_refl)). cbn [filter].
  destruct (f z =? 0) eqn:E; cbn [negb length]; [apply Z.eqb_eq in E; lia|apply Z.eqb_neq in E; lia].
Qed.
Lemma NoDup_map_on {A B} (f : A -> B) l : NoDup l -> (forall x y, In x l -> In y l -> f x = f y -> x = y) -> NoDup (map f l).
Proof.
  intro ND. induction ND as [|x l N1 N2 IH]; intro H; cbn [map]; constructor.
  - intro X. apply in_map_iff in X as (y & Y1 & Y2). apply N1. rewrite (H x y (or_introl eq_refl) (or_intror Y2) (eq_sym Y1)). exact Y2.
  - apply IH. intros a b Ha Hb. apply H; right; assumption.
Qed.

Section Matching.
  Variables (src sink : nat).
  Hypothesis NS : src <> sink.
  Definition add_edge (e : nat * nat) (cap : matrix) : matrix := let '(u, v) := e in upd2 (upd2 (upd2 cap src u 1) u v 1) v sink 1.
  Definition pathm (l : list (nat * nat)) : matrix := fold_right add_edge (fun _ _ => 0) l.
  Definition used (l : list (nat * nat)) (a b : nat) : Prop := (a = src /\ In b (map fst l)) \/ In (a, b) l \/ (b = sink /\ In a (map snd l)).
  Lemma upd2_val g u v x a b : (a = u /\ b = v /\ upd2 g u v x a b = x) \/ (~ (a = u /\ b = v) /\ upd2 g u v x a b = g a b).
  Proof using.
    unfold upd2. destruct (Nat.eqb u a) eqn:E; cbn [andb]; [apply Nat.eqb_eq in E; destruct (Nat.eqb v b) eqn:F; [apply Nat.eqb_eq in F; left; auto|apply Nat.eqb_neq in F]|apply Nat.eqb_neq in E]; right; split; auto; intros []; congruence.
  Qed.
  Lemma pathm_val l a b : (pathm l a b = 1 /\ used l a b) \/ (pathm l a b = 0 /\ ~ used l a b).
  Proof using.
    induction l as [|[u v] l IH]; [right; split; [reflexivity|]; intros [[_ []]|[[]|[_ []]]]|]. change (pathm ((u, v) :: l)) with (upd2 (upd2 (upd2 (pathm l) src u 1) u v 1) v sink 1).
    assert (MONO : used l a b -> used ((u, v) :: l) a b) by (unfold used; cbn [map fst snd In]; tauto).
    destruct (upd2_val (upd2 (upd2 (pathm l) src u 1) u v 1) v sink 1 a b) as [(-> & -> & ->)|(N1 & ->)]; [left; split; [reflexivity|right; right; split; [reflexivity|left; reflexivity]]|].
    destruct (upd2_val (upd2 (pathm l) src u 1) u v 1 a b) as [(-> & -> & ->)|(N2 & ->)]; [left; split; [reflexivity|right; left; left; reflexivity]|].
    destruct (upd2_val (pathm l) src u 1 a b) as [(-> & -> & ->)|(N3 & ->)]; [left; split; [reflexivity|left; split; [reflexivity|left; reflexivity]]|].
    destruct IH as [[-> U]|[-> U]]; [left; split; [reflexivity|apply MONO; exact U]|]. right. split; [reflexivity|]. intro X. apply U. unfold used in *. cbn [map fst snd In] in X.
    destruct X as [[A [B|B]]|[[B|B]|[A [B|B]]]]; try (exfalso; subst; tauto); try tauto. exfalso. injection B as -> ->. tauto.
  Qed.
  Lemma used_incl l l' a b : incl l l' -> used l a b -> used l' a b.
  Proof using.
    intros H [[A B]|[A|[A B]]]; [left|right; left; apply H; exact A|right; right]; (split; [exact A|]); apply in_map_iff in B as (e & E1 & E2); apply in_map_iff; exists e; auto.
  Qed.
  Lemma build_cap edges a b : fold_left (fun cap '(u, v) => upd2 (upd2 (upd2 cap src u 1) u v 1) v sink 1) edges (fun _ _ => 0) a b = pathm (rev edges) a b.
  Proof using.
    unfold pathm. rewrite fold_left_rev_right. reflexivity.
  Qed.
  (** ** the flow of a matching *)
  Variable n : nat.
  Hypothesis (Hs : (src < n)%nat) (Ht : (sink < n)%nat).
  Lemma pathm_net m : (forall u v, In (u, v) m -> (u < n)%nat /\ (v < n)%nat /\ u <> src /\ u <> sink /\ v <> src /\ v <> sink) -> (forall e e', In e m -> In e' m -> fst e <> snd e') ->
    NoDup (map fst m) -> NoDup (map snd m) ->
    forall w, net n (pathm m) w = (if Nat.eqb src w then Z.of_nat (length m) else 0) - (if Nat.eqb sink w then Z.of_nat (length m) else 0).
  Proof using NS Hs Ht.
    induction m as [|[u v] m IH]; intros R D N1 N2 w.
    - change (pathm []) with (fun _ _ : nat => 0). rewrite zero_net. cbn [length]. destruct (Nat.eqb src w), (Nat.eqb sink w); reflexivity.
    - cbn [map fst snd] in N1, N2. inversion N1 as [|? ? A1 A2]; subst. inversion N2 as [|? ? B1 B2]; subst.
      destruct (R u v (or_introl eq_refl)) as (U & W & R1 & R2 & R3 & R4). pose proof (D (u, v) (u, v) (or_introl eq_refl) (or_introl eq_refl)) as UV. cbn [fst snd] in UV.
      assert (Z1 : pathm m src u = 0).
      { destruct (pathm_val m src u) as [[_ X]|[X _]]; [exfalso|exact X]. destruct X as [[_ X]|[X|[X _]]]; [exact (A1 X)| |congruence]. destruct (R src u (or_intror X)) as (_ & _ & Y & _). congruence. }
      assert (Z2 : pathm m u v = 0).
      { destruct (pathm_val m u v) as [[_ X]|[X _]]; [exfalso|exact X]. destruct X as [[X _]|[X|[X _]]]; [congruence| |congruence]. apply A1. apply in_map_iff. exists (u, v). auto. }
      assert (Z3 : pathm m v sink = 0).
      { destruct (pathm_val m v sink) as [[_ X]|[X _]]; [exfalso|exact X]. destruct X as [[X _]|[X|[_ X]]]; [congruence| |exact (B1 X)]. destruct (R v sink (or_intror X)) as (_ & _ & _ & _ & _ & Y). congruence. }
      change (pathm ((u, v) :: m)) with (upd2 (upd2 (upd2 (pathm m) src u 1) u v 1) v sink 1).
      rewrite !net_upd2 by (try assumption; try congruence).
      assert (E1 : upd2 (pathm m) src u 1 u v = 0) by (destruct (upd2_val (pathm m) src u 1 u v) as [(X & _)|(_ & ->)]; [congruence|exact Z2]).
      assert (E2 : upd2 (upd2 (pathm m) src u 1) u v 1 v sink = 0).
      { destruct (upd2_val (upd2 (pathm m) src u 1) u v 1 v sink) as [(X & _)|(_ & ->)]; [congruence|]. destruct (upd2_val (pathm m) src u 1 v sink) as [(X & _)|(_ & ->)]; [congruence|exact Z3]. }
      rewrite E1, E2, Z1. rewrite IH; [|intros a b Hab; apply R; right; exact Hab|intros e e' He He'; apply D; right; assumption|exact A2|exact B2].
      cbn [length]. destruct (Nat.eqb src w) eqn:Q1, (Nat.eqb sink w) eqn:Q2, (Nat.eqb u w), (Nat.eqb v w); lia.
  Qed.
End Matching.

Lemma matching_ok nodes edges : (forall u v, In (u, v) edges -> (u < nodes)%nat /\ (v < nodes)%nat) -> (forall e e', In e edges -> In e' edges -> fst e <> snd e') -> NoDup edges ->
  exists m, bipartite_matching nodes edges = Some m /\ is_matching edges m /\ forall m', is_matching edges m' -> (length m' <= length m)%nat.
Proof.
  intros R D ND. unfold bipartite_matching. set (n := S (S nodes)). set (cap := fold_left _ edges _).
  assert (CV : forall a b, (cap a b = 1 /\ used nodes (S nodes) edges a b) \/ (cap a b = 0 /\ ~ used nodes (S nodes) edges a b)).
  { intros a b. unfold cap. rewrite build_cap. assert (EQ : used nodes (S nodes) (rev edges) a b <-> used nodes (S nodes) edges a b).
    { split; apply used_incl; intros x Hx; [apply in_rev; exact Hx|apply in_rev in Hx; exact Hx]. }
    destruct (pathm_val nodes (S nodes) (rev edges) a b) as [[X Y]|[X Y]]; [left|right]; (split; [exact X|tauto]). }
  destruct (max_flow_ok n (2 ^ 31 - 1) cap nodes (S nodes)) as (g & r & -> & F & NET & MAX); [unfold n; lia|unfold n; lia|lia| |].
  { intros u v _ _. destruct (CV u v) as [[-> _]|[-> _]]; lia. }
  cbn [obind]. eexists. split; [reflexivity|]. set (m := filter _ edges).
  assert (GB : forall a b, (a < n)%nat -> (b < n)%nat -> 0 <= g a b <= 1 /\ (g a b <> 0 -> used nodes (S nodes) edges a b)).
  { intros a b Ha Hb. pose proof (flow_bounds _ _ _ _ _ F a b Ha Hb) as B. destruct (CV a b) as [[E U]|[E U]]; rewrite E in B; [split; [lia|auto]|split; [lia|intro; exfalso; lia]]. }
  assert (RN : forall u v, In (u, v) edges -> (u < n)%nat /\ (v < n)%nat) by (intros u v H; destruct (R u v H); unfold n; lia).
  assert (MI : forall u v, In (u, v) m <-> In (u, v) edges /\ g u v <> 0).
  { intros u v. unfold m. rewrite filter_In, negb_true_iff, Z.eqb_neq. reflexivity. }
  (* the inflow of a left end is what comes from the source *)
  assert (INL : forall u v, In (u, v) edges -> sum (fun b => g b u) (seq 0 n) = g nodes u).
  { intros u v H. destruct (RN u v H) as [Hu _]. destruct (R u v H) as [Hu' _]. apply (sum_single (fun b => g b u) (seq 0 n) nodes); [apply seq_NoDup|apply in_V; unfold n; lia|]. intros y Hy Ny. apply in_V in Hy. destruct (GB y u Hy Hu) as [B1 B2].
    destruct (Z.eq_dec (g y u) 0) as [E|E]; [exact E|]. exfalso. destruct (B2 E) as [[X _]|[X|[X _]]]; [congruence| |lia]. exact (D _ _ H X eq_refl). }
  assert (OUTR : forall u v, In (u, v) edges -> sum (g v) (seq 0 n) = g v (S nodes)).
  { intros u v H. destruct (RN u v H) as [_ Hv]. destruct (R u v H) as [_ Hv']. apply (sum_single (g v) (seq 0 n) (S nodes)); [apply seq_NoDup|apply in_V; unfold n; lia|]. intros y Hy Ny. apply in_V in Hy. destruct (GB v y Hv Hy) as [B1 B2].
    destruct (Z.eq_dec (g v y) 0) as [E|E]; [exact E|]. exfalso. destruct (B2 E) as [[X _]|[X|[X _]]]; [lia| |congruence]. exact (D _ _ X H eq_refl). }
  assert (KEEP : forall w, (w < nodes)%nat -> sum (g w) (seq 0 n) = sum (fun b => g b w) (seq 0 n)).
  { intros w Hw. pose proof (flow_kept _ _ _ _ _ F w ltac:(unfold n; lia) ltac:(lia) ltac:(lia)) as X. unfold net in X. lia. }
  assert (MM : is_matching edges m).
  { split; [intros e He; apply filter_In in He; tauto|].
    assert (NDm : NoDup m) by (apply NoDup_filter; exact ND). split; apply NoDup_map_on; try exact NDm; intros [u v] [u' v'] H1 H2; cbn [fst snd]; intros <-; apply MI in H1 as [E1 G1]; apply MI in H2 as [E2 G2].
    - destruct (Nat.eq_dec v v') as [->|NE]; [reflexivity|]. exfalso. destruct (RN _ _ E1) as [Hu Hv]. destruct (RN _ _ E2) as [_ Hv']. destruct (R _ _ E1) as [Hu' _].
      pose proof (sum_two (g u) (seq 0 n) v v' (seq_NoDup _ _) ltac:(apply in_V; exact Hv) ltac:(apply in_V; exact Hv') NE) as T. cbv beta in T.
      rewrite (KEEP u Hu'), (INL u v E1) in T. destruct (GB nodes u ltac:(unfold n; lia) Hu) as [B _]. destruct (GB u v Hu Hv) as [B1 _]. destruct (GB u v' Hu Hv') as [B2 _].
      assert (T' : g u v + g u v' <= g nodes u) by (apply T; intros z Hz; apply in_V in Hz; apply (GB u z Hu Hz)). lia.
    - destruct (Nat.eq_dec u u') as [->|NE]; [reflexivity|]. exfalso. destruct (RN _ _ E1) as [Hu Hv]. destruct (RN _ _ E2) as [Hu' _]. destruct (R _ _ E1) as [_ Hv'].
      pose proof (sum_two (fun b => g b v) (seq 0 n) u u' (seq_NoDup _ _) ltac:(apply in_V; exact Hu) ltac:(apply in_V; exact Hu') NE) as T. cbv beta in T.
      rewrite <- (KEEP v Hv'), (OUTR u v E1) in T. destruct (GB v (S nodes) Hv ltac:(unfold n; lia)) as [B _]. destruct (GB u v Hu Hv) as [B1 _]. destruct (GB u' v Hu' Hv) as [B2 _].
      assert (T' : g u v + g u' v <= g v (S nodes)) by (apply T; intros z Hz; apply in_V in Hz; apply (GB z v Hz Hv)). lia. }
  split; [exact MM|]. intros m' (I' & N1 & N2).
  assert (LM : r <= Z.of_nat (length m)).
  { assert (X : net n g nodes <= sum (g nodes) (seq 0 n)).
    { unfold net. assert (0 <= sum (fun v => g v nodes) (seq 0 n)); [|lia]. apply sum_nonneg. intros x Hx. apply in_V in Hx. apply GB; [exact Hx|unfold n; lia]. }
    rewrite NET, sum_count in X; [|intros x Hx; apply in_V in Hx; apply GB; [unfold n; lia|exact Hx]]. etransitivity; [exact X|]. apply inj_le. rewrite <- (map_length fst m).
    apply NoDup_incl_length; [apply NoDup_filter, seq_NoDup|]. intros u Hu. apply filter_In in Hu as [Hu Gu]. apply in_V in Hu. apply negb_true_iff, Z.eqb_neq in Gu.
    destruct (GB nodes u ltac:(unfold n; lia) Hu) as [B1 B2]. assert (EX : exists v, In (u, v) edges).
    { destruct (B2 Gu) as [[_ Y]|[Y|[_ Y]]].
      - apply in_map_iff in Y as ([u' v] & <- & Y). exists v. exact Y.
      - destruct (R _ _ Y). lia.
      - apply in_map_iff in Y as ([u' v] & Y1 & Y). cbn [snd] in Y1. destruct (R _ _ Y). lia. }
    destruct EX as (v & Ev). destruct (R _ _ Ev) as [Hu' _]. pose proof (INL u v Ev) as IL. rewrite <- (KEEP u Hu') in IL.
    destruct (sum_pos_ex (g u) (seq 0 n)) as (w & W1 & W2); [lia|]. apply in_V in W1. destruct (GB u w Hu W1) as [_ B3]. apply in_map_iff. exists (u, w). split; [reflexivity|].
    apply MI. split; [|lia]. destruct (B3 ltac:(lia)) as [[Y _]|[Y|[_ Y]]]; [lia|exact Y|]. apply in_map_iff in Y as ([a b] & Y1 & Y2). cbn [snd] in Y1. subst b. destruct (D _ _ Ev Y2 eq_refl). }
  assert (PN : forall w, net n (pathm nodes (S nodes) m') w = (if Nat.eqb nodes w then Z.of_nat (length m') else 0) - (if Nat.eqb (S nodes) w then Z.of_nat (length m') else 0)).
  { apply pathm_net; [lia|unfold n; lia|unfold n; lia| |intros e e' He He'; apply D; apply I'; assumption|exact N1|exact N2]. intros u v H. destruct (R u v (I' _ H)). unfold n. lia. }
  assert (FH : is_flow n cap nodes (S nodes) (pathm nodes (S nodes) m')).
  { constructor.
    - intros a b _ _. destruct (pathm_val nodes (S nodes) m' a b) as [[-> U]|[-> U]]; destruct (CV a b) as [[-> U']|[-> U']]; try lia. exfalso. apply U'. exact (used_incl _ _ _ _ a b I' U).
    - intros u Hu A B. rewrite PN, (proj2 (Nat.eqb_neq nodes u)), (proj2 (Nat.eqb_neq (S nodes) u)) by congruence. reflexivity. }
  pose proof (MAX _ FH) as X. rewrite PN, Nat.eqb_refl, (proj2 (Nat.eqb_neq (S nodes) nodes)) in X by lia. lia.
Qed.
