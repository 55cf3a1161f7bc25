(** Multiplicities after propagation along the suffix links. *)
From Coq Require Import List PeanoNat ZArith Lia Bool.
From Verif Require Import Lib TrieSpec TrieProofs PalModel PalSpec PalProofs PalProofs2.
Import ListNotations.

Notation many := (count_occ Nat.eq_dec).
(** what a chain has passed on once the nodes from i on have been handled *)
Fixpoint tok (i : nat) (ch : list nat) : list nat :=
  match ch with [] => [] | x :: r => if i <=? x then x :: tok i r else [x] end.
Section Linked.
  Variable sf : nat -> nat.
  Fixpoint linked (ch : list nat) : Prop :=
    match ch with
    | [] => True
    | x :: r => sf x < x /\ match r with [] => sf x < 3 | y :: _ => sf x = y end /\ linked r
    end.
  Lemma tok_step m j ch : 3 <= j -> linked ch ->
    many (tok m ch) j = many (tok (S m) ch) j + if sf m =? j then many (tok (S m) ch) m else 0.
  Proof using.
    intro J. induction ch as [|x r IH]; intro L; [cbn; destruct (sf m =? j); reflexivity|]. destruct L as (L1 & L2 & L3). cbn [tok].
    destruct (S m <=? x) eqn:E1; [apply Nat.leb_le in E1|apply Nat.leb_gt in E1].
    - rewrite (proj2 (Nat.leb_le m x)) by lia. specialize (IH L3). cbn [count_occ].
      destruct (Nat.eq_dec x j) as [<-|_]; destruct (Nat.eq_dec x m) as [X|_]; try lia; rewrite IH; reflexivity.
    - destruct (m <=? x) eqn:E2; [apply Nat.leb_le in E2|apply Nat.leb_gt in E2].
      + assert (x = m) by lia. subst x. clear IH. cbn [count_occ]. destruct (Nat.eq_dec m m) as [_|N]; [|congruence].
        destruct r as [|y r].
        * cbn [tok count_occ]. destruct (sf m =? j) eqn:X; [apply Nat.eqb_eq in X; lia|]. lia.
        * cbn [tok]. rewrite (proj2 (Nat.leb_gt m y)) by lia. cbn [count_occ]. rewrite L2.
          destruct (Nat.eq_dec y j) as [->|N]; [rewrite Nat.eqb_refl|rewrite (proj2 (Nat.eqb_neq y j)) by exact N]; destruct (Nat.eq_dec m j); lia.
      + cbn [count_occ]. destruct (Nat.eq_dec x m) as [X|_]; [lia|]. destruct (sf m =? j); lia.
  Qed.
End Linked.
Lemma tok_all i ch : Forall (fun x => i <= x) ch -> tok i ch = ch.
Proof. induction 1 as [|x r H _ IH]; [reflexivity|]. cbn [tok]. rewrite (proj2 (Nat.leb_le i x) H), IH. reflexivity. Qed.
Lemma sum_plus {A} (f g h : A -> nat) l : (forall x, In x l -> f x = g x + h x) -> list_sum (map f l) = list_sum (map g l) + list_sum (map h l).
Proof.
  induction l as [|x l IH]; intro H; [reflexivity|]. cbn [map list_sum fold_right]. fold (list_sum (map f l)). fold (list_sum (map g l)). fold (list_sum (map h l)).
  rewrite (H x) by (left; reflexivity). rewrite IH by (intros y Hy; apply H; right; exact Hy). lia.
Qed.
Lemma sum_ext {A} (f g : A -> nat) l : (forall x, In x l -> f x = g x) -> list_sum (map f l) = list_sum (map g l).
Proof. intro H. f_equal. apply map_ext_in. exact H. Qed.
Lemma times_map (f : list nat -> list nat) p l : times p (map f l) = list_sum (map (fun x => if weq (f x) p then 1 else 0) l).
Proof.
  unfold times. induction l as [|x l IH]; [reflexivity|]. cbn [map count_occ list_sum fold_right]. rewrite IH.
  fold (list_sum (map (fun x => if weq (f x) p then 1 else 0) l)). destruct (weq (f x) p); lia.
Qed.
Lemma times_flat (f : list nat -> list (list nat)) p l : times p (flat_map f l) = list_sum (map (fun x => times p (f x)) l).
Proof. unfold times. induction l as [|x l IH]; [reflexivity|]. cbn [flat_map map list_sum fold_right]. rewrite count_occ_app, IH. reflexivity. Qed.
Lemma times_chain p s : palindrome p = true -> times p (suffixes s) = times p (chain s).
Proof.
  intro P. unfold times, chain. induction (suffixes s) as [|x l IH]; [reflexivity|]. cbn [filter count_occ].
  destruct (palindrome x) eqn:E; cbn [count_occ]; destruct (weq x p); congruence.
Qed.
Lemma many_map qs p l : NoDup qs -> Forall (fun x => In x qs) l -> many (map (idx qs) l) (idx qs p) = times p l.
Proof.
  intros ND H. unfold times. induction H as [|x l Hx _ IH]; [reflexivity|]. cbn [map count_occ].
  destruct (Nat.eq_dec (idx qs x) (idx qs p)) as [X|X], (weq x p) as [Y|Y]; try congruence. apply (idx_inj qs) in X; [congruence|assumption..].
Qed.

Section Propagate.
  Variables (K : nat) (s : list nat) (qs : list (list nat)) (t : list node).
  Hypothesis W : inv K s qs t.
  Definition sfx (i : nat) : nat := match nth_error t i with Some nd => suff nd | None => 0 end.

  Lemma word_at i : 3 <= i < length t -> exists p, In p qs /\ p <> [] /\ idx qs p = i.
  Proof using W.
    intros [L1 L2]. rewrite (i_len _ _ _ _ W) in L2. destruct (nth_error_some qs (i - 2)) as [p E]; [lia|]. exists p.
    pose proof (i_nodup _ _ _ _ W) as ND. assert (X : idx qs p = S (S (i - 2))) by (apply (idx_nth qs p (i - 2) ND); exact E).
    split; [apply (nth_error_In _ _ E)|]. split; [|lia]. intros ->. rewrite (idx_nil K s qs t W) in X. unfold EMPTY in X. lia.
  Qed.
  Lemma idx_ge p : In p qs -> p <> [] -> 3 <= idx qs p.
  Proof using W.
    intros H N. pose proof (idx_pos qs p H). destruct (Nat.eq_dec (idx qs p) 2) as [X|X]; [|lia]. exfalso. apply N.
    apply (idx_inj qs p [] (i_nodup _ _ _ _ W) H). rewrite (idx_nil K s qs t W). exact X.
  Qed.
  Lemma sfx_at p : In p qs -> p <> [] -> sfx (idx qs p) = idx qs (lps (tl p)).
  Proof using W.
    intros H N. unfold sfx. destruct (i_nodes _ _ _ _ W (Some p) H) as (nd & E & D). cbn [kidx] in E. rewrite E, (d_suff _ _ _ _ _ D).
    destruct p; [congruence|reflexivity].
  Qed.
  Lemma chain_in pre : sub pre s -> Forall (fun x => In x qs /\ x <> []) (chain pre).
  Proof using W.
    intro H. apply Forall_forall. intros x Hx. apply filter_In in Hx as [Hx P]. apply in_suffixes in Hx as [N Hx]. split; [|exact N].
    apply (i_in _ _ _ _ W). split; [exact P|]. apply (suf_sub _ pre); assumption.
  Qed.
  Lemma chain_linked : forall n p, length p < n -> In p qs -> linked sfx (map (idx qs) (chain p)).
  Proof using W.
    induction n as [|n IH]; intros p L H; [lia|]. destruct (weq p []) as [->|N]; [exact Logic.I|].
    pose proof (proj1 (i_in _ _ _ _ W p) H) as [P X]. rewrite (chain_pal p N P). cbn [map linked]. rewrite (sfx_at p H N).
    assert (H2 : In (lps (tl p)) qs). { pose proof (kin_kup K s qs t (Some p) W H) as Y. destruct p; [congruence|]. exact Y. }
    split; [apply (i_ord _ _ _ _ W p H N)|]. split.
    - destruct (weq (lps (tl p)) []) as [->|N2]; [cbn [chain suffixes filter map]; rewrite (idx_nil K s qs t W); unfold EMPTY; lia|].
      rewrite (chain_pal _ N2 (lps_pal _)). reflexivity.
    - apply IH; [|exact H2]. pose proof (lps_tl p N). lia.
  Qed.
  Lemma prefix_linked pre : In pre (prefixes s) -> linked sfx (map (idx qs) (chain pre)).
  Proof using W.
    intro H. rewrite chain_lps. apply (chain_linked (S (length (lps pre)))); [lia|]. apply (i_in _ _ _ _ W). split; [apply lps_pal|].
    apply (suf_sub _ pre); [apply lps_suf|apply in_prefixes; exact H].
  Qed.
  Definition passed (i j : nat) : nat := list_sum (map (fun pre => many (tok i (map (idx qs) (chain pre))) j) (prefixes s)).
  Lemma passed_step m j : 3 <= j -> passed m j = passed (S m) j + if sfx m =? j then passed (S m) m else 0.
  Proof using W.
    intro J. unfold passed. destruct (sfx m =? j) eqn:E.
    - apply sum_plus. intros pre H. rewrite (tok_step sfx m j _ J (prefix_linked pre H)), E. reflexivity.
    - rewrite Nat.add_0_r. apply sum_ext. intros pre H. rewrite (tok_step sfx m j _ J (prefix_linked pre H)), E. lia.
  Qed.
  Lemma passed_end p : In p qs -> p <> [] -> passed 3 (idx qs p) = times p (substrings s).
  Proof using W.
    intros H N. unfold passed, substrings. rewrite times_flat. apply sum_ext. intros pre Hp.
    pose proof (chain_in pre (in_prefixes pre s Hp)) as F. rewrite tok_all.
    - rewrite (many_map qs p _ (i_nodup _ _ _ _ W)) by (eapply Forall_impl; [|exact F]; intros x [X _]; exact X).
      symmetry. apply times_chain. apply (i_in _ _ _ _ W). exact H.
    - apply Forall_map. eapply Forall_impl; [|exact F]. intros x [X1 X2]. apply (idx_ge x X1 X2).
  Qed.
  Lemma passed_start p : In p qs -> p <> [] -> passed (length t) (idx qs p) = times p (map lps (prefixes s)).
  Proof using W.
    intros H N. unfold passed. rewrite times_map. apply sum_ext. intros pre Hp.
    assert (NP : pre <> []). { intros ->. unfold prefixes in Hp. apply in_map_iff in Hp as (n & E & Hn). apply in_seq in Hn. apply (f_equal (@length nat)) in E. rewrite firstn_length in E. cbn in E. lia. }
    assert (HI : In (lps pre) qs). { apply (i_in _ _ _ _ W). split; [apply lps_pal|]. apply (suf_sub _ pre); [apply lps_suf|apply in_prefixes; exact Hp]. }
    rewrite chain_lps, (chain_pal _ (lps_nonempty pre NP) (lps_pal pre)). cbn [map tok].
    pose proof (idx_lt qs (lps pre) (i_nodup _ _ _ _ W)) as L. rewrite (proj2 (Nat.leb_gt _ _)) by (rewrite (i_len _ _ _ _ W); exact L). cbn [count_occ].
    destruct (Nat.eq_dec (idx qs (lps pre)) (idx qs p)) as [X|X], (weq (lps pre) p) as [Y|Y]; try congruence. apply (idx_inj qs) in X; [congruence|apply W|exact HI].
  Qed.

  Definition alike (a b : node) : Prop := len a = len b /\ pos a = pos b /\ depth a = depth b /\ suff a = suff b /\ next a = next b.
  Definition pinv (i : nat) (t' : list node) : Prop :=
    length t' = length t /\
    forall j nd, nth_error t j = Some nd -> exists nd', nth_error t' j = Some nd' /\ alike nd nd' /\ (3 <= j -> cnt nd' = passed i j).
  Lemma propagate_ok : exists t', for_down RESERVED (length t) propagate_step t = Some t' /\ pinv 3 t'.
  Proof using W.
    apply for_down_spec.
    - rewrite (i_len _ _ _ _ W). pose proof (i_nil _ _ _ _ W) as H. destruct qs; [discriminate|]. cbn. unfold RESERVED. lia.
    - split; [reflexivity|]. intros j nd E. exists nd. split; [exact E|]. split; [repeat split|]. intro J.
      assert (L : j < length t) by (apply nth_error_Some; congruence). destruct (word_at j (conj J L)) as (p & Hp & Np & <-).
      rewrite (passed_start p Hp Np). destruct (i_nodes _ _ _ _ W (Some p) Hp) as (nd0 & E0 & D0). cbn [kidx] in E0.
      rewrite E in E0. injection E0 as <-. apply (d_cnt _ _ _ _ _ D0). exact Np.
    - intros m t1 [M1 M2] [L P]. unfold RESERVED in M1. destruct (word_at m (conj M1 M2)) as (p & Hp & Np & Ep). unfold propagate_step.
      destruct (nth_error_some t m M2) as [nd E]. destruct (P m nd E) as (nd1 & E1 & A1 & C1). rewrite E1. cbn [obind].
      assert (SX : suff nd1 = sfx m) by (unfold sfx; rewrite E; symmetry; apply A1).
      assert (SL : sfx m < length t). { rewrite <- Ep, (sfx_at p Hp Np), (i_len _ _ _ _ W). apply (idx_lt qs _ (i_nodup _ _ _ _ W)). }
      assert (SM : sfx m < m). { rewrite <- Ep at 2. rewrite <- Ep, (sfx_at p Hp Np). apply (i_ord _ _ _ _ W p Hp Np). }
      rewrite SX. destruct (nth_error_some t (sfx m) SL) as [q Eq]. destruct (P _ q Eq) as (q1 & Eq1 & Aq & Cq). rewrite Eq1. cbn [obind].
      destruct (set_nth_some t1 (sfx m) (Node (len q1) (pos q1) (cnt q1 + cnt nd1) (depth q1) (suff q1) (next q1))) as (t2 & U); [lia|].
      exists t2. split; [exact U|]. split; [rewrite (set_nth_length _ _ _ _ U); exact L|]. intros j x Ex. rewrite (set_nth_get _ _ _ _ j U).
      destruct (sfx m =? j) eqn:X.
      + apply Nat.eqb_eq in X. subst j. rewrite Eq in Ex. injection Ex as <-. eexists. split; [reflexivity|]. split; [exact Aq|].
        intro J. cbn [cnt]. rewrite (Cq J), (C1 M1), (passed_step m (sfx m) J), Nat.eqb_refl. reflexivity.
      + destruct (P j x Ex) as (x1 & Ex1 & Ax & Cx). exists x1. split; [exact Ex1|]. split; [exact Ax|]. intro J.
        rewrite (Cx J), (passed_step m j J), X. lia.
  Qed.
End Propagate.
