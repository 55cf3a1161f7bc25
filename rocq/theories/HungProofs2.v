(** Correctness of the Hungarian algorithm: augmentation, rounds and optimality. *)
From Coq Require Import List PeanoNat ZArith Lia Bool Permutation.
From Verif Require Import Lib HungModel HungSpec HungProofs.
Import ListNotations.
Open Scope Z_scope.

Section Proofs.
  Variable n : nat.
  Variable c : nat -> nat -> Z.
  Notation V := (vertices n).

  Record matched (s : st) (xy yx : table) : Prop := {
    a_iff : forall x y, (x < n)%nat -> (y < n)%nat -> (xy x = Some y <-> yx y = Some x);
    a_x : forall x y, (x < n)%nat -> xy x = Some y -> (y < n)%nat /\ tight c s x y;
    a_y : forall x y, (y < n)%nat -> yx y = Some x -> (x < n)%nat }.

  Section Augment.
    Variables (xy0 yx0 : table) (k : nat) (s : st).
    Hypothesis M : matching n xy0 yx0 k.
    Lemma augment_ok : forall l fuel xy yx x y, (length l <= fuel)%nat -> path c xy0 k s l -> hd_error l = Some x -> NoDup l -> Forall (fun z => (z < n)%nat) l ->
      (forall z, In z l -> xy z = xy0 z) -> (y < n)%nat -> tight c s x y ->
      (forall x' y', (x' < n)%nat -> (y' < n)%nat -> y' <> y -> (xy x' = Some y' <-> yx y' = Some x')) ->
      (forall x', (x' < n)%nat -> xy x' <> Some y) ->
      (forall x' y', (x' < n)%nat -> xy x' = Some y' -> (y' < n)%nat /\ tight c s x' y') ->
      (forall x' y', (y' < n)%nat -> yx y' = Some x' -> (x' < n)%nat) ->
      exists xy' yx', augment n fuel (prev s) xy yx x y = Some (xy', yx') /\ matched s xy' yx' /\
        forall z, (z < n)%nat -> (xy' z = None <-> xy z = None /\ z <> k).
    Proof using M.
      induction l as [|x l IH]; intros fuel xy yx x0 y L P HD ND FA A Hy TI B C D E; [destruct P|]. injection HD as <-.
      destruct fuel as [|fuel]; [cbn in L; lia|]. cbn [length] in L. inversion FA as [|? ? Hx FA']; subst. inversion ND as [|? ? N1 N2]; subst.
      cbn [augment]. rewrite (guard_lt x n Hx), (guard_lt y n Hy). cbn [obind]. cbn [path] in P. destruct l as [|x' l].
      - destruct P as [-> P]. rewrite P. eexists. eexists. split; [reflexivity|].
        assert (NK : xy k = None) by (rewrite (A k) by (left; reflexivity); apply (m_none _ _ _ _ M k Hx); lia).
        split; [constructor|].
        + intros z w Hz Hw. destruct (Nat.eq_dec z k) as [->|Nz], (Nat.eq_dec w y) as [->|Nw].
          * rewrite !upd_eq. tauto.
          * rewrite upd_eq, (upd_neq _ _ _ _ Nw). rewrite <- (B k w Hx Hw Nw), NK. split; congruence.
          * rewrite upd_eq, (upd_neq _ _ _ _ Nz). split; [intro X; destruct (C z Hz X)|congruence].
          * rewrite (upd_neq _ _ _ _ Nz), (upd_neq _ _ _ _ Nw). apply B; assumption.
        + intros z w Hz. destruct (Nat.eq_dec z k) as [->|Nz]; [rewrite upd_eq; intro X; injection X as <-; auto|]. rewrite (upd_neq _ _ _ _ Nz). apply D. exact Hz.
        + intros z w Hw. destruct (Nat.eq_dec w y) as [->|Nw]; [rewrite upd_eq; intro X; injection X as <-; exact Hx|]. rewrite (upd_neq _ _ _ _ Nw). apply E. exact Hw.
        + intros z Hz. destruct (Nat.eq_dec z k) as [->|Nz]; [rewrite upd_eq; split; [discriminate|intros [_ X]; congruence]|]. rewrite (upd_neq _ _ _ _ Nz). tauto.
      - destruct P as (P1 & (ty & P2 & P3) & P4). rewrite P1. assert (EX : xy x = Some ty) by (rewrite (A x) by (left; reflexivity); exact P2). rewrite EX. cbn [obind].
        destruct (D x ty Hx EX) as [Hty _]. assert (NY : ty <> y) by (intros ->; exact (C x Hx EX)).
        destruct (IH fuel (upd xy x (Some y)) (upd yx y (Some x)) x' ty) as (xy' & yx' & R1 & R2 & R3); try assumption; try reflexivity.
        + cbn [length] in *. lia.
        + intros z Hz. rewrite upd_neq by (intros ->; contradiction). apply A. right. exact Hz.
        + intros z w Hz Hw Nt. destruct (Nat.eq_dec z x) as [->|Nz], (Nat.eq_dec w y) as [->|Nw].
          * rewrite !upd_eq. tauto.
          * rewrite upd_eq, (upd_neq _ _ _ _ Nw). rewrite <- (B x w Hx Hw Nw), EX. split; congruence.
          * rewrite upd_eq, (upd_neq _ _ _ _ Nz). split; [intro X; destruct (C z Hz X)|congruence].
          * rewrite (upd_neq _ _ _ _ Nz), (upd_neq _ _ _ _ Nw). apply B; assumption.
        + intros z Hz. destruct (Nat.eq_dec z x) as [->|Nz]; [rewrite upd_eq; congruence|]. rewrite (upd_neq _ _ _ _ Nz). intro X.
          apply (B z ty Hz Hty NY) in X. apply (B x ty Hx Hty NY) in EX. congruence.
        + intros z w Hz. destruct (Nat.eq_dec z x) as [->|Nz]; [rewrite upd_eq; intro X; injection X as <-; auto|]. rewrite (upd_neq _ _ _ _ Nz). apply D. exact Hz.
        + intros z w Hw. destruct (Nat.eq_dec w y) as [->|Nw]; [rewrite upd_eq; intro X; injection X as <-; exact Hx|]. rewrite (upd_neq _ _ _ _ Nw). apply E. exact Hw.
        + exists xy', yx'. split; [exact R1|]. split; [exact R2|]. intros z Hz. rewrite (R3 z Hz). destruct (Nat.eq_dec z x) as [->|Nz]; [|rewrite (upd_neq _ _ _ _ Nz); tauto].
          rewrite upd_eq, EX. split; intros [X _]; discriminate.
    Qed.
  End Augment.

  (** after k rounds *)
  Record rounds (k : nat) (a : table * table * (nat -> Z) * (nat -> Z)) : Prop := {
    r_iff : forall x y, (x < n)%nat -> (y < n)%nat -> (fst (fst (fst a)) x = Some y <-> snd (fst (fst a)) y = Some x);
    r_x : forall x y, (x < n)%nat -> fst (fst (fst a)) x = Some y -> (y < n)%nat /\ snd (fst a) x + snd a y = c x y;
    r_y : forall x y, (y < n)%nat -> snd (fst (fst a)) y = Some x -> (x < n)%nat;
    r_none : forall x, (x < n)%nat -> (fst (fst (fst a)) x = None <-> (k <= x)%nat);
    r_feas : forall x y, (x < n)%nat -> (y < n)%nat -> c x y <= snd (fst a) x + snd a y }.
  Lemma find_first (f : nat -> bool) k m i : (i <= k < i + m)%nat -> (forall x, (i <= x < i + m)%nat -> f x = (k <=? x)%nat) -> find f (seq i m) = Some k.
  Proof using.
    revert i. induction m as [|m IH]; intros i L H; [lia|]. cbn [seq find]. rewrite (H i) by lia. destruct (k <=? i)%nat eqn:E.
    - apply Nat.leb_le in E. f_equal. lia.
    - apply Nat.leb_gt in E. apply IH; [lia|]. intros x Hx. apply H. lia.
  Qed.
  Lemma round_ok k a : (k < n)%nat -> rounds k a -> exists a', round n c a = Some a' /\ rounds (S k) a'.
  Proof using.
    intros Hk R. destruct a as [[[xy yx] lx0] ly0]. destruct R as [R1 R2 R3 R4 R5]. cbn [fst snd] in *. unfold round.
    assert (M : matching n xy yx k).
    { constructor; [exact Hk|exact R1| |exact R3|exact R4]. intros x y Hx E. apply (R2 x y Hx E). }
    rewrite (find_first _ k n 0); [|lia|].
    2:{ intros x Hx. destruct (xy x) as [y|] eqn:E.
        - destruct (k <=? x)%nat eqn:L; [|reflexivity]. apply Nat.leb_le, (R4 x) in L; [congruence|lia].
        - symmetry. apply Nat.leb_le, (R4 x); [lia|exact E]. }
    cbn [obind]. set (s0 := St _ _ _ _ _ _ _).
    assert (P0 : ph n c xy yx k s0).
    { constructor; cbn [s0 inS inT lx ly slack slackx prev].
      - exact R5.
      - intros x y Hx E. apply (R2 x y Hx E).
      - intros x Hx. destruct (Nat.eq_dec x k) as [->|N]; [rewrite upd_eq; tauto|]. rewrite (upd_neq _ _ _ _ N). split; [discriminate|].
        intros [X|(y & _ & X & _)]; [congruence|discriminate].
      - discriminate.
      - intros x Hx X. destruct (Nat.eq_dec x k) as [->|N]; [|rewrite (upd_neq _ _ _ _ N) in X; discriminate]. exists [k]. split; [|split; [reflexivity|]; split].
        + cbn [path]. split; [reflexivity|]. apply upd_eq.
        + constructor; [intros []|constructor].
        + constructor; [split; [exact Hk|apply upd_eq]|constructor].
      - intros y Hy _. split; [exact Hk|]. split; [apply upd_eq|]. split; [reflexivity|]. intros x Hx X.
        destruct (Nat.eq_dec x k) as [->|N]; [lia|]. rewrite (upd_neq _ _ _ _ N) in X. discriminate. }
    destruct (search_ok n c xy yx k M (S n) [k] s0) as (s & x & y & -> & P & (Hx & Hy & Sx & YX & TI)); [lia|exact P0| |].
    { constructor; [|constructor]. split; [exact Hk|apply upd_eq]. }
    cbn [obind]. destruct (p_way _ _ _ _ _ _ P x Hx Sx) as (l & W1 & W2 & W3 & W4).
    assert (FL : Forall (fun z => (z < n)%nat) l) by (eapply Forall_impl; [|exact W4]; intros z [Z1 _]; exact Z1).
    assert (LL : (length l <= n)%nat).
    { rewrite <- (seq_length n 0). apply NoDup_incl_length; [exact W3|]. intros z Hz. rewrite Forall_forall in FL. apply in_seq. specialize (FL z Hz). lia. }
    destruct (augment_ok xy yx k s M l (S n) xy yx x y) as (xy' & yx' & -> & A & NN);
      [lia|exact W1|exact W2|exact W3|exact FL|reflexivity|exact Hy|exact TI| | | |exact R3|].
    - intros x' y' Hx' Hy' _. apply R1; assumption.
    - intros x' Hx' E. apply (R1 x' y Hx' Hy) in E. congruence.
    - intros x' y' Hx' E. split; [apply (R2 x' y' Hx' E)|apply (p_tight _ _ _ _ _ _ P x' y' Hx' E)].
    - cbn [obind]. eexists. split; [reflexivity|]. destruct A as [A1 A2 A3]. constructor; cbn [fst snd]; auto.
      + intros z Hz. rewrite (NN z Hz), (R4 z Hz). lia.
      + apply (p_feas _ _ _ _ _ _ P).
  Qed.
  Lemma fold_max x l d : forall y, In y l \/ c x y <= d -> c x y <= fold_left (fun m y => Z.max m (c x y)) l d.
  Proof using.
    revert d. induction l as [|z l IH]; intros d y H; cbn [fold_left]; [destruct H as [[]|H]; exact H|]. apply IH. destruct H as [[->|H]|H]; [right; lia|left; exact H|right; lia].
  Qed.
  Lemma initial_ok : rounds 0 (initial n c).
  Proof using.
    constructor; cbn [initial fst snd]; try discriminate; try (intros; split; [discriminate|congruence]).
    - intros x _. split; [lia|reflexivity].
    - intros x y Hx Hy. rewrite Z.add_0_r. apply fold_max. left. apply in_V. exact Hy.
  Qed.
  Lemma impl_ok : exists xy yx lx0 ly0, calc_max_cost_impl n c = Some (xy, yx) /\ rounds n (xy, yx, lx0, ly0).
  Proof using.
    unfold calc_max_cost_impl. destruct (for_range_spec (fun k a => rounds k a) (fun _ a => round n c a) 0 n (initial n c)) as (a & E & R); [lia|exact initial_ok| |].
    - intros k a Hk R. apply round_ok; [lia|exact R].
    - rewrite E. cbn [obind]. destruct a as [[[xy yx] lx0] ly0]. exists xy, yx, lx0, ly0. split; [reflexivity|exact R].
  Qed.
End Proofs.
