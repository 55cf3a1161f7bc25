(** Proofs about DisjointSetModel. *)
From Verif Require Import Lib SegTreeProofs DisjointSetModel DisjointSetSpec.
From Coq Require Import Relations Permutation.

Definition d0 : atom := mkAtom 0 0 0.
Notation par va x := (a_parent (nth x va d0)).
Notation rk va x := (a_rank (nth x va d0)).
Notation ct va x := (a_count (nth x va d0)).

Definition csum (rt w : nat -> nat) (l : list nat) (r : nat) : nat :=
  list_sum (map w (filter (fun z => rt z =? r) l)).

(** [rt] is the root of every element *)
Record good (va : list atom) (rt : nat -> nat) : Prop := {
  g_par : forall x, x < length va -> par va x < length va;
  g_rt : forall x, x < length va -> rt x < length va;
  g_step : forall x, x < length va -> rt (par va x) = rt x;
  g_top : forall x, x < length va -> par va (rt x) = rt x;
  g_root : forall x, x < length va -> par va x = x -> rt x = x;
  g_rank : forall x, x < length va -> par va x <> x -> rk va x < rk va (par va x);
  g_out : forall x, length va <= x -> rt x = x
}.

Lemma g_idem va rt x : good va rt -> rt (rt x) = rt x.
Proof.
  intros g. destruct (Nat.lt_ge_cases x (length va)) as [H|H].
  - apply (g_root _ _ g); [now apply (g_rt _ _ g)|now apply (g_top _ _ g)].
  - rewrite (g_out _ _ g x H). now apply (g_out _ _ g).
Qed.

Lemma list_max_ge l x : In x l -> x <= list_max l.
Proof.
  intros H. pose proof (proj1 (list_max_le l (list_max l)) (le_n _)) as F.
  rewrite Forall_forall in F. now apply F.
Qed.
Lemma rk_fuel va x : x < length va -> rk va x < ds_fuel va.
Proof.
  intros H. unfold ds_fuel. apply Nat.lt_succ_r. apply list_max_ge.
  change (rk va x) with (a_rank (nth x va d0)). rewrite <- (map_nth a_rank). apply nth_In. now rewrite map_length.
Qed.

Lemma climb_spec va rt fuel : good va rt -> forall y, y < length va -> ds_fuel va - rk va y <= fuel -> ds_climb fuel va y = Some (rt y).
Proof.
  intros g. induction fuel as [|fu IH]; intros y Hy Hf; pose proof (rk_fuel va y Hy); [lia|]. cbn [ds_climb].
  rewrite (nth_error_nth_in va y d0) by exact Hy. cbn [obind].
  destruct (Nat.eqb_spec y (par va y)) as [E|E].
  - f_equal. symmetry. apply (g_root _ _ g); [exact Hy|congruence].
  - rewrite IH.
    + f_equal. now apply (g_step _ _ g).
    + now apply (g_par _ _ g).
    + pose proof (g_rank _ _ g y Hy ltac:(congruence)). lia.
Qed.

(** redirecting a non-root straight to its root keeps everything *)
Lemma redirect va va' rt x : good va rt -> x < length va -> par va x <> x ->
  set_nth va x (mkAtom (rt x) (rk va x) (ct va x)) = Some va' ->
  good va' rt /\ length va' = length va /\ (forall z, rk va' z = rk va z /\ ct va' z = ct va z) /\
  (forall z, z <> x -> par va' z = par va z).
Proof.
  intros g Hx Hn E. pose proof (set_nth_length _ _ _ _ E) as L.
  assert (N : forall z, nth z va' d0 = if x =? z then mkAtom (rt x) (rk va x) (ct va x) else nth z va d0)
    by (intros z; apply (set_nth_nth _ _ _ _ _ _ E)).
  assert (RK : forall z, rk va' z = rk va z) by (intros z; rewrite N; destruct (Nat.eqb_spec x z) as [->|]; reflexivity).
  assert (Rup : forall k y, y < length va -> ds_fuel va - rk va y <= k -> rk va y <= rk va (rt y)).
  { induction k as [|k IH]; intros y Hy Hk; pose proof (rk_fuel va y Hy); [lia|].
    destruct (Nat.eq_dec (par va y) y) as [Ey|Ey].
    - rewrite (g_root _ _ g y Hy Ey). lia.
    - pose proof (g_rank _ _ g y Hy Ey). pose proof (IH (par va y) (g_par _ _ g y Hy) ltac:(lia)) as Q.
      rewrite (g_step _ _ g y Hy) in Q. lia. }
  assert (Nr : rt x <> x).
  { intros Er. apply Hn. rewrite <- Er at 1. rewrite (g_top _ _ g x Hx). exact Er. }
  assert (Prt : forall z, z < length va -> par va' (rt z) = rt z).
  { intros z Hz. rewrite N. destruct (Nat.eqb_spec x (rt z)) as [Ez|Ez]; [|now apply (g_top _ _ g)].
    exfalso. apply Nr. rewrite Ez. apply (g_idem va rt z g). }
  split; [|split; [exact L|split; [intros z; split; [apply RK|]|]]].
  - constructor; rewrite ?L.
    + intros z Hz. rewrite N. destruct (Nat.eqb_spec x z); [subst; cbn; now apply (g_rt _ _ g)|now apply (g_par _ _ g)].
    + intros z Hz. now apply (g_rt _ _ g).
    + intros z Hz. rewrite N. destruct (Nat.eqb_spec x z); [subst; cbn; apply (g_idem va rt z g)|now apply (g_step _ _ g)].
    + exact Prt.
    + intros z Hz. rewrite N. destruct (Nat.eqb_spec x z) as [->|]; [cbn; auto|now apply (g_root _ _ g)].
    + intros z Hz. rewrite !RK, N. destruct (Nat.eqb_spec x z) as [->|].
      * cbn. intros _. pose proof (g_rank _ _ g z Hz Hn) as Q1.
        pose proof (Rup (ds_fuel va) (par va z) (g_par _ _ g z Hz) ltac:(lia)) as Q2.
        rewrite (g_step _ _ g z Hz) in Q2. lia.
      * intros Hp. now apply (g_rank _ _ g).
    + apply (g_out _ _ g).
  - rewrite N. destruct (Nat.eqb_spec x z) as [->|]; reflexivity.
  - intros z Hz. rewrite N. destruct (Nat.eqb_spec x z); [congruence|reflexivity].
Qed.

Lemma compress_spec rt fuel : forall va x, good va rt -> x < length va -> ds_fuel va - rk va x <= fuel ->
  exists va', ds_compress fuel va x (rt x) = Some va' /\ good va' rt /\ length va' = length va /\
    (forall z, rk va' z = rk va z /\ ct va' z = ct va z).
Proof.
  induction fuel as [|fu IH]; intros va x g Hx Hf; pose proof (rk_fuel va x Hx) as Q0; [lia|]. cbn [ds_compress].
  rewrite (nth_error_nth_in va x d0) by exact Hx. cbn [obind].
  destruct (Nat.eqb_spec x (par va x)) as [E|E].
  - exists va. auto.
  - destruct (set_nth_some va x (mkAtom (rt x) (rk va x) (ct va x)) Hx) as [va1 E1]. rewrite E1. cbn [obind].
    destruct (redirect va va1 rt x g Hx ltac:(congruence) E1) as (g1 & L1 & RC & P1).
    assert (FF : ds_fuel va1 = ds_fuel va).
    { unfold ds_fuel. do 2 f_equal. apply (nth_ext _ _ 0 0); rewrite !map_length; [exact L1|].
      intros z Hz. change 0 with (a_rank d0). rewrite !map_nth. apply RC. }
    pose proof (g_rank _ _ g x Hx ltac:(congruence)) as Q1.
    rewrite <- (g_step _ _ g x Hx).
    destruct (IH va1 (par va x) g1) as (va2 & E2 & g2 & L2 & RC2).
    + rewrite L1. now apply (g_par _ _ g).
    + rewrite FF. destruct (RC (par va x)) as [-> _]. lia.
    + exists va2. split; [exact E2|]. split; [exact g2|]. split; [lia|].
      intros z. destruct (RC2 z) as [-> ->]. apply RC.
Qed.

(* ------------------------------------------------------------------ ensure *)

(** full invariant: roots, weights, class counts, number of classes *)
Record Inv (s : dset) (rt w : nat -> nat) : Prop := {
  i_good : good (ds_va s) rt;
  i_count : forall x, x < length (ds_va s) -> ct (ds_va s) (rt x) = csum rt w (seq 0 (length (ds_va s))) (rt x);
  i_dist : ds_dist s = length (filter (fun z => rt z =? z) (seq 0 (length (ds_va s))));
  i_fresh : forall x, length (ds_va s) <= x -> w x = 1
}.

Lemma nth_app_last va (a : atom) x : nth x (va ++ [a]) d0 = if x =? length va then a else nth x va d0.
Proof.
  destruct (Nat.eqb_spec x (length va)) as [->|N].
  - rewrite app_nth2, Nat.sub_diag by lia. reflexivity.
  - destruct (Nat.lt_ge_cases x (length va)) as [L|L]; [now rewrite app_nth1|].
    rewrite !nth_overflow; [reflexivity|lia|rewrite app_length; cbn; lia].
Qed.

Lemma csum_app rt w a b r : csum rt w (a ++ b) r = csum rt w a r + csum rt w b r.
Proof. unfold csum. now rewrite filter_app, map_app, list_sum_app. Qed.

Lemma push_inv k : forall s rt w, Inv s rt w -> Inv (ds_push k s) rt w /\ length (ds_va (ds_push k s)) = length (ds_va s) + k.
Proof.
  induction k as [|k IH]; intros s rt w I; [split; [exact I|cbn; lia]|]. cbn [ds_push].
  set (va := ds_va s). set (n := length va).
  set (s1 := mkDset (S (ds_dist s)) (va ++ [mkAtom n 0 1])).
  assert (L1 : length (ds_va s1) = S n) by (unfold s1; cbn; rewrite app_length; cbn; fold n; lia).
  enough (I1 : Inv s1 rt w).
  { destruct (IH s1 rt w I1) as [A B]. split; [exact A|]. rewrite B, L1. fold va n. lia. }
  destruct I as [g Hc Hd Hf]. fold va n in g, Hc, Hd, Hf.
  assert (NN : forall x, nth x (va ++ [mkAtom n 0 1]) d0 = if x =? n then mkAtom n 0 1 else nth x va d0) by (intros; apply nth_app_last).
  assert (Rn : rt n = n) by (apply (g_out _ _ g); fold n; lia).
  assert (Rlt : forall x, x < n -> rt x < n) by (apply (g_rt _ _ g)).
  constructor.
  - constructor; rewrite ?L1; unfold s1; cbn [ds_va].
    + intros x Hx. rewrite NN. destruct (Nat.eqb_spec x n); [cbn; lia|].
      pose proof (g_par _ _ g x ltac:(fold n; lia)). fold n in H. lia.
    + intros x Hx. destruct (Nat.eq_dec x n) as [->|]; [lia|]. specialize (Rlt x ltac:(lia)). lia.
    + intros x Hx. rewrite NN. destruct (Nat.eqb_spec x n) as [->|]; [cbn; lia|]. apply (g_step _ _ g). fold n. lia.
    + intros x Hx. rewrite NN. destruct (Nat.eqb_spec (rt x) n) as [->|Q]; [reflexivity|].
      apply (g_top _ _ g). fold n. destruct (Nat.eq_dec x n) as [->|]; [lia|]. lia.
    + intros x Hx. rewrite NN. destruct (Nat.eqb_spec x n) as [->|]; [lia|]. apply (g_root _ _ g). fold n. lia.
    + intros x Hx. rewrite !NN. destruct (Nat.eqb_spec x n) as [->|]; [cbn; lia|].
      pose proof (g_par _ _ g x ltac:(fold n; lia)) as Q. fold n in Q.
      destruct (Nat.eqb_spec (par va x) n); [lia|]. apply (g_rank _ _ g). fold n. lia.
    + intros x Hx. apply (g_out _ _ g). fold n. lia.
  - rewrite L1. unfold s1; cbn [ds_va]. intros x Hx. rewrite NN.
    rewrite seq_S, csum_app. cbn [Nat.add]. unfold csum at 2. cbn [filter].
    destruct (Nat.eq_dec x n) as [->|Nx].
    + rewrite Rn, Nat.eqb_refl. cbn [map list_sum fold_right a_count]. rewrite Hf by lia.
      assert (Z : filter (fun z => rt z =? n) (seq 0 n) = []).
      { apply not_incl_nil_filter || idtac.
        destruct (filter (fun z => rt z =? n) (seq 0 n)) as [|z l] eqn:E; [reflexivity|].
        assert (In z (filter (fun z => rt z =? n) (seq 0 n))) as Hz by (rewrite E; now left).
        apply filter_In in Hz as [Hz1 Hz2]. apply in_seq in Hz1. apply Nat.eqb_eq in Hz2. specialize (Rlt z ltac:(lia)). lia. }
      unfold csum. rewrite Z. reflexivity.
    + pose proof (Rlt x ltac:(lia)) as Q. destruct (Nat.eqb_spec (rt x) n); [lia|].
      rewrite Rn. destruct (Nat.eqb_spec n (rt x)); [lia|]. cbn. rewrite Nat.add_0_r. apply Hc. lia.
  - rewrite L1, seq_S, filter_app, app_length. unfold s1; cbn [ds_dist Nat.add filter].
    rewrite Rn, Nat.eqb_refl. cbn [length]. rewrite Hd. lia.
  - rewrite L1. intros x Hx. apply Hf. lia.
Qed.

Lemma ensure_inv sz s rt w : Inv s rt w -> Inv (ds_ensure sz s) rt w /\ ds_size (ds_ensure sz s) = Nat.max (ds_size s) sz.
Proof.
  intros I. unfold ds_ensure, ds_size. destruct (push_inv (sz - length (ds_va s)) s rt w I) as [A B].
  split; [exact A|]. rewrite B. lia.
Qed.

Lemma find_inv s rt w x : Inv s rt w -> exists s',
  ds_find s x = Some (rt x, s') /\ Inv s' rt w /\ ds_size s' = Nat.max (ds_size s) (x + 1).
Proof.
  intros I. destruct (ensure_inv (x + 1) s rt w I) as [I1 S1]. unfold ds_find.
  set (s1 := ds_ensure (x + 1) s) in *. destruct I1 as [g Hc Hd Hf]. unfold ds_size in S1 at 1.
  rewrite (climb_spec _ rt _ g) by lia. cbn [obind].
  destruct (compress_spec rt (ds_fuel (ds_va s1)) (ds_va s1) x g ltac:(lia) ltac:(lia)) as (va' & E & g' & L' & RC).
  rewrite E. cbn [obind]. eexists. split; [reflexivity|]. split.
  - constructor; cbn [ds_va ds_dist]; rewrite ?L'; auto.
    intros z Hz. destruct (RC (rt z)) as [_ ->]. now apply Hc.
  - unfold ds_size at 1. cbn. lia.
Qed.

(* ------------------------------------------------------------------- unite *)

(** the root map after hanging lo under hi *)
Definition join (rt : nat -> nat) (lo hi : nat) (z : nat) : nat := if rt z =? lo then hi else rt z.

Lemma csum_join rt w lo hi l : lo <> hi ->
  csum (join rt lo hi) w l hi = csum rt w l hi + csum rt w l lo.
Proof.
  intros N. unfold csum. induction l as [|z l IH]; [reflexivity|]. cbn [filter].
  unfold join at 1. destruct (Nat.eqb_spec (rt z) lo) as [E|E].
  - rewrite Nat.eqb_refl, E. destruct (Nat.eqb_spec lo hi); [lia|].
    cbn [map list_sum fold_right]. unfold list_sum in *. lia.
  - destruct (Nat.eqb_spec (rt z) hi) as [E2|E2]; cbn [map list_sum fold_right]; unfold list_sum in *; lia.
Qed.
Lemma csum_join_other rt w lo hi r l : r <> lo -> r <> hi -> csum (join rt lo hi) w l r = csum rt w l r.
Proof.
  intros N1 N2. unfold csum. induction l as [|z l IH]; [reflexivity|]. cbn [filter].
  unfold join at 1. destruct (Nat.eqb_spec (rt z) lo) as [E|E].
  - rewrite E. destruct (Nat.eqb_spec hi r); [lia|]. destruct (Nat.eqb_spec lo r); [lia|exact IH].
  - destruct (Nat.eqb_spec (rt z) r); [cbn; unfold list_sum in *; lia|exact IH].
Qed.
Lemma fix_join rt lo hi l : NoDup l -> In lo l -> rt lo = lo -> rt hi = hi -> lo <> hi ->
  S (length (filter (fun z => join rt lo hi z =? z) l)) = length (filter (fun z => rt z =? z) l).
Proof.
  intros ND Hin Rl Rh N.
  assert (Same : forall z, z <> lo -> (join rt lo hi z =? z) = (rt z =? z)).
  { intros z Hz. unfold join. destruct (Nat.eqb_spec (rt z) lo) as [E|E]; [|reflexivity].
    rewrite E. destruct (Nat.eqb_spec hi z) as [->|]; [congruence|]. destruct (Nat.eqb_spec lo z); [congruence|reflexivity]. }
  assert (Lo : (join rt lo hi lo =? lo) = false).
  { unfold join. rewrite Rl, Nat.eqb_refl. apply Nat.eqb_neq. congruence. }
  induction l as [|z l IH]; [destruct Hin|]. inversion ND; subst. cbn [filter].
  destruct (Nat.eq_dec z lo) as [->|Nz].
  - rewrite Lo, Rl, Nat.eqb_refl. cbn [length]. f_equal.
    f_equal. apply filter_ext_in. intros y Hy. apply Same. congruence.
  - rewrite Same by exact Nz. destruct Hin as [->|Hin]; [congruence|].
    destruct (rt z =? z); cbn [length]; rewrite <- (IH H2 Hin); reflexivity.
Qed.

(** hanging root lo under root hi; ranks of the two roots may only grow at hi *)
Lemma link_inv s rt w va' lo hi : Inv s rt w -> lo < ds_size s -> hi < ds_size s -> rt lo = lo -> rt hi = hi -> lo <> hi ->
  length va' = ds_size s ->
  (forall z, par va' z = if z =? lo then hi else par (ds_va s) z) ->
  (forall z, z <> hi -> rk va' z = rk (ds_va s) z) -> rk (ds_va s) hi <= rk va' hi -> rk (ds_va s) lo < rk va' hi ->
  (forall z, ct va' z = if z =? hi then ct (ds_va s) hi + ct (ds_va s) lo else ct (ds_va s) z) ->
  Inv (mkDset (ds_dist s - 1) va') (join rt lo hi) w.
Proof.
  intros [g Hc Hd Hf] Hlo Hhi Rl Rh N L HP HR1 HR2 HR3 HC. unfold ds_size in *. set (va := ds_va s) in *.
  assert (Plo : par va lo = lo) by (rewrite <- Rl at 1; rewrite (g_top _ _ g lo Hlo); exact Rl).
  assert (Phi : par va hi = hi) by (rewrite <- Rh at 1; rewrite (g_top _ _ g hi Hhi); exact Rh).
  assert (J : forall z, z < length va -> join rt lo hi z < length va).
  { intros z Hz. unfold join. destruct (rt z =? lo); [exact Hhi|now apply (g_rt _ _ g)]. }
  assert (Jhi : join rt lo hi hi = hi) by (unfold join; rewrite Rh; destruct (Nat.eqb_spec hi lo); congruence).
  assert (Jlo : join rt lo hi lo = hi) by (unfold join; now rewrite Rl, Nat.eqb_refl).
  constructor; cbn [ds_va ds_dist]; rewrite ?L.
  - constructor; rewrite ?L.
    + intros z Hz. rewrite HP. destruct (z =? lo); [exact Hhi|now apply (g_par _ _ g)].
    + exact J.
    + intros z Hz. rewrite HP. destruct (Nat.eqb_spec z lo) as [->|Nz]; [congruence|].
      unfold join. now rewrite (g_step _ _ g z Hz).
    + intros z Hz. unfold join. destruct (Nat.eqb_spec (rt z) lo) as [E|E].
      * rewrite HP. destruct (Nat.eqb_spec hi lo); [congruence|exact Phi].
      * rewrite HP. destruct (Nat.eqb_spec (rt z) lo); [congruence|]. now apply (g_top _ _ g).
    + intros z Hz. rewrite HP. destruct (Nat.eqb_spec z lo) as [->|Nz]; [intros ->; congruence|].
      intros Hp. pose proof (g_root _ _ g z Hz Hp) as Q. unfold join. rewrite Q. destruct (Nat.eqb_spec z lo); congruence.
    + intros z Hz. rewrite HP. destruct (Nat.eqb_spec z lo) as [->|Nz].
      * intros _. rewrite HR1 by congruence. exact HR3.
      * intros Hp. pose proof (g_rank _ _ g z Hz Hp) as Q.
        destruct (Nat.eq_dec z hi) as [->|Nzh]; [congruence|]. rewrite (HR1 z Nzh).
        destruct (Nat.eq_dec (par va z) hi) as [E|E]; [rewrite E in *; lia|]. now rewrite HR1.
    + intros z Hz. unfold join. rewrite (g_out _ _ g z Hz). destruct (Nat.eqb_spec z lo); [lia|reflexivity].
  - intros z Hz. rewrite HC. change (join rt lo hi z) with (if rt z =? lo then hi else rt z). destruct (Nat.eqb_spec (rt z) lo) as [E|E].
    + rewrite Nat.eqb_refl.
      rewrite csum_join by exact N. rewrite <- Rh at 1. rewrite (Hc hi Hhi). rewrite <- Rl at 1. rewrite (Hc lo Hlo).
      now rewrite Rh, Rl.
    +
      destruct (Nat.eqb_spec (rt z) hi) as [E2|E2].
      * rewrite E2, csum_join by exact N. rewrite <- Rh at 1. rewrite (Hc hi Hhi). rewrite <- Rl at 1. rewrite (Hc lo Hlo).
        now rewrite Rh, Rl.
      * rewrite csum_join_other by assumption. now apply Hc.
  - pose proof (fix_join rt lo hi (seq 0 (length va)) (seq_NoDup _ _) ltac:(apply in_seq; lia) Rl Rh N) as Q.
    rewrite Hd. lia.
  - exact Hf.
Qed.

Lemma unite_inv s rt w x y : Inv s rt w -> exists b s' rt',
  ds_unite s x y = Some (b, s') /\ Inv s' rt' w /\ ds_size s' = Nat.max (ds_size s) (Nat.max (x + 1) (y + 1)) /\
  (b = true <-> rt x <> rt y) /\
  ((b = false /\ rt x = rt y /\ rt' = rt) \/ (b = true /\ (rt' = join rt (rt x) (rt y) \/ rt' = join rt (rt y) (rt x)))).
Proof.
  intros I. destruct (find_inv s rt w x I) as (s1 & E1 & I1 & S1).
  destruct (find_inv s1 rt w y I1) as (s2 & E2 & I2 & S2).
  unfold ds_unite. rewrite E1. cbn [obind]. rewrite E2. cbn [obind].
  destruct (Nat.eqb_spec (rt x) (rt y)) as [E|E].
  - exists false, s2, rt. split; [reflexivity|]. split; [exact I2|]. split; [lia|]. split; [split; [discriminate|congruence]|]. left. auto.
  - pose proof (i_good _ _ _ I2) as g. set (va := ds_va s2) in *. unfold ds_size in S1, S2. fold va in S2.
    assert (Hx : rt x < length va) by (apply (g_rt _ _ g); lia).
    assert (Hy : rt y < length va) by (apply (g_rt _ _ g); lia).
    set (X := rt x) in *. set (Y := rt y) in *.
    assert (RX : rt X = X) by apply (g_idem va rt x g). assert (RY : rt Y = Y) by apply (g_idem va rt y g).
    rewrite (nth_error_nth_in va X d0) by exact Hx. rewrite (nth_error_nth_in va Y d0) by exact Hy. cbn [obind].
    destruct (Nat.ltb_spec (rk va X) (rk va Y)) as [C|C].
    + destruct (set_nth_some va X (mkAtom Y (rk va X) (ct va X)) Hx) as [v1 F1]. rewrite F1. cbn [obind].
      pose proof (set_nth_length _ _ _ _ F1) as L1.
      destruct (set_nth_some v1 Y (mkAtom (par va Y) (rk va Y) (ct va Y + ct va X)) ltac:(lia)) as [v2 F2]. rewrite F2. cbn [obind].
      pose proof (set_nth_length _ _ _ _ F2) as L2.
      assert (NN : forall z, nth z v2 d0 = if Y =? z then mkAtom (par va Y) (rk va Y) (ct va Y + ct va X) else
                              if X =? z then mkAtom Y (rk va X) (ct va X) else nth z va d0).
      { intros z. rewrite (set_nth_nth _ _ _ _ d0 z F2), (set_nth_nth _ _ _ _ d0 z F1). reflexivity. }
      rewrite (nth_error_nth_in v2 X d0) by lia. rewrite (nth_error_nth_in v2 Y d0) by lia. cbn [obind].
      assert (GX : nth X v2 d0 = mkAtom Y (rk va X) (ct va X)).
      { rewrite NN. destruct (Nat.eqb_spec Y X); [congruence|]. now rewrite Nat.eqb_refl. }
      assert (GY : nth Y v2 d0 = mkAtom (par va Y) (rk va Y) (ct va Y + ct va X)) by (rewrite NN; now rewrite Nat.eqb_refl).
      rewrite GX, GY. cbn [a_rank a_parent a_count]. destruct (Nat.eqb_spec (rk va X) (rk va Y)); [lia|]. cbn [obind].
      exists true, (mkDset (ds_dist s2 - 1) v2), (join rt X Y). split; [reflexivity|].
      split; [|split; [unfold ds_size; cbn; rewrite L2, L1; lia|split; [split; auto|right; auto]]].
      apply link_inv; try assumption; unfold ds_size; fold va; try lia.
      * intros z. rewrite NN. destruct (Nat.eqb_spec Y z) as [->|]; destruct (Nat.eqb_spec z X) as [->|]; try congruence; try reflexivity.
        -- now rewrite Nat.eqb_refl.
        -- destruct (Nat.eqb_spec X z); [congruence|reflexivity].
      * intros z Hz. rewrite NN. destruct (Nat.eqb_spec Y z) as [->|]; [congruence|]. destruct (Nat.eqb_spec X z) as [->|]; reflexivity.
      * rewrite GY. cbn. lia.
      * rewrite GY. cbn. lia.
      * intros z. rewrite NN. destruct (Nat.eqb_spec Y z) as [->|]; [now rewrite Nat.eqb_refl|].
        destruct (Nat.eqb_spec z Y); [congruence|]. destruct (Nat.eqb_spec X z) as [->|]; reflexivity.
    + destruct (set_nth_some va Y (mkAtom X (rk va Y) (ct va Y)) Hy) as [v1 F1]. rewrite F1. cbn [obind].
      pose proof (set_nth_length _ _ _ _ F1) as L1.
      destruct (set_nth_some v1 X (mkAtom (par va X) (rk va X) (ct va X + ct va Y)) ltac:(lia)) as [v2 F2]. rewrite F2. cbn [obind].
      pose proof (set_nth_length _ _ _ _ F2) as L2.
      assert (NN : forall z, nth z v2 d0 = if X =? z then mkAtom (par va X) (rk va X) (ct va X + ct va Y) else
                              if Y =? z then mkAtom X (rk va Y) (ct va Y) else nth z va d0).
      { intros z. rewrite (set_nth_nth _ _ _ _ d0 z F2), (set_nth_nth _ _ _ _ d0 z F1). reflexivity. }
      rewrite (nth_error_nth_in v2 X d0) by lia. rewrite (nth_error_nth_in v2 Y d0) by lia. cbn [obind].
      assert (GY : nth Y v2 d0 = mkAtom X (rk va Y) (ct va Y)).
      { rewrite NN. destruct (Nat.eqb_spec X Y); [congruence|]. now rewrite Nat.eqb_refl. }
      assert (GX : nth X v2 d0 = mkAtom (par va X) (rk va X) (ct va X + ct va Y)) by (rewrite NN; now rewrite Nat.eqb_refl).
      rewrite GX, GY. cbn [a_rank a_parent a_count].
      assert (F3 : exists v3, (if rk va X =? rk va Y then set_nth v2 X (mkAtom (par va X) (S (rk va X)) (ct va X + ct va Y)) else Some v2) = Some v3 /\
                 length v3 = length va /\
                 (forall z, nth z v3 d0 = if X =? z then mkAtom (par va X) (if rk va X =? rk va Y then S (rk va X) else rk va X) (ct va X + ct va Y) else
                              if Y =? z then mkAtom X (rk va Y) (ct va Y) else nth z va d0)).
      { destruct (rk va X =? rk va Y).
        - destruct (set_nth_some v2 X (mkAtom (par va X) (S (rk va X)) (ct va X + ct va Y)) ltac:(lia)) as [v3 F3].
          exists v3. split; [exact F3|]. split; [rewrite (set_nth_length _ _ _ _ F3); lia|].
          intros z. rewrite (set_nth_nth _ _ _ _ d0 z F3), NN. destruct (X =? z); reflexivity.
        - exists v2. split; [reflexivity|]. split; [lia|exact NN]. }
      destruct F3 as (v3 & F3 & L3 & N3). rewrite F3. cbn [obind].
      exists true, (mkDset (ds_dist s2 - 1) v3), (join rt Y X). split; [reflexivity|].
      split; [|split; [unfold ds_size; cbn; rewrite L3; lia|split; [split; auto|right; auto]]].
      apply link_inv; try assumption; unfold ds_size; fold va; try lia; try congruence.
      * intros z. rewrite N3. destruct (Nat.eqb_spec X z) as [->|]; destruct (Nat.eqb_spec z Y) as [->|]; try congruence; try reflexivity.
        -- now rewrite Nat.eqb_refl.
        -- destruct (Nat.eqb_spec Y z); [congruence|reflexivity].
      * intros z Hz. rewrite N3. destruct (Nat.eqb_spec X z) as [->|]; [congruence|]. destruct (Nat.eqb_spec Y z) as [->|]; reflexivity.
      * rewrite N3, Nat.eqb_refl. cbn. destruct (rk va X =? rk va Y); lia.
      * rewrite N3, Nat.eqb_refl. cbn. destruct (Nat.eqb_spec (rk va X) (rk va Y)); lia.
      * intros z. rewrite N3. destruct (Nat.eqb_spec X z) as [->|]; [now rewrite Nat.eqb_refl|].
        destruct (Nat.eqb_spec z X); [congruence|]. destruct (Nat.eqb_spec Y z) as [->|]; reflexivity.
Qed.

Lemma csum_bump rt w x c l r : NoDup l -> In x l ->
  csum rt (fun z => (if x =? z then c else 0) + w z) l r = csum rt w l r + (if rt x =? r then c else 0).
Proof.
  intros ND Hin. unfold csum.
  assert (Out : forall l, ~ In x l -> list_sum (map (fun z => (if x =? z then c else 0) + w z) (filter (fun z => rt z =? r) l)) =
                list_sum (map w (filter (fun z => rt z =? r) l))).
  { intros l' Hn. f_equal. apply map_ext_in. intros z Hz. apply filter_In in Hz as [Hz _].
    destruct (Nat.eqb_spec x z); [congruence|reflexivity]. }
  induction l as [|z l IH]; [destruct Hin|]. inversion ND; subst. cbn [filter].
  destruct (Nat.eq_dec x z) as [->|Nz].
  - destruct (rt z =? r) eqn:E.
    + cbn [map list_sum fold_right]. rewrite Nat.eqb_refl. specialize (Out l H1). unfold list_sum in *. lia.
    + rewrite (Out l H1). lia.
  - destruct Hin as [->|Hin]; [congruence|]. specialize (IH H2 Hin).
    destruct (rt z =? r); [|exact IH]. cbn [map list_sum fold_right].
    destruct (Nat.eqb_spec x z); [congruence|]. unfold list_sum in *. lia.
Qed.

Lemma add_inv s rt w x c : Inv s rt w -> exists s',
  ds_add_count s x c = Some s' /\ Inv s' rt (fun z => (if x =? z then c else 0) + w z) /\
  ds_size s' = Nat.max (ds_size s) (x + 1).
Proof.
  intros I. destruct (find_inv s rt w x I) as (s1 & E1 & I1 & S1). unfold ds_add_count. rewrite E1. cbn [obind].
  destruct I1 as [g Hc Hd Hf]. set (va := ds_va s1) in *. unfold ds_size in S1. fold va in S1.
  assert (Hx : rt x < length va) by (apply (g_rt _ _ g); lia).
  rewrite (nth_error_nth_in va (rt x) d0) by exact Hx. cbn [obind].
  destruct (set_nth_some va (rt x) (mkAtom (par va (rt x)) (rk va (rt x)) (ct va (rt x) + c)) Hx) as [v1 F1]. rewrite F1. cbn [obind].
  pose proof (set_nth_length _ _ _ _ F1) as L1.
  assert (NN : forall z, nth z v1 d0 = if rt x =? z then mkAtom (par va z) (rk va z) (ct va z + c) else nth z va d0).
  { intros z. rewrite (set_nth_nth _ _ _ _ d0 z F1). destruct (Nat.eqb_spec (rt x) z) as [->|]; reflexivity. }
  assert (PP : forall z, par v1 z = par va z) by (intros z; rewrite NN; destruct (rt x =? z); reflexivity).
  assert (RR : forall z, rk v1 z = rk va z) by (intros z; rewrite NN; destruct (rt x =? z); reflexivity).
  eexists. split; [reflexivity|]. split; [|unfold ds_size; cbn; lia].
  constructor; cbn [ds_va ds_dist]; rewrite ?L1.
  - destruct g. constructor; rewrite ?L1; intros z Hz; rewrite ?PP, ?RR; auto.
  - intros z Hz. rewrite csum_bump; [|apply seq_NoDup|apply in_seq; lia].
    rewrite NN. destruct (rt x =? rt z); cbn; rewrite (Hc z Hz); lia.
  - exact Hd.
  - intros z Hz. destruct (Nat.eqb_spec x z); [lia|]. now apply Hf.
Qed.

(* ------------------------------------------------------------ the histories *)

Definition agrees (rt : nat -> nat) (ps : list (nat * nat)) : Prop := forall x y, rt x = rt y <-> conn ps x y.

Lemma conn_incl ps qs x y : incl ps qs -> conn ps x y -> conn qs x y.
Proof.
  intros Hi H. unfold conn in *. induction H.
  - apply rst_step. now apply Hi.
  - apply rst_refl.
  - now apply rst_sym.
  - eapply rst_trans; eassumption.
Qed.

Lemma agrees_join rt rt' ps x y : agrees rt ps -> (rt' = join rt (rt x) (rt y) \/ rt' = join rt (rt y) (rt x)) ->
  agrees rt' (ps ++ [(x, y)]).
Proof.
  intros A Hr.
  assert (K : forall a b, rt' a = rt' b <-> (rt a = rt b \/ (rt a = rt x /\ rt b = rt y) \/ (rt a = rt y /\ rt b = rt x))).
  { intros a b. destruct Hr as [-> | ->]; unfold join;
      destruct (Nat.eqb_spec (rt a) (rt x)), (Nat.eqb_spec (rt b) (rt x)), (Nat.eqb_spec (rt a) (rt y)), (Nat.eqb_spec (rt b) (rt y));
      intuition congruence. }
  assert (I1 : incl ps (ps ++ [(x, y)])) by (apply incl_appl, incl_refl).
  assert (Cxy : conn (ps ++ [(x, y)]) x y) by (apply rst_step, in_or_app; right; now left).
  intros a b. rewrite K. split.
  - intros [H|[[H1 H2]|[H1 H2]]].
    + apply (conn_incl ps); [exact I1|]. now apply A.
    + apply A in H1. apply A in H2. eapply rst_trans; [apply (conn_incl ps _ a x I1 H1)|].
      eapply rst_trans; [exact Cxy|]. apply rst_sym. apply (conn_incl ps _ b y I1 H2).
    + apply A in H1. apply A in H2. eapply rst_trans; [apply (conn_incl ps _ a y I1 H1)|].
      eapply rst_trans; [apply rst_sym; exact Cxy|]. apply rst_sym. apply (conn_incl ps _ b x I1 H2).
  - intros H. apply K. induction H.
    + apply in_app_or in H as [H|[H|[]]].
      * assert (rt x0 = rt y0) by (apply A; now apply rst_step). apply K. auto.
      * injection H as -> ->. apply K. auto.
    + reflexivity.
    + congruence.
    + congruence.
Qed.

Lemma ds_pairs_app a b : ds_pairs (a ++ b) = ds_pairs a ++ ds_pairs b.
Proof. induction a as [|[] a IH]; cbn; congruence. Qed.
Lemma ds_weight_app a b z : ds_weight (a ++ b) z + 1 = ds_weight a z + ds_weight b z.
Proof. induction a as [|[] a IH]; cbn [app ds_weight]; lia. Qed.

Definition extent1 (n : nat) (o : ds_op) : nat := ds_extent n [o].
Lemma ds_extent_app sz a b : ds_extent sz (a ++ b) = ds_extent (ds_extent sz a) b.
Proof. revert sz; induction a as [|[] a IH]; intros sz; cbn; auto. Qed.

(** state after a history *)
Definition After (sz : nat) (os : list ds_op) (s : dset) : Prop :=
  exists rt, Inv s rt (ds_weight os) /\ agrees rt (ds_pairs os) /\ ds_size s = ds_extent sz os.

Lemma Inv_ext s rt w w' : (forall z, w z = w' z) -> Inv s rt w -> Inv s rt w'.
Proof.
  intros E [g Hc Hd Hf]. constructor; auto.
  - intros x Hx. rewrite (Hc x Hx). unfold csum. f_equal. now apply map_ext.
  - intros x Hx. now rewrite <- E, Hf.
Qed.

Lemma agrees_same rt ps x y : agrees rt ps -> rt x = rt y -> agrees rt (ps ++ [(x, y)]).
Proof.
  intros A E a b. split.
  - intros H. apply (conn_incl ps); [apply incl_appl, incl_refl|]. now apply A.
  - intros H. induction H.
    + apply in_app_or in H as [H|[H|[]]].
      * apply A. now apply rst_step.
      * injection H as -> ->. exact E.
    + reflexivity.
    + congruence.
    + congruence.
Qed.

Lemma do_after sz os s o : After sz os s -> exists s', ds_do s o = Some s' /\ After sz (os ++ [o]) s'.
Proof.
  intros (rt & I & A & Sz). unfold After. rewrite ds_pairs_app, ds_extent_app, <- Sz.
  assert (W : forall z, ds_weight (os ++ [o]) z = (ds_weight [o] z - 1) + ds_weight os z).
  { intros z. pose proof (ds_weight_app os [o] z). destruct o; cbn in *; lia. }
  destruct o as [x y|x|x|x c]; cbn [ds_do ds_pairs].
  - destruct (unite_inv s rt _ x y I) as (b & s' & rt' & E & I' & S' & _ & Hb). rewrite E. cbn [obind].
    exists s'. split; [reflexivity|]. exists rt'. split; [|split].
    + apply (Inv_ext _ _ (ds_weight os)); [intros z; rewrite W; reflexivity|exact I'].
    + destruct Hb as [(_ & Ex & ->)|[_ Hb]]; [now apply agrees_same|now apply (agrees_join rt)].
    + rewrite S'. reflexivity.
  - destruct (find_inv s rt _ x I) as (s' & E & I' & S'). rewrite E. cbn [obind].
    exists s'. split; [reflexivity|]. exists rt. rewrite app_nil_r. split; [|split; [exact A|exact S']].
    apply (Inv_ext _ _ (ds_weight os)); [intros z; rewrite W; reflexivity|exact I'].
  - destruct (find_inv s rt _ x I) as (s' & E & I' & S'). unfold ds_count. rewrite E. cbn [obind].
    pose proof (i_good _ _ _ I') as g. unfold ds_size in S' at 1.
    rewrite (nth_error_nth_in (ds_va s') (rt x) d0) by (apply (g_rt _ _ g); lia). cbn [obind].
    exists s'. split; [reflexivity|]. exists rt. rewrite app_nil_r. split; [|split; [exact A|exact S']].
    apply (Inv_ext _ _ (ds_weight os)); [intros z; rewrite W; reflexivity|exact I'].
  - destruct (add_inv s rt _ x c I) as (s' & E & I' & S').
    exists s'. split; [exact E|]. exists rt. rewrite app_nil_r. split; [|split; [exact A|exact S']].
    eapply Inv_ext; [|exact I']. intros z. rewrite W. cbn. lia.
Qed.

Lemma clear_after sz : After sz [] (ds_clear sz).
Proof.
  exists (fun x => x). unfold ds_clear.
  assert (I0 : Inv (mkDset 0 []) (fun x => x) (ds_weight [])).
  { constructor; cbn; try lia; try reflexivity. constructor; cbn; intros; lia. }
  destruct (ensure_inv sz _ _ _ I0) as [I S]. split; [exact I|]. split.
  - intros x y. split.
    + intros ->. apply rst_refl.
    + intros H. induction H; [destruct H|reflexivity|congruence|congruence].
  - rewrite S. reflexivity.
Qed.

Lemma run_after sz : forall os2 os1 s, After sz os1 s -> exists s', ds_run s os2 = Some s' /\ After sz (os1 ++ os2) s'.
Proof.
  induction os2 as [|o os2 IH]; intros os1 s H; cbn [ds_run].
  - exists s. rewrite app_nil_r. auto.
  - destruct (do_after sz os1 s o H) as (s1 & E1 & H1). rewrite E1. cbn [obind].
    destruct (IH _ _ H1) as (s2 & E2 & H2). exists s2. split; [exact E2|]. now rewrite <- app_assoc in H2.
Qed.

Lemma list_sum_perm_cls (w : nat -> nat) l1 l2 : NoDup l1 -> NoDup l2 -> (forall z, In z l1 <-> In z l2) ->
  list_sum (map w l1) = list_sum (map w l2).
Proof.
  intros N1 N2 H. pose proof (Permutation.NoDup_Permutation N1 N2 H) as P. clear - P.
  apply (Permutation.Permutation_map w) in P. revert P. generalize (map w l1), (map w l2).
  unfold list_sum. induction 1; cbn; lia.
Qed.

(** a transversal has as many elements as there are roots *)
Lemma transversal_roots rt n ps : agrees rt ps -> (forall x, rt (rt x) = rt x) -> (forall x, x < n -> rt x < n) ->
  transversal n ps (filter (fun z => rt z =? z) (seq 0 n)).
Proof.
  intros A Id Lt. split; [apply NoDup_filter, seq_NoDup|].
  assert (F : forall r, In r (filter (fun z => rt z =? z) (seq 0 n)) <-> r < n /\ rt r = r).
  { intros r. rewrite filter_In, in_seq, Nat.eqb_eq. intuition lia. }
  split; [intros r Hr; now apply F|]. split.
  - intros z Hz. exists (rt z). split; [apply F; auto|]. apply A. now rewrite Id.
  - intros r1 r2 H1 H2 H3. apply F in H1 as [_ H1]. apply F in H2 as [_ H2]. apply A in H3. congruence.
Qed.
Lemma transversal_length n ps r1 r2 : transversal n ps r1 -> transversal n ps r2 -> length r1 = length r2.
Proof.
  assert (K : forall r1 r2, transversal n ps r1 -> transversal n ps r2 -> length r1 <= length r2).
  { intros a b (Na & La & Ca & Ua) (Nb & Lb & Cb & Ub).
    (* map each element of a to its partner in b, injectively *)
    assert (G : forall l, NoDup l -> incl l a -> exists l', NoDup l' /\ length l' = length l /\ incl l' b /\
                (forall y, In y l' -> exists x, In x l /\ conn ps x y)).
    { induction l as [|x l IH]; intros ND HI; [exists []; repeat split; try constructor; intros ? []|].
      inversion ND; subst. destruct IH as (l' & N' & L' & I' & P'); [assumption|intros y Hy; apply HI; now right|].
      destruct (Cb x) as (y & Hy & Hxy); [apply La, HI; now left|].
      exists (y :: l'). repeat split.
      - constructor; [|exact N']. intros Hin. destruct (P' y Hin) as (x' & Hx' & Hc).
        apply H1. assert (x = x') as ->; [|exact Hx'].
        apply Ua; [apply HI; now left|apply HI; now right|].
        eapply rst_trans; [exact Hxy|]. apply rst_sym. exact Hc.
      - cbn. lia.
      - intros z [<-|Hz]; [exact Hy|now apply I'].
      - intros z [<-|Hz]; [exists x; split; [now left|exact Hxy]|].
        destruct (P' z Hz) as (x' & Hx' & Hc). exists x'. split; [now right|exact Hc]. }
    destruct (G a Na (incl_refl a)) as (l' & N' & L' & I' & _). rewrite <- L'. now apply NoDup_incl_length. }
  intros H1 H2. pose proof (K _ _ H1 H2). pose proof (K _ _ H2 H1). lia.
Qed.
