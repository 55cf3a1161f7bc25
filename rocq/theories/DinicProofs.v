(** Correctness of the maximum flow: levels and sums. *)
From Coq Require Import List PeanoNat ZArith Lia Bool.
From Verif Require Import Lib DinicModel DinicSpec.
Import ListNotations.
Open Scope Z_scope.

Lemma upd_eq {A} (f : nat -> A) i v : upd f i v i = v.
Proof. unfold upd. rewrite Nat.eqb_refl. reflexivity. Qed.
Lemma upd_neq {A} (f : nat -> A) i v j : j <> i -> upd f i v j = f j.
Proof. intro N. unfold upd. destruct (Nat.eqb i j) eqn:E; [apply Nat.eqb_eq in E; congruence|reflexivity]. Qed.
Lemma filter_upd_false (f : nat -> bool) y l : f y = true -> NoDup l -> In y l -> length (filter f l) = S (length (filter (upd f y false) l)).
Proof.
  intros E ND. induction ND as [|x l N1 N2 IH]; [intros []|]. cbn [filter]. intros [->|H].
  - rewrite upd_eq, E. cbn [length]. do 2 f_equal. apply filter_ext_in. intros z Hz. symmetry. apply upd_neq. congruence.
  - assert (NE : x <> y) by congruence. rewrite (upd_neq _ _ _ _ NE). destruct (f x); cbn [length]; rewrite (IH H); reflexivity.
Qed.

(** ** sums *)
Lemma sum_ext f g l : (forall x, In x l -> f x = g x) -> sum f l = sum g l.
Proof. intro H. unfold sum. f_equal. apply map_ext_in. exact H. Qed.
Lemma sum_plus f g l : sum (fun x => f x + g x) l = sum f l + sum g l.
Proof. unfold sum. induction l as [|x l IH]; cbn [map fold_right]; [reflexivity|]. rewrite IH. ring. Qed.
Lemma sum_opp f l : sum (fun x => - f x) l = - sum f l.
Proof. unfold sum. induction l as [|x l IH]; cbn [map fold_right]; [reflexivity|]. rewrite IH. ring. Qed.
Lemma sum_minus f g l : sum (fun x => f x - g x) l = sum f l - sum g l.
Proof. unfold sum. induction l as [|x l IH]; cbn [map fold_right]; [reflexivity|]. rewrite IH. ring. Qed.
Lemma sum_le f g l : (forall x, In x l -> f x <= g x) -> sum f l <= sum g l.
Proof.
  unfold sum. induction l as [|x l IH]; intro H; cbn [map fold_right]; [lia|].
  pose proof (H x (or_introl eq_refl)). specialize (IH (fun y Hy => H y (or_intror Hy))). lia.
Qed.
Lemma sum_zero l : sum (fun _ => 0) l = 0.
Proof. unfold sum. induction l as [|x l IH]; cbn [map fold_right]; [reflexivity|]. rewrite IH. reflexivity. Qed.
Lemma sum_nil f : sum f [] = 0.
Proof. reflexivity. Qed.
Lemma sum_cons f x l : sum f (x :: l) = f x + sum f l.
Proof. reflexivity. Qed.
Lemma sum_swap (h : nat -> nat -> Z) a b : sum (fun u => sum (h u) b) a = sum (fun v => sum (fun u => h u v) a) b.
Proof.
  induction a as [|x a IH]; [rewrite sum_nil; symmetry; apply sum_zero|]. rewrite sum_cons, IH, <- sum_plus. apply sum_ext. intros v _. rewrite sum_cons. reflexivity.
Qed.
Lemma sum_filter f (p : nat -> bool) l : sum f (filter p l) = sum (fun x => if p x then f x else 0) l.
Proof. induction l as [|x l IH]; [reflexivity|]. cbn [filter]. rewrite sum_cons. destruct (p x); rewrite ?sum_cons, IH; lia. Qed.
Lemma sum_split f (p : nat -> bool) l : sum f l = sum f (filter p l) + sum f (filter (fun x => negb (p x)) l).
Proof. rewrite !sum_filter, <- sum_plus. apply sum_ext. intros x _. destruct (p x); cbn; lia. Qed.
Lemma sum_point (l : list nat) v x : NoDup l -> In v l -> sum (fun b => if Nat.eqb v b then x else 0) l = x.
Proof.
  intros ND H. induction ND as [|z l N1 N2 IH]; [destruct H|]. rewrite sum_cons. destruct H as [->|H].
  - rewrite Nat.eqb_refl. rewrite (sum_ext _ (fun _ => 0)); [rewrite sum_zero; lia|]. intros b Hb. destruct (Nat.eqb v b) eqn:E; [apply Nat.eqb_eq in E; congruence|reflexivity].
  - destruct (Nat.eqb v z) eqn:E; [apply Nat.eqb_eq in E; congruence|]. rewrite (IH H). lia.
Qed.

Section Proofs.
  Variables (n : nat) (infinity : Z) (cap : matrix).
  Notation V := (seq 0 n).
  Notation adj := (adjl n cap).
  Notation free := (free cap).
  Lemma in_V x : In x V <-> (x < n)%nat.
  Proof using. rewrite in_seq. lia. Qed.
  Lemma adj_lt u v : In v (adj u) -> (v < n)%nat.
  Proof using. unfold adjl. rewrite filter_In, in_V. tauto. Qed.

  (** ** changing one entry *)
  Lemma net_upd2 g u v x w : (u < n)%nat -> (v < n)%nat -> u <> v ->
    net n (upd2 g u v x) w = net n g w + (if Nat.eqb u w then x - g u v else 0) - (if Nat.eqb v w then x - g u v else 0).
  Proof using.
    intros Hu Hv N. unfold net.
    assert (A : sum (upd2 g u v x w) V = sum (g w) V + (if Nat.eqb u w then x - g u v else 0)).
    { transitivity (sum (fun b => g w b + if Nat.eqb v b then (if Nat.eqb u w then x - g u v else 0) else 0) V).
      - apply sum_ext. intros b _. unfold upd2. destruct (Nat.eqb u w) eqn:E1; cbn [andb]; [apply Nat.eqb_eq in E1; subst w|destruct (Nat.eqb v b); lia].
        destruct (Nat.eqb v b) eqn:E2; [apply Nat.eqb_eq in E2; subst b; lia|lia].
      - rewrite sum_plus. f_equal. apply sum_point; [apply seq_NoDup|apply in_V; exact Hv]. }
    assert (B : sum (fun b => upd2 g u v x b w) V = sum (fun b => g b w) V + (if Nat.eqb v w then x - g u v else 0)).
    { transitivity (sum (fun b => g b w + if Nat.eqb u b then (if Nat.eqb v w then x - g u v else 0) else 0) V).
      - apply sum_ext. intros b _. unfold upd2. destruct (Nat.eqb u b) eqn:E1; cbn [andb]; [apply Nat.eqb_eq in E1; subst b|lia].
        destruct (Nat.eqb v w) eqn:E2; [apply Nat.eqb_eq in E2; subst w; lia|lia].
      - rewrite sum_plus. f_equal. apply sum_point; [apply seq_NoDup|apply in_V; exact Hu]. }
    rewrite A, B. lia.
  Qed.

  (** ** cuts *)
  Lemma antisym (h : nat -> nat -> Z) l : (forall u v, h u v = - h v u) -> sum (fun u => sum (h u) l) l = 0.
  Proof using.
    intro H. assert (E : sum (fun u => sum (h u) l) l = - sum (fun u => sum (h u) l) l); [|lia].
    rewrite sum_swap at 1. rewrite <- sum_opp. apply sum_ext. intros v _. rewrite <- sum_opp. apply sum_ext. intros u _. apply H.
  Qed.
  Definition crossing (g : matrix) (a : nat -> bool) : Z :=
    sum (fun u => sum (fun v => g u v - g v u) (filter (fun v => negb (a v)) V)) (filter a V).
  Lemma cut_value s t g a : is_flow n cap s t g -> (s < n)%nat -> a s = true -> a t = false -> net n g s = crossing g a.
  Proof using.
    intros F Hs As At. unfold crossing.
    assert (E : sum (net n g) (filter a V) = net n g s).
    { rewrite sum_filter. rewrite (sum_ext _ (fun u => if Nat.eqb s u then net n g s else 0)).
      - apply sum_point; [apply seq_NoDup|apply in_V; exact Hs].
      - intros u Hu. apply in_V in Hu. destruct (Nat.eqb s u) eqn:X; [apply Nat.eqb_eq in X; subst u; rewrite As; reflexivity|]. apply Nat.eqb_neq in X.
        destruct (a u) eqn:Y; [|reflexivity]. apply (flow_kept _ _ _ _ _ F u Hu); congruence. }
    rewrite <- E. rewrite (sum_ext (net n g) (fun u => sum (fun v => g u v - g v u) (filter a V) + sum (fun v => g u v - g v u) (filter (fun v => negb (a v)) V))).
    - rewrite sum_plus, (antisym (fun u v => g u v - g v u)); [lia|]. intros; lia.
    - intros u _. rewrite <- sum_split. unfold net. rewrite sum_minus. reflexivity.
  Qed.

  (** ** levels *)
  Section Levels.
    Variables (flow : matrix) (source : nat).
    Hypothesis Hs : (source < n)%nat.
    Definition step_ok (level : nat -> nat) (u v : nat) : Prop := (u < n)%nat /\ In v (adj u) /\ free flow u v = true /\ level u <> 0%nat /\ level v = (level u + 1)%nat.
    Record lev (level : nat -> nat) : Prop := {
      l_source : level source = 1%nat;
      l_parent : forall v, (v < n)%nat -> level v <> 0%nat -> v = source \/ exists u, step_ok level u v }.
    Definition zeros (level : nat -> nat) : nat := length (filter (fun v => Nat.eqb (level v) 0) V).
    Definition closed_at (level : nat -> nat) (u : nat) : Prop := forall v, In v (adj u) -> free flow u v = true -> level v <> 0%nat.
    Lemma level_scan_ok u : (u < n)%nat -> forall vs level que, incl vs (adj u) -> lev level -> level u <> 0%nat ->
      Forall (fun x => (x < n)%nat /\ level x <> 0%nat) que ->
      exists level' que', level_scan cap flow u vs level que = (level', que') /\ lev level' /\ (forall x, level x <> 0%nat -> level' x = level x) /\
        (forall v, In v vs -> free flow u v = true -> level' v <> 0%nat) /\
        Forall (fun x => (x < n)%nat /\ level' x <> 0%nat) que' /\ incl que que' /\ (forall x, (x < n)%nat -> level' x <> 0%nat -> level x <> 0%nat \/ In x que') /\
        (length que' + zeros level' = length que + zeros level)%nat.
    Proof using Hs.
      intro Hu. induction vs as [|v vs IH]; intros level que INC L NU Q; cbn [level_scan].
      - exists level, que. split; [reflexivity|]. split; [exact L|]. split; [auto|]. split; [intros v []|]. split; [exact Q|]. split; [apply incl_refl|]. split; [auto|lia].
      - assert (INC' : incl vs (adj u)) by (intros z Hz; apply INC; right; exact Hz).
        assert (HV : In v (adj u)) by (apply INC; left; reflexivity). pose proof (adj_lt u v HV) as Lv.
        destruct (Nat.eqb (level v) 0) eqn:E0; cbn [andb].
        + apply Nat.eqb_eq in E0. destruct (free flow u v) eqn:F.
          * assert (NV : u <> v) by congruence.
            assert (MONO : forall x, level x <> 0%nat -> upd level v (level u + 1)%nat x = level x) by (intros x Hx; apply upd_neq; congruence).
            assert (L1 : lev (upd level v (level u + 1)%nat)).
            { constructor; [rewrite MONO; [apply L|rewrite (l_source _ L); discriminate]|]. intros w Hw Nw. destruct (Nat.eq_dec w v) as [->|N].
              - right. exists u. unfold step_ok. rewrite upd_eq, (MONO u NU). auto.
              - rewrite (upd_neq _ _ _ _ N) in Nw. destruct (l_parent _ L w Hw Nw) as [->|(p & P1 & P2 & P3 & P4 & P5)]; [left; reflexivity|]. right. exists p.
                unfold step_ok. rewrite (upd_neq _ _ _ _ N), (MONO p P4). auto. }
            destruct (IH (upd level v (level u + 1)%nat) (que ++ [v]) INC' L1) as (l' & q' & R1 & R2 & R3 & R4 & R5 & R6 & R7 & R8).
            { rewrite (MONO u NU). exact NU. }
            { apply Forall_app. split; [eapply Forall_impl; [|exact Q]; intros x [X1 X2]; rewrite (MONO x X2); auto|]. constructor; [|constructor]. rewrite upd_eq. split; [exact Lv|lia]. }
            exists l', q'. split; [exact R1|]. split; [exact R2|]. split; [intros x Hx; rewrite R3; [apply MONO; exact Hx|rewrite (MONO x Hx); exact Hx]|].
            split.
            { intros w [<-|Hw]; [intros _; rewrite R3; rewrite upd_eq; lia|apply R4; exact Hw]. }
            split; [exact R5|]. split; [intros x Hx; apply R6, in_app_iff; left; exact Hx|]. split.
            { intros x Hx Nx. destruct (R7 x Hx Nx) as [X|X]; [|right; exact X]. destruct (Nat.eq_dec x v) as [->|N]; [right; apply R6, in_app_iff; right; left; reflexivity|].
              rewrite (upd_neq _ _ _ _ N) in X. left. exact X. }
            rewrite R8, app_length. cbn [length]. assert (ZZ : zeros level = S (zeros (upd level v (level u + 1)%nat))); [|lia].
            unfold zeros. rewrite (filter_upd_false (fun x => Nat.eqb (level x) 0) v V); [|rewrite E0; reflexivity|apply seq_NoDup|apply in_V; exact Lv].
            do 2 f_equal. apply filter_ext. intro x. unfold upd. destruct (Nat.eqb v x); [|reflexivity]. symmetry. apply Nat.eqb_neq. lia.
          * destruct (IH level que INC' L NU Q) as (l' & q' & R1 & R2 & R3 & R4 & R5). exists l', q'. split; [exact R1|]. split; [exact R2|]. split; [exact R3|].
            split; [intros w [<-|Hw]; [congruence|apply R4; exact Hw]|exact R5].
        + apply Nat.eqb_neq in E0. destruct (IH level que INC' L NU Q) as (l' & q' & R1 & R2 & R3 & R4 & R5). exists l', q'. split; [exact R1|]. split; [exact R2|]. split; [exact R3|].
          split; [intros w [<-|Hw]; [intros _; rewrite (R3 v E0); exact E0|apply R4; exact Hw]|exact R5].
    Qed.
    Lemma level_loop_ok : forall fuel level que, (length que + zeros level < fuel)%nat -> lev level ->
      Forall (fun x => (x < n)%nat /\ level x <> 0%nat) que -> (forall x, (x < n)%nat -> level x <> 0%nat -> In x que \/ closed_at level x) ->
      exists level', level_loop n cap fuel flow level que = Some level' /\ lev level' /\ forall x, (x < n)%nat -> level' x <> 0%nat -> closed_at level' x.
    Proof using Hs.
      induction fuel as [|fuel IH]; intros level que L LV Q CL; [lia|]. cbn [level_loop]. destruct que as [|u que].
      - exists level. split; [reflexivity|]. split; [exact LV|]. intros x Hx Nx. destruct (CL x Hx Nx) as [[]|X]. exact X.
      - inversion Q as [|? ? [Hu Nu] Q']; subst.
        destruct (level_scan_ok u Hu (adj u) level que (incl_refl _) LV Nu Q') as (l' & q' & -> & R2 & R3 & R4 & R5 & R6 & R7 & R8).
        cbn [length] in L. apply IH; [lia|exact R2|exact R5|]. intros x Hx Nx.
        destruct (Nat.eq_dec x u) as [->|N]; [right; exact R4|].
        destruct (R7 x Hx Nx) as [X|X]; [|left; exact X]. destruct (CL x Hx X) as [[->|Y]|Y]; [congruence|left; apply R6; exact Y|].
        right. intros w Hw Fw. pose proof (Y w Hw Fw) as Z. rewrite (R3 w Z). exact Z.
    Qed.
    Lemma build_ok : exists level, build_level_graph n cap flow source = Some level /\ lev level /\ forall x, (x < n)%nat -> level x <> 0%nat -> closed_at level x.
    Proof using Hs.
      unfold build_level_graph. apply level_loop_ok.
      - cbn [length]. assert (zeros (upd (fun _ => 0%nat) source 1%nat) < n)%nat; [|lia]. unfold zeros.
        assert (X : length (filter (fun _ : nat => true) V) = S (length (filter (fun v => Nat.eqb (upd (fun _ => 0%nat) source 1%nat v) 0) V))).
        { rewrite (filter_upd_false (fun _ => true) source V eq_refl (seq_NoDup _ _)) by (apply in_V; exact Hs). do 2 f_equal. apply filter_ext. intro x. unfold upd. destruct (Nat.eqb source x); reflexivity. }
        assert (Y : forall l : list nat, length (filter (fun _ => true) l) = length l) by (induction l as [|z l IHl]; [reflexivity|cbn; rewrite IHl; reflexivity]).
        rewrite Y, seq_length in X. lia.
      - constructor; [apply upd_eq|]. intros v Hv Nv. left. destruct (Nat.eq_dec v source) as [E|E]; [exact E|]. rewrite (upd_neq _ _ _ _ E) in Nv. congruence.
      - constructor; [|constructor]. rewrite upd_eq. split; [exact Hs|discriminate].
      - intros x Hx Nx. left. destruct (Nat.eq_dec x source) as [->|E]; [left; reflexivity|]. rewrite (upd_neq _ _ _ _ E) in Nx. congruence.
    Qed.
  End Levels.

  (** ** no more paths: the flow is maximal *)
  Lemma maximal flow s t level : is_flow n cap s t flow -> (s < n)%nat -> (t < n)%nat -> lev flow s level -> (forall x, (x < n)%nat -> level x <> 0%nat -> closed_at flow level x) ->
    level t = 0%nat -> forall g, is_flow n cap s t g -> net n g s <= net n flow s.
  Proof using.
    intros F Hs Ht LV CL LT g G. set (a := fun v => negb (Nat.eqb (level v) 0)).
    assert (As : a s = true) by (unfold a; rewrite (l_source _ _ _ LV); reflexivity). assert (At : a t = false) by (unfold a; rewrite LT; reflexivity).
    rewrite (cut_value s t g a G Hs As At), (cut_value s t flow a F Hs As At). unfold crossing. apply sum_le. intros u Hu. apply sum_le. intros v Hv.
    apply filter_In in Hu as [Hu Au]. apply filter_In in Hv as [Hv Av]. apply in_V in Hu, Hv. unfold a in Au, Av. apply negb_true_iff, Nat.eqb_neq in Au.
    rewrite negb_involutive in Av. apply Nat.eqb_eq in Av. pose proof (flow_bounds _ _ _ _ _ G u v Hu Hv). pose proof (flow_bounds _ _ _ _ _ G v u Hv Hu).
    pose proof (flow_bounds _ _ _ _ _ F u v Hu Hv). pose proof (flow_bounds _ _ _ _ _ F v u Hv Hu).
    assert (N : u <> v) by congruence. destruct (in_dec Nat.eq_dec v (adj u)) as [X|X].
    - destruct (free flow u v) eqn:Fr; [pose proof (CL u Hu Au v X Fr); congruence|]. unfold DinicModel.free in Fr. apply orb_false_iff in Fr as [F1 F2].
      apply Z.ltb_ge in F1, F2. lia.
    - assert (0 <? cap u v = false /\ 0 <? cap v u = false) as [C1 C2].
      { apply orb_false_iff. destruct ((0 <? cap u v) || (0 <? cap v u)) eqn:E; [|reflexivity]. exfalso. apply X. unfold adjl. apply filter_In. split; [apply in_V; exact Hv|].
        rewrite E, andb_true_r. apply negb_true_iff, Nat.eqb_neq. congruence. }
      apply Z.ltb_ge in C1, C2. lia.
  Qed.
End Proofs.
