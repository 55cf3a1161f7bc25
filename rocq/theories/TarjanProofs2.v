From Coq Require Import Permutation Sorted.
From Verif Require Import Lib GraphSpec WalkSpec TarjanSpec ClosModel ClosProofs DfsModel DfsProofs TarjanModel TarjanProofs.
Open Scope nat_scope.

Lemma map_set {A B} (f : A -> B) : forall l i x l', set_nth l i x = Some l' -> set_nth (map f l) i (f x) = Some (map f l').
Proof.
  induction l as [|a l IH]; intros [|i] x l' E; cbn in E; try discriminate; cbn.
  - injection E as <-. reflexivity.
  - destruct (set_nth l i x) as [m|] eqn:Em; cbn in E; [|discriminate]. injection E as <-. now rewrite (IH i x m Em).
Qed.

Section T.
  Context {W : Type}.
  Variable g : list (list (nat * W)).
  Hypothesis Wf : wf g.
  Notation n := (length g).
  Notation path := (map (@fst nat nat)).
  Definition tab (l : list Z) (f : nat -> Z) : Prop := length l = n /\ forall v, v < n -> nth_error l v = Some (f v).
  Definition acts (l : list Z) (sta : list nat) : Prop := length l = n /\ forall v, v < n -> exists a, nth_error l v = Some a /\ (a = (-1)%Z <-> ~ In v sta).
  Definition CI (ix lw : nat -> Z) (s : tstate) : Prop :=
    tab (t_idx s) ix /\ tab (t_low s) lw /\ acts (t_act s) (t_sta s) /\ (0 <= t_cnt s)%Z /\ TI g ix lw (t_stk s) (t_sta s) (rev (t_vscc s)) (t_cnt s).
  Definition vis (s : tstate) : list bool := map (fun x => negb (x =? -1)%Z) (t_idx s).
  Definition mt (s : tstate) : nat := msum g (vis s) + wsum g (t_stk s).
  Lemma tab_set l f v c : v < n -> tab l f -> exists l', set_nth l v c = Some l' /\ tab l' (fupd f v c).
  Proof using Type.
    intros Lv (L & H). destruct (set_nth_some l v c) as (l' & E); [lia|]. exists l'. split; [exact E|]. split; [rewrite (set_nth_length _ _ _ _ E); exact L|]. intros x Lx. rewrite (set_nth_get _ _ _ _ x E).
    destruct (Nat.eqb_spec v x) as [->|N]; [now rewrite fupd_eq|]. rewrite fupd_ne by congruence. now apply H.
  Qed.
  Lemma visit_run ix lw s v : tab (t_idx s) ix -> tab (t_low s) lw -> acts (t_act s) (t_sta s) -> (0 <= t_cnt s)%Z -> v < n -> ix v = (-1)%Z ->
    exists s', t_visit v s = Some s' /\ tab (t_idx s') (fupd ix v (t_cnt s)) /\ tab (t_low s') (fupd lw v (t_cnt s)) /\ acts (t_act s') (v :: t_sta s) /\
      t_cnt s' = (t_cnt s + 1)%Z /\ t_sta s' = v :: t_sta s /\ t_stk s' = (v, 0) :: t_stk s /\ t_vscc s' = t_vscc s /\ msum g (vis s) = msum g (vis s') + S (length (out g v)).
  Proof using Type.
    intros Hi Hl Ha C0 Lv Ev. unfold t_visit. destruct (tab_set _ _ v (t_cnt s) Lv Hi) as (idx & Ei & Ti). destruct (tab_set _ _ v (t_cnt s) Lv Hl) as (low & El & Tl). rewrite Ei, El. cbn [obind].
    destruct Ha as (La & Ha). destruct (set_nth_some (t_act s) v (t_cnt s)) as (act & Ea); [lia|]. rewrite Ea. cbn [obind]. eexists. split; [reflexivity|]. cbn [t_idx t_low t_act t_cnt t_sta t_stk t_vscc].
    split; [exact Ti|]. split; [exact Tl|]. split.
    - split; [rewrite (set_nth_length _ _ _ _ Ea); exact La|]. intros x Lx. rewrite (set_nth_get _ _ _ _ x Ea). destruct (Nat.eqb_spec v x) as [->|N].
      + exists (t_cnt s). split; [reflexivity|]. split; [lia|]. intros X. destruct X. now left.
      + destruct (Ha x Lx) as (a & E & H). exists a. split; [exact E|]. rewrite H. cbn. intuition congruence.
    - repeat split. unfold vis. cbn [t_idx]. apply (msum_set g); [exact Lv| |].
      + rewrite nth_error_map, (proj2 Hi v Lv), Ev. reflexivity.
      + rewrite <- (map_set (fun x => negb (x =? -1)%Z) _ _ _ _ Ei). f_equal. destruct (Z.eqb_spec (t_cnt s) (-1)); [lia|reflexivity].
  Qed.
  Lemma lower_run ix lw s u x : CI ix lw s -> In u (path (t_stk s)) -> (exists y, In y (t_sta s) /\ reach g u y /\ Z.min (lw u) x = Z.min (lw u) (ix y)) ->
    exists s', t_lower u x s = Some s' /\ CI ix (fupd lw u (Z.min (lw u) x)) s' /\ t_cnt s' = t_cnt s /\ t_sta s' = t_sta s /\ t_stk s' = t_stk s /\ t_vscc s' = t_vscc s /\ t_idx s' = t_idx s /\ t_act s' = t_act s.
  Proof using Type.
    intros (Hi & Hl & Ha & C0 & T) Hu (y & Y1 & Y2 & Y3). assert (Lu : u < n). { apply (ti_lt _ _ _ _ _ _ _ T). apply in_or_app. left. now apply (ti_sub _ _ _ _ _ _ _ T). }
    unfold t_lower. rewrite (proj2 Hl u Lu). cbn [obind]. destruct (tab_set _ _ u (Z.min (lw u) x) Lu Hl) as (low & El & Tl). rewrite El. cbn [obind]. eexists. split; [reflexivity|]. cbn [t_idx t_low t_act t_cnt t_sta t_stk t_vscc].
    split; [|repeat split]. split; [exact Hi|]. split; [exact Tl|]. split; [exact Ha|]. split; [exact C0|]. cbn [t_cnt t_stk t_sta t_vscc]. rewrite Y3. now apply T_low.
  Qed.
  Lemma pop_run u sta : forall sa act scc, (forall v, In v (sa ++ [u]) -> v < n) -> ~ In u sa -> length act = n ->
    exists act', t_pop u (sa ++ u :: sta) act scc = Some (sta, act', scc ++ sa ++ [u]) /\ length act' = n /\ forall v, v < n -> (In v (sa ++ [u]) -> nth_error act' v = Some (-1)%Z) /\ (~ In v (sa ++ [u]) -> nth_error act' v = nth_error act v).
  Proof using Type.
    induction sa as [|w sa IH]; intros act scc Hlt Nu La; cbn [app t_pop].
    - destruct (set_nth_some act u (-1)%Z) as (act' & E); [rewrite La; apply Hlt; now left|]. rewrite E. cbn [obind]. rewrite Nat.eqb_refl. exists act'. split; [reflexivity|]. split; [now rewrite (set_nth_length _ _ _ _ E)|].
      intros v Lv. rewrite (set_nth_get _ _ _ _ v E). destruct (Nat.eqb_spec u v) as [->|N]; split; intros X; try easy; [destruct X; now left|]. destruct X as [X|[]]; congruence.
    - destruct (set_nth_some act w (-1)%Z) as (act1 & E); [rewrite La; apply Hlt; now left|]. rewrite E. cbn [obind]. destruct (Nat.eqb_spec w u) as [->|N]; [destruct Nu; now left|].
      destruct (IH act1 (scc ++ [w])) as (act' & E' & L' & H); [intros v X; apply Hlt; now right|intros X; apply Nu; now right|now rewrite (set_nth_length _ _ _ _ E)|].
      exists act'. split; [rewrite E', <- app_assoc; reflexivity|]. split; [exact L'|]. intros v Lv. destruct (H v Lv) as (H1 & H2). rewrite (set_nth_get _ _ _ _ v E) in H2. split.
      + intros X. destruct (in_dec Nat.eq_dec v (sa ++ [u])) as [Y|Y]; [auto|]. destruct X as [->|X]; [|contradiction]. rewrite (H2 Y). now rewrite Nat.eqb_refl.
      + intros X. rewrite H2 by (intros Y; apply X; now right). destruct (Nat.eqb_spec w v) as [->|]; [destruct X; now left|reflexivity].
  Qed.

  Lemma step_run ix lw s : CI ix lw s -> exists r, t_step g s = Some r /\
    match r with inl s' => (exists ix' lw', CI ix' lw' s' /\ (forall v, (ix v <> -1 -> ix' v <> -1)%Z)) /\ mt s' < mt s | inr s' => s' = s /\ t_stk s = [] end.
  Proof using Wf.
    intros C. pose proof C as (Hi & Hl & Ha & C0 & T). unfold t_step. destruct (t_stk s) as [|(u, i) rest] eqn:Es; [exists (inr s); auto|].
    pose proof (ti_sub _ _ _ _ _ _ _ T u (or_introl eq_refl)) as Su. assert (Lu : u < n) by (apply (ti_lt _ _ _ _ _ _ _ T), in_or_app; now left).
    destruct (nth_error_some g u Lu) as (l & El). pose proof (out_nth g u l El) as Ou. rewrite El. cbn [obind]. pose proof (ti_len _ _ _ _ _ _ _ T u i (or_introl eq_refl)) as Li. rewrite Ou in Li.
    destruct (nth_error l i) as [e|] eqn:Ee.
    - assert (Ie : In e (out g u)) by (rewrite Ou; eapply nth_error_In; eauto). assert (Lv : fst e < n) by now apply (Wf u). assert (A : arc g u (fst e)) by (exists (snd e); now rewrite <- surjective_pairing).
      assert (Li' : i < length l) by (apply nth_error_Some; congruence). assert (Ee' : nth_error (out g u) i = Some e) by now rewrite Ou.
      unfold t_set_stk at 1. cbn [t_act]. destruct (proj2 Ha _ Lv) as (a & Ea & Hact). rewrite Ea. cbn [obind].
      destruct (Z.eqb_spec a (-1)) as [A1|A1]; cbn [negb].
      + (* not active *)
        assert (NS : ~ In (fst e) (t_sta s)) by now apply Hact. cbn [obind t_idx t_set_stk]. rewrite (proj2 Hi _ Lv). cbn [obind]. destruct (Z.eqb_spec (ix (fst e)) (-1)) as [V|V]; cbn [negb].
        * assert (NV : ~ In (fst e) (t_sta s ++ concat (rev (t_vscc s)))) by (intros X; apply (ti_lt _ _ _ _ _ _ _ T) in X; lia).
          destruct (visit_run ix lw (t_set_stk ((u, S i) :: rest) s) (fst e)) as (s' & E' & Ti & Tl & Ta & Ec & Est & Esk & Ev & Em); auto.
          rewrite E'. cbn [obind]. exists (inl s'). split; [reflexivity|]. split.
          -- exists (fupd ix (fst e) (t_cnt s)), (fupd lw (fst e) (t_cnt s)). split.
             ++ split; [exact Ti|]. split; [exact Tl|]. split; [rewrite Est; exact Ta|]. split; [rewrite Ec; cbn [t_set_stk t_cnt]; lia|]. rewrite Ec, Est, Esk, Ev. cbn [t_set_stk t_cnt t_sta t_stk t_vscc].
                pose proof (T_push g ix lw _ _ _ _ (fst e) T Lv NV C0 A) as T2. refine (T_adv g _ _ [(fst e, 0)] u i e rest _ _ _ T2 Ee' _ _); [now left|].
                intros _. rewrite fupd_eq, fupd_ne by (intros X; rewrite X in Su; contradiction). destruct (ti_low _ _ _ _ _ _ _ T u (or_introl eq_refl)) as (L & _). assert (0 <= ix u < t_cnt s)%Z by (apply (ti_lt _ _ _ _ _ _ _ T), in_or_app; now left). lia.
             ++ intros v X. unfold fupd. destruct (v =? fst e); [lia|exact X].
          -- unfold mt. rewrite Esk, Es. change (vis (t_set_stk ((u, S i) :: rest) s)) with (vis s) in Em. cbn [t_set_stk t_stk wsum fold_right fst snd]. fold (wsum g rest). rewrite Ou. lia.
        * exists (inl (t_set_stk ((u, S i) :: rest) s)). split; [reflexivity|]. split.
          -- exists ix, lw. split; [|auto]. repeat (split; [assumption|]). cbn [t_set_stk t_cnt t_sta t_stk t_vscc]. apply (T_adv g ix lw [] u i e); auto; [|intros X; contradiction].
             destruct (in_dec Nat.eq_dec (fst e) (t_sta s ++ concat (rev (t_vscc s)))) as [X|X]; [exact X|]. destruct V. now apply (ti_un _ _ _ _ _ _ _ T).
          -- unfold mt. rewrite Es. change (vis (t_set_stk ((u, S i) :: rest) s)) with (vis s). cbn [t_set_stk t_stk wsum fold_right fst snd]. rewrite Ou. lia.
      + (* active *)
        assert (IS : In (fst e) (t_sta s)) by (destruct (in_dec Nat.eq_dec (fst e) (t_sta s)) as [X|X]; [exact X|destruct A1; now apply Hact]).
        cbn [t_idx t_set_stk]. rewrite (proj2 Hi _ Lv). cbn [obind].
        destruct (lower_run ix lw s u (ix (fst e)) C) as (s2 & E2 & C2 & _ & Q2 & Q3 & Q4 & Q5 & Q6); [rewrite Es; now left|exists (fst e); split; [exact IS|]; split; [now apply reach_arc|reflexivity]|].
        unfold t_lower in *. cbn [t_set_stk t_low t_cnt t_idx t_act t_sta t_stk t_vscc]. destruct (nth_error (t_low s) u) as [y|]; [|discriminate]. cbn [obind] in *. destruct (set_nth (t_low s) u (Z.min y (ix (fst e)))) as [low|]; [|discriminate]. cbn [obind] in *. injection E2 as <-.
        cbn [t_idx]. rewrite (proj2 Hi _ Lv). cbn [obind]. assert (VV : (0 <= ix (fst e))%Z) by (apply (ti_lt _ _ _ _ _ _ _ T), in_or_app; now left). destruct (Z.eqb_spec (ix (fst e)) (-1)) as [X|_]; [lia|]. cbn [negb].
        eexists. split; [reflexivity|]. split.
        * exists ix, (fupd lw u (Z.min (lw u) (ix (fst e)))). split; [|auto]. destruct C2 as (D1 & D2 & D3 & D4 & D5). repeat (split; [assumption|]). cbn [t_cnt t_sta t_stk t_vscc] in *. rewrite Es in D5.
          apply (T_adv g ix _ [] u i e); auto; [apply in_or_app; now left|]. intros _. rewrite fupd_eq. lia.
        * unfold mt, vis. cbn [t_idx t_stk]. rewrite Es. cbn [wsum fold_right fst snd]. rewrite Ou. lia.
    - assert (i = length l) as -> by (apply nth_error_None in Ee; lia). rewrite (proj2 Hl u Lu), (proj2 Hi u Lu). cbn [obind].
      rewrite <- Ou in T. pose proof (ti_low _ _ _ _ _ _ _ T u (or_introl eq_refl)) as (Lw & yl & Yl1 & Yl2 & Yl3). pose proof (ti_pdec _ _ _ _ _ _ _ T) as PD. cbn [map fst] in PD. pose proof (top_max ix u _ PD) as TM.
      assert (Fu : forall q, In q (path rest) -> (ix q < ix u)%Z) by (inversion PD as [|? ? _ F]; subst; now rewrite Forall_forall in F).
      destruct (Z.eqb_spec (lw u) (ix u)) as [EQ|NE].
      + destruct (in_split u _ Su) as (sa & sta & Est). pose proof (ti_nd _ _ _ _ _ _ _ T) as ND.
        assert (NDs : NoDup (sa ++ u :: sta)). { rewrite Est in ND. clear - ND. revert ND. generalize (concat (rev (t_vscc s))). induction (sa ++ u :: sta) as [|a m IH]; intros r ND; constructor; inversion ND; subst; [intros X; apply H1; apply in_or_app; now left|eauto]. }
        pose proof (NoDup_remove_2 _ _ _ NDs) as Nu.
        destruct (pop_run u sta sa (t_act s) []) as (act' & Ep & La' & Ha').
        { intros v X. apply (ti_lt _ _ _ _ _ _ _ T). apply in_or_app. left. rewrite Est. apply in_app_or in X as [X|[<-|[]]]; apply in_or_app; [now left|right; now left]. }
        { intros X. apply Nu. apply in_or_app. now left. }
        { exact (proj1 Ha). }
        rewrite Est, Ep. cbn [obind app t_set_stk t_cnt t_low t_idx t_act t_sta t_stk t_vscc].
        set (s1 := {| t_cnt := t_cnt s; t_low := t_low s; t_idx := t_idx s; t_act := act'; t_sta := sta; t_stk := rest; t_vscc := t_vscc s ++ [sa ++ [u]] |}).
        assert (C1 : CI ix lw s1).
        { split; [exact Hi|]. split; [exact Hl|]. split; [|split; [exact C0|]].
          - split; [exact La'|]. intros v Lv. destruct (Ha' v Lv) as (H1 & H2). destruct (in_dec Nat.eq_dec v (sa ++ [u])) as [X|X].
            + exists (-1)%Z. split; [now apply H1|]. split; [|reflexivity]. intros _ Y. cbn [s1 t_sta] in Y. clear - X Y NDs. apply in_app_or in X as [X|[<-|[]]].
              * destruct (in_split v sa X) as (a & b & ->). rewrite <- app_assoc in NDs. cbn in NDs. apply NoDup_remove_2 in NDs. apply NDs. apply in_or_app. right. apply in_or_app. right. now right.
              * apply NoDup_remove_2 in NDs. apply NDs. apply in_or_app. now right.
            + destruct (proj2 Ha v Lv) as (a & E & H). exists a. change (t_act s1) with act'. change (t_sta s1) with sta. split; [rewrite (H2 X); exact E|]. rewrite H, Est. rewrite in_app_iff in *. cbn in *. tauto.
          - cbn [s1 t_cnt t_sta t_stk t_vscc]. rewrite rev_app_distr. cbn [rev app]. apply (T_pop g ix lw u rest sa sta); [rewrite <- Est; exact T|exact EQ]. }
        assert (M1 : mt s1 < mt s). { unfold mt, vis. cbn [s1 t_idx t_stk]. rewrite Es. cbn [wsum fold_right fst snd]. fold (wsum g rest). lia. }
        destruct rest as [|(p, k) r].
        * exists (inl s1). split; [reflexivity|]. split; [exists ix, lw; auto|exact M1].
        * rewrite (proj2 Hl u Lu). cbn [obind]. pose proof (Fu p (or_introl eq_refl)) as Fp. destruct C1 as (E1 & E2 & E3 & E4 & T1). destruct (ti_low _ _ _ _ _ _ _ T1 p (or_introl eq_refl)) as (Lp & yp & Yp1 & Yp2 & Yp3).
          destruct (lower_run ix lw s1 p (lw u)) as (s2 & F2 & C2 & _ & Q2 & Q3 & Q4 & Q5 & Q6).
          { split; auto. }
          { now left. }
          { exists yp. split; [exact Yp1|]. split; [exact Yp2|lia]. }
          match goal with |- context [t_lower p (lw u) ?x] => change (t_lower p (lw u) x) with (t_lower p (lw u) s1) end. rewrite F2. cbn [obind]. exists (inl s2). split; [reflexivity|]. split; [exists ix, (fupd lw p (Z.min (lw p) (lw u))); auto|]. revert M1. unfold mt, vis. now rewrite Q3, Q5.
      + cbn [obind t_set_stk]. destruct rest as [|(p, k) r].
        * exfalso. destruct (ti_up _ _ _ _ _ _ _ T yl Yl1) as (q & [<-|[]] & Q2 & _). cbn [fst] in Q2. lia.
        * match goal with |- context [nth_error ?x u] => change x with (t_low s) end. rewrite (proj2 Hl u Lu). cbn [obind].
          assert (Rp : reach g p yl). { apply (reach_trans g p u); [|exact Yl2]. apply reach_arc. exact (proj1 (ti_chain _ _ _ _ _ _ _ T)). }
          destruct (lower_run ix lw s p (lw u) C) as (s2 & F2 & C2 & Q1 & Q2 & Q3 & Q4 & Q5 & Q6); [rewrite Es; right; now left|exists yl; rewrite Yl3; auto|].
          match goal with |- context [t_lower p (lw u) ?x] => change (t_lower p (lw u) x) with (t_lower p (lw u) (t_set_stk ((p, k) :: r) s)) end.
          unfold t_lower in *. cbn [t_set_stk t_low t_cnt t_idx t_act t_sta t_stk t_vscc]. destruct (nth_error (t_low s) p) as [y|]; [|discriminate]. cbn [obind] in *. destruct (set_nth (t_low s) p (Z.min y (lw u))) as [low|]; [|discriminate]. cbn [obind] in *. injection F2 as <-.
          eexists. split; [reflexivity|]. split.
          -- exists ix, (fupd lw p (Z.min (lw p) (lw u))). split; [|auto]. destruct C2 as (D1 & D2 & D3 & D4 & D5). repeat (split; [assumption|]). cbn [t_cnt t_sta t_stk t_vscc] in *. rewrite Es, <- Ou in D5.
             apply (T_drop g ix _ u p k r); [exact D5| |].
             ++ rewrite fupd_ne; [lia|]. intros ->. specialize (Fu p (or_introl eq_refl)). lia.
             ++ rewrite fupd_eq, fupd_ne; [lia|]. intros ->. specialize (Fu p (or_introl eq_refl)). lia.
          -- unfold mt, vis. cbn [t_idx t_stk]. rewrite Es. cbn [wsum fold_right fst snd]. fold (wsum g r). lia.
  Qed.
  Lemma idle ix lw s : CI ix lw s -> t_stk s = [] -> t_sta s = [].
  Proof using Type. intros (_ & _ & _ & _ & T) E. destruct (t_sta s) as [|x r]; [reflexivity|]. destruct (ti_up _ _ _ _ _ _ _ T x (or_introl eq_refl)) as (p & P & _). now rewrite E in P. Qed.

  Lemma tarjan_run : exists r, tarjan_scc g = Some (rev r) /\ exists ix lw cnt, TI g ix lw [] [] (rev r) cnt /\ forall v, v < n -> In v (concat (rev r)).
  Proof using Wf.
    unfold tarjan_scc. set (s0 := {| t_cnt := _ |}).
    destruct (for_range_spec (fun o s => t_stk s = [] /\ exists ix lw, CI ix lw s /\ forall v, v < o -> (ix v <> -1)%Z) (t_root g) 0 n s0) as (s & E & Sk & ix & lw & C & H).
    - lia.
    - split; [reflexivity|]. exists (fun _ => (-1)%Z), (fun _ => (-1)%Z). split; [|intros; lia]. unfold CI, s0. cbn [t_idx t_low t_act t_sta t_stk t_cnt t_vscc].
      assert (TB : tab (repeat (-1)%Z n) (fun _ => (-1)%Z)) by (split; [apply repeat_length|intros v Lv; now apply nth_error_repeat]).
      split; [exact TB|]. split; [exact TB|]. split; [split; [apply repeat_length|]; intros v Lv; exists (-1)%Z; split; [now apply nth_error_repeat|]; split; auto|]. split; [lia|].
      constructor; cbn; intros; try easy; try (now constructor). match goal with X : [] = ?A ++ _ |- _ => destruct A; discriminate end.
    - intros o s Ho (Sk & ix & lw & C & H). unfold t_root. pose proof C as (Hi & Hl & Ha & C0 & T). rewrite (proj2 Hi o ltac:(lia)). cbn [obind]. destruct (Z.eqb_spec (ix o) (-1)) as [V|V]; cbn [negb].
      2:{ exists s. split; [reflexivity|]. split; [exact Sk|]. exists ix, lw. split; [exact C|]. intros v Lv. assert (v < o \/ v = o) as [X| ->] by lia; auto. }
      assert (NV : ~ In o (t_sta s ++ concat (rev (t_vscc s)))) by (intros X; apply (ti_lt _ _ _ _ _ _ _ T) in X; lia).
      destruct (visit_run ix lw s o) as (s1 & E1 & Ti & Tl & Ta & Ec & Est & Esk & Ev & Em); auto; [lia|]. rewrite E1. cbn [obind].
      assert (C1 : CI (fupd ix o (t_cnt s)) (fupd lw o (t_cnt s)) s1).
      { split; [exact Ti|]. split; [exact Tl|]. split; [now rewrite Est|]. split; [rewrite Ec; lia|]. rewrite Ec, Est, Esk, Ev. apply T_push; auto; [lia|]. now rewrite Sk. }
      assert (H1 : forall v, v < S o -> (fupd ix o (t_cnt s) v <> -1)%Z).
      { intros v Lv. unfold fupd. destruct (Nat.eqb_spec v o); [lia|]. apply H. lia. }
      destruct (loopZ_spec (t_step g) (fun s => exists ix lw, CI ix lw s /\ forall v, v < S o -> (ix v <> -1)%Z)
        (fun s => t_stk s = [] /\ exists ix lw, CI ix lw s /\ forall v, v < S o -> (ix v <> -1)%Z) (fun s => Z.of_nat (mt s))) with (fuel := dfs_fuel g) (s := s1) as (s2 & E2 & H2).
      + intros t (ix1 & lw1 & Ct & Ht). destruct (step_run ix1 lw1 t Ct) as (r & Er & Hr). exists r. split; [exact Er|]. destruct r as [t'|t'].
        * destruct Hr as ((ix2 & lw2 & C2 & M) & Lm). split; [|lia]. exists ix2, lw2. split; [exact C2|]. intros v Lv. apply M. now apply Ht.
        * destruct Hr as (-> & Et). split; [exact Et|]. now exists ix1, lw1.
      + intros. lia.
      + now exists (fupd ix o (t_cnt s)), (fupd lw o (t_cnt s)).
      + unfold mt, dfs_fuel. rewrite Esk, Sk. cbn [wsum fold_right fst snd]. pose proof (msum_le g (vis s)). lia.
      + exists s2. split; [exact E2|exact H2].
    - rewrite E. cbn [obind]. exists (t_vscc s). split; [reflexivity|]. exists ix, lw. pose proof (idle ix lw s C Sk) as St. destruct C as (_ & _ & _ & _ & T). rewrite Sk, St in T. exists (t_cnt s). split; [exact T|].
      intros v Lv. destruct (in_dec Nat.eq_dec v (concat (rev (t_vscc s)))) as [X|X]; [exact X|]. destruct (H v Lv). now apply (ti_un _ _ _ _ _ _ _ T).
  Qed.
End T.
