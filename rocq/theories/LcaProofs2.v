(** The search for lowest common ancestors: building and queries. *)
From Coq Require Import Lia.
From Verif Require Import Lib GraphSpec WalkSpec ClosModel ClosProofs DfsModel DfsSpec DfsProofs SegTreeModel SegTreeSpec SegTreeProps LcaModel LcaSpec LcaProofs.
Open Scope nat_scope.

(** ** a visitor that does the work of another one *)
Section Proj.
  Context {W S1 S2 : Type}.
  Variable v2 : nat -> option nat -> option nat -> nat -> S2 -> option (bool * S2).
  Variable v1 : nat -> option nat -> option nat -> nat -> S1 -> option (bool * S1).
  Variable p : S2 -> S1.
  Hypothesis H : forall o a b d s c s', v2 o a b d s = Some (c, s') -> v1 o a b d (p s) = Some (c, p s').
  Variable g : list (list (nat * W)).
  Definition pst (s : list bool * list (nat * nat) * S2) : list bool * list (nat * nat) * S1 := let '(vis, stk, s) := s in (vis, stk, p s).
  Definition pres (r : list bool * S2) : list bool * S1 := (fst r, p (snd r)).
  Definition psum (r : (list bool * list (nat * nat) * S2) + (list bool * S2)) := match r with inl s => inl (pst s) | inr r => inr (pres r) end.
  Lemma step_proj o s r : dfs_step v2 g o s = Some r -> dfs_step v1 g o (pst s) = Some (psum r).
  Proof using H.
    destruct s as [[vis stk] s]. cbn [pst]. unfold dfs_step. destruct stk as [|[u i] rest]; [intros E; injection E as <-; reflexivity|].
    destruct (nth_error g u) as [l|]; [|discriminate]. cbn [obind]. destruct (nth_error l i) as [e|].
    - destruct (nth_error vis (fst e)) as [[|]|]; [| |discriminate]; cbn [obind]; [intros E; injection E as <-; reflexivity|].
      destruct (v2 o (Some u) (Some (fst e)) (length ((u, i) :: rest)) s) as [[c s']|] eqn:E2; [|discriminate]. rewrite (H _ _ _ _ _ _ _ E2). cbn [obind].
      destruct c; [|intros E; injection E as <-; reflexivity]. destruct (set_nth vis (fst e) true); [|discriminate]. cbn [obind]. intros E; injection E as <-; reflexivity.
    - destruct (v2 o (Some u) None (length ((u, i) :: rest)) s) as [[c s']|] eqn:E2; [|discriminate]. rewrite (H _ _ _ _ _ _ _ E2). cbn [obind]. intros E; injection E as <-; reflexivity.
  Qed.
  Lemma iter_proj o : forall q s r, iterP q (dfs_step v2 g o) s = Some r -> iterP q (dfs_step v1 g o) (pst s) = Some (psum r).
  Proof using H.
    induction q as [q IH|q IH|]; intros s r E; cbn [iterP] in *; [| |now apply step_proj].
    - destruct (dfs_step v2 g o s) as [[s1|r1]|] eqn:E1; [| |discriminate]; rewrite (step_proj _ _ _ E1); cbn [psum]; [|injection E as <-; reflexivity].
      destruct (iterP q (dfs_step v2 g o) s1) as [[s2|r2]|] eqn:E2; [| |discriminate]; rewrite (IH _ _ E2); cbn [psum]; [now apply IH|injection E as <-; reflexivity].
    - destruct (iterP q (dfs_step v2 g o) s) as [[s2|r2]|] eqn:E2; [| |discriminate]; rewrite (IH _ _ E2); cbn [psum]; [now apply IH|injection E as <-; reflexivity].
  Qed.
  Lemma loop_proj o q s r : loopZ q (dfs_step v2 g o) s = Some r -> loopZ q (dfs_step v1 g o) (pst s) = Some (pres r).
  Proof using H.
    destruct q as [|q|q]; cbn [loopZ]; try discriminate. destruct (iterP q (dfs_step v2 g o) s) as [[s2|r2]|] eqn:E2; try discriminate. rewrite (iter_proj _ _ _ _ E2). cbn [psum]. intros E. injection E as <-. reflexivity.
  Qed.
  Lemma root_proj o s r : dfs_root v2 g o s = Some r -> dfs_root v1 g o (pres s) = Some (pres r).
  Proof using H.
    destruct s as [vis s]. unfold dfs_root. cbn [pres fst snd]. destruct (nth_error vis o) as [[|]|]; [| |discriminate]; cbn [obind]; [intros E; injection E as <-; reflexivity|].
    destruct (v2 o None (Some o) 0 s) as [[c s']|] eqn:E2; [|discriminate]. rewrite (H _ _ _ _ _ _ _ E2). cbn [obind]. destruct c.
    - destruct (set_nth vis o true) as [vis'|]; [|discriminate]. cbn [obind]. apply (loop_proj o _ (vis', [(o, 0)], s')).
    - apply (loop_proj o _ (vis, [], s')).
  Qed.
  Lemma dfs_proj s r : iterative_dfs v2 g None s = Some r -> iterative_dfs v1 g None (p s) = Some (p r).
  Proof using H.
    unfold iterative_dfs, for_range. assert (G : forall k i st res, for_n k i (dfs_root v2 g) st = Some res -> for_n k i (dfs_root v1 g) (pres st) = Some (pres res)).
    { induction k as [|k IH]; intros i st res E; cbn [for_n] in *; [injection E as <-; reflexivity|]. destruct (dfs_root v2 g i st) as [st'|] eqn:E1; [|discriminate]. cbn [obind] in E. rewrite (root_proj _ _ _ E1). cbn [obind]. now apply IH. }
    destruct (for_n _ 0 (dfs_root v2 g) _) as [[vis' s']|] eqn:E; [|discriminate]. cbn [obind]. intros E'. injection E' as <-. pose proof (G _ _ _ _ E) as X. unfold pres in X. cbn [fst snd] in X. rewrite X. reflexivity.
  Qed.
End Proj.

(** ** writing the segment tree *)
Definition writes (i : nat) (L : list pii) : list (st_op (option pii)) := map (fun '(k, x) => OpWrite k (Some x)) (combine (seq i (length L)) L).
Lemma writes_snoc L x : forall i, writes i (L ++ [x]) = writes i L ++ [OpWrite (i + length L) (Some x)].
Proof.
  induction L as [|y L IH]; intros i; unfold writes; cbn [app length seq combine map].
  - now rewrite Nat.add_0_r.
  - f_equal. fold (writes (S i) (L ++ [x])). rewrite IH. unfold writes. do 3 f_equal. lia.
Qed.
Lemma writes_ok c L : forall i, i + length L <= c -> Forall (op_ok c) (writes i L).
Proof. induction L as [|y L IH]; intros i H; unfold writes; cbn [length seq combine map] in *; constructor; [cbn; lia|]. apply (IH (S i)). lia. Qed.
Lemma st_run_app {T} (f : T -> T -> T) : forall a b v, st_run f v (a ++ b) = let* v := st_run f v a in st_run f v b.
Proof. induction a as [|o a IH]; intros b v; [reflexivity|]. cbn [app st_run]. destruct (st_do f v o); cbn [obind]; [apply IH|reflexivity]. Qed.
Lemma upd_app {T} (a : list T) y b x : SegTreeSpec.upd (a ++ y :: b) (length a) x = a ++ x :: b.
Proof. unfold SegTreeSpec.upd. rewrite firstn_app, Nat.sub_diag, firstn_all, firstn_O, app_nil_r. do 2 f_equal. rewrite skipn_app. replace (S (length a) - length a) with 1 by lia. rewrite skipn_all2 by lia. reflexivity. Qed.
Lemma writes_vals c L : length L <= c -> vals (fold_left abs_do (writes 0 L) {| vals := repeat None c; dirty := [] |}) = map Some L ++ repeat None (c - length L).
Proof.
  induction L as [|x L IH] using rev_ind; intros H; [cbn; now rewrite Nat.sub_0_r|]. rewrite app_length in *. cbn [length] in *. rewrite writes_snoc, fold_left_app. cbn [fold_left abs_do vals]. rewrite IH by lia.
  replace (c - length L) with (S (c - (length L + 1))) by lia. cbn [repeat Nat.add]. rewrite <- (map_length (@Some pii) L) at 2. rewrite upd_app, map_app, <- app_assoc. reflexivity.
Qed.

(** ** the run *)
Section Run.
  Context {W : Type}.
  Variable g : list (list (nat * W)).
  Hypothesis Wf : wf g.
  Notation n := (length g).
  Definition pv (o : nat) (a b : option nat) (d : nat) (s : list (option nat) * (list Z * list (option pii) * nat)) :=
    let '(vp, st) := s in
    let* vp := match b with Some v => set_nth vp v a | None => Some vp end in
    let* '(c, st) := lca_visitor o a b d st in Some (c, (vp, st)).
  Variables (v0 : list (option pii)) (c : nat).
  Hypothesis Hc : n * 2 + 1 <= c.
  Hypothesis Hrun : forall os : list (st_op (option pii)), Forall (op_ok c) os -> exists v, st_run min_f v0 os = Some v.
  Definition UU (path fin : list nat) (s : list (option nat) * (list Z * list (option pii) * nat)) : Prop :=
    let '(vp, (ind, lev, k)) := s in
    exists L, k = length L /\ st_run min_f v0 (writes 0 L) = Some lev /\ length L = length path + 2 * length fin /\ core n path fin vp ind L.
  Lemma write_ok L lev x : st_run min_f v0 (writes 0 L) = Some lev -> length L < c -> exists lev', st_write lev (length L) (Some x) = Some lev' /\ st_run min_f v0 (writes 0 (L ++ [x])) = Some lev'.
  Proof using Hc Hrun.
    intros E LL. destruct (Hrun (writes 0 (L ++ [x]))) as (v & Ev); [apply writes_ok; rewrite app_length; cbn; lia|]. exists v. split; [|exact Ev].
    rewrite writes_snoc, st_run_app, E in Ev. cbn [obind st_run st_do Nat.add] in Ev. destruct (st_write lev (length L) (Some x)); [exact Ev|discriminate].
  Qed.
  Lemma room l : NoDup l -> (forall v, In v l -> v < n) -> length l <= n.
  Proof using Hc. intros ND H. rewrite <- (seq_length n 0). apply NoDup_incl_length; [exact ND|]. intros v Hv. apply in_seq. specialize (H v Hv). lia. Qed.
  Lemma run : exists vp ind lev k, iterative_dfs pv g None (repeat None n, (repeat (-1)%Z n, v0, 0)) = Some (vp, (ind, lev, k)) /\
    exists L fin, k = length L /\ st_run min_f v0 (writes 0 L) = Some lev /\ length L <= 2 * n /\ (forall v, v < n -> In v fin) /\ core n [] fin vp ind L.
  Proof using Wf Hc Hrun.
    destruct (dfs_all g Wf pv UU (fun _ => False)) with (s := (repeat (@None nat) n, (repeat (-1)%Z n, v0, 0))) as ([vp [[ind lev] k]] & E & vis & fin & B & Hu & Hr).
    - intros o vis u i e rest fin [vp [[ind lev] k]] (Lv & ND & Hv & Hn & Ch & Hs & Hcl) Ee Ev (L & -> & R & LL & C). unfold pv. cbn [map fst] in *.
      assert (Le : fst e < n) by (apply (Wf u); eapply nth_error_In; eauto).
      assert (NI : ~ In (fst e) ((u :: map fst rest) ++ fin)) by (intros X; apply (Hv _ Le) in X; congruence).
      destruct (set_nth_some vp (fst e) (Some u)) as (vp' & Ep); [rewrite (c_vp _ _ _ _ _ _ C); exact Le|]. rewrite Ep. cbn [obind lca_visitor].
      destruct (set_nth_some ind u (Z.of_nat (length L))) as (ind' & Ei); [rewrite (c_ind _ _ _ _ _ _ C); apply Hn; now left|]. rewrite Ei. cbn [obind].
      assert (RM : length (fst e :: (u :: map fst rest) ++ fin) <= n) by (apply room; [constructor; assumption|intros v [<-|X]; [exact Le|now apply Hn]]). cbn [length app] in RM. rewrite app_length in RM. cbn [length] in LL.
      replace (Z.of_nat (S (length rest)) - 1, Z.of_nat u)%Z with (entry (map fst rest) u) by (unfold entry; rewrite map_length; f_equal; lia).
      destruct (write_ok L lev (entry (map fst rest) u) R) as (lev' & -> & R'); [lia|]. cbn [obind]. eexists. split; [reflexivity|].
      exists (L ++ [entry (map fst rest) u]). rewrite app_length. cbn [length]. split; [lia|]. split; [exact R'|]. split; [lia|]. eapply core_enter; eauto.
    - intros o vis u rest fin [vp [[ind lev] k]] (Lv & ND & Hv & Hn & Ch & Hs & Hcl) (L & -> & R & LL & C). unfold pv. cbn [map fst obind lca_visitor] in *.
      destruct (set_nth_some ind u (Z.of_nat (length L))) as (ind' & Ei); [rewrite (c_ind _ _ _ _ _ _ C); apply Hn; now left|]. rewrite Ei. cbn [obind].
      assert (RM : length ((u :: map fst rest) ++ fin) <= n) by (apply room; assumption). cbn [length app] in RM. rewrite app_length in RM. cbn [length] in LL.
      replace (Z.of_nat (S (length rest)) - 1, Z.of_nat u)%Z with (entry (map fst rest) u) by (unfold entry; rewrite map_length; f_equal; lia).
      destruct (write_ok L lev (entry (map fst rest) u) R) as (lev' & -> & R'); [lia|]. cbn [obind]. do 2 eexists. split; [reflexivity|].
      exists (L ++ [entry (map fst rest) u]). rewrite app_length. cbn [length]. split; [lia|]. split; [exact R'|]. split; [lia|]. eapply core_exit; eauto.
    - intros vis o fin [vp [[ind lev] k]] Lo (Lv & ND & Hv & Hn & Ch & Hs & Hcl) Ev _ (L & -> & R & LL & C). unfold pv. cbn [map app length] in *.
      assert (NI : ~ In o fin) by (intros X; apply (Hv _ Lo) in X; congruence).
      destruct (set_nth_some vp o None) as (vp' & Ep); [rewrite (c_vp _ _ _ _ _ _ C); exact Lo|]. rewrite Ep. assert (vp' = vp) as ->.
      { apply list_ext. intros x. rewrite (set_nth_get _ _ _ _ x Ep). destruct (Nat.eqb_spec o x) as [<-|_]; [symmetry; apply (c_new _ _ _ _ _ _ C o Lo NI)|reflexivity]. }
      cbn [obind lca_visitor]. change (Z.of_nat 0 - 1)%Z with (-1)%Z. assert (RM : length (o :: fin) <= n) by (apply room; [constructor; assumption|intros v [<-|X]; [exact Lo|now apply Hn]]). cbn [length] in RM.
      destruct (write_ok L lev (-1, -1)%Z R) as (lev' & -> & R'); [lia|]. cbn [obind]. do 2 eexists. split; [reflexivity|]. cbv iota.
      exists (L ++ [(-1, -1)%Z]). rewrite app_length. cbn [length]. split; [lia|]. split; [exact R'|]. split; [lia|]. now apply core_root.
    - exists []. split; [reflexivity|]. split; [reflexivity|]. split; [reflexivity|]. constructor; try (now rewrite repeat_length); try easy.
      intros v Lv _. now apply nth_error_repeat.
    - exists vp, ind, lev, k. split; [exact E|]. destruct Hu as (L & -> & R & LL & C). exists L, fin. split; [reflexivity|]. split; [exact R|]. destruct B as (_ & ND & _ & Hn & _). cbn [map app] in ND, Hn. pose proof (room fin ND Hn). cbn [length] in LL.
      split; [lia|]. split; [|exact C]. intros v Lv. destruct (Hr v Lv) as [X|[]]. exact X.
  Qed.
End Run.

Section Build.
  Context {W : Type}.
  Variable g : list (list (nat * W)).
  Hypothesis Wf : wf g.
  Notation n := (length g).
  Lemma build : exists vp t L fin cap, parents g = Some vp /\ lca_build g = Some t /\ (forall v, v < n -> In v fin) /\ core n [] fin vp (indices t) L /\ length L < cap /\
    (forall i, i < length L -> st_at (levels t) i = Some (nth_error L i)) /\
    (forall i j w, i <= j < length L -> ismin w (firstn (S j - i) (skipn i L)) -> st_get min_f (levels t) i (j + 1) = Some (Some w)).
  Proof using Wf.
    destruct (C23_segment_tree_sized (option pii) min_f None min_f_assoc (fun _ => eq_refl) (fun a => match a with Some _ => eq_refl | None => eq_refl end) (n * 2 + 1)) as (cap & v0 & E0 & Lc & Hrun).
    destruct (run g Wf v0 cap Lc) as (vp & ind & lev & k & E & L & fin & -> & R & LL & All & C).
    { intros os Hos. destruct (Hrun os Hos) as (v & Ev & _). eauto. }
    destruct (Hrun (writes 0 (L ++ [(-1, -1)%Z]) ++ [OpRebuild])) as (v & Ev & HV).
    { apply Forall_app. split; [apply writes_ok; rewrite app_length; cbn [length]; lia|]. constructor; [exact I|constructor]. }
    cbv zeta in HV. rewrite fold_left_app in HV. cbn [fold_left abs_do vals dirty] in HV. rewrite writes_vals in HV by (rewrite app_length; cbn [length]; lia). destruct HV as (_ & _ & Hat & Hget). specialize (Hget eq_refl).
    exists vp, (Lca ind v), L, fin, cap. split; [|split; [|split; [exact All|split; [exact C|split; [lia|split]]]]].
    - unfold parents. eapply (dfs_proj pv _ fst) in E; [exact E|]. intros o a b d [vp1 st] c' [vp1' st']. cbn [fst]. unfold pv. destruct b as [x|].
      + destruct (set_nth vp1 x a) as [q|]; [|discriminate]. cbn [obind]. destruct st as [[i1 l1] k1]. cbn [lca_visitor]. destruct (match a with Some _ => _ | None => _ end); [|discriminate]. cbn [obind]. destruct (st_write _ _ _); [|discriminate]. cbn [obind]. intros X. injection X as <- <- _. reflexivity.
      + cbn [obind]. destruct st as [[i1 l1] k1]. cbn [lca_visitor]. destruct (match a with Some _ => _ | None => _ end); [|discriminate]. cbn [obind]. destruct (st_write _ _ _); [|discriminate]. cbn [obind]. intros X. injection X as <- <- _. reflexivity.
    - unfold lca_build. rewrite E0. cbn [obind]. eapply (dfs_proj pv lca_visitor snd) in E; [|].
      + cbn [snd] in E. rewrite E. cbn [obind]. rewrite writes_snoc, <- app_assoc, st_run_app, R in Ev. cbn [obind app st_run st_do Nat.add] in Ev. destruct (st_write lev (length L) (Some (-1, -1)%Z)) as [l1|]; [|discriminate]. cbn [obind] in *.
        destruct (st_rebuild min_f l1) as [l2|]; [|discriminate]. cbn [obind] in *. injection Ev as ->. reflexivity.
      + intros o a b d [vp1 st] c' [vp1' st']. cbn [snd]. unfold pv. destruct (match b with Some _ => _ | None => _ end); [|discriminate]. cbn [obind]. destruct (lca_visitor o a b d st) as [[c1 s1]|]; [|discriminate]. cbn [obind]. intros X. injection X as <- _ <-. reflexivity.
    - intros i Hi. cbn [levels]. rewrite Hat, map_app, <- app_assoc, nth_error_app1 by (rewrite map_length; exact Hi). rewrite nth_error_map. destruct (nth_error_some L i Hi) as (x & ->). reflexivity.
    - intros i j w Hij M. cbn [levels]. rewrite Hget by lia. f_equal. unfold range_fold. rewrite map_app, <- app_assoc, skipn_app, firstn_app, map_length. replace (i - length L) with 0 by lia.
      replace (j + 1 - i - length (skipn i (map Some L))) with 0 by (rewrite skipn_length, map_length; lia). rewrite firstn_O, app_nil_r, skipn_map, firstn_map. replace (j + 1 - i) with (S j - i) by lia. now apply fold_ismin'.
  Qed.
  Lemma lcaval_sym vp u v w : lcaval vp u v w -> lcaval vp v u w.
  Proof using Type.
    intros [(a & d & E & D & (A & B & C))|(E & H)]; [left; exists a, d; split; [exact E|]; split; [exact D|]; split; [exact B|]; split; [exact A|]; intros b X Y; now apply C|]. right. split; [exact E|]. intros b (X & Y). apply (H b). auto.
  Qed.
  Lemma queries : exists vp t, parents g = Some vp /\ lca_build g = Some t /\
    (forall u, u < n -> exists d, lca_depth t (Z.of_nat u) = Some (Z.of_nat d) /\ at_depth vp u d) /\
    (forall u v, u < n -> v < n -> (exists a, is_lca vp u v a /\ lca_ancestor t (Z.of_nat u) (Z.of_nat v) = Some (Z.of_nat a) /\ a < n) \/ (apart vp u v /\ lca_ancestor t (Z.of_nat u) (Z.of_nat v) = Some (-1)%Z)).
  Proof using Wf.
    destruct build as (vp & t & L & fin & cap & E1 & E2 & All & C & Lc & Hat & Hget). exists vp, t. split; [exact E1|]. split; [exact E2|].
    assert (IX : forall u, u < n -> exists i d, nth_error (indices t) u = Some (Z.of_nat i) /\ nth_error L i = Some (Z.of_nat d, Z.of_nat u) /\ at_depth vp u d /\ i < length L).
    { intros u Hu. destruct (c_idx _ _ _ _ _ _ C u (All u Hu)) as (i & d & A & B & D). exists i, d. repeat split; auto. apply nth_error_Some. congruence. }
    split.
    - intros u Hu. destruct (IX u Hu) as (i & d & A & B & D & Li). exists d. split; [|exact D]. unfold lca_depth. destruct (Z.ltb_spec (Z.of_nat u) 0); [lia|]. rewrite Nat2Z.id, A. cbn [obind].
      destruct (Z.ltb_spec (Z.of_nat i) 0); [lia|]. rewrite Nat2Z.id, (Hat i Li), B. reflexivity.
    - intros u v Hu Hv. destruct (IX u Hu) as (i & _ & A & _ & _ & Li). destruct (IX v Hv) as (j & _ & A' & _ & _ & Lj).
      assert (X : exists w, lcaval vp u v w /\ lca_ancestor t (Z.of_nat u) (Z.of_nat v) = Some (snd w)).
      { unfold lca_ancestor. destruct (Z.ltb_spec (Z.of_nat u) 0), (Z.ltb_spec (Z.of_nat v) 0); try lia. cbn [orb]. rewrite !Nat2Z.id, A, A'. cbn [obind]. destruct (Z.ltb_spec (Z.of_nat i) 0), (Z.ltb_spec (Z.of_nat j) 0); try lia. cbn [orb].
        destruct (Z.ltb_spec (Z.of_nat j) (Z.of_nat i)).
        - destruct (c_pair _ _ _ _ _ _ C v u j i (All v Hv) (All u Hu) A' A ltac:(lia)) as ([w1 w2] & M & HL). exists (w1, w2). split; [now apply lcaval_sym|]. rewrite !Nat2Z.id, (Hget j i (w1, w2) ltac:(lia) M). reflexivity.
        - destruct (c_pair _ _ _ _ _ _ C u v i j (All u Hu) (All v Hv) A A' ltac:(lia)) as ([w1 w2] & M & HL). exists (w1, w2). split; [exact HL|]. rewrite !Nat2Z.id, (Hget i j (w1, w2) ltac:(lia) M). reflexivity. }
      destruct X as (w & [(a & d & -> & (r & D1 & D2) & HL)|(-> & HL)] & E); [left|right; split; [exact HL|exact E]]. exists a. split; [exact HL|]. split; [exact E|].
      destruct HL as ((k & K) & _). assert (X : nth_error vp a <> None).
      { destruct d; cbn [up] in D1; [injection D1 as ->; congruence|]. destruct (nth_error vp a) as [[|]|]; [discriminate|discriminate|discriminate]. }
      apply nth_error_Some in X. rewrite (c_vp _ _ _ _ _ _ C) in X. exact X.
  Qed.
End Build.
