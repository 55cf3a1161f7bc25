From Coq Require Import Permutation.
From Verif Require Import Lib GraphSpec WalkSpec ClosModel ClosProofs DfsModel DfsSpec DfsProofs.
Open Scope nat_scope.

Lemma snoc_filter {A} (f : A -> bool) l e : length (filter f (l ++ [e])) = length (filter f l) + (if f e then 1 else 0).
Proof. rewrite filter_app, app_length. cbn. destruct (f e); reflexivity. Qed.
Lemma concat_firstn_S {A} (g : list (list A)) i l : nth_error g i = Some l -> concat (firstn (S i) g) = concat (firstn i g) ++ l.
Proof. revert i. induction g as [|a g IH]; intros [|i] E; try discriminate; cbn in *; [injection E as ->; now rewrite app_nil_r|]. rewrite (IH i E). now rewrite app_assoc. Qed.

Ltac norm_app := repeat (rewrite ?app_nil_r, <- ?app_assoc; cbn [app]); reflexivity.

Section Topo.
  Context {W : Type}.
  Variable g : list (list (nat * W)).
  Hypothesis Wf : wf g.
  Notation n := (length g).
  Lemma in_degrees_run : exists deg, in_degrees g = Some deg /\ length deg = n /\ forall v, v < n -> nth_error deg v = Some (indegree g v).
  Proof using Wf.
    unfold in_degrees.
    set (cnt l v := length (filter (fun e : nat * W => fst e =? v) l)).
    destruct (for_range_spec (fun i deg => length deg = n /\ forall v, v < n -> nth_error deg v = Some (cnt (concat (firstn i g)) v))
      (fun i deg => let* l := nth_error g i in for_each (fun e deg => let* x := nth_error deg (fst e) in set_nth deg (fst e) (S x)) l deg) 0 n (repeat 0 n)) as (deg & E & L & H).
    - lia.
    - rewrite repeat_length. split; [reflexivity|]. intros v Hv. cbn. now apply nth_error_repeat.
    - intros i deg Hi (L & H). destruct (nth_error_some g i) as (l & El); [lia|]. rewrite El. cbn [obind].
      destruct (for_each_spec (fun p d => length d = n /\ forall v, v < n -> nth_error d v = Some (cnt (concat (firstn i g) ++ p) v))
        (fun e deg => let* x := nth_error deg (fst e) in set_nth deg (fst e) (S x)) l deg) as (d & Ed & Ld & Hd).
      + split; [exact L|]. intros v Hv. rewrite app_nil_r. now apply H.
      + intros p e q d Eq (Ld & Hd). assert (Le : fst e < n). { apply (Wf i). rewrite (out_nth g i l El), Eq. apply in_or_app. right. now left. }
        rewrite (Hd _ Le). cbn [obind]. destruct (set_nth_some d (fst e) (S (cnt (concat (firstn i g) ++ p) (fst e)))) as (d' & Ed); [lia|]. exists d'. split; [exact Ed|].
        split; [rewrite (set_nth_length _ _ _ _ Ed); exact Ld|]. intros v Hv. rewrite (set_nth_get _ _ _ _ v Ed), app_assoc. unfold cnt. rewrite snoc_filter.
        destruct (Nat.eqb_spec (fst e) v) as [->|N]; [f_equal; lia|]. rewrite (Hd v Hv). unfold cnt. f_equal. lia.
      + exists d. split; [exact Ed|]. split; [exact Ld|]. intros v Hv. rewrite (concat_firstn_S g i l El). now apply Hd.
    - exists deg. split; [exact E|]. split; [exact L|]. intros v Hv. rewrite (H v Hv), firstn_all. reflexivity.
  Qed.
  Lemma indegree_0 v : indegree g v = 0 <-> forall u, ~ arc g u v.
  Proof using Type.
    unfold indegree. split.
    - intros H u (w & A). assert (X : In (v, w) (filter (fun e => fst e =? v) (concat g))).
      { apply filter_In. split; [|cbn; apply Nat.eqb_refl]. apply in_concat. exists (out g u). split; [|exact A]. unfold out in *. destruct (Nat.lt_ge_cases u n) as [L|L]; [now apply nth_In|]. rewrite nth_overflow in A by exact L. easy. }
      destruct (filter _ _); [easy|discriminate].
    - intros H. destruct (filter (fun e => fst e =? v) (concat g)) as [|(x, w) r] eqn:E; [reflexivity|]. exfalso.
      assert (X : In (x, w) (filter (fun e => fst e =? v) (concat g))) by (rewrite E; now left). apply filter_In in X as (X & Y). cbn in Y. apply Nat.eqb_eq in Y as ->.
      apply in_concat in X as (l & Il & X). apply In_nth_error in Il as (u & Eu). apply (H u). exists w. now rewrite (out_nth g u l Eu).
  Qed.

  Definition from_source (v : nat) : Prop := exists r, source g r /\ (r = v \/ walk g r v).
  Lemma from_arc u v : from_source u -> arc g u v -> from_source v.
  Proof using Type. intros (r & S0 & [->|H]) A; [exists u|exists r]; (split; [exact S0|right]); [now constructor|now apply (walk_snoc g r u)]. Qed.
  Definition ordered (fin : list nat) : Prop := forall a x b, fin = a ++ x :: b -> forall v, arc g x v -> In v b.

  Lemma topo_run : exists fin, topological_sort g = Some fin /\ NoDup fin /\ (forall v, In v fin <-> from_source v) /\ (acyclic g -> ordered fin).
  Proof using Wf.
    unfold topological_sort. destruct in_degrees_run as (deg & Ed & Ld & Hd). rewrite Ed. cbn [obind].
    destruct (dfs_all g Wf (topo_visitor deg) (fun path fin s => s = rev fin /\ (forall v, In v (path ++ fin) -> from_source v) /\ (acyclic g -> ordered fin)) (fun v => indegree g v <> 0))
      with (s := @nil nat) as (s' & E & vis & fin & B & (Hs & Hf & Ho) & Hr).
    - intros o vis u i e rest fin s B Ee Ev (-> & Hf & Ho). exists (rev fin). cbn. split; [reflexivity|]. split; [reflexivity|]. split; [|exact Ho].
      intros v [<-|Hv]; [|now apply Hf]. apply (from_arc u); [apply Hf; now left|]. exists (snd e). rewrite <- surjective_pairing. eapply nth_error_In; eauto.
    - intros o vis u rest fin s (Lv & ND & Hv & Hn & Ch & Hs & Hc) (-> & Hf & Ho). exists true, (rev fin ++ [u]). cbn [topo_visitor]. split; [reflexivity|]. split; [reflexivity|]. split.
      + intros v X. apply Hf. apply in_app_or in X. cbn in *. rewrite in_app_iff. tauto.
      + intros Ac a x b Ea v A. destruct a as [|y a]; cbn in Ea; injection Ea as -> ->; [|now apply (Ho Ac a x b eq_refl)].
        destruct A as (w & A). pose proof A as A'. apply In_nth_error in A' as (j & Ej). destruct (Hs x (length (out g x))) as (_ & Hj); [now left|].
        assert (X : In v (map fst ((x, length (out g x)) :: rest) ++ b)). { apply (Hj j (v, w)); [apply nth_error_Some; congruence|exact Ej]. }
        apply in_app_or in X as [X|X]; [|exact X]. exfalso. cbn [map fst] in *. destruct X as [<-|X].
        * apply (Ac x). constructor. now exists w.
        * apply (Ac x). apply (walk_cons g x v x); [now exists w|]. apply (chain_walk g _ Ch v X x eq_refl).
    - intros vis o fin s Lo B Ev _ (-> & Hf & Ho). cbn [topo_visitor]. rewrite (Hd o Lo). cbn [obind]. destruct (Nat.ltb_spec 0 (indegree g o)) as [L|L].
      + exists false, (rev fin). split; [reflexivity|]. split; [auto|lia].
      + exists true, (rev fin). split; [reflexivity|]. split; [reflexivity|]. split; [|exact Ho]. intros v [<-|X]; [|now apply Hf]. exists o. split; [|now left]. split; [exact Lo|]. apply indegree_0. lia.
    - split; [reflexivity|]. split; [intros v []|]. intros _ a x b X. destruct a; discriminate.
    - rewrite E. cbn [obind]. exists fin. rewrite Hs, rev_involutive. split; [reflexivity|]. destruct B as (Lv & ND & Hv & Hn & _ & _ & Hc). cbn [map app] in *. split; [exact ND|]. split; [|exact Ho].
      intros v. split; [apply Hf|]. intros (r & (Lr & Sr) & Hw).
      assert (Ir : In r fin). { destruct (Hr r Lr) as [X|X]; [exact X|]. destruct X. now apply indegree_0. }
      destruct Hw as [<-|Hw]; [exact Ir|]. clear Sr Lr. induction Hw as [u v A|u x v A _ IH]; [|apply IH]; now apply (Hc u Ir).
  Qed.

  Lemma dag_from_source : acyclic g -> forall v, v < n -> from_source v.
  Proof using Wf.
    intros Ac. assert (G : forall m l v, n <= m + length l -> NoDup (v :: l) -> (forall x, In x (v :: l) -> x < n) -> (forall x, In x l -> walk g v x) -> from_source v).
    { induction m as [|m IH]; intros l v Hm ND Hn Hw.
      - exfalso. assert (X : length (v :: l) <= length (seq 0 n)) by (apply NoDup_incl_length; [exact ND|]; intros x Hx; apply in_seq; specialize (Hn x Hx); lia). rewrite seq_length in X. cbn in X. lia.
      - destruct (Nat.eq_dec (indegree g v) 0) as [E0|E0].
        + exists v. split; [|now left]. split; [apply Hn; now left|]. now apply indegree_0.
        + assert (exists u, arc g u v) as (u & A).
          { unfold indegree in E0. destruct (filter (fun e => fst e =? v) (concat g)) as [|(x, w) r] eqn:E; [easy|].
            assert (X : In (x, w) (filter (fun e => fst e =? v) (concat g))) by (rewrite E; now left). apply filter_In in X as (X & Y). cbn in Y. apply Nat.eqb_eq in Y as ->.
            apply in_concat in X as (k & Il & X). apply In_nth_error in Il as (u & Eu). exists u, w. now rewrite (out_nth g u k Eu). }
          apply (from_arc u v); [|exact A]. apply (IH (v :: l)).
          * cbn. lia.
          * constructor; [|exact ND]. intros [<-|X]; [apply (Ac v); now constructor|]. apply (Ac u). apply (walk_cons g u v u A). now apply Hw.
          * intros x [<-|X]; [now apply (arc_lt g Wf) in A|now apply Hn].
          * intros x [<-|X]; [now constructor|]. apply (walk_cons g u v x A). now apply Hw. }
    intros v Hv. apply (G n [] v); [cbn; lia|constructor; [easy|constructor]|intros x [<-|[]]; exact Hv|easy].
  Qed.

  (** parents *)
  Definition pinv (path fin : list nat) (vp : list (option nat)) : Prop :=
    length vp = n /\ (forall v, v < n -> ~ In v (path ++ fin) -> nth_error vp v = Some None) /\
    (path <> [] -> forall v, v < last path 0 -> In v fin) /\
    (forall v, In v (rev path ++ fin) ->
       (nth_error vp v = Some None /\ (forall u, u < v -> ~ walk g u v)) \/
       (exists p, nth_error vp v = Some (Some p) /\ arc g p v /\ before (rev path ++ fin) p v /\ exists r, r < v /\ walk g r v)).
  Lemma before_ins a b x p v : before (a ++ b) p v -> before (a ++ x :: b) p v.
  Proof using Type.
    intros (l1 & l2 & l3 & E). assert (G : forall (a b l1 r : list nat), a ++ b = l1 ++ r -> (exists c, l1 = a ++ c /\ b = c ++ r) \/ (exists c, a = l1 ++ c /\ r = c ++ b)).
    { clear. induction a as [|y a IH]; intros b l1 r E; [left; exists l1; auto|]. destruct l1 as [|z l1]; [right; exists (y :: a); auto|]. cbn in E. injection E as -> E.
      destruct (IH b l1 r E) as [(c & -> & ->)|(c & -> & ->)]; [left|right]; exists c; auto. }
    destruct (G a b l1 _ E) as [(c & -> & ->)|(c & -> & E2)]; [exists (a ++ x :: c), l2, l3; norm_app|].
    destruct c as [|y c]; cbn in E2; [subst b; exists (l1 ++ [x]), l2, l3; norm_app|]. injection E2 as <- E2.
    destruct (G l2 (v :: l3) c b) as [(d & -> & E3)|(d & -> & ->)]; [exact E2| |exists l1, (c ++ x :: d), l3; norm_app].
    destruct d as [|z d]; cbn in E3; [subst b; exists l1, (l2 ++ [x]), l3; norm_app|]. injection E3 as <- ->. exists l1, l2, (d ++ x :: b). norm_app.
  Qed.
  Lemma chain_last l : chain g l -> forall u, nth_error l 0 = Some u -> last l 0 = u \/ walk g (last l 0) u.
  Proof using Type.
    induction l as [|a l IH]; intros C u E; [discriminate|]. cbn in E. injection E as ->. destruct l as [|b l]; [now left|]. right. destruct C as (A & C). change (last (u :: b :: l) 0) with (last (b :: l) 0).
    destruct (IH C b eq_refl) as [->|H]; [now constructor|now apply (walk_snoc g _ b)].
  Qed.
  Lemma parents_run : exists vp, parents g = Some vp /\ exists fin, NoDup fin /\ (forall v, v < n -> In v fin) /\ pinv [] fin vp.
  Proof using Wf.
    unfold parents. set (vs := fun (_ : nat) (parent node : option nat) (_ : nat) vp => _).
    destruct (dfs_all g Wf vs pinv (fun _ => False)) with (s := repeat (@None nat) n) as (s' & E & vis & fin & B & Hu & Hr).
    - intros o vis u i e rest fin vp (Lv & ND & Hv & Hn & Ch & Hs & Hc) Ee Ev (Lp & H0 & Hl & H). unfold vs. cbn [map fst] in *.
      assert (A : arc g u (fst e)) by (exists (snd e); rewrite <- surjective_pairing; eapply nth_error_In; eauto). pose proof (proj2 (arc_lt g Wf _ _ A)) as Le.
      assert (NI : ~ In (fst e) ((u :: map fst rest) ++ fin)) by (intros X; apply (Hv _ Le) in X; congruence).
      destruct (set_nth_some vp (fst e) (Some u)) as (vp' & Ep); [lia|]. rewrite Ep. cbn [obind]. exists vp'. split; [reflexivity|].
      split; [rewrite (set_nth_length _ _ _ _ Ep); exact Lp|]. split; [|split].
      + intros v Lvv X. rewrite (set_nth_get _ _ _ _ v Ep). destruct (Nat.eqb_spec (fst e) v) as [<-|N]; [destruct X; now left|]. apply H0; [exact Lvv|]. intros Y. apply X. now right.
      + intros _ v. change (last (fst e :: u :: map fst rest) 0) with (last (u :: map fst rest) 0). apply Hl. discriminate.
      + assert (EL : rev (fst e :: u :: map fst rest) ++ fin = rev (u :: map fst rest) ++ fst e :: fin) by (cbn [rev]; rewrite <- !app_assoc; reflexivity).
        rewrite EL. intros v X. rewrite (set_nth_get _ _ _ _ v Ep). destruct (Nat.eqb_spec (fst e) v) as [<-|N].
        * right. exists u. split; [reflexivity|]. split; [exact A|]. split; [cbn [rev]; exists (rev (map fst rest)), [], fin; rewrite <- app_assoc; reflexivity|].
          exists (last (u :: map fst rest) 0). set (r := last (u :: map fst rest) 0) in *. split.
          -- destruct (Nat.lt_trichotomy r (fst e)) as [X1|[X1|X1]]; [exact X1| |].
             ++ exfalso. apply NI. apply in_or_app. left. rewrite <- X1. unfold r. clear. generalize u. induction (map fst rest) as [|b l IH]; intros x; [now left|]. right. apply IH.
             ++ exfalso. apply NI. apply in_or_app. right. apply Hl; [discriminate|exact X1].
          -- destruct (chain_last _ Ch u eq_refl) as [X1|X1]; fold r in X1; [rewrite X1; now constructor|now apply (walk_snoc g r u)].
        * assert (X' : In v (rev (u :: map fst rest) ++ fin)) by (apply in_app_or in X as [X|[X|X]]; apply in_or_app; [now left|congruence|now right]).
          destruct (H v X') as [Y|(p & Y1 & Y2 & Y3 & Y4)]; [now left|]. right. exists p. split; [exact Y1|]. split; [exact Y2|]. split; [now apply before_ins|exact Y4].
    - intros o vis u rest fin vp (Lv & ND & Hv & Hn & Ch & Hs & Hc) (Lp & H0 & Hl & H). unfold vs. cbn [map fst] in *. exists true, vp. split; [reflexivity|]. split; [exact Lp|]. split; [|split].
      + intros v Lvv X. apply H0; [exact Lvv|]. intros Y. apply X. rewrite in_app_iff in *. cbn in *. tauto.
      + intros N v X. right. apply Hl; [discriminate|]. destruct (map fst rest); [easy|exact X].
      + assert (EL : rev (map fst rest) ++ u :: fin = rev (u :: map fst rest) ++ fin) by (cbn [rev]; rewrite <- !app_assoc; reflexivity). rewrite EL. exact H.
    - intros vis o fin vp Lo B Ev Hr (Lp & H0 & Hl & H). pose proof B as (Lv & ND & Hv & Hn & Ch & Hs & Hc). cbn [map app rev] in *. unfold vs.
      assert (NI : ~ In o fin) by (intros X; apply (Hv _ Lo) in X; congruence).
      destruct (set_nth_some vp o (@None nat)) as (vp' & Ep); [lia|]. rewrite Ep. cbn [obind]. exists true, vp'. split; [reflexivity|].
      split; [rewrite (set_nth_length _ _ _ _ Ep); exact Lp|]. split; [|split].
      + intros v Lvv X. rewrite (set_nth_get _ _ _ _ v Ep). destruct (Nat.eqb_spec o v) as [->|N]; [destruct X; now left|]. apply H0; [exact Lvv|]. intros Y. apply X. now right.
      + intros _ v X. cbn in X. destruct (Hr v X) as [Y|[]]. exact Y.
      + cbn [rev app]. intros v X. rewrite (set_nth_get _ _ _ _ v Ep). destruct (Nat.eqb_spec o v) as [<-|N].
        * left. split; [reflexivity|]. intros u Lu Hw. destruct (Hr u Lu) as [Y|[]]. apply NI. clear - Hc Hw Y. induction Hw as [u v A|u x v A _ IH]; [|apply IH]; now apply (Hc u Y).
        * destruct X as [X|X]; [congruence|]. destruct (H v X) as [Y|(p & Y1 & Y2 & Y3 & Y4)]; [now left|]. right. exists p. split; [exact Y1|]. split; [exact Y2|]. split; [|exact Y4]. apply (before_ins [] fin o p v Y3).
    - split; [apply repeat_length|]. split; [intros v Lv _; now apply nth_error_repeat|]. split; [easy|]. intros v [].
    - exists s'. split; [exact E|]. exists fin. destruct B as (Lv & ND & _). split; [exact ND|]. split; [|exact Hu]. intros v L. destruct (Hr v L) as [X|[]]. exact X.
  Qed.
End Topo.
