(** A depth first search in a forest whose parents are known. *)
From Coq Require Import Lia Permutation.
From Verif Require Import Lib GraphSpec WalkSpec ClosModel ClosProofs DfsModel DfsSpec DfsProofs DfsProps LcaModel LcaSpec LcaProofs LcaProofs3 HldModel.
Open Scope nat_scope.

Definition hpar (vp : list (option nat)) (c u : nat) : Prop := nth_error vp c = Some (Some u).
Fixpoint fol (vp : list (option nat)) (path : list nat) : Prop :=
  match path with
  | [] => True
  | u :: rest => match rest with [] => nth_error vp u = Some None | p :: _ => hpar vp u p end /\ fol vp rest
  end.
Lemma fol_anc vp : forall rest u, fol vp (u :: rest) -> forall w, In w (u :: rest) -> anc vp w u.
Proof.
  induction rest as [|p rest IH]; intros u (H1 & H2) w Hw.
  - destruct Hw as [<-|[]]. apply anc_refl.
  - destruct Hw as [<-|Hw]; [apply anc_refl|]. apply (anc_up _ _ _ w H1). right. now apply IH.
Qed.

Section Tree.
  Context {W St : Type}.
  Variable g : list (list (nat * W)).
  Hypothesis Wf : wf g.
  Notation n := (length g).
  Variable vp : list (option nat).
  Hypothesis Par : forall v p, hpar vp v p -> arc g p v.
  Hypothesis Rt : forall v, v < n -> (forall u, u < v -> ~ walk g u v) -> nth_error vp v = Some None.
  Hypothesis Dep : forall v, v < n -> exists d, at_depth vp v d.
  Hypothesis Tree : forall u v, arc g u v -> hpar vp v u \/ hpar vp u v.
  Variable visitor : nat -> option nat -> option nat -> nat -> St -> option (bool * St).
  Variable U : list nat -> list nat -> St -> Prop.
  Hypothesis t_enter : forall o u v d rest fin s, NoDup (v :: (u :: rest) ++ fin) -> (forall x, In x (v :: (u :: rest) ++ fin) -> x < n) -> fol vp (v :: u :: rest) -> (exists f, nth_error (map fst (out g u)) 0 = Some f /\ (f = v \/ In f ((u :: rest) ++ fin))) -> U (u :: rest) fin s ->
    exists s', visitor o (Some u) (Some v) d s = Some (true, s') /\ U (v :: u :: rest) fin s'.
  Hypothesis t_exit : forall o u d rest fin s, NoDup ((u :: rest) ++ fin) -> (forall x, In x ((u :: rest) ++ fin) -> x < n) -> fol vp (u :: rest) -> (forall c, hpar vp c u -> In c fin) -> U (u :: rest) fin s ->
    exists c s', visitor o (Some u) None d s = Some (c, s') /\ U rest (u :: fin) s'.
  Hypothesis t_root : forall o d fin s, NoDup (o :: fin) -> (forall x, In x (o :: fin) -> x < n) -> fol vp [o] -> U [] fin s ->
    exists s', visitor o None (Some o) d s = Some (true, s') /\ U [o] fin s'.
  Lemma tree_all s : U [] [] s -> exists s' fin, iterative_dfs visitor g None s = Some s' /\ U [] fin s' /\ forall v, v < n -> In v fin.
  Proof using Wf Par Rt Dep Tree t_enter t_exit t_root.
    intros H0. destruct (dfs_all g Wf visitor (fun path fin s => fol vp path /\ U path fin s) (fun _ => False)) with (s := s) as (s' & E & vis & fin & B & (_ & Hu) & Hr).
    - intros o vis u i e rest fin s1 (Lv & ND & Hv & Hn & Ch & Hs & Hcl) Ee Ev (F & HU). cbn [map fst] in *.
      assert (Le : fst e < n) by (apply (Wf u); eapply nth_error_In; eauto).
      assert (NI : ~ In (fst e) ((u :: map fst rest) ++ fin)) by (intros X; apply (Hv _ Le) in X; congruence).
      assert (A : arc g u (fst e)) by (exists (snd e); rewrite <- surjective_pairing; eapply nth_error_In; eauto).
      assert (F' : fol vp (fst e :: u :: map fst rest)).
      { split; [|exact F]. destruct (Tree _ _ A) as [T|T]; [exact T|]. exfalso. destruct F as (F & _). destruct (map fst rest) as [|p r]; unfold hpar in *; [congruence|]. rewrite F in T. injection T as ->. apply NI. right. now left. }
      destruct (t_enter o u (fst e) (S (length rest)) (map fst rest) fin s1) as (s2 & E2 & U2); [now constructor|intros x [<-|X]; auto|exact F'| |exact HU|eauto].
      destruct (nth_error (out g u) 0) as [e0|] eqn:E0; [|apply nth_error_None in E0; assert (i < length (out g u)) by (apply nth_error_Some; congruence); lia]. exists (fst e0). split; [rewrite nth_error_map, E0; reflexivity|]. destruct i as [|i]; [left; congruence|right]. destruct (Hs u (S i) (or_introl eq_refl)) as (_ & Y). apply (Y 0 e0); [lia|exact E0].
    - intros o vis u rest fin s1 (Lv & ND & Hv & Hn & Ch & Hs & Hcl) (F & HU). cbn [map fst] in *.
      destruct (t_exit o u (S (length rest)) (map fst rest) fin s1) as (c & s2 & E2 & U2); auto.
      { intros c Hc. destruct (Par _ _ Hc) as (w & X). destruct (In_nth_error _ _ X) as (j & Ej). destruct (Hs u (length (out g u)) (or_introl eq_refl)) as (_ & Y). specialize (Y j (c, w)). cbn [fst] in Y.
        assert (Z : In c ((u :: map fst rest) ++ fin)) by (apply Y; [apply nth_error_Some; congruence|exact Ej]). apply in_app_or in Z as [Z|Z]; [|exact Z]. exfalso.
        destruct (Dep c) as (d & D); [apply Hn, in_or_app; now left|]. apply (no_up _ _ _ _ D Hc). now apply (fol_anc vp (map fst rest) u F). }
      exists c, s2. split; [exact E2|]. split; [apply F|exact U2].
    - intros vis o fin s1 Lo (Lv & ND & Hv & Hn & Ch & Hs & Hcl) Ev Hr (F & HU). cbn [map app] in *.
      assert (NI : ~ In o fin) by (intros X; apply (Hv _ Lo) in X; congruence). assert (F' : fol vp [o]).
      { split; [|exact Logic.I]. apply Rt; [exact Lo|]. intros u Lu Wk. apply NI. destruct (Hr u Lu) as [X|[]]. clear - Wk X Hcl. induction Wk as [u v A|u x v A _ IH]; [eapply Hcl; eauto|]. apply IH. eapply Hcl; eauto. }
      destruct (t_root o 0 fin s1) as (s2 & E2 & U2); [now constructor|intros x [<-|X]; auto|exact F'|exact HU|]. exists true, s2. auto.
    - split; [exact Logic.I|exact H0].
    - exists s', fin. split; [exact E|]. split; [exact Hu|]. intros v Lv. destruct (Hr v Lv) as [X|[]]. exact X.
  Qed.
End Tree.

(** ** the layout *)
Section Layout.
  Variable n : nat.
  Variable vp : list (option nat).
  Variable first : nat -> option nat.
  (** the nodes from x at index i up to the top of its chain stand before it; c is the parent of the top *)
  Definition chained (L : list nat) (x i : nat) (c : option nat) : Prop :=
    exists k r, k <= i /\ (forall m y, m <= k -> up vp m x = Some y -> nth_error L (i - m) = Some y) /\ up vp k x = Some r /\ nth_error vp r = Some c /\ forall p j, c = Some p -> i - k = S j -> nth_error L j <> Some p.
  Record linv (path fin : list nat) (s : lay) (L : list nat) : Prop := {
    v_in : forall x, In x L <-> In x (path ++ fin);
    v_nodup : NoDup L;
    v_len : length L = length (path ++ fin);
    v_pos : l_pos s = length L;
    v_par : length (l_parents s) = n;
    v_qs : length (l_positions s) = n;
    v_ns : length (l_nodes s) = n;
    v_node : forall i, i < length L -> nth_error (l_nodes s) i = Some (nth_error L i);
    v_position : forall i x, nth_error L i = Some x -> nth_error (l_positions s) x = Some (Some i);
    v_order : forall i c p, nth_error L i = Some c -> hpar vp c p -> exists j, j < i /\ nth_error L j = Some p;
    v_path : forall w i j x, In w path -> nth_error L i = Some w -> i <= j -> nth_error L j = Some x -> anc vp w x;
    v_fin : forall w i, In w fin -> nth_error L i = Some w -> exists m, i + m <= length L /\ forall x, anc vp w x <-> exists j, i <= j < i + m /\ nth_error L j = Some x;
    v_chain : forall i x, nth_error L i = Some x -> exists c, nth_error (l_parents s) x = Some c /\ chained L x i c;
    v_first : forall c p, In c L -> hpar vp c p -> exists f, first p = Some f /\ In f L;
    v_next : forall p f i, first p = Some f -> hpar vp f p -> nth_error L i = Some f -> exists j, i = S j /\ nth_error L j = Some p;
    v_cur : match l_par s with None => match path with u :: _ => forall j, length L = S j -> nth_error L j <> Some u | [] => True end | Some c => exists u rest L0, path = u :: rest /\ L = L0 ++ [u] /\ chained L u (length L0) c end }.
  Lemma nth_app_inv {T} (L : list T) v i x : nth_error (L ++ [v]) i = Some x -> nth_error L i = Some x \/ (i = length L /\ x = v).
  Proof.
    intros E. destruct (Nat.lt_ge_cases i (length L)) as [H|H]; [left; now rewrite nth_error_app1 in E|]. right. rewrite nth_error_app2 in E by exact H. destruct (i - length L) as [|k] eqn:K; cbn in E; [injection E as <-; split; [lia|reflexivity]|destruct k; discriminate].
  Qed.
  Lemma nth_app_l {T} (L M : list T) i x : nth_error L i = Some x -> nth_error (L ++ M) i = Some x.
  Proof. intros E. rewrite nth_error_app1; [exact E|]. apply nth_error_Some. congruence. Qed.
  Lemma chained_app L M x i c : chained L x i c -> chained (L ++ M) x i c.
  Proof.
    intros (k & r & Lk & H & A & B & C). exists k, r. split; [exact Lk|]. split; [intros m y Hm Hy; apply nth_app_l; eauto|]. split; [exact A|]. split; [exact B|]. intros p j Ep Ej. rewrite nth_error_app1; [now apply C|].
    assert (X : nth_error L (i - 0) = Some x) by (apply H; [lia|reflexivity]). assert (i - 0 < length L) by (apply nth_error_Some; congruence). lia.
  Qed.
  Lemma nth_uniq (L : list nat) i j x : NoDup L -> nth_error L i = Some x -> nth_error L j = Some x -> i = j.
  Proof. intros ND A B. apply (proj1 (NoDup_nth_error L) ND); [apply nth_error_Some; congruence|congruence]. Qed.
  Lemma anc_child w x : anc vp w x -> x = w \/ exists c, hpar vp c w /\ anc vp c x.
  Proof.
    intros ([|k] & K); [left; cbn in K; congruence|right]. rewrite <- Nat.add_1_r in K. destruct (up vp k x) as [c|] eqn:E.
    - exists c. split; [|now exists k]. rewrite (up_add _ _ _ _ _ E) in K. cbn in K. unfold hpar. destruct (nth_error vp c) as [[p|]|]; congruence.
    - exfalso. revert x K E. induction k as [|k IH]; intros x K E; [discriminate|]. cbn [up Nat.add] in *. destruct (nth_error vp x) as [[p|]|]; try discriminate. eauto.
  Qed.
  Lemma linv_enter path fin s L o d v : linv path fin s L -> NoDup (v :: path ++ fin) -> (forall x, In x (v :: path ++ fin) -> x < n) -> fol vp (v :: path) -> match path with u :: _ => exists f, first u = Some f /\ (f = v \/ In f (path ++ fin)) | [] => True end ->
    exists s', layout_visitor o (hd_error path) (Some v) d s = Some (true, s') /\ linv (v :: path) fin s' (L ++ [v]).
  Proof using Type.
    intros I ND Hn F HF. assert (Lv : v < n) by (apply Hn; now left). assert (NI : ~ In v (path ++ fin)) by now inversion ND.
    assert (Ln : length L < n). { rewrite (v_len _ _ _ _ I). assert (X : length (v :: path ++ fin) <= n); [|cbn [length] in X; lia]. rewrite <- (seq_length n 0). apply NoDup_incl_length; [exact ND|]. intros x X. apply in_seq. specialize (Hn x X). lia. }
    assert (NL : ~ In v L) by (rewrite (v_in _ _ _ _ I); exact NI).
    cbn [layout_visitor]. remember (match l_par s with None => hd_error path | Some p => p end) as c eqn:Ec.
    destruct (set_nth_some (l_parents s) v c) as (ps & Ep); [rewrite (v_par _ _ _ _ I); exact Lv|]. rewrite Ep. cbn [obind].
    destruct (set_nth_some (l_positions s) v (Some (l_pos s))) as (qs & Eq); [rewrite (v_qs _ _ _ _ I); exact Lv|]. rewrite Eq. cbn [obind].
    destruct (set_nth_some (l_nodes s) (l_pos s) (Some v)) as (ns & En); [rewrite (v_ns _ _ _ _ I), (v_pos _ _ _ _ I); exact Ln|]. rewrite En. cbn [obind]. eexists. split; [reflexivity|].
    assert (CH : chained (L ++ [v]) v (length L) c).
    { pose proof (v_cur _ _ _ _ I) as C. destruct (l_par s) as [c0|].
      - subst c. destruct C as (u & rest & L0 & -> & -> & C). destruct F as (F & _). apply (chained_app _ [v]) in C. destruct C as (k & r & Lk & H & A & B & D). rewrite app_length. cbn [length]. exists (S k), r. split; [lia|].
        unfold hpar in F. split; [|split; [cbn [up]; rewrite F; exact A|split; [exact B|intros p j Ec Ej; apply D; [exact Ec|lia]]]]. intros [|m] y Hm Hy; cbn [up] in Hy.
        + injection Hy as <-. rewrite Nat.sub_0_r, nth_error_app2 by (rewrite app_length; cbn [length]; lia). rewrite app_length. cbn [length]. now rewrite Nat.sub_diag.
        + rewrite F in Hy. replace (length L0 + 1 - S m) with (length L0 - m) by lia. apply H; [lia|exact Hy].
      - exists 0, v. split; [lia|]. split; [|split; [reflexivity|]].
        + intros m y Hm Hy. replace m with 0 in * by lia. injection Hy as <-. rewrite Nat.sub_0_r, nth_error_app2, Nat.sub_diag by lia. reflexivity.
        + destruct F as (F & _). subst c. split; [destruct path; exact F|]. intros p j Epp Ej. destruct path as [|u rest]; [discriminate|]. cbn in Epp. injection Epp as <-. rewrite Nat.sub_0_r in Ej. rewrite nth_error_app1 by lia. now apply C. }
    constructor; cbn [l_pos l_par l_parents l_positions l_nodes].
    - intros x. rewrite in_app_iff, (v_in _ _ _ _ I). cbn. tauto.
    - rewrite <- (rev_involutive (L ++ [v])). apply NoDup_rev. rewrite rev_app_distr. cbn. constructor; [now rewrite <- in_rev|]. apply NoDup_rev, (v_nodup _ _ _ _ I).
    - rewrite app_length, (v_len _ _ _ _ I). cbn [length app]. lia.
    - rewrite app_length, (v_pos _ _ _ _ I). cbn. lia.
    - rewrite (set_nth_length _ _ _ _ Ep). apply (v_par _ _ _ _ I).
    - rewrite (set_nth_length _ _ _ _ Eq). apply (v_qs _ _ _ _ I).
    - rewrite (set_nth_length _ _ _ _ En). apply (v_ns _ _ _ _ I).
    - intros i Hi. rewrite app_length in Hi. cbn in Hi. rewrite (set_nth_get _ _ _ _ i En), (v_pos _ _ _ _ I). destruct (Nat.eqb_spec (length L) i) as [<-|N].
      + rewrite nth_error_app2, Nat.sub_diag by lia. reflexivity.
      + rewrite nth_error_app1 by lia. apply (v_node _ _ _ _ I). lia.
    - intros i x E. rewrite (set_nth_get _ _ _ _ x Eq), (v_pos _ _ _ _ I). apply nth_app_inv in E as [E|(-> & ->)].
      + destruct (Nat.eqb_spec v x) as [<-|N]; [destruct NL; eapply nth_error_In; eauto|]. now apply (v_position _ _ _ _ I).
      + now rewrite Nat.eqb_refl.
    - intros i x p E Hp. apply nth_app_inv in E as [E|(-> & ->)].
      + destruct (v_order _ _ _ _ I i x p E Hp) as (j & Hj & Ej). exists j. split; [exact Hj|now apply nth_app_l].
      + destruct F as (F & _). destruct path as [|u rest]; unfold hpar in *; [congruence|]. rewrite F in Hp. injection Hp as <-. destruct (In_nth_error L u) as (j & Ej); [apply (v_in _ _ _ _ I); now left|].
        exists j. split; [apply nth_error_Some; congruence|now apply nth_app_l].
    - intros w i j x Hw Ei Hij Ej. apply nth_app_inv in Ei as [Ei|(-> & ->)].
      + assert (w <> v) by (intros ->; apply NL; eapply nth_error_In; eauto). destruct Hw as [<-|Hw]; [contradiction|]. apply nth_app_inv in Ej as [Ej|(-> & ->)]; [eapply (v_path _ _ _ _ I); eauto|]. apply (fol_anc vp path v F). now right.
      + apply nth_app_inv in Ej as [Ej|(-> & ->)]; [|apply anc_refl]. assert (j < length L) by (apply nth_error_Some; congruence). lia.
    - intros w i Hw Ei. apply nth_app_inv in Ei as [Ei|(-> & ->)]; [|destruct NI; apply in_or_app; now right]. destruct (v_fin _ _ _ _ I w i Hw Ei) as (m & Hm & Hx). exists m. rewrite app_length. split; [lia|]. intros x. rewrite Hx. split; intros (j & Hj & Ej); exists j; (split; [exact Hj|]).
      + now apply nth_app_l.
      + now rewrite nth_error_app1 in Ej by lia.
    - intros i x E. rewrite (set_nth_get _ _ _ _ x Ep). apply nth_app_inv in E as [E|(-> & ->)].
      + destruct (Nat.eqb_spec v x) as [<-|N]; [destruct NL; eapply nth_error_In; eauto|]. destruct (v_chain _ _ _ _ I i x E) as (c' & A & B). exists c'. split; [exact A|now apply chained_app].
      + rewrite Nat.eqb_refl. eauto.
    - intros c1 p Hc Hp. apply in_app_or in Hc as [Hc|[<-|[]]].
      + destruct (v_first _ _ _ _ I c1 p Hc Hp) as (f & A & B). exists f. split; [exact A|]. apply in_or_app. now left.
      + destruct F as (F & _). destruct path as [|u rest]; unfold hpar in *; [congruence|]. rewrite F in Hp. injection Hp as <-. destruct HF as (f & A & B). exists f. split; [exact A|]. apply in_or_app. destruct B as [->|B]; [right; now left|left; now apply (v_in _ _ _ _ I)].
    - intros p f i A Hp E. apply nth_app_inv in E as [E|(-> & ->)].
      + destruct (v_next _ _ _ _ I p f i A Hp E) as (j & -> & Ej). exists j. split; [reflexivity|now apply nth_app_l].
      + destruct F as (F & F2). destruct path as [|u rest]; unfold hpar in *; [congruence|]. rewrite F in Hp. injection Hp as <-. destruct (In_nth_error L u) as (j & Ej); [apply (v_in _ _ _ _ I); now left|]. exists j. split; [|now apply nth_app_l].
        assert (Lj : j < length L) by (apply nth_error_Some; congruence). destruct (Nat.eq_dec (length L) (S j)) as [X|X]; [exact X|exfalso]. destruct (nth_error L (S j)) as [x|] eqn:Ex; [|apply nth_error_None in Ex; lia].
        assert (An : anc vp u x) by (eapply (v_path _ _ _ _ I u j (S j)); eauto; now left). apply anc_child in An as [->|(c1 & C & An)].
        * pose proof (nth_uniq L _ _ _ (v_nodup _ _ _ _ I) Ej Ex). lia.
        * assert (Hc : In c1 L). { apply nth_error_In in Ex. clear - An Ex I. destruct An as (k & K). revert x K Ex. induction k as [|k IH]; intros x K Ex; cbn [up] in K; [congruence|]. destruct (nth_error vp x) as [[p|]|] eqn:Ep; try discriminate. apply (IH p K). destruct (In_nth_error _ _ Ex) as (i & Ei). destruct (v_order _ _ _ _ I i x p Ei Ep) as (j & _ & Ej). eapply nth_error_In; eauto. }
          destruct (v_first _ _ _ _ I c1 u Hc C) as (f & B1 & B2). rewrite A in B1. injection B1 as <-. contradiction.
    - exists v, path, L. auto.
  Qed.
  Lemma linv_exit u rest fin s L o p d : linv (u :: rest) fin s L -> fol vp (u :: rest) -> (forall c, hpar vp c u -> In c fin) ->
    exists s', layout_visitor o p None d s = Some (true, s') /\ linv rest (u :: fin) s' L.
  Proof.
    intros I F Hc. eexists. split; [reflexivity|]. destruct I. constructor; cbn [l_pos l_par l_parents l_positions l_nodes]; auto.
    - intros x. rewrite v_in0, !in_app_iff. cbn. tauto.
    - rewrite v_len0, !app_length. cbn. lia.
    - intros w i j x Hw. apply v_path0. now right.
    - intros w i [<-|Hw] E; [|now apply v_fin0]. assert (Li : i < length L) by (apply nth_error_Some; congruence). exists (length L - i). split; [lia|]. intros x. split.
      + intros A. apply anc_child in A as [->|(c & C & A)]; [exists i; split; [lia|exact E]|]. assert (X : In c L) by (apply v_in0, in_or_app; right; now apply Hc). destruct (In_nth_error _ _ X) as (ic & Ec).
        destruct (v_order0 ic c u Ec C) as (j & Hj & Ej). assert (j = i) by (eapply nth_uniq; eauto). subst j. destruct (v_fin0 c ic (Hc c C) Ec) as (m & Hm & Hx). apply Hx in A as (j & Hj2 & Ej2). exists j. split; [lia|exact Ej2].
      + intros (j & Hj & Ej). apply (v_path0 u i j x); auto; [now left|lia].
    - destruct rest as [|w rest]; [exact Logic.I|]. destruct F as (F & _). intros j Ej E. destruct (In_nth_error L u) as (i & Ei); [apply v_in0; now left|]. destruct (v_order0 i u w Ei F) as (j' & Hj & Ej'). pose proof (nth_uniq L _ _ _ v_nodup0 E Ej'). assert (i < length L) by (apply nth_error_Some; congruence). lia.
  Qed.
  Lemma linv_0 ps : length ps = n -> linv [] [] (Lay 0 None ps (repeat None n) (repeat None n)) [].
  Proof.
    intros Lp. constructor; cbn; auto; try easy; try (now rewrite repeat_length); try constructor; try (intros [|i]; discriminate); try (intros ? [|i]; discriminate); try (intros; lia).
    all: try (intros [|?]; intros; discriminate).
    intros ? ? [|?]; intros; discriminate.
  Qed.
End Layout.
