(** The search for lowest common ancestors: the tour of the forest. *)
From Coq Require Import Lia.
From Verif Require Import Lib DfsModel DfsSpec LcaModel LcaSpec.
Open Scope nat_scope.

(** ** ancestors *)
Lemma up_add vp : forall j k u a, up vp j u = Some a -> up vp (j + k) u = up vp k a.
Proof.
  induction j as [|j IH]; intros k u a E; cbn [up] in *; [injection E as ->; reflexivity|]. cbn [Nat.add up]. destruct (nth_error vp u) as [[p|]|]; try discriminate. now apply IH.
Qed.
Lemma anc_refl vp u : anc vp u u.
Proof. now exists 0. Qed.
Lemma anc_trans vp a b c : anc vp a b -> anc vp b c -> anc vp a c.
Proof. intros (j & J) (k & K). exists (k + j). rewrite (up_add vp k j c b K). exact J. Qed.
Lemma anc_up vp u p b : nth_error vp u = Some (Some p) -> (anc vp b u <-> b = u \/ anc vp b p).
Proof.
  intros E. split.
  - intros ([|k] & K); cbn [up] in K; [left; congruence|]. rewrite E in K. right. now exists k.
  - intros [->|(k & K)]; [apply anc_refl|]. exists (S k). cbn [up]. now rewrite E.
Qed.
Lemma anc_root vp u b : nth_error vp u = Some None -> anc vp b u -> b = u.
Proof. intros E ([|k] & K); cbn [up] in K; [congruence|]. rewrite E in K. discriminate. Qed.
Lemma root_up vp r k x : nth_error vp r = Some None -> up vp k r = Some x -> k = 0.
Proof. intros E K. destruct k; [reflexivity|]. cbn [up] in K. rewrite E in K. discriminate. Qed.
Lemma at_depth_fun vp u d d' : at_depth vp u d -> at_depth vp u d' -> d = d'.
Proof.
  intros (r & A & B) (r' & A' & B'). destruct (Nat.le_ge_cases d d') as [L|L].
  - replace d' with (d + (d' - d)) in A' by lia. rewrite (up_add _ _ _ _ _ A) in A'. apply (root_up _ _ _ _ B) in A'. lia.
  - replace d with (d' + (d - d')) in A by lia. rewrite (up_add _ _ _ _ _ A') in A. apply (root_up _ _ _ _ B') in A. lia.
Qed.
Lemma at_depth_up vp k u a d : up vp k u = Some a -> at_depth vp a d -> at_depth vp u (k + d).
Proof. intros K (r & A & B). exists r. split; [|exact B]. now rewrite (up_add _ _ _ _ _ K). Qed.
Lemma up_ext vp vp' (P : nat -> Prop) : (forall x, P x -> nth_error vp' x = nth_error vp x) -> (forall x p, P x -> nth_error vp x = Some (Some p) -> P p) ->
  forall k x, P x -> up vp' k x = up vp k x /\ forall a, up vp k x = Some a -> P a.
Proof.
  intros E C. induction k as [|k IH]; intros x Hx; cbn [up]; [split; [reflexivity|]; intros a A; injection A as <-; exact Hx|].
  rewrite (E x Hx). destruct (nth_error vp x) as [[p|]|] eqn:Ex; [|split; [reflexivity|discriminate]|split; [reflexivity|discriminate]]. apply IH. exact (C x p Hx Ex).
Qed.

(** ** pairs *)
Open Scope Z_scope.
Definition ple (a b : pii) : Prop := fst a < fst b \/ (fst a = fst b /\ snd a <= snd b).
Lemma ple_refl a : ple a a.
Proof. right. lia. Qed.
Lemma ple_trans a b c : ple a b -> ple b c -> ple a c.
Proof. unfold ple. lia. Qed.
Lemma ple_antisym a b : ple a b -> ple b a -> a = b.
Proof. destruct a, b. unfold ple. cbn. intros. f_equal; lia. Qed.
Lemma ple_total a b : ple a b \/ ple b a.
Proof. unfold ple. lia. Qed.
Lemma pair_min_l a b : ple a b -> pair_min a b = a.
Proof. destruct a as [a1 a2], b as [b1 b2]. unfold pair_min, ple. cbn. intros H. destruct (Z.ltb_spec b1 a1), (Z.eqb_spec b1 a1), (Z.ltb_spec b2 a2); cbn; try reflexivity; lia. Qed.
Lemma pair_min_r a b : ple b a -> pair_min a b = b.
Proof. destruct a as [a1 a2], b as [b1 b2]. unfold pair_min, ple. cbn. intros H. destruct (Z.ltb_spec b1 a1), (Z.eqb_spec b1 a1), (Z.ltb_spec b2 a2); cbn; try reflexivity; f_equal; lia. Qed.
Lemma pair_min_le a b : ple (pair_min a b) a /\ ple (pair_min a b) b /\ (pair_min a b = a \/ pair_min a b = b).
Proof. destruct (ple_total a b) as [H|H]; [rewrite (pair_min_l _ _ H)|rewrite (pair_min_r _ _ H)]; auto using ple_refl. Qed.
Lemma ple_glb a b c : ple c a -> ple c b -> ple c (pair_min a b).
Proof. intros. destruct (pair_min_le a b) as (_ & _ & [-> | ->]); assumption. Qed.
Lemma min_f_assoc a b c : min_f a (min_f b c) = min_f (min_f a b) c.
Proof.
  destruct a as [a|], b as [b|], c as [c|]; cbn; try reflexivity. f_equal. destruct (pair_min_le a b) as (P1 & P2 & _), (pair_min_le b c) as (Q1 & Q2 & _).
  destruct (pair_min_le a (pair_min b c)) as (R1 & R2 & _), (pair_min_le (pair_min a b) c) as (S1 & S2 & _).
  apply ple_antisym; repeat apply ple_glb; eauto using ple_trans.
Qed.
Definition ismin (w : pii) (l : list pii) : Prop := In w l /\ forall x, In x l -> ple w x.
Lemma ismin_snoc w l x : ismin w l -> ple w x -> ismin w (l ++ [x]).
Proof. intros (A & B) H. split; [apply in_or_app; now left|]. intros y Y. apply in_app_or in Y as [Y|[<-|[]]]; auto. Qed.
Lemma ismin_snoc_new w l x : ismin w l -> ple x w -> ismin x (l ++ [x]).
Proof. intros (A & B) H. split; [apply in_or_app; right; now left|]. intros y Y. apply in_app_or in Y as [Y|[<-|[]]]; [|apply ple_refl]. eapply ple_trans; eauto. Qed.
Lemma fold_ismin : forall l a w, ismin w (a :: l) -> fold_left min_f (map Some l) (Some a) = Some w.
Proof.
  induction l as [|x l IH]; intros a w (A & B); cbn [map fold_left].
  - destruct A as [->|[]]. reflexivity.
  - cbn [min_f]. apply IH. destruct (pair_min_le a x) as (P1 & P2 & P3). split.
    + destruct A as [->|[->|A]]; [left|left|right; exact A].
      * apply pair_min_l, B. right. now left.
      * apply pair_min_r, B. now left.
    + intros y [<-|Y]; [destruct P3 as [-> | ->]|]; apply B; cbn; auto.
Qed.
Lemma fold_ismin' l w : ismin w l -> fold_left min_f (map Some l) None = Some w.
Proof. intros H. destruct l as [|a l]; [destruct H as [[] _]|]. cbn [map fold_left min_f]. now apply fold_ismin. Qed.

(** ** the state of the tour *)
Definition lcaval (vp : list (option nat)) (u v : nat) (w : pii) : Prop :=
  (exists a d, w = (Z.of_nat d, Z.of_nat a) /\ at_depth vp a d /\ is_lca vp u v a) \/ (w = (-1, -1) /\ apart vp u v).
Fixpoint pathv (vp : list (option nat)) (path : list nat) : Prop :=
  match path with
  | [] => True
  | v :: r => match r with [] => nth_error vp v = Some None | u :: _ => nth_error vp v = Some (Some u) end /\ pathv vp r
  end.
Lemma pathv_depth vp : forall path t, pathv vp (t :: path) -> at_depth vp t (length path).
Proof.
  induction path as [|u path IH]; intros t H; cbn [pathv] in H; destruct H as [E H]; [exists t; auto|]. destruct (IH u H) as (r & A & B). exists r. split; [|exact B]. cbn [length up]. now rewrite E.
Qed.
Lemma pathv_ext vp vp' path : (forall x, In x path -> nth_error vp' x = nth_error vp x) -> pathv vp path -> pathv vp' path.
Proof.
  induction path as [|v r IH]; intros E H; cbn [pathv] in *; [exact H|]. destruct H as [A B]. split; [destruct r; rewrite (E v (or_introl eq_refl)); exact A|]. apply IH; [|exact B]. intros x X. apply E. now right.
Qed.
Definition entry (rest : list nat) (t : nat) : pii := (Z.of_nat (length rest), Z.of_nat t).
Record core (n : nat) (path fin : list nat) (vp : list (option nat)) (ind : list Z) (L : list pii) : Prop := {
  c_vp : length vp = n;
  c_ind : length ind = n;
  c_new : forall v, (v < n)%nat -> ~ In v (path ++ fin) -> nth_error vp v = Some None;
  c_closed : forall x p, In x (path ++ fin) -> nth_error vp x = Some (Some p) -> In p (path ++ fin);
  c_path : pathv vp path;
  c_low : forall x, In x L -> ple (-1, -1) x;
  c_idx : forall u, In u fin -> exists i d, nth_error ind u = Some (Z.of_nat i) /\ nth_error L i = Some (Z.of_nat d, Z.of_nat u) /\ at_depth vp u d;
  c_now : forall u i, In u fin -> nth_error ind u = Some (Z.of_nat i) -> exists w, ismin w (skipn i L) /\
    match path with [] => True | t :: rest => lcaval vp u t w \/ (anc vp t u /\ ple (entry rest t) w) end;
  c_pair : forall u v i j, In u fin -> In v fin -> nth_error ind u = Some (Z.of_nat i) -> nth_error ind v = Some (Z.of_nat j) -> (i <= j)%nat ->
    exists w, ismin w (firstn (S j - i) (skipn i L)) /\ lcaval vp u v w }.

Lemma idx_lt n path fin vp ind L u i : core n path fin vp ind L -> In u fin -> nth_error ind u = Some (Z.of_nat i) -> (i < length L)%nat.
Proof. intros C H E. destruct (c_idx _ _ _ _ _ _ C u H) as (i' & d & A & B & _). rewrite E in A. injection A as A. apply Nat2Z.inj in A as <-. apply nth_error_Some. congruence. Qed.
Lemma skipn_snoc {A} i (l : list A) x : (i <= length l)%nat -> skipn i (l ++ [x]) = skipn i l ++ [x].
Proof. intros H. rewrite skipn_app. replace (i - length l)%nat with 0%nat by lia. reflexivity. Qed.
Lemma range_snoc {A} i j (l : list A) x : (i <= j < length l)%nat -> firstn (S j - i) (skipn i (l ++ [x])) = firstn (S j - i) (skipn i l).
Proof. intros H. rewrite skipn_snoc by lia. rewrite firstn_app. replace (S j - i - length (skipn i l))%nat with 0%nat by (rewrite skipn_length; lia). now rewrite firstn_O, app_nil_r. Qed.

(** writing the entry of the top of the stack *)
Lemma settle n t rest fin vp ind L u i : core n (t :: rest) fin vp ind L -> In u fin -> nth_error ind u = Some (Z.of_nat i) ->
  exists w, ismin w (skipn i (L ++ [entry rest t])) /\ lcaval vp u t w.
Proof.
  intros C Hu Ei. pose proof (idx_lt _ _ _ _ _ _ _ _ C Hu Ei) as Li. rewrite skipn_snoc by lia. pose proof (pathv_depth vp rest t (c_path _ _ _ _ _ _ C)) as Dt.
  destruct (c_now _ _ _ _ _ _ C u i Hu Ei) as (w & M & [H|(A & H)]).
  - exists w. split; [|exact H]. apply ismin_snoc; [exact M|]. destruct H as [(a & d & -> & Da & (_ & (k & K) & _))|(-> & _)].
    + pose proof (at_depth_fun _ _ _ _ Dt (at_depth_up _ _ _ _ _ K Da)) as E. unfold ple, entry. cbn [fst snd]. destruct k; [|lia]. cbn [up] in K. injection K as ->. lia.
    + unfold ple, entry. cbn [fst snd]. lia.
  - exists (entry rest t). split; [now apply (ismin_snoc_new w)|]. left. exists t, (length rest). split; [reflexivity|]. split; [exact Dt|]. split; [exact A|]. split; [apply anc_refl|auto].
Qed.
Lemma lcaval_ext vp vp' (P : nat -> Prop) u t w : (forall x, P x -> nth_error vp' x = nth_error vp x) -> (forall x p, P x -> nth_error vp x = Some (Some p) -> P p) ->
  P u -> P t -> lcaval vp u t w -> lcaval vp' u t w.
Proof.
  intros E Cl Pu Pt H. pose proof (up_ext vp vp' P E Cl) as X. assert (Y : forall b x, P x -> (anc vp' b x <-> anc vp b x)) by (intros b x Px; split; intros (k & K); exists k; [rewrite <- (proj1 (X k x Px))|rewrite (proj1 (X k x Px))]; exact K).
  destruct H as [(a & d & -> & (r & A1 & A2) & (B1 & B2 & B3))|(-> & H)].
  - assert (Pa : P a) by (destruct B1 as (k & K); exact (proj2 (X k u Pu) a K)). left. exists a, d. split; [reflexivity|]. split.
    + exists r. destruct (X d a Pa) as (X1 & X2). split; [congruence|]. rewrite E; [exact A2|]. now apply X2.
    + split; [now apply Y|]. split; [now apply Y|]. intros b H1 H2. apply Y; [exact Pa|]. apply B3; now apply Y.
  - right. split; [reflexivity|]. intros b (H1 & H2). apply (H b). split; now apply Y.
Qed.
Lemma at_depth_ext vp vp' (P : nat -> Prop) u d : (forall x, P x -> nth_error vp' x = nth_error vp x) -> (forall x p, P x -> nth_error vp x = Some (Some p) -> P p) ->
  P u -> at_depth vp u d -> at_depth vp' u d.
Proof. intros E Cl Pu (r & A & B). destruct (up_ext vp vp' P E Cl d u Pu) as (X1 & X2). exists r. split; [congruence|]. rewrite E; [exact B|]. now apply X2. Qed.

Lemma core_enter n t rest fin vp ind L v vp' ind' : core n (t :: rest) fin vp ind L -> NoDup ((t :: rest) ++ fin) -> ~ In v ((t :: rest) ++ fin) ->
  set_nth vp v (Some t) = Some vp' -> set_nth ind t (Z.of_nat (length L)) = Some ind' -> core n (v :: t :: rest) fin vp' ind' (L ++ [entry rest t]).
Proof.
  intros C ND NV Ev Ei. pose proof (set_nth_length _ _ _ _ Ev) as Lv. pose proof (set_nth_length _ _ _ _ Ei) as Li.
  assert (NT : forall u, In u fin -> t <> u) by (intros u Hu ->; cbn in ND; inversion ND as [|? ? X _]; apply X, in_or_app; now right).
  assert (IND : forall u, In u fin -> nth_error ind' u = nth_error ind u) by (intros u Hu; rewrite (set_nth_get _ _ _ _ u Ei); destruct (Nat.eqb_spec t u) as [E|_]; [destruct (NT u Hu E)|reflexivity]).
  set (P := fun x => In x ((t :: rest) ++ fin)).
  assert (E : forall x, P x -> nth_error vp' x = nth_error vp x) by (intros x Hx; rewrite (set_nth_get _ _ _ _ x Ev); destruct (Nat.eqb_spec v x) as [->|_]; [destruct (NV Hx)|reflexivity]).
  assert (Cl : forall x p, P x -> nth_error vp x = Some (Some p) -> P p) by (intros x p; apply (c_closed _ _ _ _ _ _ C)).
  assert (Pt : P t) by (now left). assert (Pf : forall u, In u fin -> P u) by (intros u Hu; right; apply in_or_app; now right).
  assert (Vv : nth_error vp' v = Some (Some t)) by (rewrite (set_nth_get _ _ _ _ v Ev), Nat.eqb_refl; reflexivity).
  constructor.
  - rewrite Lv. apply C.
  - rewrite Li. apply C.
  - intros x Lx NI. rewrite (set_nth_get _ _ _ _ x Ev). destruct (Nat.eqb_spec v x) as [->|N]; [destruct NI; now left|]. apply (c_new _ _ _ _ _ _ C x Lx). intros X. apply NI. right. exact X.
  - intros x p Hx Ex. destruct Hx as [<-|Hx]; [rewrite Vv in Ex; injection Ex as <-; right; exact Pt|]. right. apply (Cl x); [exact Hx|]. rewrite <- (E x Hx). exact Ex.
  - split; [exact Vv|]. apply (pathv_ext vp vp' (t :: rest)); [|exact (c_path _ _ _ _ _ _ C)]. intros x Hx. apply E. unfold P. apply in_or_app. now left.
  - intros x Hx. apply in_app_or in Hx as [Hx|[<-|[]]]; [now apply (c_low _ _ _ _ _ _ C)|]. unfold ple, entry. cbn. lia.
  - intros u Hu. destruct (c_idx _ _ _ _ _ _ C u Hu) as (i & d & A & B & D). exists i, d. rewrite (IND u Hu). split; [exact A|]. split; [rewrite nth_error_app1; [exact B|apply nth_error_Some; congruence]|].
    apply (at_depth_ext vp vp' P); auto.
  - intros u i Hu Hi. rewrite (IND u Hu) in Hi. destruct (settle _ _ _ _ _ _ _ _ _ C Hu Hi) as (w & M & H). exists w. split; [exact M|]. left.
    apply (lcaval_ext vp vp' P u t w E Cl (Pf u Hu) Pt) in H.
    assert (NA : ~ anc vp' v u).
    { intros (k & K). destruct (up_ext vp vp' P E Cl k u (Pf u Hu)) as (X1 & X2). rewrite X1 in K. exact (NV (X2 v K)). }
    destruct H as [(a & d & -> & D & (B1 & B2 & B3))|(-> & H)].
    + left. exists a, d. split; [reflexivity|]. split; [exact D|]. split; [exact B1|]. split; [apply (anc_up _ _ _ _ Vv); right; exact B2|]. intros b H1 H2. apply (anc_up _ _ _ _ Vv) in H2 as [->|H2]; [destruct (NA H1)|auto].
    + right. split; [reflexivity|]. intros b (H1 & H2). apply (anc_up _ _ _ _ Vv) in H2 as [->|H2]; [exact (NA H1)|]. exact (H b (conj H1 H2)).
  - intros u x i j Hu Hx Hi Hj Lij. rewrite (IND u Hu) in Hi. rewrite (IND x Hx) in Hj. pose proof (idx_lt _ _ _ _ _ _ _ _ C Hx Hj). destruct (c_pair _ _ _ _ _ _ C u x i j Hu Hx Hi Hj Lij) as (w & M & H0). exists w.
    rewrite range_snoc by lia. split; [exact M|]. apply (lcaval_ext vp vp' P); auto.
Qed.

Lemma core_exit n t rest fin vp ind L ind' : core n (t :: rest) fin vp ind L -> NoDup ((t :: rest) ++ fin) ->
  set_nth ind t (Z.of_nat (length L)) = Some ind' -> core n rest (t :: fin) vp ind' (L ++ [entry rest t]).
Proof.
  intros C ND Ei. pose proof (set_nth_length _ _ _ _ Ei) as Li.
  assert (NT : forall u, In u fin -> t <> u) by (intros u Hu ->; cbn in ND; inversion ND as [|? ? X _]; apply X, in_or_app; now right).
  assert (IND : forall u, In u fin -> nth_error ind' u = nth_error ind u) by (intros u Hu; rewrite (set_nth_get _ _ _ _ u Ei); destruct (Nat.eqb_spec t u) as [E|_]; [destruct (NT u Hu E)|reflexivity]).
  assert (IT : nth_error ind' t = Some (Z.of_nat (length L))) by (rewrite (set_nth_get _ _ _ _ t Ei), Nat.eqb_refl; reflexivity).
  pose proof (pathv_depth vp rest t (c_path _ _ _ _ _ _ C)) as Dt.
  assert (PI : forall x, In x (rest ++ t :: fin) <-> In x ((t :: rest) ++ fin)) by (intros x; rewrite !in_app_iff; cbn; rewrite ?in_app_iff; tauto).
  assert (LT : lcaval vp t t (entry rest t)).
  { left. exists t, (length rest). split; [reflexivity|]. split; [exact Dt|]. split; [apply anc_refl|]. split; [apply anc_refl|auto]. }
  assert (NEXT : forall u w, lcaval vp u t w -> match rest with [] => True | t' :: r => lcaval vp u t' w \/ (anc vp t' u /\ ple (entry r t') w) end).
  { intros u w H. pose proof (c_path _ _ _ _ _ _ C) as P. destruct rest as [|t' r]; [exact I|]. cbn [pathv] in P. destruct P as (P & _).
    destruct H as [(a & d & -> & D & (B1 & B2 & B3))|(-> & H)].
    - apply (anc_up _ _ _ _ P) in B2 as B4. destruct B4 as [->|B4].
      + right. split; [eapply anc_trans; [|exact B1]; apply (anc_up _ _ _ _ P); right; apply anc_refl|]. rewrite (at_depth_fun _ _ _ _ D Dt). unfold ple, entry. cbn [length fst snd]. lia.
      + left. left. exists a, d. split; [reflexivity|]. split; [exact D|]. split; [exact B1|]. split; [exact B4|]. intros b H1 H2. apply B3; [exact H1|]. apply (anc_up _ _ _ _ P). now right.
    - left. right. split; [reflexivity|]. intros b (H1 & H2). apply (H b). split; [exact H1|]. apply (anc_up _ _ _ _ P). now right. }
  assert (LAST : skipn (length L) (L ++ [entry rest t]) = [entry rest t]) by (rewrite skipn_app, skipn_all, Nat.sub_diag; reflexivity).
  assert (MT : ismin (entry rest t) [entry rest t]) by (split; [now left|intros x [<-|[]]; apply ple_refl]).
  constructor.
  - apply C.
  - rewrite Li. apply C.
  - intros x Lx NI. apply (c_new _ _ _ _ _ _ C x Lx). now rewrite <- PI.
  - intros x p Hx Ex. apply PI. apply PI in Hx. exact (c_closed _ _ _ _ _ _ C x p Hx Ex).
  - exact (proj2 (c_path _ _ _ _ _ _ C)).
  - intros x Hx. apply in_app_or in Hx as [Hx|[<-|[]]]; [now apply (c_low _ _ _ _ _ _ C)|]. unfold ple, entry. cbn. lia.
  - intros u [<-|Hu].
    + exists (length L), (length rest). split; [exact IT|]. split; [|exact Dt]. rewrite nth_error_app2, Nat.sub_diag by lia. reflexivity.
    + destruct (c_idx _ _ _ _ _ _ C u Hu) as (i & d & A & B & D). exists i, d. rewrite (IND u Hu). split; [exact A|]. split; [rewrite nth_error_app1; [exact B|apply nth_error_Some; congruence]|exact D].
  - intros u i [<-|Hu] Hi.
    + rewrite IT in Hi. injection Hi as Hi. apply Nat2Z.inj in Hi as <-. rewrite LAST. exists (entry rest t). split; [exact MT|]. now apply NEXT.
    + rewrite (IND u Hu) in Hi. destruct (settle _ _ _ _ _ _ _ _ _ C Hu Hi) as (w & M & H). exists w. split; [exact M|]. now apply NEXT.
  - intros u x i j [<-|Hu] [<-|Hx] Hi Hj Lij.
    + rewrite IT in Hi, Hj. injection Hi as Hi. injection Hj as Hj. apply Nat2Z.inj in Hi, Hj. subst i j. rewrite LAST. replace (S (length L) - length L)%nat with 1%nat by lia. exists (entry rest t). auto.
    + rewrite IT in Hi. injection Hi as Hi. apply Nat2Z.inj in Hi as <-. rewrite (IND x Hx) in Hj. pose proof (idx_lt _ _ _ _ _ _ _ _ C Hx Hj). lia.
    + rewrite IT in Hj. injection Hj as Hj. apply Nat2Z.inj in Hj as <-. rewrite (IND u Hu) in Hi. destruct (settle _ _ _ _ _ _ _ _ _ C Hu Hi) as (w & M & H). exists w. split; [|exact H].
      rewrite firstn_all2; [exact M|]. rewrite skipn_length, app_length. cbn [length]. lia.
    + rewrite (IND u Hu) in Hi. rewrite (IND x Hx) in Hj. pose proof (idx_lt _ _ _ _ _ _ _ _ C Hx Hj). destruct (c_pair _ _ _ _ _ _ C u x i j Hu Hx Hi Hj Lij) as (w & M & H0). exists w. rewrite range_snoc by lia. auto.
Qed.

Lemma core_root n fin vp ind L o : core n [] fin vp ind L -> (o < n)%nat -> ~ In o fin -> core n [o] fin vp ind (L ++ [(-1, -1)]).
Proof.
  intros C Lo NO. pose proof (c_new _ _ _ _ _ _ C o Lo NO) as Ro. constructor; try apply C.
  - intros x Lx NI. apply (c_new _ _ _ _ _ _ C x Lx). intros X. apply NI. now right.
  - intros x p [<-|Hx] Ex; [rewrite Ro in Ex; discriminate|]. right. exact (c_closed _ _ _ _ _ _ C x p Hx Ex).
  - cbn [pathv]. auto.
  - intros x Hx. apply in_app_or in Hx as [Hx|[<-|[]]]; [now apply (c_low _ _ _ _ _ _ C)|apply ple_refl].
  - intros u Hu. destruct (c_idx _ _ _ _ _ _ C u Hu) as (i & d & A & B & D). exists i, d. split; [exact A|]. split; [rewrite nth_error_app1; [exact B|apply nth_error_Some; congruence]|exact D].
  - intros u i Hu Hi. pose proof (idx_lt _ _ _ _ _ _ _ _ C Hu Hi) as Li. exists (-1, -1). rewrite skipn_snoc by lia. destruct (c_now _ _ _ _ _ _ C u i Hu Hi) as (w & (M1 & M2) & _). split.
    + apply (ismin_snoc_new w); [split; assumption|]. apply (c_low _ _ _ _ _ _ C). rewrite <- (firstn_skipn i L). apply in_or_app. now right.
    + left. right. split; [reflexivity|]. intros b (H1 & H2). apply (anc_root _ _ _ Ro) in H2 as ->. destruct H1 as (k & K).
      destruct (up_ext vp vp (fun x => In x fin) (fun _ _ => eq_refl) (c_closed _ _ _ _ _ _ C) k u Hu) as (_ & X). exact (NO (X o K)).
  - intros u x i j Hu Hx Hi Hj Lij. pose proof (idx_lt _ _ _ _ _ _ _ _ C Hx Hj). rewrite range_snoc by lia. exact (c_pair _ _ _ _ _ _ C u x i j Hu Hx Hi Hj Lij).
Qed.
