(** Correctness of the Hungarian algorithm: the alternating tree. *)
From Coq Require Import List PeanoNat ZArith Lia Bool.
From Verif Require Import Lib HungModel HungSpec.
Import ListNotations.
Open Scope Z_scope.

Lemma upd_eq {A} (f : nat -> A) i v : upd f i v i = v.
Proof. unfold upd. rewrite Nat.eqb_refl. reflexivity. Qed.
Lemma upd_neq {A} (f : nat -> A) i v j : j <> i -> upd f i v j = f j.
Proof. intro N. unfold upd. destruct (Nat.eqb i j) eqn:E; [apply Nat.eqb_eq in E; congruence|reflexivity]. Qed.
Lemma guard_lt x n : (x < n)%nat -> guard (Nat.ltb x n) = Some tt.
Proof. intro H. unfold guard. rewrite (proj2 (Nat.ltb_lt x n) H). reflexivity. Qed.

Section Proofs.
  Variable n : nat.
  Variable c : nat -> nat -> Z.
  Notation V := (vertices n).
  Lemma in_V x : In x V <-> (x < n)%nat.
  Proof using. unfold vertices. rewrite in_seq. lia. Qed.

  Section Phase.
    (** the matching during one round; vertex k is the root *)
    Variables (xy yx : table) (k : nat).
    Record matching : Prop := {
      m_k : (k < n)%nat;
      m_iff : forall x y, (x < n)%nat -> (y < n)%nat -> (xy x = Some y <-> yx y = Some x);
      m_x : forall x y, (x < n)%nat -> xy x = Some y -> (y < n)%nat;
      m_y : forall x y, (y < n)%nat -> yx y = Some x -> (x < n)%nat;
      m_none : forall x, (x < n)%nat -> (xy x = None <-> (k <= x)%nat) }.
    Hypothesis M : matching.

    Definition tight (s : st) (x y : nat) : Prop := lx s x + ly s y = c x y.
    (** the way from a vertex of the tree to the root *)
    Fixpoint path (s : st) (l : list nat) : Prop :=
      match l with
      | [] => False
      | x :: r =>
        match r with
        | [] => x = k /\ prev s x = Root
        | x' :: _ => prev s x = From x' /\ (exists y, xy x = Some y /\ tight s x' y) /\ path s r
        end
      end.
    Definition way (s : st) (x : nat) (l : list nat) : Prop :=
      path s l /\ hd_error l = Some x /\ NoDup l /\ Forall (fun z => (z < n)%nat /\ inS s z = true) l.
    Record ph (s : st) : Prop := {
      p_feas : forall x y, (x < n)%nat -> (y < n)%nat -> c x y <= lx s x + ly s y;
      p_tight : forall x y, (x < n)%nat -> xy x = Some y -> tight s x y;
      p_S : forall x, (x < n)%nat -> (inS s x = true <-> x = k \/ exists y, (y < n)%nat /\ inT s y = true /\ yx y = Some x);
      p_T : forall y, (y < n)%nat -> inT s y = true -> exists x, yx y = Some x;
      p_way : forall x, (x < n)%nat -> inS s x = true -> exists l, way s x l;
      p_slack : forall y, (y < n)%nat -> inT s y = false ->
        (slackx s y < n)%nat /\ inS s (slackx s y) = true /\ slack s y = lx s (slackx s y) + ly s y - c (slackx s y) y /\
        forall x, (x < n)%nat -> inS s x = true -> slack s y <= lx s x + ly s y - c x y }.
    (** an exposed vertex that can be reached *)
    Definition exposed (s : st) (x y : nat) : Prop :=
      (x < n)%nat /\ (y < n)%nat /\ inS s x = true /\ yx y = None /\ tight s x y.

    Lemma new_vertex s y x2 : ph s -> (y < n)%nat -> inT s y = false -> yx y = Some x2 -> (x2 < n)%nat /\ inS s x2 = false.
    Proof using M.
      intros P Hy HT E. pose proof (m_y M x2 y Hy E) as H2. split; [exact H2|]. destruct (inS s x2) eqn:X; [|reflexivity]. exfalso.
      apply (m_iff M x2 y H2 Hy) in E. apply (p_S s P x2 H2) in X as [->|(y' & Hy' & T' & E')].
      - pose proof (proj2 (m_none M k H2) (le_n k)). congruence.
      - apply (m_iff M x2 y' H2 Hy') in E'. congruence.
    Qed.
    Lemma path_ext s s' v l : ~ In v l -> (forall x, x <> v -> prev s' x = prev s x) -> lx s' = lx s -> ly s' = ly s -> path s l -> path s' l.
    Proof using.
      intros N E1 E2 E3. induction l as [|x r IH]; [auto|]. intro P. assert (Nx : x <> v) by (intros ->; apply N; left; reflexivity).
      assert (Nr : ~ In v r) by (intro X; apply N; right; exact X). cbn [path] in *. rewrite (E1 x Nx). destruct r as [|x' r]; [exact P|].
      destruct P as (P1 & (y & P2 & P3) & P4). split; [exact P1|]. split; [|apply IH; assumption]. exists y. split; [exact P2|]. unfold tight in *. rewrite E2, E3. exact P3.
    Qed.
    (** a matched vertex that is reached over a tight edge joins the tree *)
    Lemma join s x y x2 : ph s -> (x < n)%nat -> (y < n)%nat -> inS s x = true -> inT s y = false -> tight s x y -> yx y = Some x2 ->
      exists s', add_to_tree n c (set_T s y) x2 x = Some s' /\ ph s' /\ (forall z, inS s z = true -> inS s' z = true) /\
        inT s' = upd (inT s) y true /\ inS s' x2 = true /\ (x2 < n)%nat /\ lx s' = lx s /\ ly s' = ly s.
    Proof using M.
      intros P Hx Hy HS HT TI E. destruct (new_vertex s y x2 P Hy HT E) as [H2 NS]. unfold add_to_tree. rewrite (guard_lt x2 n H2). cbn [obind].
      eexists. split; [reflexivity|]. cbn [set_T inS inT lx ly slack slackx prev].
      assert (UP : forall z, inS s z = true -> upd (inS s) x2 true z = true).
      { intros z Hz. unfold upd. destruct (Nat.eqb x2 z); [reflexivity|exact Hz]. }
      split; [|split; [exact UP|]; split; [reflexivity|]; split; [apply upd_eq|]; split; [exact H2|]; split; reflexivity].
      assert (N2 : forall z, upd (inS s) x2 true z = true -> z = x2 \/ inS s z = true).
      { intros z Hz. destruct (Nat.eq_dec z x2) as [->|N]; [left; reflexivity|]. rewrite (upd_neq _ _ _ _ N) in Hz. right. exact Hz. }
      constructor; cbn [inS inT lx ly slack slackx prev].
      - apply (p_feas s P).
      - apply (p_tight s P).
      - intros z Hz. split.
        + intro X. apply N2 in X as [->|X]; [right; exists y; split; [exact Hy|]; split; [apply upd_eq|exact E]|].
          apply (p_S s P z Hz) in X as [->|(y' & A & B & C)]; [left; reflexivity|]. right. exists y'. split; [exact A|]. split; [|exact C].
          unfold upd. destruct (Nat.eqb y y'); [reflexivity|exact B].
        + intros [->|(y' & A & B & C)]; [apply UP; apply (p_S s P k (m_k M)); left; reflexivity|].
          destruct (Nat.eq_dec y' y) as [->|N]; [rewrite E in C; injection C as ->; apply upd_eq|]. rewrite (upd_neq _ _ _ _ N) in B.
          apply UP. apply (p_S s P z Hz). right. exists y'. auto.
      - intros y' Hy' T'. destruct (Nat.eq_dec y' y) as [->|N]; [exists x2; exact E|]. rewrite (upd_neq _ _ _ _ N) in T'. apply (p_T s P y' Hy' T').
      - assert (OLD : forall z, (z < n)%nat -> inS s z = true -> exists l, way s z l /\ ~ In x2 l).
        { intros z Hz Sz. destruct (p_way s P z Hz Sz) as (l & W). exists l. split; [exact W|]. destruct W as (_ & _ & _ & F).
          intro X. rewrite Forall_forall in F. destruct (F x2 X) as [_ Y]. congruence. }
        assert (KEEP : forall s' l z, (forall v, v <> x2 -> prev s' v = prev s v) -> lx s' = lx s -> ly s' = ly s -> (forall v, inS s v = true -> inS s' v = true) ->
           way s z l -> ~ In x2 l -> way s' z l).
        { intros s' l z A B C D (W1 & W2 & W3 & W4) N. split; [apply (path_ext s s' x2 l N A B C W1)|]. split; [exact W2|]. split; [exact W3|].
          eapply Forall_impl; [|exact W4]. intros v [V1 V2]. split; [exact V1|]. apply D. exact V2. }
        intros z Hz Sz. apply N2 in Sz as [->|Sz].
        + destruct (OLD x Hx HS) as (l & W & NI). exists (x2 :: l).
          assert (W' := KEEP (St (upd (inS s) x2 true) (upd (inT s) y true) (lx s) (ly s)
                 (fun y0 => if lx s x2 + ly s y0 - c x2 y0 <? slack s y0 then lx s x2 + ly s y0 - c x2 y0 else slack s y0)
                 (fun y0 => if lx s x2 + ly s y0 - c x2 y0 <? slack s y0 then x2 else slackx s y0) (upd (prev s) x2 (From x))) l x).
          cbn [prev lx ly inS] in W'. specialize (W' (fun v N => upd_neq _ _ _ _ N) eq_refl eq_refl UP W NI). destruct W' as (W1 & W2 & W3 & W4).
          destruct l as [|x0 l]; [destruct W1|]. injection W2 as ->. split; [|split; [reflexivity|]; split; [constructor; assumption|]].
          * cbn [path prev]. split; [apply upd_eq|]. split; [|exact W1]. exists y. split; [apply (m_iff M x2 y H2 Hy); exact E|]. exact TI.
          * constructor; [split; [exact H2|apply upd_eq]|exact W4].
        + destruct (OLD z Hz Sz) as (l & W & NI). exists l. apply KEEP; auto. intros v N. apply (upd_neq _ _ _ _ N).
      - intros y' Hy' T'. destruct (Nat.eq_dec y' y) as [->|N]; [rewrite upd_eq in T'; discriminate|]. rewrite (upd_neq _ _ _ _ N) in T'.
        destruct (p_slack s P y' Hy' T') as (A & B & C & D). destruct (lx s x2 + ly s y' - c x2 y' <? slack s y') eqn:L.
        + apply Z.ltb_lt in L. split; [exact H2|]. split; [apply upd_eq|]. split; [reflexivity|]. intros z Hz Sz. apply N2 in Sz as [->|Sz]; [lia|].
          specialize (D z Hz Sz). lia.
        + apply Z.ltb_ge in L. split; [exact A|]. split; [apply UP; exact B|]. split; [exact C|]. intros z Hz Sz. apply N2 in Sz as [->|Sz]; [lia|]. apply (D z Hz Sz).
    Qed.

    Definition cnt (s : st) : nat := length (filter (inT s) V).
    Lemma filter_upd (f : nat -> bool) y l : f y = false -> NoDup l -> In y l -> length (filter (upd f y true) l) = S (length (filter f l)).
    Proof using.
      intros E ND. induction ND as [|x l N1 N2 IH]; [intros []|]. cbn [filter]. intros [->|H].
      - rewrite upd_eq, E. cbn [length]. do 2 f_equal. apply filter_ext_in. intros z Hz. apply upd_neq. congruence.
      - assert (NE : x <> y) by congruence. rewrite (upd_neq _ _ _ _ NE). destruct (f x); cbn [length]; rewrite (IH H); reflexivity.
    Qed.
    Lemma cnt_upd s s' y : (y < n)%nat -> inT s y = false -> inT s' = upd (inT s) y true -> cnt s' = S (cnt s).
    Proof using. intros Hy E U. unfold cnt. rewrite U. apply filter_upd; [exact E|apply seq_NoDup|apply in_V; exact Hy]. Qed.
    Lemma cnt_le s : (cnt s <= n)%nat.
    Proof using.
      unfold cnt. rewrite <- (seq_length n 0) at 2. unfold vertices. induction (seq 0 n) as [|x l IH]; [cbn; lia|]. cbn [filter length].
      destruct (inT s x); cbn [length]; lia.
    Qed.
    Definition queue_ok (s : st) (q : list nat) : Prop := Forall (fun x => (x < n)%nat /\ inS s x = true) q.
    Lemma queue_mono s s' q : (forall z, inS s z = true -> inS s' z = true) -> queue_ok s q -> queue_ok s' q.
    Proof using. intro H. apply Forall_impl. intros x [A B]. auto. Qed.

    Lemma scan_ok x : (x < n)%nat -> forall ys q s, Forall (fun y => (y < n)%nat) ys -> ph s -> inS s x = true -> queue_ok s q ->
      exists s' q' r, scan n c yx x ys q s = Some (s', q', r) /\ ph s' /\ inS s' x = true /\ queue_ok s' q' /\ (cnt s <= cnt s')%nat /\
        (cnt s' + length q = cnt s + length q')%nat /\ match r with Some y => exposed s' x y | None => True end.
    Proof using M.
      intros Hx ys. induction ys as [|y ys IH]; intros q s FA P Sx Q; cbn [scan].
      - exists s, q, None. repeat (split; [first [reflexivity|assumption|lia]|]). exact Logic.I.
      - inversion FA as [|? ? Hy FA']; subst. destruct (negb (inT s y) && (c x y =? lx s x + ly s y)) eqn:C; [|apply (IH q s FA' P Sx Q)].
        apply andb_true_iff in C as [C1 C2]. apply negb_true_iff in C1. apply Z.eqb_eq in C2.
        assert (TI : tight s x y) by (symmetry; exact C2). destruct (yx y) as [x2|] eqn:E.
        + destruct (join s x y x2 P Hx Hy Sx C1 TI E) as (s1 & -> & P1 & UP & T1 & S2 & L2 & _). cbn [obind].
          destruct (IH (q ++ [x2]) s1 FA' P1 (UP x Sx)) as (s2 & q2 & r & R1 & R2 & R3 & R4 & R5 & R6 & R7).
          { apply Forall_app. split; [apply (queue_mono s s1 q UP Q)|]. constructor; [auto|constructor]. }
          pose proof (cnt_upd s s1 y Hy C1 T1) as CU. rewrite app_length in R6. cbn [length] in R6.
          exists s2, q2, r. repeat (split; [first [assumption|lia]|]). exact R7.
        + exists s, q, (Some y). repeat (split; [first [reflexivity|assumption|lia]|]). repeat split; assumption.
    Qed.
    Lemma V_below : Forall (fun y => (y < n)%nat) V.
    Proof using. apply Forall_forall. intros y. apply in_V. Qed.
    Lemma bfs_ok : forall fuel q s, (n + length q < fuel + cnt s)%nat -> ph s -> queue_ok s q ->
      exists s' r, bfs n c fuel yx q s = Some (s', r) /\ ph s' /\ (cnt s <= cnt s')%nat /\ match r with Some (x, y) => exposed s' x y | None => True end.
    Proof using M.
      induction fuel as [|fuel IH]; intros q s L P Q; [pose proof (cnt_le s); lia|]. cbn [bfs]. destruct q as [|x q].
      - exists s, None. auto.
      - inversion Q as [|? ? [Hx Sx] Q']; subst. rewrite (guard_lt x n Hx). cbn [obind].
        destruct (scan_ok x Hx V q s V_below P Sx Q') as (s1 & q1 & r & -> & P1 & S1 & Q1 & C1 & C2 & R). cbn [obind]. destruct r as [y|].
        + exists s1, (Some (x, y)). auto.
        + cbn [length] in L. destruct (IH q1 s1) as (s2 & r2 & E2 & P2 & C3 & R2); [lia|exact P1|exact Q1|]. exists s2, r2. repeat (split; [first [assumption|lia]|]). exact R2.
    Qed.

    (** there is always a vertex outside T *)
    Lemma outside s : ph s -> exists y, (y < n)%nat /\ inT s y = false.
    Proof using M.
      intro P. destruct (find (fun y => negb (inT s y)) V) as [y|] eqn:F.
      - apply find_some in F as [F1 F2]. apply in_V in F1. apply negb_true_iff in F2. exists y. auto.
      - exfalso. pose proof (find_none _ _ F) as ALL. cbn beta in ALL.
        set (g := fun y => match yx y with Some x => x | None => O end).
        assert (G : forall y, (y < n)%nat -> yx y = Some (g y) /\ (g y < k)%nat).
        { intros y Hy. specialize (ALL y (proj2 (in_V y) Hy)). apply negb_false_iff in ALL. destruct (p_T s P y Hy ALL) as [x E]. unfold g. rewrite E. split; [reflexivity|].
          pose proof (m_y M x y Hy E) as Hx. apply (m_iff M x y Hx Hy) in E. destruct (Nat.lt_ge_cases x k) as [L|L]; [exact L|].
          apply (m_none M x Hx) in L. congruence. }
        assert (ND : NoDup (map g V)).
        { assert (Gi : forall a b, In a V -> In b V -> g a = g b -> a = b).
          { intros a b Ha Hb E. apply in_V in Ha, Hb. destruct (G a Ha) as [A1 A2], (G b Hb) as [B1 B2]. rewrite E in A1.
            pose proof (m_k M). apply (m_iff M (g b) a) in A1; [|lia|exact Ha]. apply (m_iff M (g b) b) in B1; [|lia|exact Hb]. congruence. }
          clear -Gi. assert (NV : NoDup V) by apply seq_NoDup. induction NV as [|x l N1 N2 IH]; [constructor|]. cbn [map]. constructor.
          - rewrite in_map_iff. intros (z & E & Hz). apply N1. rewrite <- (Gi z x); [exact Hz|right; exact Hz|left; reflexivity|exact E].
          - apply IH. intros a b Ha Hb. apply Gi; right; assumption. }
        assert (INC : incl (map g V) (seq 0 k)).
        { intros z Hz. apply in_map_iff in Hz as (y & <- & Hy). apply in_V in Hy. destruct (G y Hy) as [_ L]. apply in_seq. lia. }
        pose proof (NoDup_incl_length ND INC) as L. rewrite map_length, seq_length in L. unfold vertices in L. rewrite seq_length in L. pose proof (m_k M). lia.
    Qed.
    Lemma fold_min s l d : let r := fold_left (fun d y => if inT s y then d else Z.min d (slack s y)) l d in
      r <= d /\ (forall y, In y l -> inT s y = false -> r <= slack s y) /\ (r = d \/ exists y, In y l /\ inT s y = false /\ r = slack s y).
    Proof using.
      revert d. induction l as [|x l IH]; intro d; cbn [fold_left].
      - split; [lia|]. split; [intros y []|left; reflexivity].
      - destruct (IH (if inT s x then d else Z.min d (slack s x))) as (A & B & C). set (r := fold_left _ l _) in *. destruct (inT s x) eqn:T.
        + split; [exact A|]. split; [intros y [->|H] E; [congruence|auto]|]. destruct C as [C|(y & C1 & C2)]; [left; exact C|right; exists y; split; [right; exact C1|exact C2]].
        + split; [lia|]. split; [intros y [->|H] E; [lia|auto]|]. destruct C as [C|(y & C1 & C2)]; [|right; exists y; split; [right; exact C1|exact C2]].
          destruct (Z.min_spec d (slack s x)) as [[_ Y]|[_ Y]]; rewrite Y in C; [left; exact C|]. right. exists x. split; [left; reflexivity|]. split; assumption.
    Qed.
    Lemma delta_ok s : ph s -> (forall y, (y < n)%nat -> inT s y = false -> delta n s <= slack s y) /\
      exists y, (y < n)%nat /\ inT s y = false /\ delta n s = slack s y.
    Proof using M.
      intro P. unfold delta. destruct (outside s P) as (y0 & H0 & T0). destruct (find (fun y => negb (inT s y)) V) as [y1|] eqn:F.
      - apply find_some in F as [F1 F2]. apply negb_true_iff in F2. destruct (fold_min s V (slack s y1)) as (A & B & C). split; [intros y Hy; apply B; apply in_V; exact Hy|].
        destruct C as [C|(y & C1 & C2 & C3)]; [exists y1|exists y]; rewrite <- in_V; auto.
      - exfalso. pose proof (find_none _ _ F y0 (proj2 (in_V y0) H0)) as X. cbn beta in X. rewrite T0 in X. discriminate.
    Qed.
    Lemma relabel_ok s : ph s -> ph (relabel n s) /\ exists y, (y < n)%nat /\ inT (relabel n s) y = false /\ slack (relabel n s) y = 0.
    Proof using M.
      intro P. destruct (delta_ok s P) as [D1 (y0 & H0 & T0 & D2)]. set (d := delta n s) in *.
      assert (D0 : 0 <= d). { destruct (p_slack s P y0 H0 T0) as (A & B & C & _). pose proof (p_feas s P _ y0 A H0). rewrite D2. lia. }
      assert (PAIR : forall x y, (x < n)%nat -> xy x = Some y -> inS s x = inT s y).
      { intros x y Hx E. pose proof (m_x M x y Hx E) as Hy. assert (E' := E). apply (m_iff M x y Hx Hy) in E'. destruct (inT s y) eqn:T.
        - apply (p_S s P x Hx). right. exists y. auto.
        - destruct (inS s x) eqn:X; [|reflexivity]. destruct (new_vertex s y x P Hy T E') as [_ Y]. congruence. }
      split; [|exists y0; cbn [relabel inT slack]; fold d; rewrite T0; split; [exact H0|]; split; [reflexivity|lia]].
      constructor; cbn [relabel inS inT lx ly slack slackx prev]; fold d.
      - intros x y Hx Hy. pose proof (p_feas s P x y Hx Hy). destruct (inS s x) eqn:X, (inT s y) eqn:T; try lia.
        destruct (p_slack s P y Hy T) as (_ & _ & _ & L). specialize (L x Hx X). specialize (D1 y Hy T). lia.
      - intros x y Hx E. pose proof (p_tight s P x y Hx E) as TI. unfold tight in *. cbn [relabel lx ly]. fold d. rewrite (PAIR x y Hx E). destruct (inT s y); lia.
      - apply (p_S s P).
      - apply (p_T s P).
      - intros x Hx Sx. destruct (p_way s P x Hx Sx) as (l & W1 & W2 & W3 & W4). exists l. split; [|split; [exact W2|split; [exact W3|exact W4]]].
        clear W2 W3. induction l as [|z l IH]; [exact W1|]. inversion W4 as [|? ? [Z1 Z2] W5]; subst. cbn [path] in *. cbn [relabel prev]. destruct l as [|z' l]; [exact W1|].
        destruct W1 as (A & (y & B1 & B2) & C). split; [exact A|]. split; [|apply IH; assumption]. exists y. split; [exact B1|]. inversion W5 as [|? ? [Z3 Z4] _]; subst.
        unfold tight in *. cbn [relabel lx ly]. fold d. rewrite Z4. rewrite <- (PAIR z y Z1 B1), Z2. lia.
      - intros y Hy T. rewrite T. destruct (p_slack s P y Hy T) as (A & B & C & L). split; [exact A|]. split; [exact B|]. rewrite B. split; [lia|].
        intros x Hx X. rewrite X. specialize (L x Hx X). lia.
    Qed.

    Lemma grow_ok : forall ys q s, Forall (fun y => (y < n)%nat) ys -> ph s -> queue_ok s q ->
      exists s' q' r, grow n c yx ys q s = Some (s', q', r) /\ ph s' /\ queue_ok s' q' /\ (cnt s <= cnt s')%nat /\
        match r with
        | Some (x, y) => exposed s' x y
        | None => (exists y, In y ys /\ inT s y = false /\ slack s y = 0) -> (cnt s < cnt s')%nat
        end.
    Proof using M.
      induction ys as [|y ys IH]; intros q s FA P Q; cbn [grow].
      - exists s, q, None. repeat (split; [first [reflexivity|assumption|lia]|]). intros (y & [] & _).
      - inversion FA as [|? ? Hy FA']; subst. destruct (negb (inT s y) && (slack s y =? 0)) eqn:C.
        + apply andb_true_iff in C as [C1 C2]. apply negb_true_iff in C1. apply Z.eqb_eq in C2. destruct (p_slack s P y Hy C1) as (A & B & D & _).
          assert (TI : tight s (slackx s y) y) by (unfold tight; lia). destruct (yx y) as [x2|] eqn:E.
          * destruct (new_vertex s y x2 P Hy C1 E) as [H2 N2]. rewrite (guard_lt x2 n H2). cbn [obind]. change (inS (set_T s y) x2) with (inS s x2). change (slackx (set_T s y) y) with (slackx s y). rewrite N2. cbn [negb].
            destruct (join s (slackx s y) y x2 P A Hy B C1 TI E) as (s1 & E1 & P1 & UP & T1 & S2 & L2 & _). rewrite E1. cbn [obind].
            destruct (IH (q ++ [x2]) s1 FA' P1) as (s2 & q2 & r & R1 & R2 & R3 & R4 & R5).
            { apply Forall_app. split; [apply (queue_mono s s1 q UP Q)|]. constructor; [auto|constructor]. }
            pose proof (cnt_upd s s1 y Hy C1 T1) as CU. exists s2, q2, r. repeat (split; [first [assumption|lia]|]). destruct r as [[? ?]|]; [exact R5|]. intros _. lia.
          * exists s, q, (Some (slackx s y, y)). repeat (split; [first [reflexivity|assumption|lia]|]). repeat split; assumption.
        + destruct (IH q s FA' P Q) as (s2 & q2 & r & R1 & R2 & R3 & R4 & R5). exists s2, q2, r. repeat (split; [assumption|]).
          destruct r as [[? ?]|]; [exact R5|]. intros (y' & [<-|H'] & T' & Z'); [rewrite T', Z' in C; discriminate|]. apply R5. exists y'. auto.
    Qed.
    Lemma search_ok : forall fuel q s, (n < fuel + cnt s)%nat -> ph s -> queue_ok s q ->
      exists s' x y, search n c fuel yx q s = Some (s', x, y) /\ ph s' /\ exposed s' x y.
    Proof using M.
      induction fuel as [|fuel IH]; intros q s L P Q; [pose proof (cnt_le s); lia|]. cbn [search].
      destruct (bfs_ok (S (n + length q)) q s) as (s1 & r & -> & P1 & C1 & R); [lia|exact P|exact Q|]. cbn [obind]. destruct r as [[x y]|].
      - exists s1, x, y. auto.
      - destruct (relabel_ok s1 P1) as [P2 (y0 & H0 & T0 & Z0)].
        destruct (grow_ok V [] (relabel n s1) V_below P2) as (s3 & q3 & r3 & -> & P3 & Q3 & C3 & R3); [constructor|]. cbn [obind].
        assert (CR : cnt (relabel n s1) = cnt s1) by reflexivity. destruct r3 as [[x y]|].
        + exists s3, x, y. auto.
        + assert (X : (cnt (relabel n s1) < cnt s3)%nat) by (apply R3; exists y0; split; [apply in_V; exact H0|auto]).
          apply IH; [lia|exact P3|exact Q3].
    Qed.
  End Phase.
End Proofs.
