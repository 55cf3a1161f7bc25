(** Link-cut trees: rotations and splaying. *)
From Verif Require Import Lib LctModel LctSpec.
From Coq Require Import Arith Lia Permutation.
Open Scope nat_scope.

Inductive tree := Lf | Nd (l : tree) (x : nat) (r : tree).
Fixpoint io (t : tree) : list nat := match t with Lf => [] | Nd l x r => io l ++ x :: io r end.
Definition top (t : tree) : nat := match t with Lf => 0 | Nd _ x _ => x end.
Inductive at_depth (x : nat) : tree -> nat -> Prop :=
| at_here l r : at_depth x (Nd l x r) 0
| at_left l y r d : at_depth x l d -> at_depth x (Nd l y r) (S d)
| at_right l y r d : at_depth x r d -> at_depth x (Nd l y r) (S d).
Inductive rot (x : nat) : tree -> tree -> Prop :=
| rot_r a b y c : rot x (Nd (Nd a x b) y c) (Nd a x (Nd b y c))
| rot_l a b y c : rot x (Nd a y (Nd b x c)) (Nd (Nd a y b) x c)
| rot_in_l l l' y r : rot x l l' -> rot x (Nd l y r) (Nd l' y r)
| rot_in_r l y r r' : rot x r r' -> rot x (Nd l y r) (Nd l y r').
Lemma rot_io x t t' : rot x t t' -> io t' = io t.
Proof. induction 1; cbn [io]; rewrite ?IHrot, <- ?app_assoc; reflexivity. Qed.
Lemma at_in x t d : at_depth x t d -> In x (io t).
Proof. induction 1; cbn [io]; apply in_or_app; [right; now left|now left|right; now right]. Qed.
Lemma in_at x t : In x (io t) -> exists d, at_depth x t d.
Proof.
  induction t as [|l IHl y r IHr]; cbn [io]; [intros []|]. intros H. apply in_app_or in H. destruct H as [H|[->|H]].
  - destruct (IHl H) as (d & D). exists (S d). now apply at_left.
  - exists 0. apply at_here.
  - destruct (IHr H) as (d & D). exists (S d). now apply at_right.
Qed.
Lemma at_len x t d : at_depth x t d -> d < length (io t).
Proof. induction 1; cbn [io]; rewrite app_length; cbn [length]; lia. Qed.
Lemma rot_up x t d : at_depth x t (S d) -> exists t', rot x t t' /\ at_depth x t' d.
Proof.
  revert t. induction d as [|d IH]; intros t H; inversion H as [|l y r d' A E1 E2|l y r d' A E1 E2]; subst.
  - inversion A; subst. eexists. split; [apply rot_r|]. apply at_here.
  - inversion A; subst. eexists. split; [apply rot_l|]. apply at_here.
  - destruct (IH _ A) as (t' & R & A'). exists (Nd t' y r). split; [now apply rot_in_l|now apply at_left].
  - destruct (IH _ A) as (t' & R & A'). exists (Nd l y t'). split; [now apply rot_in_r|now apply at_right].
Qed.
Lemma top_in t : t <> Lf -> In (top t) (io t).
Proof. destruct t; [congruence|]. intros _. cbn. apply in_or_app. right. now left. Qed.
Lemma rot_nl x t t' : rot x t t' -> t <> Lf /\ t' <> Lf. Proof. destruct 1; split; discriminate. Qed.

(** ** lineages and chains *)
Fixpoint chain (F : nat -> nat) (p : nat) (l : list nat) : Prop := match l with [] => True | v :: l => F v = p /\ chain F v l end.
Lemma lin_det F v l : lineage F v l -> forall l', lineage F v l' -> l = l'.
Proof. induction 1 as [|v l V0 L IH]; intros l' L'; inversion L'; subst; try congruence. f_equal. now apply IH. Qed.
Lemma lin_suffix F v l w : lineage F v l -> In w l -> exists a b, l = a ++ w :: b /\ lineage F w (w :: b).
Proof.
  induction 1 as [|v l V0 L IH]; [intros []|]. intros [->|J]; [exists [], l; split; [reflexivity|now constructor]|].
  destruct (IH J) as (a & b & -> & Lw). exists (v :: a), b. split; [reflexivity|exact Lw].
Qed.
Lemma lin_nodup F v l : lineage F v l -> NoDup l.
Proof.
  induction 1 as [|v l V0 L IH]; constructor; [|exact IH]. intros J. destruct (lin_suffix _ _ _ _ L J) as (a & b & E & Lv).
  assert (E' := lin_det _ _ _ Lv _ (lin_node _ _ _ V0 L)). inversion E' as [E2]. rewrite E2 in E. assert (length l = length (a ++ v :: l)) by congruence. rewrite app_length in H. cbn in H. lia.
Qed.
Lemma lin_nz F v l : lineage F v l -> ~ In 0 l.
Proof. induction 1 as [|v l V0 L IH]; [intros []|]. intros [J|J]; [congruence|contradiction]. Qed.
Lemma lin_in F v l : lineage F v l -> v <> 0 -> exists r, l = v :: r /\ lineage F (F v) r.
Proof. destruct 1; [congruence|]. intros _. eauto. Qed.
Lemma lin_bound F n v l : (forall w, 1 <= w <= n -> F w <= n) -> lineage F v l -> v <= n -> forall w, In w l -> 1 <= w <= n.
Proof. intros B. induction 1 as [|v l V0 L IH]; [intros _ w []|]. intros Hv w [<-|J]; [lia|]. apply IH; [apply B; lia|exact J]. Qed.
Lemma lin_length F n v l : (forall w, 1 <= w <= n -> F w <= n) -> lineage F v l -> v <= n -> length l <= n.
Proof.
  intros B L Hv. rewrite <- (seq_length n 1). apply NoDup_incl_length; [now apply (lin_nodup F v)|]. intros w J. apply in_seq. pose proof (lin_bound _ _ _ _ B L Hv w J). lia.
Qed.
Lemma chain_app F p a v b : chain F p (a ++ v :: b) <-> chain F p (a ++ [v]) /\ chain F v b.
Proof. revert p. induction a as [|x a IH]; intros p; cbn [app chain]; [tauto|]. rewrite IH. tauto. Qed.
Lemma chain_lin F p a v lp : chain F p (a ++ [v]) -> (forall w, In w (a ++ [v]) -> w <> 0) -> lineage F p lp -> lineage F v (v :: rev a ++ lp).
Proof.
  revert p lp. induction a as [|x a IH]; intros p lp C N L; cbn [app chain rev] in *.
  - destruct C as (E & _). constructor; [apply N; now left|]. now rewrite E.
  - destruct C as (E & C). rewrite <- app_assoc. apply (IH x); [exact C|intros w J; apply N; now right|]. cbn. constructor; [apply N; now left|]. now rewrite E.
Qed.
Lemma chain_ext F G p l : (forall v, In v l -> G v = F v) -> chain F p l -> chain G p l.
Proof. revert p. induction l as [|v l IH]; intros p E; cbn [chain]; [trivial|]. intros (A & B). split; [rewrite E; [exact A|now left]|]. apply IH; [|exact B]. intros w J. apply E. now right. Qed.
Lemma lin_ext F G v l : (forall w, In w l -> G w = F w) -> lineage F v l -> lineage G v l.
Proof. intros E. induction 1 as [|v l V0 L IH]; constructor; [exact V0|]. rewrite E by now left. apply IH. intros w J. apply E. now right. Qed.

Section H.
  Context {T : Type} (f_up : T -> T -> T -> T) (id : T).
  Notation heap := (LctModel.heap T).
  Implicit Types (h : heap).
  (** ** reading after writes *)
  Lemma par_par h i p j : npar (set_par h i p j) = if j =? i then p else npar (h j). Proof. unfold set_par, put. now destruct (j =? i). Qed.
  Lemma lf_par h i p j : nlf (set_par h i p j) = nlf (h j). Proof. unfold set_par, put. destruct (Nat.eqb_spec j i); [now subst|reflexivity]. Qed.
  Lemma rt_par h i p j : nrt (set_par h i p j) = nrt (h j). Proof. unfold set_par, put. destruct (Nat.eqb_spec j i); [now subst|reflexivity]. Qed.
  Lemma sz_par h i p j : nsz (set_par h i p j) = nsz (h j). Proof. unfold set_par, put. destruct (Nat.eqb_spec j i); [now subst|reflexivity]. Qed.
  Lemma vl_par h i p j : nvl (set_par h i p j) = nvl (h j). Proof. unfold set_par, put. destruct (Nat.eqb_spec j i); [now subst|reflexivity]. Qed.
  Lemma par_lf h i p j : npar (set_lf h i p j) = npar (h j). Proof. unfold set_lf, put. destruct (Nat.eqb_spec j i); [now subst|reflexivity]. Qed.
  Lemma lf_lf h i p j : nlf (set_lf h i p j) = if j =? i then p else nlf (h j). Proof. unfold set_lf, put. now destruct (j =? i). Qed.
  Lemma rt_lf h i p j : nrt (set_lf h i p j) = nrt (h j). Proof. unfold set_lf, put. destruct (Nat.eqb_spec j i); [now subst|reflexivity]. Qed.
  Lemma sz_lf h i p j : nsz (set_lf h i p j) = nsz (h j). Proof. unfold set_lf, put. destruct (Nat.eqb_spec j i); [now subst|reflexivity]. Qed.
  Lemma vl_lf h i p j : nvl (set_lf h i p j) = nvl (h j). Proof. unfold set_lf, put. destruct (Nat.eqb_spec j i); [now subst|reflexivity]. Qed.
  Lemma par_rt h i p j : npar (set_rt h i p j) = npar (h j). Proof. unfold set_rt, put. destruct (Nat.eqb_spec j i); [now subst|reflexivity]. Qed.
  Lemma lf_rt h i p j : nlf (set_rt h i p j) = nlf (h j). Proof. unfold set_rt, put. destruct (Nat.eqb_spec j i); [now subst|reflexivity]. Qed.
  Lemma rt_rt h i p j : nrt (set_rt h i p j) = if j =? i then p else nrt (h j). Proof. unfold set_rt, put. now destruct (j =? i). Qed.
  Lemma sz_rt h i p j : nsz (set_rt h i p j) = nsz (h j). Proof. unfold set_rt, put. destruct (Nat.eqb_spec j i); [now subst|reflexivity]. Qed.
  Lemma vl_rt h i p j : nvl (set_rt h i p j) = nvl (h j). Proof. unfold set_rt, put. destruct (Nat.eqb_spec j i); [now subst|reflexivity]. Qed.
  Lemma put_same h i x : put h i x i = x. Proof. unfold put. now rewrite Nat.eqb_refl. Qed.
  Lemma put_other h i x j : j <> i -> put h i x j = h j. Proof. intros H. unfold put. now rewrite (proj2 (Nat.eqb_neq _ _) H). Qed.

  Lemma con_par h x q cl cr j : npar (connect h x q cl cr j) = if negb (x =? 0) && (j =? x) then q else npar (h j).
  Proof. unfold connect. destruct (x =? 0), cl, cr; cbn [negb andb]; rewrite ?par_rt, ?par_lf, ?par_par; reflexivity. Qed.
  Lemma con_lf h x q cl cr j : nlf (connect h x q cl cr j) = if cl && (j =? q) then x else nlf (h j).
  Proof. unfold connect. destruct (x =? 0), cl, cr; cbn [negb andb]; rewrite ?lf_rt, ?lf_lf, ?lf_par; reflexivity. Qed.
  Lemma con_rt h x q cl cr j : nrt (connect h x q cl cr j) = if cr && (j =? q) then x else nrt (h j).
  Proof. unfold connect. destruct (x =? 0), cl, cr; cbn [negb andb]; rewrite ?rt_rt, ?rt_lf, ?rt_par; reflexivity. Qed.
  Lemma con_sz h x q cl cr j : nsz (connect h x q cl cr j) = nsz (h j).
  Proof. unfold connect. destruct (x =? 0), cl, cr; rewrite ?sz_rt, ?sz_lf, ?sz_par; reflexivity. Qed.
  Lemma con_vl h x q cl cr j : nvl (connect h x q cl cr j) = nvl (h j).
  Proof. unfold connect. destruct (x =? 0), cl, cr; rewrite ?vl_rt, ?vl_lf, ?vl_par; reflexivity. Qed.
  Lemma upd_eq h x j : x <> 0 -> nlf (h x) <> x -> nrt (h x) <> x -> update f_up h x j =
    if j =? x then mk_node (npar (h x)) (nlf (h x)) (nrt (h x)) (nsz (h (nlf (h x))) + nsz (h (nrt (h x))) + 1) (f_up (nvl (h x)) (nvl (h (nlf (h x)))) (nvl (h (nrt (h x))))) else h j.
  Proof.
    intros X0 A B. unfold update. rewrite (proj2 (Nat.eqb_neq _ _) X0). unfold set_vl. destruct (Nat.eqb_spec j x) as [->|N].
    - rewrite put_same. unfold set_sz. rewrite !put_same. cbn [npar nlf nrt nsz nvl]. rewrite !put_other by assumption. reflexivity.
    - rewrite put_other by exact N. unfold set_sz. now rewrite put_other.
  Qed.

  (** ** trees in memory *)
  Context {V M : Type} (own : T -> V) (agg : T -> M) (elt : V -> M) (unit_ : M) (op_ : M -> M -> M).
  Hypothesis Assoc : forall a b c, op_ a (op_ b c) = op_ (op_ a b) c.
  Hypothesis UnitL : forall a, op_ unit_ a = a.
  Hypothesis UnitR : forall a, op_ a unit_ = a.
  Hypothesis Own : forall v l r, own (f_up v l r) = own v.
  Hypothesis Agg : forall v l r, agg (f_up v l r) = op_ (agg l) (op_ (elt (own v)) (agg r)).
  Hypothesis AggId : agg id = unit_.
  Variable (O : nat -> V).
  Notation tot := (path_total elt unit_ op_ O).
  Lemma tot_app a b : tot (a ++ b) = op_ (tot a) (tot b).
  Proof. unfold path_total. induction a as [|x a IH]; cbn [map fold_right app]; [now rewrite UnitL|]. rewrite IH. apply Assoc. Qed.
  Fixpoint ist h (t : tree) (p : nat) : Prop :=
    match t with
    | Lf => True
    | Nd l x r => x <> 0 /\ npar (h x) = p /\ nlf (h x) = top l /\ nrt (h x) = top r /\ nsz (h x) = length (io t) /\ own (nvl (h x)) = O x /\ ist h l x /\ ist h r x
    end.
  Fixpoint vok h (t : tree) : Prop := match t with Lf => True | Nd l x r => agg (nvl (h x)) = tot (io t) /\ vok h l /\ vok h r end.
  Definition vch h (t : tree) : Prop := match t with Lf => True | Nd l x r => vok h l /\ vok h r end.
  Definition nil_ok h : Prop := nlf (h 0) = 0 /\ nrt (h 0) = 0 /\ nsz (h 0) = 0 /\ nvl (h 0) = id.
  Lemma ist_ext h h' t : forall p, (forall j, In j (io t) -> h' j = h j) -> ist h t p -> ist h' t p.
  Proof.
    induction t as [|l IHl x r IHr]; intros p E; [trivial|]. cbn [ist]. rewrite (E x) by (cbn [io]; apply in_or_app; right; now left). intros (A & B & C & D & F & G & H1 & H2). repeat split; try assumption.
    - apply IHl; [|exact H1]. intros j J. apply E. cbn [io]. apply in_or_app. now left.
    - apply IHr; [|exact H2]. intros j J. apply E. cbn [io]. apply in_or_app. right. now right.
  Qed.
  Lemma vok_ext h h' t : (forall j, In j (io t) -> nvl (h' j) = nvl (h j)) -> vok h t -> vok h' t.
  Proof.
    induction t as [|l IHl x r IHr]; intros E; [trivial|]. cbn [vok]. rewrite (E x) by (cbn [io]; apply in_or_app; right; now left). intros (A & B & C). split; [exact A|]. split.
    - apply IHl; [|exact B]. intros j J. apply E. cbn [io]. apply in_or_app. now left.
    - apply IHr; [|exact C]. intros j J. apply E. cbn [io]. apply in_or_app. right. now right.
  Qed.
  Lemma vch_ext h h' t : (forall j, In j (io t) -> nvl (h' j) = nvl (h j)) -> vch h t -> vch h' t.
  Proof.
    destruct t as [|l x r]; intros E; [trivial|]. intros (B & C). split.
    - apply (vok_ext h); [|exact B]. intros j J. apply E. cbn [io]. apply in_or_app. now left.
    - apply (vok_ext h); [|exact C]. intros j J. apply E. cbn [io]. apply in_or_app. right. now right.
  Qed.
  Lemma vok_vch h t : vok h t -> vch h t. Proof. destruct t; [trivial|]. cbn. tauto. Qed.
  Lemma ist_nz h t p : ist h t p -> ~ In 0 (io t).
  Proof. revert p. induction t as [|l IHl x r IHr]; intros p; cbn [ist io]; [tauto|]. intros (A & _ & _ & _ & _ & _ & H1 & H2) J. apply in_app_or in J. destruct J as [J|[J|J]]; [now apply (IHl x)|congruence|now apply (IHr x)]. Qed.
  Lemma ist_top_sz h t p : nil_ok h -> ist h t p -> nsz (h (top t)) = length (io t).
  Proof. destruct t; cbn [ist top]; [intros N _; apply N|]. tauto. Qed.
  Lemma vok_top h t : nil_ok h -> vok h t -> agg (nvl (h (top t))) = tot (io t).
  Proof. destruct t; cbn [vok top]; [intros (_ & _ & _ & ->) _; exact AggId|]. tauto. Qed.
  Lemma reparent h h' t p p' : (forall j, In j (io t) -> j <> top t -> h' j = h j) -> (t <> Lf -> h' (top t) = mk_node p' (nlf (h (top t))) (nrt (h (top t))) (nsz (h (top t))) (nvl (h (top t)))) -> NoDup (io t) -> ist h t p -> ist h' t p'.
  Proof.
    destruct t as [|l x r]; [trivial|]. intros E1 E2 ND. cbn [ist top] in *. rewrite E2 by discriminate. cbn [npar nlf nrt nsz nvl]. intros (A & B & C & D & F & G & H1 & H2). cbn [io] in *. apply NoDup_remove in ND. destruct ND as (ND & NX). repeat split; try assumption.
    - apply (ist_ext h); [|exact H1]. intros j J. apply E1; [apply in_or_app; now left|]. intros ->. apply NX. apply in_or_app. now left.
    - apply (ist_ext h); [|exact H2]. intros j J. apply E1; [apply in_or_app; right; now right|]. intros ->. apply NX. apply in_or_app. now right.
  Qed.

  (** ** rotation *)
  Ltac nn := repeat match goal with
    | |- context[?a =? ?a] => rewrite (Nat.eqb_refl a)
    | H : ?a <> ?b |- context[?a =? ?b] => rewrite (proj2 (Nat.eqb_neq a b) H)
    | H : ?a <> ?b |- context[?b =? ?a] => rewrite (proj2 (Nat.eqb_neq b a) (not_eq_sym H))
    end; cbn [andb negb].
  (** the memory after x, the left (s = true) or right child of y with inner child b, is rotated over y, whose parent is p *)
  Lemma rotate_fields h x y p b (s : bool) : x <> 0 -> y <> 0 -> x <> y -> p <> x -> p <> y -> b <> x -> b <> y ->
    (p <> 0 -> b <> p) -> npar (h x) = y -> npar (h y) = p -> (x =? nlf (h y)) = s -> (if s then nlf (h y) = x /\ nrt (h x) = b /\ nlf (h x) <> x /\ nrt (h y) <> y /\ nrt (h y) <> x /\ nlf (h x) <> y else nrt (h y) = x /\ nlf (h x) = b /\ nrt (h x) <> x /\ nlf (h y) <> y /\ nlf (h y) <> x /\ nrt (h x) <> y) ->
    let h' := rotate f_up h x in
    let c := if s then nrt (h y) else nlf (h y) in let a := if s then nlf (h x) else nrt (h x) in
    h' y = mk_node x (if s then b else c) (if s then c else b) (nsz (h b) + nsz (h c) + 1) (f_up (nvl (h y)) (nvl (h (if s then b else c))) (nvl (h (if s then c else b)))) /\
    h' x = mk_node p (if s then a else y) (if s then y else a) (nsz (h a) + (nsz (h b) + nsz (h c) + 1) + 1) (f_up (nvl (h x)) (if s then nvl (h a) else nvl (h' y)) (if s then nvl (h' y) else nvl (h a))) /\
    (b <> 0 -> h' b = mk_node y (nlf (h b)) (nrt (h b)) (nsz (h b)) (nvl (h b))) /\
    h' p = mk_node (npar (h p)) (if nlf (h p) =? y then x else nlf (h p)) (if nrt (h p) =? y then x else nrt (h p)) (nsz (h p)) (nvl (h p)) /\
    (forall j, j <> x -> j <> y -> (b <> 0 -> j <> b) -> j <> p -> h' j = h j).
  Proof.
    intros X0 Y0 XY PX PY BX BY BP Px Py Hs Sh h' c a.
    assert (node_eq : forall u w : node T, npar u = npar w -> nlf u = nlf w -> nrt u = nrt w -> nsz u = nsz w -> nvl u = nvl w -> u = w) by (intros [] []; cbn; congruence).
    set (h1 := connect h b y s (negb s)). set (h2 := connect h1 y x (negb s) s). set (h3 := connect h2 x p (y =? nlf (h2 p)) (y =? nrt (h2 p))).
    assert (E' : h' = update f_up (update f_up h3 y) x).
    { unfold h', rotate. rewrite Px, Py, Hs. replace (if s then nrt (h x) else nlf (h x)) with b by (destruct s; symmetry; apply Sh). reflexivity. }
    assert (P3 : forall j, npar (h3 j) = if j =? x then p else if j =? y then x else if negb (b =? 0) && (j =? b) then y else npar (h j)).
    { intros j. unfold h3, h2, h1. rewrite !con_par. nn. reflexivity. }
    assert (L2 : forall j, nlf (h2 j) = if negb s && (j =? x) then y else if s && (j =? y) then b else nlf (h j)) by (intros j; unfold h2, h1; rewrite !con_lf; reflexivity).
    assert (R2 : forall j, nrt (h2 j) = if s && (j =? x) then y else if negb s && (j =? y) then b else nrt (h j)) by (intros j; unfold h2, h1; rewrite !con_rt; reflexivity).
    assert (L3 : forall j, nlf (h3 j) = if (y =? nlf (h p)) && (j =? p) then x else nlf (h2 j)).
    { intros j. unfold h3. rewrite con_lf. rewrite (L2 p). nn. rewrite !Bool.andb_false_r. reflexivity. }
    assert (R3 : forall j, nrt (h3 j) = if (y =? nrt (h p)) && (j =? p) then x else nrt (h2 j)).
    { intros j. unfold h3. rewrite con_rt. rewrite (R2 p). nn. rewrite !Bool.andb_false_r. reflexivity. }
    assert (S3 : forall j, nsz (h3 j) = nsz (h j)) by (intros j; unfold h3, h2, h1; now rewrite !con_sz).
    assert (V3 : forall j, nvl (h3 j) = nvl (h j)) by (intros j; unfold h3, h2, h1; now rewrite !con_vl).
    clearbody h3 h2.
    assert (Ly : nlf (h3 y) = if s then b else c) by (rewrite L3; nn; rewrite Bool.andb_false_r, L2; nn; rewrite Bool.andb_false_r; destruct s; reflexivity).
    assert (Ry : nrt (h3 y) = if s then c else b) by (rewrite R3; nn; rewrite Bool.andb_false_r, R2; nn; rewrite Bool.andb_false_r; destruct s; reflexivity).
    assert (Lx : nlf (h3 x) = if s then a else y) by (rewrite L3; nn; rewrite Bool.andb_false_r, L2; nn; destruct s; reflexivity).
    assert (Rx : nrt (h3 x) = if s then y else a) by (rewrite R3; nn; rewrite Bool.andb_false_r, R2; nn; destruct s; reflexivity).
    assert (Cy : c <> y /\ c <> x) by (unfold c; destruct s; tauto). assert (Ay : a <> x /\ a <> y) by (unfold a; destruct s; tauto).
    assert (U1 : forall j, update f_up h3 y j = if j =? y then mk_node x (if s then b else c) (if s then c else b) (nsz (h b) + nsz (h c) + 1) (f_up (nvl (h y)) (nvl (h (if s then b else c))) (nvl (h (if s then c else b)))) else h3 j).
    { intros j. rewrite upd_eq; [|exact Y0| |].
      - destruct (j =? y); [|reflexivity]. rewrite P3. nn. rewrite Ly, Ry, !S3, !V3. f_equal. destruct s; lia.
      - rewrite Ly. destruct s; tauto.
      - rewrite Ry. destruct s; tauto. }
    assert (Oth : forall j, j <> x -> j <> y -> h' j = h3 j).
    { intros j J1 J2. rewrite E', upd_eq; [| exact X0 | |]; rewrite ?U1; nn; [reflexivity| |]; [rewrite Lx|rewrite Rx]; destruct s; tauto || congruence. }
    assert (Xh : forall j, j = x \/ j = y -> h' j = if j =? x then mk_node p (if s then a else y) (if s then y else a) (nsz (h a) + (nsz (h b) + nsz (h c) + 1) + 1) (f_up (nvl (h x)) (if s then nvl (h a) else nvl (update f_up h3 y y)) (if s then nvl (update f_up h3 y y) else nvl (h a))) else update f_up h3 y j).
    { intros j _. rewrite E', upd_eq; [| exact X0 | |].
      - destruct (j =? x); [|reflexivity]. destruct Ay as (A1 & A2). rewrite (U1 x). nn. rewrite Lx, Rx, P3, V3. nn.
        destruct s; rewrite (U1 a); nn; rewrite S3, V3, (U1 y); nn; cbn [nsz nvl]; f_equal; lia.
      - rewrite U1. nn. rewrite Lx. destruct s; tauto || congruence.
      - rewrite U1. nn. rewrite Rx. destruct s; tauto || congruence. }
    assert (Hy : h' y = mk_node x (if s then b else c) (if s then c else b) (nsz (h b) + nsz (h c) + 1) (f_up (nvl (h y)) (nvl (h (if s then b else c))) (nvl (h (if s then c else b))))).
    { rewrite Xh by now right. nn. rewrite U1. nn. reflexivity. }
    split; [exact Hy|]. split; [|split; [|split]].
    - rewrite (Xh x) by now left. nn. rewrite Hy. rewrite (U1 y). nn. reflexivity.
    - intros B0. rewrite Oth by assumption. assert (BP' : b <> p) by (destruct (Nat.eq_dec p 0); [congruence|auto]). apply node_eq; cbn [npar nlf nrt nsz nvl].
      + rewrite P3. nn. reflexivity.
      + rewrite L3. nn. rewrite Bool.andb_false_r, L2. nn. now rewrite !Bool.andb_false_r.
      + rewrite R3. nn. rewrite Bool.andb_false_r, R2. nn. now rewrite !Bool.andb_false_r.
      + apply S3.
      + apply V3.
    - rewrite Oth by assumption. apply node_eq; cbn [npar nlf nrt nsz nvl].
      + rewrite P3. nn. destruct (Nat.eqb_spec b 0) as [B0|B0]; cbn [negb andb]; [reflexivity|]. destruct (Nat.eqb_spec p b) as [E|E]; [|reflexivity]. exfalso. apply BP; congruence.
      + rewrite L3. nn. rewrite Bool.andb_true_r, L2. nn. rewrite !Bool.andb_false_r, (Nat.eqb_sym y). reflexivity.
      + rewrite R3. nn. rewrite Bool.andb_true_r, R2. nn. rewrite !Bool.andb_false_r, (Nat.eqb_sym y). reflexivity.
      + apply S3.
      + apply V3.
    - intros j J1 J2 J3 J4. rewrite Oth by assumption. apply node_eq.
      + rewrite P3. nn. destruct (Nat.eqb_spec b 0) as [B0|B0]; cbn [negb andb]; [reflexivity|]. specialize (J3 B0). nn. reflexivity.
      + rewrite L3. nn. rewrite Bool.andb_false_r, L2. nn. now rewrite !Bool.andb_false_r.
      + rewrite R3. nn. rewrite Bool.andb_false_r, R2. nn. now rewrite !Bool.andb_false_r.
      + apply S3.
      + apply V3.
  Qed.

  Lemma nd_app {A} (a b : list A) : NoDup (a ++ b) <-> NoDup a /\ NoDup b /\ (forall v, In v a -> ~ In v b).
  Proof.
    induction a as [|x a IH]; cbn [app]; [split; [intros H; repeat split; [constructor|exact H|intros v []]|tauto]|].
    rewrite !NoDup_cons_iff, IH, in_app_iff. split.
    - intros (A1 & A2 & A3 & A4). repeat split; try tauto. intros v [<-|Hv]; [tauto|auto].
    - intros ((A1 & A2) & A3 & A4). repeat split; try assumption; [intros [E|E]; [tauto|]; apply (A4 x); [now left|exact E]|]. intros v Hv. apply A4. now right.
  Qed.
  Lemma top_neq h t p v : ist h t p -> v <> 0 -> ~ In v (io t) -> top t <> v.
  Proof. destruct t; cbn [top]; [congruence|]. intros _ _ H ->. apply H. cbn. apply in_or_app. right. now left. Qed.
  Lemma top_in' t : top t <> 0 -> In (top t) (io t). Proof. destruct t; [now cbn|]. intros _. now apply top_in. Qed.
  Lemma top_nz h t p : ist h t p -> t <> Lf -> top t <> 0. Proof. destruct t; [congruence|]. cbn. tauto. Qed.
  Lemma rotate_ok x t t' : rot x t t' -> forall h p, nil_ok h -> ist h t p -> NoDup (io t) -> ~ In p (io t) ->
    let h' := rotate f_up h x in
    ist h' t' p /\ (vch h t -> vch h' t') /\ (vok h t -> vok h' t') /\
    h' p = mk_node (npar (h p)) (if nlf (h p) =? top t then top t' else nlf (h p)) (if nrt (h p) =? top t then top t' else nrt (h p)) (nsz (h p)) (nvl (h p)) /\
    (forall j, ~ In j (io t) -> j <> p -> h' j = h j).
  Proof.
    induction 1 as [a b y c|a b y c|l l' z r R IH|l z r r' R IH]; intros h p Nil I ND NP h'.
    - (* x is the left child *)
      cbn [ist] in I. destruct I as (Y0 & Py & Ly & Ry & Sy & Oy & (X0 & Px & Lx & Rx & Sx & Ox & Ia & Ib) & Ic). cbn [top] in Ly.
      cbn [io] in ND, NP. rewrite !nd_app, !NoDup_cons_iff in ND. destruct ND as ((Na & (Xb & Nb) & Dab) & (Yc & Nc) & Dl).
      assert (XY : x <> y) by (intros ->; apply (Dl y); [apply in_or_app; right; now left|now left]).
      assert (PX : p <> x) by (intros ->; apply NP; apply in_or_app; left; apply in_or_app; right; now left).
      assert (PY : p <> y) by (intros ->; apply NP; apply in_or_app; right; now left).
      assert (Xa : ~ In x (io a)) by (intros H; apply (Dab x H); now left).
      assert (Xc : ~ In x (io c)) by (intros H; apply (Dl x); [apply in_or_app; right; now left|now right]).
      assert (Ya : ~ In y (io a)) by (intros H; apply (Dl y); [apply in_or_app; now left|now left]).
      assert (Yb : ~ In y (io b)) by (intros H; apply (Dl y); [apply in_or_app; right; now right|now left]).
      assert (Pa : ~ In p (io a)) by (intros H; apply NP; apply in_or_app; left; apply in_or_app; now left).
      assert (Pb : ~ In p (io b)) by (intros H; apply NP; apply in_or_app; left; apply in_or_app; right; now right).
      assert (Pc : ~ In p (io c)) by (intros H; apply NP; apply in_or_app; right; now right).
      assert (Da : forall j, In j (io a) -> ~ In j (io b)) by (intros j J1 J2; apply (Dab j J1); now right).
      assert (Dc : forall j, In j (io c) -> ~ In j (io b)) by (intros j J1 J2; apply (Dl j); [apply in_or_app; right; now right|now right]).
      destruct (rotate_fields h x y p (top b) true) as (Fy & Fx & Fb & Fp & Fo); auto; try (now apply (top_neq h b x)).
      { intros P0. now apply (top_neq h b x). }
      { rewrite Ly. apply Nat.eqb_refl. }
      { rewrite Ly, Lx, Rx, Ry. repeat split; [apply (top_neq h a x)|apply (top_neq h c y)|apply (top_neq h c y)|apply (top_neq h a x)]; assumption. }
      cbv iota beta zeta in Fy, Fx. fold h' in Fy, Fx, Fb, Fp, Fo. rewrite Lx, Ry in *.
      assert (Ea : forall j, In j (io a) -> h' j = h j).
      { intros j J. apply Fo; [congruence|congruence| |congruence]. intros B0 ->. apply (Da _ J). now apply top_in'. }
      assert (Ec : forall j, In j (io c) -> h' j = h j).
      { intros j J. apply Fo; [congruence|congruence| |congruence]. intros B0 ->. apply (Dc _ J). now apply top_in'. }
      assert (Eb : forall j, In j (io b) -> j <> top b -> h' j = h j).
      { intros j J J'. apply Fo; [congruence|congruence|auto|congruence]. }
      assert (Evb : forall j, In j (io b) -> nvl (h' j) = nvl (h j)).
      { intros j J. destruct (Nat.eq_dec j (top b)) as [->|N]; [|now rewrite Eb]. rewrite Fb; [reflexivity|]. intros E. apply (ist_nz h b x Ib). now rewrite <- E. }
      assert (Ib' : ist h' b y).
      { apply (reparent h h' b x); [exact Eb| |exact Nb|exact Ib]. intros B0. apply Fb. now apply (top_nz h b x). }
      assert (V1 : vok h a /\ vok h b /\ vok h c -> vok h' (Nd a x (Nd b y c))).
      { intros (Va & Vb & Vc). assert (Vy : agg (nvl (h' y)) = tot (io (Nd b y c))).
        { rewrite Fy. cbn [nvl]. rewrite Agg, Oy, (vok_top h b Nil Vb), (vok_top h c Nil Vc). cbn [io]. now rewrite tot_app. }
        cbn [vok]. split; [|split; [|split; [exact Vy|split]]].
        - rewrite Fx. cbn [nvl]. rewrite Agg, Ox, Vy, (vok_top h a Nil Va). change (io (Nd a x (Nd b y c))) with (io a ++ x :: io (Nd b y c)). now rewrite tot_app.
        - apply (vok_ext h); [|exact Va]. intros j J. now rewrite Ea.
        - apply (vok_ext h); [exact Evb|exact Vb].
        - apply (vok_ext h); [|exact Vc]. intros j J. now rewrite Ec. }
      split; [|split; [|split; [|split]]].
      + cbn [ist]. rewrite Fx, Fy. cbn [npar nlf nrt nsz nvl top]. rewrite !Own. cbn [io]. rewrite !app_length. cbn [length]. rewrite ?app_length. cbn [length]. rewrite (ist_top_sz h a x Nil Ia), (ist_top_sz h b x Nil Ib), (ist_top_sz h c y Nil Ic).
        repeat split; try assumption; try lia; [apply (ist_ext h); assumption|apply (ist_ext h); assumption].
      + intros ((_ & Va & Vb) & Vc). apply vok_vch, V1. tauto.
      + intros (_ & (_ & Va & Vb) & Vc). apply V1. tauto.
      + exact Fp.
      + intros j J JP. cbn [io] in J. apply Fo.
        * intros ->. apply J. apply in_or_app. left. apply in_or_app. right. now left.
        * intros ->. apply J. apply in_or_app. right. now left.
        * intros B0 ->. apply J. apply in_or_app. left. apply in_or_app. right. right. now apply top_in'.
        * exact JP.
    - (* x is the right child *)
      cbn [ist] in I. destruct I as (Y0 & Py & Ly & Ry & Sy & Oy & Ia & (X0 & Px & Lx & Rx & Sx & Ox & Ib & Ic)). cbn [top] in Ry.
      cbn [io] in ND, NP. rewrite nd_app, NoDup_cons_iff, nd_app, NoDup_cons_iff in ND. destruct ND as (Na & (Yr & Nb & (Xc & Nc) & Dbc) & Dl).
      assert (XY : x <> y) by (intros ->; apply Yr; apply in_or_app; right; now left).
      assert (PX : p <> x) by (intros ->; apply NP; apply in_or_app; right; right; apply in_or_app; right; now left).
      assert (PY : p <> y) by (intros ->; apply NP; apply in_or_app; right; now left).
      assert (Xa : ~ In x (io a)) by (intros H; apply (Dl x H); right; apply in_or_app; right; now left).
      assert (Xb : ~ In x (io b)) by (intros H; apply (Dbc x H); now left).
      assert (Ya : ~ In y (io a)) by (intros H; apply (Dl y H); now left).
      assert (Yb : ~ In y (io b)) by (intros H; apply Yr; apply in_or_app; now left).
      assert (Yc : ~ In y (io c)) by (intros H; apply Yr; apply in_or_app; right; now right).
      assert (Pa : ~ In p (io a)) by (intros H; apply NP; apply in_or_app; now left).
      assert (Pb : ~ In p (io b)) by (intros H; apply NP; apply in_or_app; right; right; apply in_or_app; now left).
      assert (Pc : ~ In p (io c)) by (intros H; apply NP; apply in_or_app; right; right; apply in_or_app; right; now right).
      assert (Da : forall j, In j (io a) -> ~ In j (io b)) by (intros j J1 J2; apply (Dl j J1); right; apply in_or_app; now left).
      assert (Dc : forall j, In j (io c) -> ~ In j (io b)) by (intros j J1 J2; apply (Dbc j J2); now right).
      destruct (rotate_fields h x y p (top b) false) as (Fy & Fx & Fb & Fp & Fo); auto; try (now apply (top_neq h b x)).
      { intros P0. now apply (top_neq h b x). }
      { rewrite Ly. apply Nat.eqb_neq. apply not_eq_sym. now apply (top_neq h a y). }
      { rewrite Ly, Lx, Rx, Ry. repeat split; [apply (top_neq h c x)|apply (top_neq h a y)|apply (top_neq h a y)|apply (top_neq h c x)]; assumption. }
      cbv iota beta zeta in Fy, Fx. fold h' in Fy, Fx, Fb, Fp, Fo. rewrite Rx, Ly in *.
      assert (Ea : forall j, In j (io a) -> h' j = h j).
      { intros j J. apply Fo; [congruence|congruence| |congruence]. intros B0 ->. apply (Da _ J). now apply top_in'. }
      assert (Ec : forall j, In j (io c) -> h' j = h j).
      { intros j J. apply Fo; [congruence|congruence| |congruence]. intros B0 ->. apply (Dc _ J). now apply top_in'. }
      assert (Eb : forall j, In j (io b) -> j <> top b -> h' j = h j).
      { intros j J J'. apply Fo; [congruence|congruence|auto|congruence]. }
      assert (Evb : forall j, In j (io b) -> nvl (h' j) = nvl (h j)).
      { intros j J. destruct (Nat.eq_dec j (top b)) as [->|N]; [|now rewrite Eb]. rewrite Fb; [reflexivity|]. intros E. apply (ist_nz h b x Ib). now rewrite <- E. }
      assert (Ib' : ist h' b y).
      { apply (reparent h h' b x); [exact Eb| |exact Nb|exact Ib]. intros B0. apply Fb. now apply (top_nz h b x). }
      assert (V1 : vok h a /\ vok h b /\ vok h c -> vok h' (Nd (Nd a y b) x c)).
      { intros (Va & Vb & Vc). assert (Vy : agg (nvl (h' y)) = tot (io (Nd a y b))).
        { rewrite Fy. cbn [nvl]. rewrite Agg, Oy, (vok_top h b Nil Vb), (vok_top h a Nil Va). cbn [io]. now rewrite tot_app. }
        cbn [vok]. split; [|split; [split; [exact Vy|split]|]].
        - rewrite Fx. cbn [nvl]. rewrite Agg, Ox, Vy, (vok_top h c Nil Vc). change (io (Nd (Nd a y b) x c)) with (io (Nd a y b) ++ x :: io c). now rewrite tot_app.
        - apply (vok_ext h); [|exact Va]. intros j J. now rewrite Ea.
        - apply (vok_ext h); [exact Evb|exact Vb].
        - apply (vok_ext h); [|exact Vc]. intros j J. now rewrite Ec. }
      split; [|split; [|split; [|split]]].
      + cbn [ist]. rewrite Fx, Fy. cbn [npar nlf nrt nsz nvl top]. rewrite !Own. cbn [io]. rewrite !app_length. cbn [length]. rewrite ?app_length. cbn [length]. rewrite (ist_top_sz h a y Nil Ia), (ist_top_sz h b x Nil Ib), (ist_top_sz h c x Nil Ic).
        repeat split; try assumption; try lia; [apply (ist_ext h); assumption|apply (ist_ext h); assumption].
      + intros (Va & (_ & Vb & Vc)). apply vok_vch, V1. tauto.
      + intros (_ & Va & (_ & Vb & Vc)). apply V1. tauto.
      + exact Fp.
      + intros j J JP. cbn [io] in J. apply Fo.
        * intros ->. apply J. apply in_or_app. right. right. apply in_or_app. right. now left.
        * intros ->. apply J. apply in_or_app. right. now left.
        * intros B0 ->. apply J. apply in_or_app. right. right. apply in_or_app. left. now apply top_in'.
        * exact JP.
    - (* inside the left subtree *)
      cbn [ist] in I. destruct I as (Z0 & Pz & Lz & Rz & Sz & Oz & Il & Ir). cbn [io] in ND, NP. apply nd_app in ND. destruct ND as (Nl & Nzr & D). apply NoDup_cons_iff in Nzr. destruct Nzr as (Zr & Nr).
      assert (Zl : ~ In z (io l)) by (intros J; apply (D z J); now left).
      destruct (IH h z Nil Il Nl Zl) as (I' & Vc & Vk & Ez & Eo). fold h' in I', Vc, Vk, Ez, Eo.
      pose proof (rot_nl _ _ _ R) as (Tl & Tl'). assert (Il' := top_in l Tl).
      assert (PZ : p <> z) by (intros ->; apply NP; apply in_or_app; right; now left).
      assert (Er : forall j, In j (io r) -> h' j = h j).
      { intros j J. apply Eo; [intros J'; apply (D j J'); now right|congruence]. }
      assert (Ez' : h' z = mk_node p (top l') (top r) (nsz (h z)) (nvl (h z))).
      { rewrite Ez, Lz, Rz, Pz, Nat.eqb_refl. f_equal. destruct (Nat.eqb_spec (top r) (top l)) as [E|E]; [|reflexivity]. exfalso. apply (D (top l) Il'). right. rewrite <- E. apply top_in'. rewrite E. intros E0. apply (ist_nz h l z Il). now rewrite <- E0. }
      assert (Iol : io l' = io l) by now apply (rot_io x). assert (Pl : ~ In p (io l)) by (intros J; apply NP; apply in_or_app; now left).
      assert (Vr : vok h r -> vok h' r) by (apply vok_ext; intros j J; now rewrite Er).
      split; [|split; [|split; [|split]]].
      + cbn [ist io]. rewrite Ez'. cbn [npar nlf nrt nsz nvl]. rewrite Iol. repeat split; try assumption. apply (ist_ext h); assumption.
      + intros (V1 & V2). split; auto.
      + cbn [vok io]. rewrite Ez'. cbn [nvl]. rewrite Iol. intros (V0 & V1 & V2). auto.
      + rewrite Eo by assumption. cbn [top]. destruct (h p) as [q1 q2 q3 q4 q5]. cbn [npar nlf nrt nsz nvl]. f_equal; [destruct (Nat.eqb_spec q2 z)|destruct (Nat.eqb_spec q3 z)]; congruence.
      + intros j J JP. cbn [io] in J. apply Eo; [intros J'; apply J; apply in_or_app; now left|]. intros ->. apply J. apply in_or_app. right. now left.
    - (* inside the right subtree *)
      cbn [ist] in I. destruct I as (Z0 & Pz & Lz & Rz & Sz & Oz & Il & Ir). cbn [io] in ND, NP. apply nd_app in ND. destruct ND as (Nl & Nzr & D). apply NoDup_cons_iff in Nzr. destruct Nzr as (Zr & Nr).
      destruct (IH h z Nil Ir Nr Zr) as (I' & Vc & Vk & Ez & Eo). fold h' in I', Vc, Vk, Ez, Eo.
      pose proof (rot_nl _ _ _ R) as (Tr & Tr'). assert (Ir' := top_in r Tr).
      assert (PZ : p <> z) by (intros ->; apply NP; apply in_or_app; right; now left).
      assert (Zl : ~ In z (io l)) by (intros J; apply (D z J); now left).
      assert (El : forall j, In j (io l) -> h' j = h j).
      { intros j J. apply Eo; [intros J'; apply (D j J); now right|congruence]. }
      assert (Ez' : h' z = mk_node p (top l) (top r') (nsz (h z)) (nvl (h z))).
      { rewrite Ez, Lz, Rz, Pz, Nat.eqb_refl. f_equal. destruct (Nat.eqb_spec (top l) (top r)) as [E|E]; [|reflexivity]. exfalso. apply (D (top r)); [|now right]. rewrite <- E. apply top_in'. rewrite E. intros E0. apply (ist_nz h r z Ir). now rewrite <- E0. }
      assert (Ior : io r' = io r) by now apply (rot_io x). assert (Pr : ~ In p (io r)) by (intros J; apply NP; apply in_or_app; right; now right).
      assert (Vl : vok h l -> vok h' l) by (apply vok_ext; intros j J; now rewrite El).
      split; [|split; [|split; [|split]]].
      + cbn [ist io]. rewrite Ez'. cbn [npar nlf nrt nsz nvl]. rewrite Ior. repeat split; try assumption. apply (ist_ext h); assumption.
      + intros (V1 & V2). split; auto.
      + cbn [vok io]. rewrite Ez'. cbn [nvl]. rewrite Ior. intros (V0 & V1 & V2). auto.
      + rewrite Eo by assumption. cbn [top]. destruct (h p) as [q1 q2 q3 q4 q5]. cbn [npar nlf nrt nsz nvl]. f_equal; [destruct (Nat.eqb_spec q2 z)|destruct (Nat.eqb_spec q3 z)]; congruence.
      + intros j J JP. cbn [io] in J. apply Eo; [intros J'; apply J; apply in_or_app; right; now right|]. intros ->. apply J. apply in_or_app. right. now left.
  Qed.

  (** ** splaying *)
  Lemma not_root_ h y t d : at_depth y t (S d) -> forall p, ist h t p -> is_root h y = false.
  Proof.
    revert t. induction d as [|d IH]; intros t H p I; inversion H as [|l z r d' A E1 E2|l z r d' A E1 E2]; subst; cbn [ist] in I; destruct I as (Z0 & Pz & Lz & Rz & Sz & Oz & Il & Ir).
    - inversion A; subst. cbn [ist] in Il. destruct Il as (_ & P & _). unfold is_root. rewrite P, Lz. cbn [top]. now rewrite Nat.eqb_refl.
    - inversion A; subst. cbn [ist] in Ir. destruct Ir as (_ & P & _). unfold is_root. rewrite P, Rz. cbn [top]. rewrite Nat.eqb_refl. apply Bool.andb_false_r.
    - now apply (IH l A z).
    - now apply (IH r A z).
  Qed.
  Lemma parent_at h x t d : at_depth x t (S d) -> forall p, ist h t p -> at_depth (npar (h x)) t d.
  Proof.
    revert t. induction d as [|d IH]; intros t H p I; inversion H as [|l z r d' A E1 E2|l z r d' A E1 E2]; subst; cbn [ist] in I; destruct I as (Z0 & Pz & Lz & Rz & Sz & Oz & Il & Ir).
    - inversion A; subst. cbn [ist] in Il. destruct Il as (_ & P & _). rewrite P. apply at_here.
    - inversion A; subst. cbn [ist] in Ir. destruct Ir as (_ & P & _). rewrite P. apply at_here.
    - apply at_left. now apply (IH l A z).
    - apply at_right. now apply (IH r A z).
  Qed.
  Definition outer h p t : Prop := forall v, In v (io t) -> nlf (h p) <> v /\ nrt (h p) <> v.
  Lemma root_ h x t p : at_depth x t 0 -> ist h t p -> outer h p t -> is_root h x = true.
  Proof.
    intros A I P. inversion A; subst. cbn [ist] in I. destruct I as (_ & E & _). unfold is_root. rewrite E. destruct (P x) as (P1 & P2); [cbn; apply in_or_app; right; now left|].
    rewrite (Nat.eqb_sym x), (Nat.eqb_sym x), (proj2 (Nat.eqb_neq _ _) P1), (proj2 (Nat.eqb_neq _ _) P2). reflexivity.
  Qed.
  Definition first_rot h x : nat := if Bool.eqb (x =? nlf (h (npar (h x)))) (npar (h x) =? nlf (h (npar (h (npar (h x)))))) then npar (h x) else x.
  Lemma zig h x t d : at_depth x t (S (S d)) -> forall p, ist h t p -> NoDup (io t) -> exists t1, rot (first_rot h x) t t1 /\ at_depth x t1 (S d).
  Proof.
    revert t. induction d as [|d IH]; intros t H p I ND; inversion H as [|l z r d' A E1 E2|l z r d' A E1 E2]; subst; cbn [ist] in I; destruct I as (Z0 & Pz & Lz & Rz & Sz & Oz & Il & Ir);
      cbn [io] in ND; apply nd_app in ND; destruct ND as (Nl & Nzr & D); pose proof Nzr as Nzr'; apply NoDup_cons_iff in Nzr; destruct Nzr as (Zr & Nr).
    - inversion A as [|a y c d' B E1 E2|a y c d' B E1 E2]; subst; inversion B; subst; cbn [ist] in Il; destruct Il as (Y0 & Py & Ly & Ry & Sy & Oy & Ia & Ic).
      + destruct Ia as (X0 & Px & _). assert (F : first_rot h x = y). { unfold first_rot. rewrite Px, Py, Lz, Ly. cbn [top]. rewrite !Nat.eqb_refl. reflexivity. }
        rewrite F. eexists. split; [apply rot_r|]. apply at_left, at_here.
      + destruct Ic as (X0 & Px & _). assert (N : top a <> x). { apply (top_neq h a y); [exact Ia|exact X0|]. cbn [io] in Nl. apply nd_app in Nl. destruct Nl as (_ & _ & D'). intros J. apply (D' x J). right. apply in_or_app. right. now left. }
        assert (F : first_rot h x = x). { unfold first_rot. rewrite Px, Py, Lz, Ly. cbn [top]. rewrite (Nat.eqb_sym x), (proj2 (Nat.eqb_neq _ _) N), !Nat.eqb_refl. reflexivity. }
        rewrite F. eexists. split; [apply rot_in_l, rot_l|]. apply at_left, at_here.
    - inversion A as [|a y c d' B E1 E2|a y c d' B E1 E2]; subst; inversion B; subst; cbn [ist] in Ir; destruct Ir as (Y0 & Py & Ly & Ry & Sy & Oy & Ia & Ic);
        (assert (N : top l <> y) by (apply (top_neq h l z); [exact Il|exact Y0|]; intros J; apply (D y J); right; cbn [io]; apply in_or_app; right; now left)).
      + destruct Ia as (X0 & Px & _). assert (F : first_rot h x = x). { unfold first_rot. rewrite Px, Py, Lz, Ly. cbn [top]. rewrite (Nat.eqb_sym y), (proj2 (Nat.eqb_neq _ _) N), !Nat.eqb_refl. reflexivity. }
        rewrite F. eexists. split; [apply rot_in_r, rot_r|]. apply at_right, at_here.
      + destruct Ic as (X0 & Px & _). assert (N' : top a <> x). { apply (top_neq h a y); [exact Ia|exact X0|]. cbn [io] in Nr. apply nd_app in Nr. destruct Nr as (_ & _ & D'). intros J. apply (D' x J). right. apply in_or_app. right. now left. }
        assert (F : first_rot h x = y). { unfold first_rot. rewrite Px, Py, Lz, Ly. cbn [top]. rewrite (Nat.eqb_sym y), (Nat.eqb_sym x), (proj2 (Nat.eqb_neq _ _) N), (proj2 (Nat.eqb_neq _ _) N'). reflexivity. }
        rewrite F. eexists. split; [apply rot_l|]. apply at_right, at_here.
    - destruct (IH l A z Il Nl) as (t1 & R & A'). exists (Nd t1 z r). split; [now apply rot_in_l|now apply at_left].
    - destruct (IH r A z Ir Nr) as (t1 & R & A'). exists (Nd l z t1). split; [now apply rot_in_r|now apply at_right].
  Qed.
  Lemma rotate_in x t t' h p : rot x t t' -> nil_ok h -> ist h t p -> NoDup (io t) -> ~ In p (io t) -> outer h p t ->
    let h' := rotate f_up h x in
    ist h' t' p /\ (vch h t -> vch h' t') /\ (vok h t -> vok h' t') /\ (forall j, ~ In j (io t) -> h' j = h j) /\ nil_ok h' /\ outer h' p t' /\ io t' = io t.
  Proof.
    intros R Nil I ND NP Pc h'. destruct (rotate_ok x t t' R h p Nil I ND NP) as (A & B & C & D & E). fold h' in A, B, C, D, E.
    assert (Hp : h' p = h p).
    { rewrite D. destruct (Pc (top t)) as (P1 & P2); [apply top_in, (rot_nl _ _ _ R)|]. rewrite (proj2 (Nat.eqb_neq _ _) P1), (proj2 (Nat.eqb_neq _ _) P2). now destruct (h p). }
    assert (Ho : forall j, ~ In j (io t) -> h' j = h j) by (intros j J; destruct (Nat.eq_dec j p) as [->|N]; [exact Hp|now apply E]).
    repeat (split; [assumption|]). split; [|split].
    - unfold nil_ok. rewrite (Ho 0); [exact Nil|]. now apply (ist_nz h t p).
    - intros v J. rewrite Hp. apply Pc. now rewrite <- (rot_io _ _ _ R).
    - now apply (rot_io x).
  Qed.
  Lemma splay_ok x : x <> 0 -> forall d fuel h t p, d < fuel -> at_depth x t d -> nil_ok h -> ist h t p -> NoDup (io t) -> ~ In p (io t) -> outer h p t ->
    exists h' t', splay f_up fuel h x = Some h' /\ at_depth x t' 0 /\ ist h' t' p /\ (vch h t -> vch h' t') /\ (vok h t -> vok h' t') /\ (forall j, ~ In j (io t) -> h' j = h j) /\ nil_ok h' /\ outer h' p t' /\ io t' = io t.
  Proof.
    intros X0 d. induction d as [d IH] using lt_wf_ind. intros fuel h t p Hf A Nil I ND NP Pc. destruct fuel as [|fuel]; [lia|]. cbn [splay].
    rewrite (proj2 (Nat.eqb_neq _ _) X0). cbn [orb]. destruct d as [|[|d]].
    - rewrite (root_ h x t p A I Pc). exists h, t. repeat (split; [first [reflexivity|assumption|tauto]|]). reflexivity.
    - rewrite (not_root_ h x t 0 A p I). pose proof (parent_at h x t 0 A p I) as Pa. rewrite (root_ h _ t p Pa I Pc).
      destruct (rot_up x t 0 A) as (t1 & R & A1). destruct (rotate_in x t t1 h p R Nil I ND NP Pc) as (I1 & C1 & K1 & O1 & N1 & P1 & E1).
      assert (Q1 : forall j, In j (io t1) <-> In j (io t)) by (intros; now rewrite E1).
      destruct (IH 0 ltac:(lia) fuel _ t1 p ltac:(lia) A1 N1 I1) as (h' & t' & E & A' & I' & C' & K' & O' & N' & P' & E'); [now rewrite E1|now rewrite E1|exact P1|].
      exists h', t'. split; [exact E|]. split; [exact A'|]. split; [exact I'|]. split; [auto|]. split; [auto|]. split; [|split; [exact N'|split; [exact P'|congruence]]].
      intros j J. rewrite O' by now rewrite Q1. now apply O1.
    - rewrite (not_root_ h x t (S d) A p I). pose proof (parent_at h x t (S d) A p I) as Pa. rewrite (not_root_ h _ t d Pa p I).
      destruct (zig h x t d A p I ND) as (t0 & R0 & A0). destruct (rotate_in _ t t0 h p R0 Nil I ND NP Pc) as (I0 & C0 & K0 & O0 & N0 & P0 & E0). fold (first_rot h x).
      set (h0 := rotate f_up h (first_rot h x)) in *.
      destruct (rot_up x t0 d A0) as (t1 & R & A1). destruct (rotate_in x t0 t1 h0 p R N0 I0) as (I1 & C1 & K1 & O1 & N1 & P1 & E1); [now rewrite E0|now rewrite E0|exact P0|].
      destruct (IH d ltac:(lia) fuel _ t1 p ltac:(lia) A1 N1 I1) as (h' & t' & E & A' & I' & C' & K' & O' & N' & P' & E'); [now rewrite E1, E0|now rewrite E1, E0|exact P1|].
      exists h', t'. split; [exact E|]. split; [exact A'|]. split; [exact I'|]. split; [auto|]. split; [auto|]. split; [|split; [exact N'|split; [exact P'|congruence]]].
      intros j J. rewrite O' by now rewrite E1, E0. rewrite O1 by now rewrite E0. now apply O0.
  Qed.

  (** ** the family of auxiliary trees *)
  Notation fam := (list (tree * nat)).
  Definition nodes (A : fam) : list nat := concat (map (fun a => io (fst a)) A).
  Variable (F : nat -> nat) (n : nat).
  Definition good h (a : tree * nat) : Prop := fst a <> Lf /\ ist h (fst a) (snd a) /\ vch h (fst a) /\ chain F (snd a) (io (fst a)).
  Definition frst : Prop := (forall v, 1 <= v <= n -> F v <= n) /\ (forall v, 1 <= v <= n -> exists l, lineage F v l).
  Definition Rep h (A : fam) : Prop := nil_ok h /\ Forall (good h) A /\ Permutation (nodes A) (seq 1 n).
  Lemma nodes_perm A B : Permutation A B -> Permutation (nodes A) (nodes B).
  Proof. intros P. unfold nodes. induction P; cbn [map concat]; [constructor|now apply Permutation_app_head| |now transitivity (concat (map (fun a => io (fst a)) l'))]. rewrite !app_assoc. apply Permutation_app_tail, Permutation_app_comm. Qed.
  Lemma rep_perm h A B : Permutation A B -> Rep h A -> Rep h B.
  Proof. intros P (N & G & S). split; [exact N|]. split; [now rewrite <- P|]. rewrite <- S. symmetry. now apply nodes_perm. Qed.
  Lemma rep_nodup h A : Rep h A -> NoDup (nodes A).
  Proof. intros (_ & _ & P). apply (Permutation_NoDup (Permutation_sym P)), seq_NoDup. Qed.
  Lemma in_nodes A v : In v (nodes A) <-> exists t p, In (t, p) A /\ In v (io t).
  Proof.
    unfold nodes. rewrite in_concat. split.
    - intros (l & J & Jv). apply in_map_iff in J. destruct J as ((t & p) & <- & J). eauto.
    - intros (t & p & J & Jv). exists (io t). split; [|exact Jv]. apply in_map_iff. exists (t, p). auto.
  Qed.
  Lemma rep_in h A v : Rep h A -> In v (nodes A) <-> 1 <= v <= n.
  Proof. intros (_ & _ & P). split; intros J; [apply (Permutation_in _ P), in_seq in J; lia|apply (Permutation_in _ (Permutation_sym P)), in_seq; lia]. Qed.
  Lemma pick h A v : Rep h A -> 1 <= v <= n -> exists t p R, Permutation A ((t, p) :: R) /\ In v (io t).
  Proof.
    intros Rp Hv. apply (rep_in h A v Rp), in_nodes in Hv. destruct Hv as (t & p & J & Jv). apply in_split in J. destruct J as (a & b & ->). exists t, p, (a ++ b). split; [|exact Jv]. symmetry. apply Permutation_middle.
  Qed.
  (** a node's children lie in its tree *)
  Lemma kids h t p v : ist h t p -> In v (io t) -> (nlf (h v) = 0 \/ In (nlf (h v)) (io t)) /\ (nrt (h v) = 0 \/ In (nrt (h v)) (io t)).
  Proof.
    revert p. induction t as [|l IHl x r IHr]; intros p; cbn [ist io]; [intros _ []|]. intros (_ & _ & L & R & _ & _ & Il & Ir) J. rewrite !in_app_iff. cbn [In]. apply in_app_or in J. destruct J as [J|[<-|J]].
    - destruct (IHl x Il J) as ([E|E] & [E'|E']); tauto.
    - rewrite L, R. destruct l as [|l1 y l2], r as [|r1 z r2]; cbn [top]; (split; [try (now left)|try (now left)]); right; try (left; apply in_or_app; right; now left); right; right; apply in_or_app; right; now left.
    - destruct (IHr x Ir J) as ([E|E] & [E'|E']); tauto.
  Qed.
  Lemma pp_out h A t p R : frst -> Rep h A -> Permutation A ((t, p) :: R) -> ~ In p (io t) /\ outer h p t /\ p <= n /\ (exists lp, lineage F p lp).
  Proof.
    intros (B & W) Rp P. pose proof (rep_perm h _ _ P Rp) as Rp'. pose proof (rep_nodup h _ Rp') as ND. pose proof Rp' as (Nil & G & S). inversion G as [|? ? (T0 & It & Vt & Ct) GR]; subst. cbn [fst snd] in *.
    assert (Sz : forall v, In v (io t) -> 1 <= v <= n). { intros v J. apply (rep_in h _ v Rp'). apply in_nodes. exists t, p. split; [now left|exact J]. }
    destruct (io t) as [|v l] eqn:Eio; [exfalso; apply T0; destruct t; [reflexivity|cbn in Eio; now destruct (io t1)]|].
    cbn [chain] in Ct. destruct Ct as (Fv & Ct). assert (Pn : p <= n). { rewrite <- Fv. apply B, Sz. now left. }
    assert (Lp : exists lp, lineage F p lp). { destruct p as [|p']; [exists []; constructor|]. apply W. lia. }
    assert (NP : ~ In p (v :: l)).
    { intros J. destruct Lp as (lp & Lp). destruct (in_split _ _ J) as (a & b & E).
      assert (Cp : chain F p (v :: l)) by (cbn [chain]; auto). rewrite E in Cp. apply chain_app in Cp. destruct Cp as (Cp & _).
      assert (NZ : forall w, In w (a ++ [p]) -> w <> 0). { intros w Jw ->. apply (ist_nz h t p It). rewrite Eio, E. rewrite in_app_iff in *. cbn in *. tauto. }
      pose proof (chain_lin F p a p lp Cp NZ Lp) as L2. assert (El := lin_det _ _ _ Lp _ L2). assert (length lp = length (p :: rev a ++ lp)) by congruence. cbn [length] in H. rewrite app_length in H. lia. }
    split; [exact NP|]. split; [|split; [exact Pn|exact Lp]].
    intros w Jw. destruct (Nat.eq_dec p 0) as [->|P0].
    - destruct Nil as (N1 & N2 & _). rewrite N1, N2. rewrite Eio in Jw. pose proof (Sz w Jw). lia.
    - assert (Jp : In p (nodes ((t, p) :: R))) by (apply (rep_in h _ p Rp'); lia). apply in_nodes in Jp. destruct Jp as (t2 & p2 & J2 & Jp).
      destruct J2 as [J2|J2]; [inversion J2; subst; rewrite Eio in Jp; contradiction|].
      assert (I2 : ist h t2 p2) by (rewrite Forall_forall in GR; apply (GR _ J2)). destruct (kids h t2 p2 p I2 Jp) as (K1 & K2).
      assert (D : ~ In w (io t2)). { unfold nodes in ND. cbn [map concat fst] in ND. apply nd_app in ND. destruct ND as (_ & _ & D). intros J. apply (D w Jw). apply in_concat. exists (io t2). split; [apply in_map_iff; exists (t2, p2); auto|exact J]. }
      rewrite Eio in Jw. pose proof (Sz w Jw). split; intros E; [destruct K1 as [K|K]|destruct K2 as [K|K]]; rewrite E in K; try lia; contradiction.
  Qed.
  Lemma good_ext h h' R : (forall j, In j (nodes R) -> h' j = h j) -> Forall (good h) R -> Forall (good h') R.
  Proof.
    intros E G. rewrite Forall_forall in *. intros (t & p) J. destruct (G _ J) as (A & B & C & D). cbn [fst snd] in *.
    assert (E' : forall j, In j (io t) -> h' j = h j) by (intros j Jj; apply E, in_nodes; eauto).
    split; [exact A|]. cbn [fst snd]. split; [now apply (ist_ext h)|]. split; [|exact D]. apply (vch_ext h); [|exact C]. intros j Jj. now rewrite E'.
  Qed.
  Lemma splay_rep h A x : frst -> Rep h A -> 1 <= x <= n -> exists h' l r p R, splay f_up (S n) h x = Some h' /\ Rep h' ((Nd l x r, p) :: R) /\
    (exists t, Permutation A ((t, p) :: R) /\ io t = io l ++ x :: io r /\ (vok h t -> vok h' (Nd l x r))) /\ (forall j, ~ In j (io l ++ x :: io r) -> h' j = h j).
  Proof.
    intros Fr Rp Hx. destruct (pick h A x Rp Hx) as (t & p & R & P & Jx). pose proof (rep_perm h _ _ P Rp) as Rp'. destruct (pp_out h A t p R Fr Rp P) as (NP & Po & _ & _).
    destruct (in_at x t Jx) as (d & D). pose proof (rep_nodup h _ Rp') as ND. destruct Rp' as (Nil & G & Sq). inversion G as [|? ? (T0 & It & Vt & Ct) GR]; subst. cbn [fst snd] in *.
    unfold nodes in ND. cbn [map concat fst] in ND. apply nd_app in ND. destruct ND as (Nt & NR & DR).
    assert (Hd : d < S n). { pose proof (at_len _ _ _ D). assert (length (io t) <= n); [|lia]. rewrite <- (seq_length n 1), <- (Permutation_length Sq). unfold nodes. cbn [map concat fst]. rewrite app_length. lia. }
    destruct (splay_ok x ltac:(lia) d (S n) h t p Hd D Nil It Nt NP Po) as (h' & t' & E & A' & I' & C' & K' & O' & N' & P' & E').
    inversion A' as [l r| |]; subst. cbn [io] in E'. exists h', l, r, p, R. split; [exact E|]. split; [|split; [exists t; auto|]].
    - split; [exact N'|]. split.
      + constructor; [|apply (good_ext h); [|exact GR]; intros j J; apply O'; intros J'; now apply (DR j)]. split; [discriminate|]. cbn [fst snd]. split; [exact I'|]. split; [auto|]. cbn [io]. now rewrite E'.
      + rewrite <- Sq. unfold nodes. cbn [map concat fst io]. now rewrite E'.
    - intros j J. apply O'. now rewrite <- E'.
  Qed.

  Definition one (t : tree) (p : nat) : fam := match t with Lf => [] | _ => [(t, p)] end.
  Lemma one_nodes t p R : nodes (one t p ++ R) = io t ++ nodes R.
  Proof. destruct t; reflexivity. Qed.
  Lemma one_good h t p R : Forall (good h) (one t p ++ R) <-> ist h t p /\ vch h t /\ chain F p (io t) /\ Forall (good h) R.
  Proof.
    destruct t as [|l x r]; cbn [one app].
    - cbn. tauto.
    - rewrite Forall_cons_iff. unfold good at 1. cbn [fst snd]. split; [tauto|]. intros H. split; [split; [discriminate|tauto]|tauto].
  Qed.
  Lemma join_ok h l v r p tl R : frst -> Rep h ((Nd l v r, p) :: one tl v ++ R) -> vok h tl ->
    let h' := update f_up (set_rt h v (top tl)) v in
    Rep h' ((Nd l v tl, p) :: one r v ++ R) /\ vok h' (Nd l v tl) /\ npar (h' v) = p /\ (forall j, j <> v -> h' j = h j).
  Proof.
    intros Fr Rp Vt h'. pose proof (rep_nodup h _ Rp) as ND. destruct Rp as (Nil & G & Sq). apply Forall_cons_iff in G. destruct G as ((_ & I & (Vl & Vr) & C) & G). apply one_good in G. destruct G as (It & _ & Ct & GR).
    cbn [fst snd] in *. cbn [ist] in I. destruct I as (V0 & Pv & Lv & Rv & Sv & Ov & Il & Ir). cbn [io] in C. apply chain_app in C. destruct C as (Cl & Cr).
    unfold nodes in ND, Sq. cbn [map concat fst] in ND, Sq. change (concat (map (fun a : tree * nat => io (fst a)) (one tl v ++ R))) with (nodes (one tl v ++ R)) in ND, Sq. rewrite one_nodes in ND, Sq. cbn [io] in ND, Sq.
    rewrite <- app_assoc in ND. cbn [app] in ND. pose proof ND as ND0. apply NoDup_remove in ND. destruct ND as (ND & NV). rewrite !in_app_iff in NV.
    apply nd_app in ND0. destruct ND0 as (Nl & ND0 & _). apply NoDup_cons_iff in ND0. destruct ND0 as (_ & ND0).
    assert (Tl : top l <> v) by (apply (top_neq h l v); tauto). assert (Tt : top tl <> v) by (apply (top_neq h tl v); tauto).
    assert (E : forall j, h' j = if j =? v then mk_node p (top l) (top tl) (nsz (h (top l)) + nsz (h (top tl)) + 1) (f_up (nvl (h v)) (nvl (h (top l))) (nvl (h (top tl)))) else h j).
    { intros j. unfold h'. rewrite upd_eq; [|exact V0|now rewrite lf_rt, Lv|now rewrite rt_rt, Nat.eqb_refl].
      destruct (Nat.eqb_spec j v) as [->|N]; [|unfold set_rt; now rewrite put_other]. rewrite par_rt, lf_rt, rt_rt, !sz_rt, !vl_rt, Nat.eqb_refl, Lv, Pv. reflexivity. }
    assert (Eo : forall j, j <> v -> h' j = h j) by (intros j J; rewrite E, (proj2 (Nat.eqb_neq _ _) J); reflexivity).
    assert (Ev : h' v = mk_node p (top l) (top tl) (nsz (h (top l)) + nsz (h (top tl)) + 1) (f_up (nvl (h v)) (nvl (h (top l))) (nvl (h (top tl))))) by (rewrite E, Nat.eqb_refl; reflexivity).
    assert (El : forall j, In j (io l) -> h' j = h j) by (intros j J; apply Eo; intros ->; tauto).
    assert (Er : forall j, In j (io r) -> h' j = h j) by (intros j J; apply Eo; intros ->; tauto).
    assert (Et : forall j, In j (io tl) -> h' j = h j) by (intros j J; apply Eo; intros ->; tauto).
    assert (ER : forall j, In j (nodes R) -> h' j = h j) by (intros j J; apply Eo; intros ->; tauto).
    assert (VV : vok h' (Nd l v tl)).
    { cbn [vok]. split; [|split; [apply (vok_ext h); [|exact Vl]; intros j J; now rewrite El|apply (vok_ext h); [|exact Vt]; intros j J; now rewrite Et]].
      rewrite Ev. cbn [nvl io]. rewrite Agg, Ov, (vok_top h l Nil Vl), (vok_top h tl Nil Vt), tot_app. reflexivity. }
    split; [|split; [exact VV|split; [now rewrite Ev|exact Eo]]].
    split; [|split].
    - unfold nil_ok. rewrite (Eo 0) by congruence. exact Nil.
    - constructor.
      + split; [discriminate|]. cbn [fst snd]. split; [|split; [now apply vok_vch|cbn [io]; apply chain_app; auto]].
        cbn [ist]. rewrite Ev. cbn [npar nlf nrt nsz nvl io]. rewrite app_length. cbn [length]. rewrite Own, (ist_top_sz h l v Nil Il), (ist_top_sz h tl v Nil It). repeat split; try assumption; try lia; apply (ist_ext h); assumption.
      + apply one_good. split; [now apply (ist_ext h)|]. split; [apply (vch_ext h); [|now apply vok_vch]; intros j J; now rewrite Er|]. split; [exact Cr|]. now apply (good_ext h).
    - rewrite <- Sq. change (nodes ((Nd l v tl, p) :: one r v ++ R)) with (io (Nd l v tl) ++ nodes (one r v ++ R)). rewrite one_nodes. cbn [io]. rewrite <- !app_assoc. cbn [app]. apply Permutation_app_head, perm_skip. rewrite !app_assoc. apply Permutation_app_tail, Permutation_app_comm.
  Qed.
  Lemma lin_of_tree h t p a v b lp : ist h t p -> chain F p (io t) -> io t = a ++ v :: b -> lineage F p lp -> lineage F v (v :: rev a ++ lp).
  Proof.
    intros I C E L. rewrite E in C. apply chain_app in C. destruct C as (C & _). apply (chain_lin F p); [exact C| |exact L]. intros w J ->. apply (ist_nz h t p I). rewrite E. rewrite in_app_iff in *. cbn in *. tauto.
  Qed.
  Lemma access_loop_ok x : frst -> forall fuel h temp last A tl R lt, Rep h A -> Permutation A (one tl temp ++ R) -> top tl = last -> vok h tl ->
    (tl = Lf -> temp = x /\ 1 <= x <= n) -> (tl <> Lf -> exists pre, io tl = pre ++ [x]) -> lineage F temp lt -> temp <= n -> length lt < fuel ->
    exists h' last' t' R', access_loop f_up fuel n h temp last = Some (h', last') /\ Rep h' ((t', 0) :: R') /\ top t' = last' /\ vok h' t' /\ (exists pre, io t' = pre ++ [x]) /\
      (temp <> 0 -> exists tr a b, In (tr, 0) A /\ lt = a ++ last' :: b /\ In last' (io tr) /\ forall w, In w a -> ~ In w (io tr)) /\
      (forall t0 q, In (t0, q) A -> ~ In x (io t0) -> (forall w, In w (io t0) -> ~ In w lt) -> In (t0, q) ((t', 0) :: R')).
  Proof.
    intros Fr fuel. induction fuel as [|fuel IH]; intros h temp last A tl R lt Rp P Tl Vt X1 X2 Lt Tn Hf; [lia|]. cbn [access_loop]. destruct (Nat.eqb_spec temp 0) as [->|T0].
    - destruct tl as [|l1 y l2]; [destruct X1; [reflexivity|lia]|]. exists h, last, (Nd l1 y l2), R. split; [reflexivity|]. split; [now apply (rep_perm h A)|]. split; [exact Tl|]. split; [exact Vt|]. split; [apply X2; discriminate|]. split; [congruence|]. intros t0 q J _ _. now apply (Permutation_in _ P).
    - destruct (splay_rep h A temp Fr Rp ltac:(lia)) as (h1 & l & r & p & R1 & E1 & Rp1 & (t & Pt & It & _) & O1). rewrite E1. cbn [obind].
      destruct (pp_out h A t p R1 Fr Rp Pt) as (NP & _ & _ & _).
      assert (P1 : exists R', Permutation R1 (one tl temp ++ R')).
      { destruct tl as [|l1 y l2] eqn:Etl; [exists R1; reflexivity|]. cbn [one app] in *. assert (J : In (Nd l1 y l2, temp) ((t, p) :: R1)) by (apply (Permutation_in _ Pt), (Permutation_in _ (Permutation_sym P)); now left).
        destruct J as [J|J]; [exfalso; inversion J; subst; apply NP; rewrite It; apply in_or_app; right; now left|]. apply in_split in J. destruct J as (a & b & ->). exists (a ++ b). symmetry. apply Permutation_middle. }
      destruct P1 as (R' & P1). assert (Rp1' : Rep h1 ((Nd l temp r, p) :: one tl temp ++ R')) by (apply (rep_perm h1 ((Nd l temp r, p) :: R1)); [now apply perm_skip|exact Rp1]).
      assert (Dt : forall j, In j (io tl) -> ~ In j (io l ++ temp :: io r)).
      { pose proof (rep_nodup h1 _ Rp1') as ND. change (nodes ((Nd l temp r, p) :: one tl temp ++ R')) with (io (Nd l temp r) ++ nodes (one tl temp ++ R')) in ND. rewrite one_nodes in ND. apply nd_app in ND. destruct ND as (_ & _ & D). intros j J J'. apply (D j J'). apply in_or_app. now left. }
      assert (Vt1 : vok h1 tl) by (apply (vok_ext h); [|exact Vt]; intros j J; rewrite O1; [reflexivity|now apply Dt]).
      destruct (join_ok h1 l temp r p tl R' Fr Rp1' Vt1) as (Rp2 & V2 & N2 & O2). rewrite Tl in Rp2, V2, N2, O2. cbv zeta in Rp2, V2, N2, O2. set (h2 := update f_up (set_rt h1 temp last) temp) in *. rewrite N2.
      destruct (pp_out h2 _ (Nd l temp tl) p (one r temp ++ R') Fr Rp2 (Permutation_refl _)) as (NP2 & _ & Pn & (lp & Lp)).
      assert (Lt' : lt = temp :: rev (io l) ++ lp).
      { apply (lin_det F temp); [exact Lt|]. destruct Rp1 as (_ & G1 & _). apply Forall_cons_iff in G1. destruct G1 as ((_ & I1 & _ & C1) & _). cbn [fst snd] in *. apply (lin_of_tree h1 (Nd l temp r) p (io l) temp (io r)); auto. }
      assert (X2' : exists pre, io (Nd l temp tl) = pre ++ [x]).
      { cbn [io]. destruct tl as [|l1 y l2]; [destruct X1 as (-> & _); [reflexivity|]; now exists (io l)|]. destruct X2 as (pre & Ep); [discriminate|]. exists (io l ++ temp :: pre). rewrite Ep, <- app_assoc. reflexivity. }
      destruct (IH h2 p temp _ (Nd l temp tl) (one r temp ++ R') lp Rp2 (Permutation_refl _) eq_refl V2) as (h' & last' & t' & Rf & E' & Rp' & T' & V' & X' & Lca & Keep).
      { discriminate. } { intros _. exact X2'. } { exact Lp. } { exact Pn. } { rewrite Lt' in Hf. cbn [length] in Hf. rewrite app_length in Hf. lia. }
      exists h', last', t', Rf. split; [exact E'|]. split; [exact Rp'|]. split; [exact T'|]. split; [exact V'|]. split; [exact X'|]. split; [intros _|].
      2:{ intros t0 q J Jx Jw. assert (J' : In (t0, q) R').
          { apply (Permutation_in _ Pt) in J. destruct J as [J|J]; [exfalso; inversion J; subst; apply (Jw temp); [rewrite It; apply in_or_app; right; now left|now left]|].
            apply (Permutation_in _ P1), in_app_or in J. destruct J as [J|J]; [|exact J]. exfalso. destruct tl as [|l1 y l2]; [destruct J|]. destruct X2 as (pre & Ep); [discriminate|]. destruct J as [J|[]]. inversion J; subst. apply Jx. rewrite Ep. apply in_or_app. right. now left. }
          apply Keep; [right; apply in_or_app; now right|exact Jx|]. intros w W J2. apply (Jw w W). rewrite Lt'. right. apply in_or_app. now right. }
      destruct (Nat.eq_dec p 0) as [->|P0].
      + (* the last auxiliary tree *) destruct fuel as [|fuel]; [discriminate E'|]. cbn [access_loop Nat.eqb] in E'. injection E' as <- <-.
        exists t, [], (rev (io l) ++ lp). split; [apply (Permutation_in _ (Permutation_sym Pt)); now left|]. split; [exact Lt'|]. split; [rewrite It; apply in_or_app; right; now left|]. intros w [].
      + destruct (Lca P0) as (tr & a & b & Jr & El & Jl & Dl). assert (Jr' : In (tr, 0) R').
        { destruct Jr as [Jr|Jr]; [inversion Jr; congruence|]. apply in_app_or in Jr. destruct Jr as [Jr|Jr]; [|exact Jr]. destruct r; [destruct Jr|]. destruct Jr as [Jr|[]]. inversion Jr; congruence. }
        exists tr, (temp :: rev (io l) ++ a), b. split; [|split; [|split; [exact Jl|]]].
        * apply (Permutation_in _ (Permutation_sym Pt)). right. apply (Permutation_in _ (Permutation_sym P1)). apply in_or_app. now right.
        * rewrite Lt', El. cbn [app]. now rewrite <- app_assoc.
        * intros w Jw Jt. cbn [In app] in Jw. rewrite in_app_iff, <- in_rev in Jw. assert (Jw' : In w (io l ++ [temp]) \/ In w a) by (rewrite in_app_iff; cbn; tauto). destruct Jw' as [J1|J1]; [|now apply (Dl w J1)].
          pose proof (rep_nodup h2 _ Rp2) as ND. change (nodes ((Nd l temp tl, p) :: one r temp ++ R')) with (io (Nd l temp tl) ++ nodes (one r temp ++ R')) in ND. apply nd_app in ND. destruct ND as (_ & _ & D). apply (D w).
          -- cbn [io]. rewrite in_app_iff in *. cbn in *. tauto.
          -- apply in_nodes. exists tr, 0. split; [apply in_or_app; now right|exact Jt].
  Qed.
  Lemma nodup_last {A} (l r pre : list A) x : l ++ x :: r = pre ++ [x] -> NoDup (l ++ x :: r) -> r = [].
  Proof.
    intros E ND. destruct (exists_last (l := x :: r)) as (q & z & Eq); [discriminate|]. rewrite Eq, app_assoc in E. apply app_inj_tail in E. destruct E as (_ & ->).
    destruct q as [|y q]; [now injection Eq|]. injection Eq as -> ->. exfalso. apply nd_app in ND. destruct ND as (_ & ND & _). apply NoDup_cons_iff in ND. destruct ND as (N & _). apply N. apply in_or_app. right. now left.
  Qed.
  Lemma access_ok h A x : frst -> Rep h A -> 1 <= x <= n -> exists h' last l R, access f_up n h x = Some (h', last) /\ Rep h' ((Nd l x Lf, 0) :: R) /\ vok h' (Nd l x Lf) /\ lineage F x (x :: rev (io l)) /\
      (exists tr a b, In (tr, 0) A /\ x :: rev (io l) = a ++ last :: b /\ In last (io tr) /\ forall w, In w a -> ~ In w (io tr)) /\
      (forall t0 q, In (t0, q) A -> (forall w, In w (io t0) -> ~ In w (x :: rev (io l))) -> In (t0, q) R).
  Proof.
    intros Fr Rp Hx. pose proof (proj2 Fr x Hx) as (lx & Lx). pose proof (lin_length F n x lx (proj1 Fr) Lx ltac:(lia)) as Hl.
    destruct (access_loop_ok x Fr (S n) h x 0 A Lf A lx Rp (Permutation_refl _) eq_refl I ltac:(auto) ltac:(congruence) Lx ltac:(lia) ltac:(lia)) as (h1 & last & t1 & R1 & E1 & Rp1 & T1 & V1 & (pre & Ep) & Lca & Keep).
    unfold access. rewrite E1. cbn [obind].
    destruct (splay_rep h1 _ x Fr Rp1 Hx) as (h2 & l & r & p & R & E2 & Rp2 & (t & Pt & It & Vt) & O2). rewrite E2. cbn [obind].
    assert (Ht : t = t1 /\ p = 0).
    { assert (J : In (t1, 0) ((t, p) :: R)) by (apply (Permutation_in _ Pt); now left). destruct J as [J|J]; [inversion J; auto|]. exfalso.
      pose proof (rep_nodup h2 _ Rp2) as ND. change (nodes ((Nd l x r, p) :: R)) with ((io l ++ x :: io r) ++ nodes R) in ND. apply nd_app in ND. destruct ND as (_ & _ & D). apply (D x); [apply in_or_app; right; now left|]. apply in_nodes. exists t1, 0. split; [exact J|]. rewrite Ep. apply in_or_app. right. now left. }
    destruct Ht as (-> & ->). assert (r = Lf).
    { rewrite It in Ep. assert (Er : io r = []). { apply (nodup_last (io l) (io r) pre x); [exact Ep|]. pose proof (rep_nodup h2 _ Rp2) as ND. change (nodes ((Nd l x r, 0) :: R)) with ((io l ++ x :: io r) ++ nodes R) in ND. apply nd_app in ND. tauto. } destruct r as [|r1 y r2]; [reflexivity|]. cbn in Er. now destruct (io r1). }
    subst r. assert (Lx' : lineage F x (x :: rev (io l))).
    { destruct Rp2 as (_ & G & _). apply Forall_cons_iff in G. destruct G as ((_ & I2 & _ & C2) & _). cbn [fst snd] in *. rewrite <- (app_nil_r (rev (io l))). apply (lin_of_tree h2 (Nd l x Lf) 0 (io l) x []); [exact I2|exact C2|reflexivity|constructor]. }
    exists h2, last, l, R. split; [reflexivity|]. split; [exact Rp2|]. split; [auto|]. split; [exact Lx'|].
    pose proof (lin_det _ _ _ Lx _ Lx') as El. rewrite <- El. split; [apply Lca; lia|]. intros t0 q J Jw. assert (Jx : ~ In x (io t0)) by (intros Jx; apply (Jw x Jx); rewrite El; now left).
    pose proof (Keep t0 q J Jx Jw) as K. apply (Permutation_in _ Pt) in K. destruct K as [K|K]; [|exact K]. exfalso. inversion K; subst. apply Jx. rewrite Ep. apply in_or_app. right. now left.
  Qed.
End H.
