(** Link-cut trees: the operations. *)
From Verif Require Import Lib LctModel LctSpec LctRun LctProofs.
From Coq Require Import Arith Lia Permutation.
Open Scope nat_scope.

Lemma set_at_same {A} (F : nat -> A) v x : set_at F v x v = x. Proof. unfold set_at. now rewrite Nat.eqb_refl. Qed.
Lemma set_at_other {A} (F : nat -> A) v x w : w <> v -> set_at F v x w = F w. Proof. intros H. unfold set_at. now rewrite (proj2 (Nat.eqb_neq _ _) H). Qed.
Lemma lin_set F v p lp w l : v <> 0 -> lineage F p lp -> ~ In v lp -> lineage F w l -> exists l', lineage (set_at F v p) w l'.
Proof.
  intros V0 Lp Np. assert (Lp' : lineage (set_at F v p) p lp) by (apply (lin_ext F); [|exact Lp]; intros u J; apply set_at_other; congruence).
  induction 1 as [|w l W0 L IH]; [exists []; constructor|]. destruct (Nat.eq_dec w v) as [->|N].
  - exists (v :: lp). constructor; [exact V0|]. now rewrite set_at_same.
  - destruct IH as (l' & L'). exists (w :: l'). constructor; [exact W0|]. now rewrite set_at_other.
Qed.

Section H.
  Context {T : Type} (f_up : T -> T -> T -> T) (id : T) {V M : Type} (own : T -> V) (agg : T -> M) (elt : V -> M) (unit_ : M) (op_ : M -> M -> M).
  Hypothesis Assoc : forall a b c, op_ a (op_ b c) = op_ (op_ a b) c.
  Hypothesis UnitL : forall a, op_ unit_ a = a.
  Hypothesis UnitR : forall a, op_ a unit_ = a.
  Hypothesis Own : forall v l r, own (f_up v l r) = own v.
  Hypothesis Agg : forall v l r, agg (f_up v l r) = op_ (agg l) (op_ (elt (own v)) (agg r)).
  Hypothesis AggId : agg id = unit_.
  Notation Rep := (Rep id own agg elt unit_ op_).
  Notation good := (good own agg elt unit_ op_).
  Notation ist := (ist own).
  Notation vok := (vok agg elt unit_ op_).
  Notation vch := (vch agg elt unit_ op_).
  Notation tot := (path_total elt unit_ op_).
  Notation fam := (list (tree * nat)).
  Lemma acc O F n h A x : frst F n -> Rep O F n h A -> 1 <= x <= n -> exists h' last l R, access f_up n h x = Some (h', last) /\ Rep O F n h' ((Nd l x Lf, 0) :: R) /\ vok O h' (Nd l x Lf) /\ lineage F x (x :: rev (io l)) /\
      (exists tr a b, In (tr, 0) A /\ x :: rev (io l) = a ++ last :: b /\ In last (io tr) /\ forall w, In w a -> ~ In w (io tr)) /\
      (forall t0 q, In (t0, q) A -> (forall w, In w (io t0) -> ~ In w (x :: rev (io l))) -> In (t0, q) R).
  Proof. now apply access_ok. Qed.
  Lemma tot_ext O O' l : (forall j, In j l -> O' j = O j) -> tot O' l = tot O l.
  Proof. intros E. unfold path_total. f_equal. apply map_ext_in. intros a J. now rewrite E. Qed.
  Lemma ist_ext2 O O' h h' t : forall p, (forall j, In j (io t) -> h' j = h j /\ O' j = O j) -> ist O h t p -> ist O' h' t p.
  Proof.
    induction t as [|l IHl x r IHr]; intros p E; [trivial|]. cbn [LctProofs.ist]. destruct (E x) as (E1 & E2); [cbn [io]; apply in_or_app; right; now left|]. rewrite E1, E2. intros (A & B & C & D & F & G & H1 & H2). repeat split; try assumption.
    - apply IHl; [|exact H1]. intros j J. apply E. cbn [io]. apply in_or_app. now left.
    - apply IHr; [|exact H2]. intros j J. apply E. cbn [io]. apply in_or_app. right. now right.
  Qed.
  Lemma vok_ext2 O O' h h' t : (forall j, In j (io t) -> h' j = h j /\ O' j = O j) -> vok O h t -> vok O' h' t.
  Proof.
    induction t as [|l IHl x r IHr]; intros E; [trivial|]. cbn [LctProofs.vok]. destruct (E x) as (E1 & E2); [cbn [io]; apply in_or_app; right; now left|]. rewrite E1, (tot_ext O O') by (intros j J; now apply E). intros (A & B & C). split; [exact A|]. split.
    - apply IHl; [|exact B]. intros j J. apply E. cbn [io]. apply in_or_app. now left.
    - apply IHr; [|exact C]. intros j J. apply E. cbn [io]. apply in_or_app. right. now right.
  Qed.
  Lemma vch_ext2 O O' h h' t : (forall j, In j (io t) -> h' j = h j /\ O' j = O j) -> vch O h t -> vch O' h' t.
  Proof.
    destruct t as [|l x r]; intros E; [trivial|]. intros (B & C). split.
    - apply (vok_ext2 O O' h); [|exact B]. intros j J. apply E. cbn [io]. apply in_or_app. now left.
    - apply (vok_ext2 O O' h); [|exact C]. intros j J. apply E. cbn [io]. apply in_or_app. right. now right.
  Qed.
  Lemma good_ext2 O O' F F' h h' R : (forall j, In j (nodes R) -> h' j = h j /\ O' j = O j /\ F' j = F j) -> Forall (good O F h) R -> Forall (good O' F' h') R.
  Proof.
    intros E G. rewrite Forall_forall in *. intros (t & p) J. destruct (G _ J) as (A & B & C & D). cbn [fst snd] in *.
    assert (E' : forall j, In j (io t) -> h' j = h j /\ O' j = O j /\ F' j = F j) by (intros j Jj; apply E, in_nodes; eauto).
    split; [exact A|]. cbn [fst snd]. split; [apply (ist_ext2 O O' h); [intros j Jj; split; apply (E' j Jj)|exact B]|]. split; [apply (vch_ext2 O O' h); [intros j Jj; split; apply (E' j Jj)|exact C]|].
    apply (chain_ext F); [|exact D]. intros j Jj. apply (E' j Jj).
  Qed.
  Lemma nodes_cons t p R : nodes ((t, p) :: R) = io t ++ nodes R. Proof. reflexivity. Qed.
  Lemma head_facts O F n h t p R : Rep O F n h ((t, p) :: R) -> nil_ok id h /\ ist O h t p /\ vch O h t /\ chain F p (io t) /\ Forall (good O F h) R /\ NoDup (io t) /\ NoDup (nodes R) /\ (forall j, In j (io t) -> ~ In j (nodes R)).
  Proof.
    intros Rp. pose proof (rep_nodup _ _ _ _ _ _ _ _ _ _ _ Rp) as ND. destruct Rp as (N & G & _). apply Forall_cons_iff in G. destruct G as ((_ & A & B & C) & G). rewrite nodes_cons in ND. apply nd_app in ND. tauto.
  Qed.

  (** ** adding a node *)
  Lemma add_ok O F n h A (x : T) : frst F n -> Rep O F n h A -> frst (set_at F (S n) 0) (S n) /\ Rep (set_at O (S n) (own x)) (set_at F (S n) 0) (S n) (put h (S n) (mk_node 0 0 0 1 x)) ((Nd Lf (S n) Lf, 0) :: A).
  Proof.
    intros (B & W) Rp. assert (Nin : forall j, In j (nodes A) -> j <> S n) by (intros j J; apply (rep_in _ _ _ _ _ _ _ _ _ _ _ _ Rp) in J; lia). split; [split|].
    - intros v Hv. destruct (Nat.eq_dec v (S n)) as [->|N]; [rewrite set_at_same; lia|]. rewrite set_at_other by exact N. assert (F v <= n) by (apply B; lia). lia.
    - intros v Hv. destruct (Nat.eq_dec v (S n)) as [->|N]; [exists [S n]; constructor; [lia|]; rewrite set_at_same; constructor|]. destruct (W v) as (l & L); [lia|]. exists l. apply (lin_ext F); [|exact L].
      intros w J. apply set_at_other. pose proof (lin_bound F n v l B L ltac:(lia) w J). lia.
    - destruct Rp as (Nil & G & Sq). split; [|split].
      + unfold nil_ok. now rewrite put_other by lia.
      + constructor.
        * split; [discriminate|]. cbn [fst snd]. split; [|split; [now split|]].
          -- cbn [LctProofs.ist top io app length]. rewrite put_same. cbn [npar nlf nrt nsz nvl]. rewrite set_at_same. repeat split; try reflexivity. lia.
          -- cbn [io app chain]. split; [apply set_at_same|trivial].
        * apply (good_ext2 O _ F _ h); [|exact G]. intros j J. pose proof (Nin j J) as N. rewrite put_other, !set_at_other by exact N. auto.
      + rewrite nodes_cons. cbn [io app]. rewrite Sq. rewrite (seq_S n 1). replace (1 + n) with (S n) by lia. apply Permutation_cons_append.
  Qed.
  (** ** linking *)
  Lemma link_ok O F n h A v p : frst F n -> Rep O F n h A -> 1 <= v <= n -> 1 <= p <= n -> F v = 0 -> (forall l, lineage F p l -> ~ In v l) ->
    exists h1 a h2 b R, access f_up n h v = Some (h1, a) /\ access f_up n h1 p = Some (h2, b) /\ frst (set_at F v p) n /\ Rep O (set_at F v p) n (set_par h2 v p) R.
  Proof.
    intros Fr Rp Hv Hp Fv Np. destruct (acc O F n h A v Fr Rp Hv) as (h1 & a & l & R1 & E1 & Rp1 & _ & L1 & _).
    assert (El : l = Lf). { destruct (lin_in _ _ _ L1) as (r & Er & Lr); [lia|]. rewrite Fv in Lr. inversion Lr; subst; [|congruence]. injection Er as Er. destruct l as [|l1 y l2]; [reflexivity|]. apply (f_equal (@rev _)) in Er. rewrite rev_involutive in Er. cbn in Er. now destruct (io l1). }
    subst l. destruct (acc O F n h1 _ p Fr Rp1 Hp) as (h2 & b & l2 & R2 & E2 & Rp2 & V2 & L2 & _ & Keep).
    specialize (Np _ L2). assert (J : In (Nd Lf v Lf, 0) R2). { apply Keep; [now left|]. intros w [<-|[]]. exact Np. }
    apply in_split in J. destruct J as (r1 & r2 & ->). assert (P : Permutation ((Nd l2 p Lf, 0) :: r1 ++ (Nd Lf v Lf, 0) :: r2) ((Nd Lf v Lf, 0) :: (Nd l2 p Lf, 0) :: r1 ++ r2)) by (symmetry; apply (Permutation_middle ((Nd l2 p Lf, 0) :: r1) r2)).
    pose proof (rep_perm _ _ _ _ _ _ _ _ _ _ _ _ P Rp2) as Rp3. set (R := (Nd l2 p Lf, 0) :: r1 ++ r2) in *. clearbody R.
    destruct (head_facts O F n h2 _ _ _ Rp3) as (Nil & Iv & _ & _ & G & _ & _ & D). destruct Rp3 as (_ & _ & Sq).
    exists h1, a, h2, b, ((Nd Lf v Lf, p) :: R). split; [exact E1|]. split; [exact E2|]. split; [split|].
    - intros w Hw. destruct (Nat.eq_dec w v) as [->|N]; [rewrite set_at_same; lia|]. rewrite set_at_other by exact N. now apply Fr.
    - intros w Hw. destruct (proj2 Fr w Hw) as (lw & Lw). apply (lin_set F v p (p :: rev (io l2)) w lw); [lia|exact L2|exact Np|exact Lw].
    - split; [|split].
      + unfold nil_ok. rewrite lf_par, rt_par, sz_par, vl_par. exact Nil.
      + constructor.
        * split; [discriminate|]. cbn [fst snd]. split; [|split; [now split|]].
          -- cbn [LctProofs.ist top io app length] in *. rewrite par_par, lf_par, rt_par, sz_par, vl_par, Nat.eqb_refl. tauto.
          -- cbn [io app chain]. split; [apply set_at_same|trivial].
        * apply (good_ext2 O _ F _ h2); [|exact G]. intros j J. assert (N : j <> v) by (intros ->; apply (D v); [now left|exact J]). unfold set_par. rewrite put_other, set_at_other by exact N. auto.
      + exact Sq.
  Qed.
  (** ** cutting *)
  Lemma cut_ok O F n h A v : frst F n -> Rep O F n h A -> 1 <= v <= n ->
    exists h1 a R, access f_up n h v = Some (h1, a) /\ frst (set_at F v 0) n /\ Rep O (set_at F v 0) n (update f_up (set_lf (set_par h1 (nlf (h1 v)) 0) v 0) v) R.
  Proof.
    intros Fr Rp Hv. destruct (acc O F n h A v Fr Rp Hv) as (h1 & a & l & R & E1 & Rp1 & _ & L1 & _).
    destruct (head_facts O F n h1 _ _ _ Rp1) as (Nil & Iv & Vv & Cv & G & Nv & _ & D). destruct Rp1 as (_ & _ & Sq).
    cbn [LctProofs.ist] in Iv. destruct Iv as (V0 & Pv & Lv & Rv & Sv & Ov & Il & _). cbn [top] in Rv. cbn [io] in Nv, Cv. apply NoDup_remove in Nv. destruct Nv as (Nl & Vl). rewrite app_nil_r in Nl, Vl. apply chain_app in Cv. destruct Cv as (Cv & _).
    assert (Tl : top l <> v) by (apply (top_neq own O h1 l v); assumption).
    set (h2 := set_lf (set_par h1 (top l) 0) v 0).
    assert (E : forall j, update f_up h2 v j = if j =? v then mk_node 0 0 0 1 (f_up (nvl (h1 v)) id id) else h2 j).
    { intros j. rewrite upd_eq; [|exact V0| |].
      - destruct (j =? v); [|reflexivity]. unfold h2. rewrite par_lf, lf_lf, rt_lf, !sz_lf, !vl_lf, Nat.eqb_refl, par_par, rt_par, !sz_par, !vl_par, Rv. rewrite (Nat.eqb_sym v), (proj2 (Nat.eqb_neq _ _) Tl), Pv. destruct Nil as (_ & _ & -> & ->). reflexivity.
      - unfold h2. rewrite lf_lf, Nat.eqb_refl. congruence.
      - unfold h2. rewrite rt_lf, rt_par, Rv. congruence. }
    assert (Eo : forall j, j <> v -> j <> top l -> update f_up h2 v j = h1 j).
    { intros j J J2. rewrite E, (proj2 (Nat.eqb_neq _ _) J). unfold h2, set_lf. rewrite put_other by exact J. unfold set_par. now rewrite put_other. }
    assert (Et : l <> Lf -> update f_up h2 v (top l) = mk_node 0 (nlf (h1 (top l))) (nrt (h1 (top l))) (nsz (h1 (top l))) (nvl (h1 (top l)))).
    { intros _. rewrite E, (proj2 (Nat.eqb_neq _ _) Tl). unfold h2, set_lf. rewrite put_other by exact Tl. unfold set_par. now rewrite put_same. }
    assert (Ev : forall j, In j (io l) -> nvl (update f_up h2 v j) = nvl (h1 j)).
    { intros j J. destruct (Nat.eq_dec j (top l)) as [->|N]; [|rewrite Eo; congruence]. rewrite Et; [reflexivity|]. intros ->. destruct J. }
    assert (EN : nil_ok id (update f_up h2 v)).
    { unfold nil_ok. rewrite E, (proj2 (Nat.eqb_neq 0 v)) by congruence. unfold h2. rewrite lf_lf, rt_lf, sz_lf, vl_lf, lf_par, rt_par, sz_par, vl_par, (proj2 (Nat.eqb_neq 0 v)) by congruence. exact Nil. }
    exists h1, a, ((Nd Lf v Lf, 0) :: one l 0 ++ R). split; [exact E1|]. split; [split|].
    - intros w Hw. destruct (Nat.eq_dec w v) as [->|N]; [rewrite set_at_same; lia|]. rewrite set_at_other by exact N. now apply Fr.
    - intros w Hw. destruct (proj2 Fr w Hw) as (lw & Lw). apply (lin_set F v 0 [] w lw); [lia|constructor|intros []|exact Lw].
    - rewrite Lv. fold h2. clearbody h2. split; [exact EN|]. split.
      + constructor.
        * split; [discriminate|]. cbn [fst snd]. split; [|split; [now split|]].
          -- cbn [LctProofs.ist top io app length]. rewrite E, Nat.eqb_refl. cbn [npar nlf nrt nsz nvl]. rewrite Own. tauto.
          -- cbn [io app chain]. split; [apply set_at_same|trivial].
        * apply one_good. split; [|split; [|split]].
          -- apply (reparent own O h1 _ l v); [|exact Et|exact Nl|exact Il]. intros j J J2. apply Eo; congruence.
          -- destruct Vv as (Vl' & _). apply (vch_ext agg elt unit_ op_ O h1); [exact Ev|]. now apply vok_vch.
          -- apply (chain_ext F); [intros w J; apply set_at_other; congruence|]. destruct (io l) as [|z l'] using rev_ind; [exact I|]. rewrite <- app_assoc in Cv. cbn [app] in Cv. apply chain_app in Cv. tauto.
          -- apply (good_ext2 O _ F _ h1); [|exact G]. intros j J. assert (N : j <> v) by (intros ->; apply (D v); [cbn [io]; apply in_or_app; right; now left|exact J]). rewrite set_at_other by exact N. split; [|auto]. apply Eo; [exact N|].
             intros ->. destruct (Nat.eq_dec (top l) 0) as [E0|E0]; [|apply (D (top l)); [cbn [io]; apply in_or_app; left; now apply top_in'|exact J]]. rewrite E0 in J. assert (J' : In 0 (nodes ((Nd l v Lf, 0) :: R))) by (rewrite nodes_cons; apply in_or_app; now right). apply (Permutation_in _ Sq), in_seq in J'. lia.
      + rewrite <- Sq. rewrite !nodes_cons. cbn [io app]. rewrite one_nodes, <- app_assoc. cbn [app]. apply Permutation_middle.
  Qed.

  (** ** queries *)
  Lemma go_left_ok O h t : forall p fuel, ist O h t p -> t <> Lf -> length (io t) <= fuel -> exists v b, go_left fuel h (top t) = Some v /\ io t = v :: b.
  Proof.
    induction t as [|l IHl x r IHr]; intros p fuel It T0 Hf; [congruence|]. cbn [LctProofs.ist io top] in *. destruct It as (_ & _ & L & _ & _ & _ & Il & _). rewrite app_length in Hf. cbn [length] in Hf. destruct fuel as [|fuel]; [lia|]. cbn [go_left]. rewrite L.
    destruct l as [|l1 y l2]; [exists x, (io r); auto|]. destruct (Nat.eqb_spec (top (Nd l1 y l2)) 0) as [E|E]; [exfalso; revert E; now apply (top_nz own O h (Nd l1 y l2) x)|].
    destruct (IHl x fuel Il) as (v & b & E1 & E2); [discriminate|lia|]. exists v, (b ++ x :: io r). split; [exact E1|]. rewrite E2. reflexivity.
  Qed.
  Lemma go_right_ok O h t : forall p fuel, ist O h t p -> t <> Lf -> length (io t) <= fuel -> exists v b, go_right fuel h (top t) = Some v /\ io t = b ++ [v].
  Proof.
    induction t as [|l IHl x r IHr]; intros p fuel It T0 Hf; [congruence|]. cbn [LctProofs.ist io top] in *. destruct It as (_ & _ & _ & R & _ & _ & _ & Ir). rewrite app_length in Hf. cbn [length] in Hf. destruct fuel as [|fuel]; [lia|]. cbn [go_right]. rewrite R.
    destruct r as [|r1 y r2]; [exists x, (io l); auto|]. destruct (Nat.eqb_spec (top (Nd r1 y r2)) 0) as [E|E]; [exfalso; revert E; now apply (top_nz own O h (Nd r1 y r2) x)|].
    destruct (IHr x fuel Ir) as (v & b & E1 & E2); [discriminate|lia|]. exists v, (io l ++ x :: b). split; [exact E1|]. rewrite E2, <- app_assoc. reflexivity.
  Qed.
  Lemma size_le O F n h t p R : Rep O F n h ((t, p) :: R) -> length (io t) <= n.
  Proof. intros (_ & _ & Sq). rewrite <- (seq_length n 1), <- (Permutation_length Sq), nodes_cons, app_length. lia. Qed.
  Lemma root_ok O F n h A v : frst F n -> Rep O F n h A -> 1 <= v <= n -> exists h' A' r lv, find_root_h f_up n h v = Some (h', r) /\ Rep O F n h' A' /\ lineage F v lv /\ r = last lv 0 /\ 1 <= r <= n.
  Proof.
    intros Fr Rp Hv. destruct (acc O F n h A v Fr Rp Hv) as (h1 & a & l & R1 & E1 & Rp1 & _ & L1 & _). pose proof (size_le _ _ _ _ _ _ _ Rp1) as Hs.
    destruct (head_facts O F n h1 _ _ _ Rp1) as (_ & I1 & _). destruct (go_left_ok O h1 (Nd l v Lf) 0 (S n) I1) as (r & b & E2 & Er); [discriminate|lia|]. cbn [top] in E2.
    assert (Hr : 1 <= r <= n). { apply (rep_in _ _ _ _ _ _ _ _ _ _ _ r Rp1). rewrite nodes_cons, Er. now left. }
    destruct (acc O F n h1 _ r Fr Rp1 Hr) as (h2 & a2 & l2 & R2 & E3 & Rp2 & _).
    exists h2, ((Nd l2 r Lf, 0) :: R2), r, (v :: rev (io l)). unfold find_root_h. rewrite E1. cbn [obind]. rewrite E2. cbn [obind]. rewrite E3. cbn [obind]. split; [reflexivity|]. split; [exact Rp2|]. split; [exact L1|]. split; [|exact Hr].
    replace (v :: rev (io l)) with (rev (io (Nd l v Lf))) by (cbn [io]; now rewrite rev_app_distr). rewrite Er. cbn [rev]. now rewrite last_last.
  Qed.
  Lemma access_nil n h : access f_up n h 0 = Some (h, 0). Proof. reflexivity. Qed.
  Lemma parent_ok O F n h A v : frst F n -> Rep O F n h A -> 1 <= v <= n -> exists h1 a h' b A', access f_up n h v = Some (h1, a) /\ go_right (S n) h1 (nlf (h1 v)) = Some (F v) /\ access f_up n h1 (F v) = Some (h', b) /\ Rep O F n h' A'.
  Proof.
    intros Fr Rp Hv. destruct (acc O F n h A v Fr Rp Hv) as (h1 & a & l & R1 & E1 & Rp1 & _ & L1 & _). pose proof (size_le _ _ _ _ _ _ _ Rp1) as Hs. cbn [io] in Hs. rewrite app_length in Hs.
    destruct (head_facts O F n h1 _ _ _ Rp1) as (Nil & I1 & _). cbn [LctProofs.ist] in I1. destruct I1 as (V0 & Pv & Lv & Rv & Sv & Ov & Il & _). destruct (lin_in _ _ _ L1 V0) as (r & Er & Lr). injection Er as <-.
    destruct l as [|l1 y l2].
    - assert (E0 : F v = 0) by (cbn in Lr; inversion Lr; congruence). rewrite E0. exists h1, a, h1, 0, ((Nd Lf v Lf, 0) :: R1). split; [exact E1|]. rewrite Lv. cbn [top go_right]. destruct Nil as (_ & N2 & _). rewrite N2. split; [reflexivity|]. split; [reflexivity|exact Rp1].
    - destruct (go_right_ok O h1 (Nd l1 y l2) v (S n) Il) as (p & b & E2 & Ep); [discriminate|lia|]. rewrite Ep, rev_app_distr in Lr. cbn [rev app] in Lr. assert (Fp : F v = p) by (inversion Lr; congruence).
      assert (Hp : 1 <= p <= n). { apply (rep_in _ _ _ _ _ _ _ _ _ _ _ p Rp1). rewrite nodes_cons. apply in_or_app. left. cbn [io] in *. rewrite Ep. apply in_or_app. left. apply in_or_app. right. now left. }
      destruct (acc O F n h1 _ p Fr Rp1 Hp) as (h2 & a2 & l3 & R2 & E3 & Rp2 & _). exists h1, a, h2, a2, ((Nd l3 p Lf, 0) :: R2). rewrite Lv, Fp. auto.
  Qed.
  Lemma last_app {B} (a : list B) x b d : last (a ++ x :: b) d = last (x :: b) d.
  Proof. induction a as [|y a IH]; [reflexivity|]. cbn [app]. destruct (a ++ x :: b) eqn:E; [now destruct a|]. rewrite <- IH. reflexivity. Qed.
  Lemma lca_ok O F n h A v w : frst F n -> Rep O F n h A -> 1 <= v <= n -> 1 <= w <= n -> exists h1 r1 h2 r2 A2 lv lw, find_root_h f_up n h v = Some (h1, r1) /\ find_root_h f_up n h1 w = Some (h2, r2) /\ Rep O F n h2 A2 /\ lineage F v lv /\ lineage F w lw /\
    (r1 <> r2 -> forall x, In x lv -> ~ In x lw) /\
    (r1 = r2 -> exists h3 a h4 c A4 lc, access f_up n h2 v = Some (h3, a) /\ access f_up n h3 w = Some (h4, c) /\ Rep O F n h4 A4 /\ In c lv /\ In c lw /\ lineage F c lc /\ forall x, In x lv -> In x lw -> In x lc).
  Proof.
    intros Fr Rp Hv Hw. destruct (root_ok O F n h A v Fr Rp Hv) as (h1 & A1 & r1 & lv & E1 & Rp1 & Lv & Er1 & _). destruct (root_ok O F n h1 A1 w Fr Rp1 Hw) as (h2 & A2 & r2 & lw & E2 & Rp2 & Lw & Er2 & _).
    exists h1, r1, h2, r2, A2, lv, lw. split; [exact E1|]. split; [exact E2|]. split; [exact Rp2|]. split; [exact Lv|]. split; [exact Lw|]. split.
    - intros N x J1 J2. apply N. destruct (lin_suffix _ _ _ _ Lv J1) as (a1 & b1 & -> & L1). destruct (lin_suffix _ _ _ _ Lw J2) as (a2 & b2 & -> & L2). rewrite Er1, Er2, !last_app. f_equal. now apply (lin_det F x).
    - intros Er. destruct (acc O F n h2 A2 v Fr Rp2 Hv) as (h3 & a & l3 & R3 & E3 & Rp3 & _ & L3 & _). destruct (acc O F n h3 _ w Fr Rp3 Hw) as (h4 & c & l4 & R4 & E4 & Rp4 & _ & L4 & (tr & p1 & p2 & Jt & Ec & Jc & Dc) & _).
      assert (Ev := lin_det _ _ _ Lv _ L3). assert (Ew := lin_det _ _ _ Lw _ L4). assert (Jcw : In c lw) by (rewrite Ew, Ec; apply in_or_app; right; now left).
      destruct (lin_suffix _ _ _ _ Lw Jcw) as (q1 & q2 & Eq & Lc).
      (* the tree that contains c contains the root, hence is the path of v *)
      assert (Ht : tr = Nd l3 v Lf).
      { destruct Jt as [Jt|Jt]; [now inversion Jt|]. exfalso. destruct (head_facts O F n h3 _ _ _ Rp3) as (_ & I3 & _ & _ & G3 & _ & _ & D3). rewrite Forall_forall in G3. destruct (G3 _ Jt) as (_ & It & _ & Ct). cbn [fst snd] in *.
        destruct (in_split _ _ Jc) as (u1 & u2 & Eu). pose proof (lin_of_tree own O F h3 tr 0 u1 c u2 [] It Ct Eu (lin_none F)) as Lc'. rewrite app_nil_r in Lc'. assert (Ec' := lin_det _ _ _ Lc _ Lc').
        apply (D3 r1).
        - assert (J : In r1 lv). { rewrite Er1, Ev. destruct (@exists_last _ (v :: rev (io l3))) as (z & y & E); [discriminate|]. rewrite E, last_last. apply in_or_app. right. now left. }
          rewrite Ev in J. cbn [In] in J. rewrite <- in_rev in J. cbn [io]. rewrite in_app_iff. cbn. tauto.
        - apply in_nodes. exists tr, 0. split; [exact Jt|]. rewrite Er, Er2, Eq, last_app, Ec'. destruct (@exists_last _ (c :: rev u1)) as (z & y & E); [discriminate|]. rewrite E, last_last. assert (J : In y (c :: rev u1)) by (rewrite E; apply in_or_app; right; now left). rewrite Eu. cbn [In] in J. rewrite <- in_rev in J. rewrite in_app_iff. cbn. tauto. }
      subst tr. exists h3, a, h4, c, ((Nd l4 w Lf, 0) :: R4), (c :: q2). split; [exact E3|]. split; [exact E4|]. split; [exact Rp4|]. split; [|split; [exact Jcw|split; [exact Lc|]]].
      + rewrite Ev. cbn [io In] in *. rewrite in_app_iff in Jc. rewrite <- in_rev. cbn in Jc. tauto.
      + intros x J1 J2. assert (Jx : In x (io (Nd l3 v Lf))). { rewrite Ev in J1. cbn [In] in J1. rewrite <- in_rev in J1. cbn [io]. rewrite in_app_iff. cbn. tauto. }
        assert (Epq : p1 ++ c :: p2 = q1 ++ c :: q2) by congruence. rewrite Ew, Ec in J2. apply in_app_or in J2. destruct J2 as [J2|J2]; [exfalso; now apply (Dc x)|].
        assert (Nd1 : NoDup (p1 ++ c :: p2)). { rewrite <- Ec, <- Ew. now apply (lin_nodup F w). }
        assert (E : p2 = q2); [|now rewrite <- E].
        clear - Epq Nd1. revert q1 Epq. induction p1 as [|y p1 IH]; intros [|z q1] E; cbn [app] in *.
        * congruence.
        * exfalso. injection E as -> E. apply NoDup_cons_iff in Nd1. destruct Nd1 as (N & _). apply N. rewrite E. apply in_or_app. right. now left.
        * exfalso. injection E as -> E. apply NoDup_cons_iff in Nd1. destruct Nd1 as (N & _). apply N. apply in_or_app. right. now left.
        * injection E as -> E. apply NoDup_cons_iff in Nd1. destruct Nd1 as (_ & N). now apply (IH N q1).
  Qed.
  Lemma set_ok O F n h l v R (x : T) : Rep O F n h ((Nd l v Lf, 0) :: R) -> Rep (set_at O v (own x)) F n (set_vl h v x) ((Nd l v Lf, 0) :: R).
  Proof.
    intros Rp. destruct (head_facts O F n h _ _ _ Rp) as (Nil & Iv & Vv & Cv & G & Nv & _ & D). destruct Rp as (_ & _ & Sq). cbn [LctProofs.ist] in Iv. destruct Iv as (V0 & Pv & Lv & Rv & Sv & Ov & Il & _).
    assert (Eo : forall j, j <> v -> set_vl h v x j = h j /\ set_at O v (own x) j = O j) by (intros j N; unfold set_vl; rewrite put_other, set_at_other by exact N; auto).
    assert (Ev : set_vl h v x v = mk_node (npar (h v)) (nlf (h v)) (nrt (h v)) (nsz (h v)) x) by (unfold set_vl; now rewrite put_same).
    assert (El : forall j, In j (io l) -> j <> v). { intros j J ->. cbn [io] in Nv. apply NoDup_remove in Nv. apply (proj2 Nv). rewrite app_nil_r. exact J. }
    split; [|split; [|exact Sq]].
    - unfold nil_ok. rewrite (proj1 (Eo 0 ltac:(congruence))). exact Nil.
    - constructor.
      + split; [discriminate|]. cbn [fst snd]. split; [|split; [|exact Cv]].
        * cbn [LctProofs.ist]. rewrite Ev. cbn [npar nlf nrt nsz nvl]. rewrite set_at_same. repeat split; try assumption. apply (ist_ext2 O _ h); [|exact Il]. intros j J. now apply Eo, El.
        * destruct Vv as (Vl & _). split; [|exact I]. apply (vok_ext2 O _ h); [|exact Vl]. intros j J. now apply Eo, El.
      + apply (good_ext2 O _ F _ h); [|exact G]. intros j J. destruct (Eo j) as (E1 & E2); [|auto]. intros ->. apply (D v); [cbn [io]; apply in_or_app; right; now left|exact J].
  Qed.

  (** ** histories *)
  Definition Inv (s : lct T) (fs : forest) : Prop := lsize s = fsize fs /\ frst (fparent fs) (fsize fs) /\ exists A, Rep (fval fs) (fparent fs) (fsize fs) (lheap s) A.
  Lemma inv_new d : Inv (lct_new id) (no_nodes d).
  Proof. split; [reflexivity|]. split; [split; cbn; lia|]. exists []. split; [repeat split|]. split; [constructor|]. constructor. Qed.
  Lemma at_ok s fs v : Inv s fs -> is_node fs v -> at_ s v = Some tt.
  Proof. intros (E & _) (_ & H). unfold at_. rewrite E. now rewrite (proj2 (Nat.leb_le _ _) H). Qed.
  Lemma op_ok s fs o : Inv s fs -> legal_op fs o -> exists s' a, run_op f_up s o = Some (s', a) /\ Inv s' (next own fs o) /\ correct_answer own agg elt unit_ op_ fs o a.
  Proof.
    intros In_ L. pose proof In_ as (Es & Fr & A & Rp). destruct o as [x|v p|v|v|v|v w|v|v|v x]; cbn [run_op legal_op next correct_answer] in *.
    - exists (fst (lct_add s x)), (Node (S (lsize s))). split; [reflexivity|]. split; [|now rewrite Es]. destruct (add_ok _ _ _ _ _ x Fr Rp) as (Fr' & Rp'). unfold lct_add. cbn [fst]. rewrite Es. split; [reflexivity|]. split; [exact Fr'|]. eexists. exact Rp'.
    - destruct L as (Hv & Hp & Fv & Np). unfold lct_link. rewrite (at_ok s fs v In_ Hv), (at_ok s fs p In_ Hp). cbn [obind]. rewrite Es.
      destruct (link_ok _ _ _ _ _ v p Fr Rp Hv Hp Fv Np) as (h1 & a & h2 & b & R & E1 & E2 & Fr' & Rp'). rewrite E1. cbn [obind]. rewrite E2. cbn [obind]. eexists _, _. split; [reflexivity|]. split; [|exact I]. split; [reflexivity|]. split; [exact Fr'|]. exists R. exact Rp'.
    - unfold lct_cut. rewrite (at_ok s fs v In_ L). cbn [obind]. rewrite Es. destruct (cut_ok _ _ _ _ _ v Fr Rp L) as (h1 & a & R & E1 & Fr' & Rp'). rewrite E1. cbn [obind]. eexists _, _. split; [reflexivity|]. split; [|exact I]. split; [reflexivity|]. split; [exact Fr'|]. exists R. exact Rp'.
    - unfold lct_find_root. rewrite (at_ok s fs v In_ L). cbn [obind]. rewrite Es. destruct (root_ok _ _ _ _ _ v Fr Rp L) as (h' & A' & r & lv & E & Rp' & Lv & Er & _). rewrite E. cbn [obind]. eexists _, _. split; [reflexivity|]. split; [|exists lv; auto]. split; [reflexivity|]. split; [exact Fr|]. exists A'. exact Rp'.
    - unfold lct_find_parent. rewrite (at_ok s fs v In_ L). cbn [obind]. rewrite Es. destruct (parent_ok _ _ _ _ _ v Fr Rp L) as (h1 & a & h' & b & A' & E1 & E2 & E3 & Rp'). rewrite E1. cbn [obind]. rewrite E2. cbn [obind]. rewrite E3. cbn [obind]. eexists _, _. split; [reflexivity|]. split; [|reflexivity]. split; [reflexivity|]. split; [exact Fr|]. exists A'. exact Rp'.
    - destruct L as (Hv & Hw). unfold lct_find_lca. rewrite (at_ok s fs v In_ Hv), (at_ok s fs w In_ Hw). cbn [obind]. rewrite Es.
      destruct (lca_ok _ _ _ _ _ v w Fr Rp Hv Hw) as (h1 & r1 & h2 & r2 & A2 & lv & lw & E1 & E2 & Rp2 & Lv & Lw & N & Y). rewrite E1. cbn [obind]. rewrite E2. cbn [obind]. destruct (Nat.eqb_spec r1 r2) as [Er|Er]; cbn [negb].
      + destruct (Y Er) as (h3 & a & h4 & c & A4 & lc & E3 & E4 & Rp4 & J1 & J2 & Lc & Q). rewrite E3. cbn [obind]. rewrite E4. cbn [obind]. eexists _, _. split; [reflexivity|]. split; [split; [reflexivity|]; split; [exact Fr|]; exists A4; exact Rp4|]. exists lv, lw. split; [exact Lv|]. split; [exact Lw|]. right. split; [exact J1|]. split; [exact J2|]. exists lc. auto.
      + eexists _, _. split; [reflexivity|]. split; [split; [reflexivity|]; split; [exact Fr|]; exists A2; exact Rp2|]. exists lv, lw. split; [exact Lv|]. split; [exact Lw|]. left. split; [reflexivity|]. exact (N Er).
    - unfold lct_depth. rewrite (at_ok s fs v In_ L). cbn [obind]. rewrite Es. destruct (acc _ _ _ _ _ v Fr Rp L) as (h1 & a & l & R1 & E1 & Rp1 & _ & L1 & _). rewrite E1. cbn [obind]. eexists _, _. split; [reflexivity|]. split; [split; [reflexivity|]; split; [exact Fr|]; eexists; exact Rp1|].
      exists (v :: rev (io l)). split; [exact L1|]. destruct (head_facts _ _ _ _ _ _ _ Rp1) as (Nil & I1 & _). cbn [LctProofs.ist] in I1. destruct I1 as (_ & _ & Lv & _ & _ & _ & Il & _). rewrite Lv, (ist_top_sz _ _ _ _ _ _ Nil Il). cbn [length]. now rewrite rev_length.
    - unfold lct_get. rewrite (at_ok s fs v In_ L). cbn [obind]. rewrite Es. destruct (acc _ _ _ _ _ v Fr Rp L) as (h1 & a & l & R1 & E1 & Rp1 & V1 & L1 & _). rewrite E1. cbn [obind]. eexists _, _. split; [reflexivity|]. split; [split; [reflexivity|]; split; [exact Fr|]; eexists; exact Rp1|].
      destruct (head_facts _ _ _ _ _ _ _ Rp1) as (Nil & I1 & _). cbn [LctProofs.ist] in I1. destruct I1 as (_ & _ & _ & _ & _ & Ov & _). split; [exact Ov|]. exists (v :: rev (io l)). split; [exact L1|]. cbn [rev]. rewrite rev_involutive. apply V1.
    - unfold lct_set. rewrite (at_ok s fs v In_ L). cbn [obind]. rewrite Es. destruct (acc _ _ _ _ _ v Fr Rp L) as (h1 & a & l & R1 & E1 & Rp1 & _). rewrite E1. cbn [obind]. eexists _, _. split; [reflexivity|]. split; [|exact I]. split; [reflexivity|]. split; [exact Fr|]. eexists. apply (set_ok _ _ _ _ _ _ _ x Rp1).
  Qed.
  Lemma ops_ok os : forall s fs, Inv s fs -> legal own fs os -> exists s' rs, run_ops f_up s os = Some (s', rs) /\ Inv s' (fold_left (next own) os fs) /\ correct own agg elt unit_ op_ fs os rs.
  Proof.
    induction os as [|o os IH]; intros s fs H L; cbn [legal run_ops fold_left] in *; [exists s, []; repeat split; apply H|]. destruct L as (L1 & L2). destruct (op_ok s fs o H L1) as (s1 & a & E1 & H1 & C1). rewrite E1. cbn [obind].
    destruct (IH s1 _ H1 L2) as (s2 & rs & E2 & H2 & C2). rewrite E2. cbn [obind]. exists s2, (a :: rs). split; [reflexivity|]. split; [exact H2|]. split; assumption.
  Qed.

  (** ** searching a path *)
  Lemma trav_ok O h (path : list nat) (f : T -> T -> T -> Z -> Z) (k : Z) :
    (forall i v, nth_error path i = Some v -> forall a b c, own a = O v -> ((Z.of_nat i < k)%Z -> (f a b c (Z.of_nat i) > 0)%Z) /\ (Z.of_nat i = k -> f a b c (Z.of_nat i) = 0%Z) /\ ((Z.of_nat i > k)%Z -> (f a b c (Z.of_nat i) < 0)%Z)) -> nil_ok id h ->
    forall t p fuel u w d, ist O h t p -> path = u ++ io t ++ w ->
      d = (Z.of_nat (length u) + Z.of_nat (nsz (h (nlf (h (top t))))))%Z -> length (io t) < fuel ->
      trav fuel f h (top t) d = Some (if (Z.of_nat (length u) <=? k)%Z && (k <? Z.of_nat (length u + length (io t)))%Z then nth (Z.to_nat k - length u) (io t) 0 else 0).
  Proof.
    intros St Nil t. induction t as [|l IHl x r IHr]; intros p fuel u w d It Ep Ed Hf; (destruct fuel as [|fuel]; [cbn in Hf; lia|]); cbn [trav top].
    - cbn [Nat.eqb io length]. destruct (Z.leb_spec (Z.of_nat (length u)) k), (Z.ltb_spec k (Z.of_nat (length u + 0))); cbn [andb]; try reflexivity. lia.
    - cbn [LctProofs.ist] in It. destruct It as (X0 & Px & Lx & Rx & Sx & Ox & Il & Ir). rewrite (proj2 (Nat.eqb_neq _ _) X0). cbn [top] in Ed. rewrite Lx in *. rewrite (ist_top_sz _ _ _ _ _ _ Nil Il) in Ed. rewrite Rx. cbn [io] in *. rewrite app_length in *. cbn [length] in *.
      assert (Nx : nth_error path (length u + length (io l)) = Some x). { rewrite Ep, nth_error_app2 by lia. rewrite <- app_assoc, nth_error_app2 by lia. now replace (length u + length (io l) - length u - length (io l)) with 0 by lia. }
      destruct (St _ x Nx (nvl (h x)) (nvl (h (top l))) (nvl (h (top r))) Ox) as (S1 & S2 & S3). assert (Ed' : d = Z.of_nat (length u + length (io l))) by lia. rewrite <- Ed' in S1, S2, S3. set (dir := f (nvl (h x)) (nvl (h (top l))) (nvl (h (top r))) d) in *.
      destruct (Z.eqb_spec dir 0) as [D0|D0].
      + assert (Ek : k = d) by lia. destruct (Z.leb_spec (Z.of_nat (length u)) k); [|lia]. destruct (Z.ltb_spec k (Z.of_nat (length u + (length (io l) + S (length (io r)))))); [|lia]. cbn [andb]. rewrite app_nth2 by lia. now replace (Z.to_nat k - length u - length (io l)) with 0 by lia.
      + destruct (Z.ltb_spec dir 0) as [D1|D1].
        * rewrite (IHl x fuel u (x :: io r ++ w)); [|exact Il|rewrite Ep, <- app_assoc; reflexivity| |lia].
          -- f_equal. destruct (Z.leb_spec (Z.of_nat (length u)) k); cbn [andb]; [|reflexivity]. destruct (Z.ltb_spec k (Z.of_nat (length u + length (io l)))); [|lia]. destruct (Z.ltb_spec k (Z.of_nat (length u + (length (io l) + S (length (io r)))))); [|lia]. now rewrite app_nth1 by lia.
          -- rewrite Ed', (ist_top_sz _ _ _ _ _ _ Nil Il). lia.
        * rewrite (IHr x fuel (u ++ io l ++ [x]) w); [|exact Ir|rewrite Ep, <- !app_assoc; reflexivity| |lia].
          -- f_equal. rewrite !app_length. cbn [length]. destruct (Z.leb_spec (Z.of_nat (length u)) k); [|lia]. destruct (Z.leb_spec (Z.of_nat (length u + (length (io l) + 1))) k); [|lia]. cbn [andb].
             destruct (Z.ltb_spec k (Z.of_nat (length u + (length (io l) + 1) + length (io r)))), (Z.ltb_spec k (Z.of_nat (length u + (length (io l) + S (length (io r)))))); try lia.
             rewrite app_nth2 by lia. replace (Z.to_nat k - length u - length (io l)) with (S (Z.to_nat k - (length u + (length (io l) + 1)))) by lia. reflexivity.
          -- rewrite Ed', !app_length. cbn [length]. lia.
  Qed.
End H.
