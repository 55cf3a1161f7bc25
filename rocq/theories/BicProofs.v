From Coq Require Import Lia.
From Verif Require Import Lib BicModel BicSpec.

Lemma edge_eqb_ok e f : edge_eqb e f = true <-> e = f.
Proof. destruct e as (a, b), f as (c, d). unfold edge_eqb. cbn. rewrite andb_true_iff, !Nat.eqb_eq. split; [intros (-> & ->); reflexivity|intros E; injection E; auto]. Qed.
Lemma insert_in s e f : In f (insert s e) <-> f = e \/ In f s.
Proof.
  unfold insert. destruct (existsb (edge_eqb e) s) eqn:E; cbn; [|intuition congruence]. apply existsb_exists in E. destruct E as (x & Hx & Ex). apply edge_eqb_ok in Ex. subst x. split; [auto|intros [->|H]; auto].
Qed.
Lemma insert_nodup s e : NoDup s -> NoDup (insert s e).
Proof.
  intros N. unfold insert. destruct (existsb (edge_eqb e) s) eqn:E; [exact N|]. constructor; [|exact N]. intros H. assert (existsb (edge_eqb e) s = true); [|congruence]. apply existsb_exists. exists e. split; [exact H|]. now apply edge_eqb_ok.
Qed.
Lemma erase_in s e f : In f (erase s e) <-> In f s /\ f <> e.
Proof. unfold erase. rewrite filter_In, negb_true_iff, <- not_true_iff_false, edge_eqb_ok. intuition congruence. Qed.
Lemma erase_nodup s e : NoDup s -> NoDup (erase s e).
Proof. apply NoDup_filter. Qed.
Lemma row_ok u adj : forall s, (NoDup s -> NoDup (fold_left (fun s v => if u <? v then insert s (u, v) else s) adj s)) /\
  forall f, In f (fold_left (fun s v => if u <? v then insert s (u, v) else s) adj s) <-> In f s \/ fst f = u /\ u < snd f /\ In (snd f) adj.
Proof.
  induction adj as [|v adj IH]; intros s; cbn [fold_left]; [split; [auto|intros f; cbn; tauto]|]. destruct (IH (if u <? v then insert s (u, v) else s)) as (N & I). destruct (Nat.ltb_spec u v) as [L|L].
  - split; [intros Ns; now apply N, insert_nodup|]. intros (a, b). rewrite I, insert_in. cbn. split.
    + intros [[E|H]|H]; [injection E as -> ->; right; auto|auto|right; tauto].
    + intros [H|(-> & H & [->|Q])]; auto.
  - split; [exact N|]. intros (a, b). rewrite I. cbn. split; [intros [H|H]; tauto|]. intros [H|(-> & H & [->|Q])]; auto. lia.
Qed.
Lemma all_ok g : forall u0 s, (NoDup s -> NoDup (all_edges u0 g s)) /\
  forall u v, In (u, v) (all_edges u0 g s) <-> In (u, v) s \/ u < v /\ u0 <= u /\ exists adj, nth_error g (u - u0) = Some adj /\ In v adj.
Proof.
  induction g as [|adj g IH]; intros u0 s; cbn [all_edges].
  - split; [auto|]. intros u v. split; [auto|]. intros [H|(_ & _ & adj & H & _)]; [exact H|]. now destruct (u - u0).
  - destruct (row_ok u0 adj s) as (N & I). destruct (IH (S u0) (fold_left (fun s v => if u0 <? v then insert s (u0, v) else s) adj s)) as (N2 & I2). split; [auto|]. intros u v. rewrite I2, I. cbn [fst snd]. split.
    + intros [[H|(-> & L & H)]|(L & G & a & E & H)]; [auto| |].
      * right. split; [exact L|]. split; [lia|]. exists adj. rewrite Nat.sub_diag. auto.
      * right. split; [exact L|]. split; [lia|]. exists a. replace (u - u0) with (S (u - S u0)) by lia. auto.
    + intros [H|(L & G & a & E & H)]; [auto|]. destruct (Nat.eq_dec u u0) as [->|D].
      * rewrite Nat.sub_diag in E. injection E as ->. left. right. auto.
      * right. split; [exact L|]. split; [lia|]. exists a. replace (u - u0) with (S (u - S u0)) in E by lia. auto.
Qed.
Lemma next_cons u v a b r : next_to u v (a :: b :: r) <-> u = a /\ v = b \/ next_to u v (b :: r).
Proof.
  split.
  - intros ([|x l1] & l2 & E); cbn in E; [injection E as -> -> ->; left; auto|]. injection E as -> E. right. exists l1, l2. exact E.
  - intros [(-> & ->)|(l1 & l2 & E)]; [exists [], r; reflexivity|]. exists (a :: l1), l2. cbn. now rewrite <- E.
Qed.
Lemma next_short u v l : length l < 2 -> ~ next_to u v l.
Proof. intros H (l1 & l2 & ->). rewrite app_length in H. cbn in H. lia. Qed.
Lemma chain_ok chain : forall s, (NoDup s -> NoDup (erase_chain s chain)) /\
  forall u v, u < v -> (In (u, v) (erase_chain s chain) <-> In (u, v) s /\ ~ (next_to u v chain \/ next_to v u chain)).
Proof.
  induction chain as [|a chain IH]; intros s.
  - cbn. split; [auto|]. intros u v L. split; [|tauto]. intros H. split; [exact H|]. intros [Q|Q]; apply (next_short _ _ []) in Q; cbn; auto; lia.
  - destruct chain as [|b r].
    + cbn. split; [auto|]. intros u v L. split; [|tauto]. intros H. split; [exact H|]. intros [Q|Q]; (eapply next_short; [|exact Q]; cbn; lia).
    + set (e := (if b <? a then (b, a) else (a, b)) : edge). change (erase_chain s (a :: b :: r)) with (erase_chain (erase s e) (b :: r)). destruct (IH (erase s e)) as (N & I). split; [intros Ns; now apply N, erase_nodup|]. intros u v L. rewrite (I u v L), erase_in, !next_cons.
      assert (E : (u, v) = e <-> (u = a /\ v = b \/ v = a /\ u = b)).
      { unfold e. destruct (Nat.ltb_spec b a) as [Q|Q]; split; intros H; [injection H as -> ->; auto|destruct H as [(-> & ->)|(-> & ->)]; [lia|reflexivity]|injection H as -> ->; auto|destruct H as [(-> & ->)|(-> & ->)]; [reflexivity|lia]]. }
      rewrite E. tauto.
Qed.
Lemma fold_ok {X} (f : list edge -> X -> list edge) (bad : X -> nat -> nat -> Prop)
  (Hf : forall x s, (NoDup s -> NoDup (f s x)) /\ forall u v, u < v -> (In (u, v) (f s x) <-> In (u, v) s /\ ~ bad x u v)) l : forall s,
  (NoDup s -> NoDup (fold_left f l s)) /\ forall u v, u < v -> (In (u, v) (fold_left f l s) <-> In (u, v) s /\ ~ exists x, In x l /\ bad x u v).
Proof.
  induction l as [|x l IH]; intros s; cbn [fold_left].
  - split; [auto|]. intros u v L. split; [|tauto]. intros H. split; [exact H|]. intros (x & [] & _).
  - destruct (IH (f s x)) as (N & I). destruct (Hf x s) as (N1 & I1). split; [auto|]. intros u v L. rewrite (I u v L), (I1 u v L). split.
    + intros ((H & B1) & B2). split; [exact H|]. intros (y & [->|Hy] & B); [auto|]. apply B2. eauto.
    + intros (H & B). split; [split; [exact H|]|]; [intros Q; apply B; exists x; split; [now left|exact Q]|intros (y & Hy & Q); apply B; exists y; split; [now right|exact Q]].
Qed.
Lemma cut_edges_ok g d : NoDup (cut_edges g d) /\ forall u v, u < v -> (In (u, v) (cut_edges g d) <-> (exists adj, nth_error g u = Some adj /\ In v adj) /\ ~ on_chain d u v).
Proof.
  unfold cut_edges. destruct (all_ok g 0 []) as (N0 & I0).
  pose proof (fold_ok (fun s component => fold_left (fun s block => fold_left erase_chain block s) component s) _
    (fun component => fold_ok (fun s block => fold_left erase_chain block s) _ (fun block => fold_ok erase_chain _ chain_ok block) component) d (all_edges 0 g [])) as (N & I).
  split; [apply N, N0; constructor|]. intros u v L. rewrite (I u v L), I0, Nat.sub_0_r. cbn [In]. unfold on_chain. split.
  - intros ([[]|(_ & _ & H)] & B). split; [exact H|]. intros (c & b & ch & H1 & H2 & H3 & H4). apply B. exists c. split; [exact H1|]. exists b. split; [exact H2|]. exists ch. auto.
  - intros (H & B). split; [right; auto with arith|]. intros (c & H1 & b & H2 & ch & H3 & H4). apply B. exists c, b, ch. auto.
Qed.
Lemma cut_edges_lt g d u v : In (u, v) (cut_edges g d) -> u < v.
Proof.
  unfold cut_edges. intros H. destruct (all_ok g 0 []) as (_ & I0).
  assert (Sub : forall chain s e, In e (erase_chain s chain) -> In e s). { induction chain as [|a [|b r] IH]; intros s e Q; try exact Q. change (In e (erase_chain (erase s (if b <? a then (b, a) else (a, b))) (b :: r))) in Q. apply IH in Q. now apply erase_in in Q. }
  assert (FS : forall X (f : list edge -> X -> list edge), (forall x s e, In e (f s x) -> In e s) -> forall l s e, In e (fold_left f l s) -> In e s). { intros X f Hf. induction l as [|x l IH]; intros s e Q; [exact Q|]. cbn in Q. now apply IH, Hf in Q. }
  assert (Q : In (u, v) (all_edges 0 g [])). { revert H. apply FS. intros c. apply (FS _ (fun s block => fold_left erase_chain block s)). intros b. apply FS. intros ch s e. apply Sub. }
  apply I0 in Q. destruct Q as [[]|(L & _)]. exact L.
Qed.

(** marking *)
Lemma set_true m i : i < length m -> exists m', set_nth m i true = Some m' /\ length m' = length m /\ forall j, nth j m' false = true <-> nth j m false = true \/ j = i.
Proof.
  intros H. destruct (set_nth_some m i true H) as (m' & E). exists m'. split; [exact E|]. split; [exact (set_nth_length _ _ _ _ E)|]. intros j. pose proof (set_nth_get _ _ _ _ j E) as G. destruct (Nat.eqb_spec i j) as [->|N].
  - rewrite (nth_error_nth _ _ false G). tauto.
  - assert (Q : nth j m' false = nth j m false). { destruct (nth_error m j) as [b|] eqn:Em; [now rewrite (nth_error_nth _ _ false G), (nth_error_nth _ _ false Em)|]. apply nth_error_None in G, Em. now rewrite !nth_overflow. } rewrite Q. intuition congruence.
Qed.
Lemma mark_fold {X} (f : option (list bool) -> X -> option (list bool)) (mk : X -> nat -> Prop) n (ok : X -> Prop)
  (Hf : forall x m, ok x -> length m = n -> exists m', f (Some m) x = Some m' /\ length m' = n /\ forall j, nth j m' false = true <-> nth j m false = true \/ mk x j) l :
  forall m, length m = n -> (forall x, In x l -> ok x) -> exists m', fold_left f l (Some m) = Some m' /\ length m' = n /\ forall j, nth j m' false = true <-> nth j m false = true \/ exists x, In x l /\ mk x j.
Proof.
  induction l as [|x l IH]; intros m Hm Hok; cbn [fold_left].
  - exists m. split; [reflexivity|]. split; [exact Hm|]. intros j. split; [auto|]. intros [H|(x & [] & _)]. exact H.
  - destruct (Hf x m (Hok x (or_introl eq_refl)) Hm) as (m1 & E1 & L1 & I1). rewrite E1. destruct (IH m1 L1) as (m2 & E2 & L2 & I2); [intros y Hy; apply Hok; now right|]. exists m2. split; [exact E2|]. split; [exact L2|]. intros j. rewrite I2, I1. split.
    + intros [[H|H]|(y & Hy & H)]; [auto|right; exists x; split; [now left|exact H]|right; exists y; split; [now right|exact H]].
    + intros [H|(y & [->|Hy] & H)]; [auto|auto|right; eauto].
Qed.
Lemma cut_vertices_ok g d ve :
  (forall e, In e ve -> fst e < length g /\ snd e < length g) ->
  (forall b0 blocks block, In (b0 :: blocks) d -> In block blocks -> exists u r rest, block = (u :: r) :: rest /\ u < length g) ->
  exists m, cut_vertices g d ve = Some (filter (fun u => if length (nth u g []) <? 2 then false else nth u m false) (seq 0 (length g))) /\
    forall u, nth u m false = true <-> (exists e, In e ve /\ (u = fst e \/ u = snd e)) \/ later_head d u.
Proof.
  intros Hve Hd. unfold cut_vertices, mark_ends, mark_heads.
  destruct (mark_fold (fun m e => let* m := m in let* m := set_nth m (snd e) true in set_nth m (fst e) true) (fun e u => u = fst e \/ u = snd e) (length g) (fun e => fst e < length g /\ snd e < length g)) with (l := ve) (m := repeat false (length g)) as (m1 & E1 & L1 & I1); [|apply repeat_length|exact Hve|].
  { intros e m (H1 & H2) Hm. cbn [obind]. destruct (set_true m (snd e)) as (m1 & E1 & L1 & I1); [lia|]. rewrite E1. cbn [obind]. destruct (set_true m1 (fst e)) as (m2 & E2 & L2 & I2); [lia|]. exists m2. split; [exact E2|]. split; [lia|]. intros j. rewrite I2, I1. tauto. }
  rewrite E1. cbn [obind].
  set (okb := fun block : list (list nat) => exists u r rest, block = (u :: r) :: rest /\ u < length g).
  set (mkb := fun (block : list (list nat)) u => exists r rest, block = (u :: r) :: rest).
  assert (HB : forall l m, length m = length g -> (forall x, In x l -> okb x) -> exists m', fold_left (fun m block => let* m := m in let* h := head2 block in set_nth m h true) l (Some m) = Some m' /\ length m' = length g /\ forall j, nth j m' false = true <-> nth j m false = true \/ exists x, In x l /\ mkb x j).
  { apply mark_fold. intros block m (u & r & rest & -> & Hu) Hm. cbn [obind head2 nth_error]. destruct (set_true m u) as (m2 & E2 & L2 & I2); [lia|]. exists m2. split; [exact E2|]. split; [lia|]. intros j. rewrite I2. unfold mkb. split; [intros [H|H]; [auto|subst; right; eauto]|]. intros [H|(r' & rest' & Q)]; [auto|]. injection Q; auto. }
  destruct (mark_fold (fun m component => fold_left (fun m block => let* m := m in let* h := head2 block in set_nth m h true) (skipn 1 component) m) (fun component u => exists x, In x (skipn 1 component) /\ mkb x u) (length g) (fun component => forall x, In x (skipn 1 component) -> okb x)) with (l := d) (m := m1) as (m2 & E2 & L2 & I2); [|exact L1| |].
  { intros component m Hok Hm. now apply HB. }
  { intros component Hc x Hx. destruct component as [|b0 blocks]; [destruct Hx|]. cbn in Hx. exact (Hd b0 blocks x Hc Hx). }
  rewrite E2. cbn [obind]. exists m2. split; [reflexivity|]. intros u. rewrite I2, I1.
  assert (R0 : nth u (repeat false (length g)) false = true <-> False). { split; [|tauto]. intros Q. assert (In true (repeat false (length g))). { rewrite <- Q. destruct (Nat.lt_ge_cases u (length (repeat false (length g)))); [now apply nth_In|]. rewrite nth_overflow in Q by lia. discriminate. } now apply repeat_spec in H. }
  rewrite R0. assert (LH : (exists x, In x d /\ exists b, In b (skipn 1 x) /\ mkb b u) <-> later_head d u).
  { unfold later_head, mkb. split.
    - intros ([|b0 blocks] & Hx & b & Hb & r & rest & ->); [destruct Hb|]. exists b0, blocks, ((u :: r) :: rest), (u :: r), r, rest. auto.
    - intros (b0 & blocks & block & chain & r & rest & H1 & H2 & -> & ->). exists (b0 :: blocks). split; [exact H1|]. exists ((u :: r) :: rest). split; [exact H2|]. eauto. }
  rewrite LH. tauto.
Qed.

Lemma set_any m i b : i < length m -> exists m', set_nth m i b = Some m' /\ length m' = length m /\ forall j, nth j m' false = if i =? j then b else nth j m false.
Proof.
  intros H. destruct (set_nth_some m i b H) as (m' & E). exists m'. split; [exact E|]. split; [exact (set_nth_length _ _ _ _ E)|]. intros j. pose proof (set_nth_get _ _ _ _ j E) as G. destruct (Nat.eqb_spec i j) as [->|N]; [now rewrite (nth_error_nth _ _ false G)|].
  destruct (nth_error m j) as [x|] eqn:Em; [now rewrite (nth_error_nth _ _ false G), (nth_error_nth _ _ false Em)|]. apply nth_error_None in G, Em. now rewrite !nth_overflow.
Qed.
Lemma visit_ok n vs : forall seen acc, length seen = n -> (forall u, In u vs -> u < n) -> (forall u, In u acc -> nth u seen false = true) -> NoDup acc ->
  exists acc' seen', visit vs seen acc = Some (acc', seen') /\ length seen' = n /\ NoDup acc' /\
    (forall u, nth u seen' false = true <-> nth u seen false = true \/ In u vs) /\ (forall u, In u acc' <-> In u acc \/ In u vs /\ nth u seen false = false).
Proof.
  induction vs as [|x vs IH]; intros seen acc Hl Hv Ha Hn; cbn [visit].
  - exists acc, seen. split; [reflexivity|]. split; [exact Hl|]. split; [exact Hn|]. cbn. split; intros u; tauto.
  - assert (Hx : x < n) by (apply Hv; now left). rewrite (nth_error_nth' seen false) by lia. cbn [obind]. destruct (nth x seen false) eqn:Sx.
    + destruct (IH seen acc Hl) as (acc' & seen' & E & L & N & S1 & A1); [intros u Hu; apply Hv; now right|exact Ha|exact Hn|]. exists acc', seen'. split; [exact E|]. split; [exact L|]. split; [exact N|]. split; intros u.
      * rewrite S1. cbn. split; [tauto|]. intros [H|[->|H]]; auto.
      * rewrite A1. cbn. split; [tauto|]. intros [H|([->|H] & Q)]; auto. congruence.
    + destruct (set_any seen x true) as (s1 & E1 & L1 & G1); [lia|]. rewrite E1. cbn [obind]. destruct (IH s1 (acc ++ [x])) as (acc' & seen' & E & L & N & S1 & A1).
      * lia.
      * intros u Hu. apply Hv. now right.
      * intros u Hu. rewrite G1. destruct (Nat.eqb_spec x u); [reflexivity|]. apply in_app_or in Hu. destruct Hu as [Hu|[->|[]]]; [now apply Ha|congruence].
      * apply NoDup_rev in Hn. rewrite <- (rev_involutive (acc ++ [x])). apply NoDup_rev. rewrite rev_app_distr. cbn. constructor; [|exact Hn]. rewrite <- in_rev. intros Q. apply Ha in Q. congruence.
      * exists acc', seen'. split; [exact E|]. split; [exact L|]. split; [exact N|]. split; intros u.
        -- rewrite S1, G1. cbn. destruct (Nat.eqb_spec x u) as [->|D]; tauto.
        -- rewrite A1, G1, in_app_iff. cbn. destruct (Nat.eqb_spec x u) as [->|D]; [|tauto]. split; [intros [[H|[H|[]]]|(_ & H)]; [auto|auto|discriminate]|]. intros [H|_]; auto.
Qed.
Definition has_head (block : list (list nat)) (u : nat) : Prop := exists r rest, block = (u :: r) :: rest.
Lemma collect_ok n blocks : forall prev seen, length seen = n -> (forall u, nth u seen false = true <-> exists b, In b prev /\ In u (concat b)) ->
  (forall b, In b blocks -> (exists h, has_head b h) /\ forall u, In u (concat b) -> u < n) ->
  exists res, collect blocks seen = Some res /\ length res = length blocks /\
    forall k block, nth_error blocks k = Some block -> exists vs, nth_error res k = Some vs /\ NoDup vs /\
      forall u, In u vs <-> In u (concat block) /\ (has_head block u \/ ~ exists b, In b (prev ++ firstn k blocks) /\ In u (concat b)).
Proof.
  induction blocks as [|block blocks IH]; intros prev seen Hl Hs Hb; cbn [collect].
  - exists []. split; [reflexivity|]. split; [reflexivity|]. intros [|k] b E; discriminate.
  - destruct (Hb block (or_introl eq_refl)) as ((h & r & rest & Eb) & Hv). assert (Hh : In h (concat block)) by (subst block; cbn; now left). assert (H2 : head2 block = Some h) by (now subst block). rewrite H2. cbn [obind].
    destruct (set_any seen h false) as (s1 & E1 & L1 & G1); [rewrite Hl; now apply Hv|]. rewrite E1. cbn [obind]. destruct (visit_ok n (concat block) s1 []) as (vs & s2 & E2 & L2 & N2 & S2 & A2); [lia|exact Hv|intros u []|constructor|]. rewrite E2. cbn [obind fst snd].
    destruct (IH (prev ++ [block]) s2 L2) as (res & E3 & L3 & R3).
    + intros u. rewrite S2, G1. split.
      * intros [H|H]; [|exists block; split; [apply in_or_app; right; now left|exact H]]. destruct (h =? u); [discriminate|]. apply Hs in H. destruct H as (b & Q & R). exists b. split; [apply in_or_app; now left|exact R].
      * intros (b & Q & R). apply in_app_or in Q. destruct Q as [Q|[->|[]]]; [|auto]. destruct (Nat.eqb_spec h u) as [->|D]; [auto|]. left. apply Hs. eauto.
    + intros b Q. apply Hb. now right.
    + rewrite E3. cbn [obind]. exists (vs :: res). split; [reflexivity|]. split; [cbn; lia|]. intros [|k] b Ek; cbn in Ek.
      * injection Ek as <-. exists vs. split; [reflexivity|]. split; [exact N2|]. intros u. rewrite A2, G1. cbn [firstn]. rewrite app_nil_r, <- Hs. destruct (Nat.eqb_spec h u) as [->|D].
        -- split; [intros [[]|(Q & _)]; split; [exact Q|left; exists r, rest; exact Eb]|intros (Q & _); auto].
        -- rewrite not_true_iff_false. split; [intros [[]|Q]; tauto|]. intros (Q & [(r' & rest' & E')|Q']); [rewrite Eb in E'; injection E' as ->; congruence|auto].
      * destruct (R3 k b Ek) as (v & Ev & Nv & Iv). exists v. split; [exact Ev|]. split; [exact Nv|]. intros u. rewrite Iv. cbn [firstn]. rewrite <- app_assoc. reflexivity.
Qed.
