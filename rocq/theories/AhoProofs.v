(** Correctness of the Aho-Corasick automaton. *)
From Coq Require Import List PeanoNat Lia Bool.
From Verif Require Import Lib TrieSpec TrieProofs AhoModel AhoSpec.
Import ListNotations.

(** ** words *)
Fixpoint ends (w t : word) : bool :=
  if word_eq w t then true else match t with [] => false | _ :: t' => ends w t' end.
Lemma ends_len w t : ends w t = true -> length w <= length t.
Proof.
  induction t as [|x t IH]; cbn [ends].
  - destruct (word_eq w []) as [->|_]; [lia|discriminate].
  - destruct (word_eq w (x :: t)) as [->|_]; [lia|]. intro H. specialize (IH H). cbn [length]. lia.
Qed.
Lemma ends_iff w t : ends w t = true <-> is_suffix w t.
Proof.
  induction t as [|x t IH]; cbn [ends].
  - destruct (word_eq w []) as [->|N]; [split; [intros _; exists []; reflexivity|reflexivity]|].
    split; [discriminate|]. intros [v E]. symmetry in E. apply app_eq_nil in E as [_ E]. contradiction.
  - destruct (word_eq w (x :: t)) as [->|N]; [split; [intros _; exists []; reflexivity|reflexivity]|].
    rewrite IH. split; intros [v E].
    + exists (x :: v). rewrite E. reflexivity.
    + destruct v as [|y v]; [cbn in E; congruence|]. injection E as _ E. exists v. exact E.
Qed.
Lemma begins_iff w t : begins w t = true <-> is_prefix w t.
Proof.
  revert t. induction w as [|x w IH]; intro t; cbn [begins]; [split; [intros _; exists t; reflexivity|reflexivity]|].
  destruct t as [|y t]; [split; [discriminate|intros [v E]; discriminate]|].
  rewrite andb_true_iff, Nat.eqb_eq, IH. split.
  - intros [-> [v ->]]. exists v. reflexivity.
  - intros [v E]. injection E as -> ->. split; [reflexivity|]. exists v. reflexivity.
Qed.
Lemma NoDup_app_intro {A} (a b : list A) : NoDup a -> NoDup b -> (forall x, In x a -> ~ In x b) -> NoDup (a ++ b).
Proof.
  intros H1 H2 H. induction H1 as [|x a N1 N2 IH]; [exact H2|]. cbn [app]. constructor.
  - rewrite in_app_iff. intros [X|X]; [contradiction|]. apply (H x); [left; reflexivity|exact X].
  - apply IH. intros y Hy. apply H. right. exact Hy.
Qed.
Definition b2n (b : bool) : nat := if b then 1 else 0.
Lemma occurrences_snoc w t o : w <> [] -> occurrences w (t ++ [o]) = occurrences w t + b2n (ends w (t ++ [o])).
Proof.
  intro N. induction t as [|x t IH].
  - cbn [app occurrences ends]. destruct (word_eq w [o]) as [->|N1].
    + cbn [begins]. rewrite Nat.eqb_refl. reflexivity.
    + destruct (word_eq w []) as [->|_]; [congruence|]. destruct (begins w [o]) eqn:E; [|reflexivity]. exfalso.
      apply begins_iff in E as [v E]. destruct w as [|y w]; [congruence|]. injection E as -> E. symmetry in E. apply app_eq_nil in E as [-> _]. congruence.
  - cbn [app occurrences]. rewrite IH. change (if begins w (x :: t ++ [o]) then 1 else 0) with (b2n (begins w (x :: t ++ [o]))).
    change (if begins w (x :: t) then 1 else 0) with (b2n (begins w (x :: t))).
    cbn [ends]. destruct (word_eq w (x :: t ++ [o])) as [E|N1].
    + assert (ends w (t ++ [o]) = false) as ->.
      { destruct (ends w (t ++ [o])) eqn:X; [|reflexivity]. apply ends_len in X. rewrite E in X. cbn in X. lia. }
      assert (begins w (x :: t) = false) as ->.
      { destruct (begins w (x :: t)) eqn:X; [|reflexivity]. apply begins_iff in X as [v X]. apply (f_equal (@length nat)) in X.
        rewrite E, app_length in X. cbn in X. rewrite app_length in X. cbn in X. lia. }
      assert (begins w (x :: t ++ [o]) = true) as ->; [|cbn; lia]. apply begins_iff. exists []. rewrite E, app_nil_r. reflexivity.
    + assert (begins w (x :: t ++ [o]) = begins w (x :: t)) as ->; [|lia].
      apply eq_true_iff_eq. rewrite !begins_iff. split; intros [v E].
      * destruct v as [|y v] using rev_ind; [rewrite app_nil_r in E; congruence|]. clear IHv.
        rewrite app_assoc in E. change (x :: t ++ [o]) with ((x :: t) ++ [o]) in E. apply app_inj_tail in E as [E _]. exists v. exact E.
      * exists (v ++ [o]). rewrite app_assoc, <- E. reflexivity.
Qed.

Section Automaton.
  Variable K : nat.
  Variable ps : list word.
  Variable dict : list word.
  Record forest : Prop := {
    fo_nodup : NoDup ps;
    fo_nil : nth_error ps 0 = Some [];
    fo_closed : forall p o, In (p ++ [o]) ps -> In p ps /\ o < K;
    fo_dict : forall w, In w dict -> In w ps }.
  Hypothesis F : forest.
  Notation num := (number ps).

  Lemma nil_in : In [] ps.
  Proof using F. apply (nth_error_In _ 0). apply (fo_nil F). Qed.
  Lemma num_nil : num [] = 1.
  Proof using F. apply number_nth; [apply (fo_nodup F)|apply (fo_nil F)]. Qed.
  Lemma num_inj p q : In p ps -> num p = num q -> p = q.
  Proof using F.
    intros Hp E. destruct (num p) as [|i] eqn:Ep; [apply number_in in Ep; contradiction|]. symmetry in E.
    apply number_nth in Ep; [|apply (fo_nodup F)]. apply number_nth in E; [|apply (fo_nodup F)]. congruence.
  Qed.
  Lemma num_pos p : In p ps -> num p <> 0.
  Proof using. intros H X. apply number_in in X. contradiction. Qed.
  Lemma num_root p : In p ps -> (num p =? ROOT) = if word_eq p [] then true else false.
  Proof using F.
    intro H. unfold ROOT. destruct (word_eq p []) as [->|N]; [rewrite num_nil; reflexivity|].
    apply Nat.eqb_neq. intro X. apply N. apply (num_inj p []); [exact H|]. rewrite X, num_nil. reflexivity.
  Qed.
  Lemma num_le p : num p <= length ps.
  Proof using F.
    destruct (num p) as [|i] eqn:E; [lia|]. apply number_nth in E; [|apply (fo_nodup F)].
    assert (i < length ps) by (apply nth_error_Some; congruence). lia.
  Qed.
  Lemma closed_prefix : forall q p, In q ps -> is_prefix p q -> In p ps.
  Proof using F.
    intros q. induction q as [|o q IH] using rev_ind; intros p Hq Hp.
    - destruct Hp as [v E]. symmetry in E. apply app_eq_nil in E as [-> _]. exact Hq.
    - apply prefix_snoc in Hp as [->|Hp]; [exact Hq|]. apply IH; [|exact Hp]. apply (fo_closed F q o Hq).
  Qed.
  Lemma depth_lt p : In p ps -> length p < length ps.
  Proof using F.
    intros Hp.
    assert (ND : NoDup (map (fun k => firstn k p) (seq 0 (S (length p))))).
    { apply NoDup_nth_error. intros i j Hi E. rewrite map_length, seq_length in Hi.
      assert (T : forall k, k < S (length p) -> nth_error (map (fun k => firstn k p) (seq 0 (S (length p)))) k = Some (firstn k p)).
      { intros k Hk. rewrite nth_error_map, (nth_error_nth' (seq 0 (S (length p))) 0) by (rewrite seq_length; exact Hk).
        rewrite seq_nth by exact Hk. reflexivity. }
      rewrite T in E by exact Hi. assert (Hj : j < S (length p)).
      { destruct (Nat.lt_ge_cases j (S (length p))) as [L|L]; [exact L|].
        rewrite (proj2 (nth_error_None _ _)) in E; [discriminate|]. rewrite map_length, seq_length. exact L. }
      rewrite T in E by exact Hj. injection E as E. apply (f_equal (@length nat)) in E. rewrite !firstn_length in E. lia. }
    apply NoDup_incl_length with (l' := ps) in ND.
    - rewrite map_length, seq_length in ND. exact ND.
    - intros q Hq. apply in_map_iff in Hq as (k & <- & _). apply (closed_prefix p); [exact Hp|].
      exists (skipn k p). symmetry. apply firstn_skipn.
  Qed.

  (** the longest suffix that is a node *)
  Fixpoint lsp (x : word) : word :=
    if in_dec word_eq x ps then x else match x with [] => [] | _ :: x' => lsp x' end.
  Definition delta (p : word) (o : nat) : word := lsp (p ++ [o]).
  Definition fail (p : word) : word := match p with [] => [] | _ :: p' => lsp p' end.
  Lemma lsp_in x : In (lsp x) ps.
  Proof using F.
    induction x as [|y x IH]; cbn [lsp]; destruct (in_dec word_eq _ ps) as [H|H]; auto. apply nil_in.
  Qed.
  Lemma lsp_id x : In x ps -> lsp x = x.
  Proof using. intro H. destruct x; cbn [lsp]; destruct (in_dec word_eq _ ps); congruence. Qed.
  Lemma lsp_len x : length (lsp x) <= length x.
  Proof using. induction x as [|y x IH]; cbn [lsp]; destruct (in_dec word_eq _ ps); cbn [length] in *; lia. Qed.
  Lemma lsp_step x o : lsp (lsp x ++ [o]) = lsp (x ++ [o]).
  Proof using F.
    induction x as [|y x IH]; cbn [lsp]; destruct (in_dec word_eq _ ps) as [H|H]; try reflexivity. rewrite IH. cbn [app lsp].
    destruct (in_dec word_eq (y :: x ++ [o]) ps) as [X|X]; [|reflexivity]. exfalso. apply H.
    apply (fo_closed F (y :: x) o X).
  Qed.
  Lemma lsp_ends w x : In w ps -> ends w (lsp x) = ends w x.
  Proof using F.
    intro Hw. induction x as [|y x IH]; cbn [lsp]; destruct (in_dec word_eq _ ps) as [H|H]; try reflexivity. rewrite IH. cbn [ends].
    destruct (word_eq w (y :: x)) as [->|_]; [contradiction|reflexivity].
  Qed.
  Lemma lsp_suffix x : is_suffix (lsp x) x.
  Proof using.
    induction x as [|y x IH]; cbn [lsp]; destruct (in_dec word_eq _ ps) as [H|H]; try (exists []; reflexivity).
    destruct IH as [v E]. exists (y :: v). cbn. f_equal. exact E.
  Qed.
  Lemma fail_in p : In (fail p) ps.
  Proof using F. destruct p as [|x p]; [apply nil_in|apply lsp_in]. Qed.
  Lemma fail_len p : p <> [] -> length (fail p) < length p.
  Proof using. destruct p as [|x p]; [congruence|]. intros _. cbn [fail length]. pose proof (lsp_len p). lia. Qed.
  Lemma delta_fail p o : p <> [] -> ~ In (p ++ [o]) ps -> delta (fail p) o = delta p o.
  Proof using F.
    destruct p as [|x p]; [congruence|]. intros _ H. unfold delta, fail. rewrite lsp_step. cbn [app lsp] in *.
    destruct (in_dec word_eq (x :: p ++ [o]) ps); [contradiction|reflexivity].
  Qed.
  Lemma delta_nil o : ~ In [o] ps -> delta [] o = [].
  Proof using F.
    intro H. unfold delta. cbn [app lsp]. destruct (in_dec word_eq [o] ps); [contradiction|].
    destruct (in_dec word_eq [] ps); reflexivity.
  Qed.
  Lemma fail_snoc p o : p <> [] -> fail (p ++ [o]) = delta (fail p) o.
  Proof using F. destruct p as [|x p]; [congruence|]. intros _. unfold delta, fail. cbn [app]. symmetry. apply lsp_step. Qed.
  Lemma fail_one o : fail [o] = [].
  Proof using. cbn. destruct (in_dec word_eq [] ps); reflexivity. Qed.

  Definition total (p : word) : nat := length (filter (fun w => ends w p) dict).
  Lemma total_step p : p <> [] -> total p = count_occ word_eq dict p + total (fail p).
  Proof using F.
    intro N. pose proof (fo_dict F) as D. unfold total. induction dict as [|w l IH]; [reflexivity|].
    specialize (IH (fun v Hv => D v (or_intror Hv))). cbn [filter count_occ].
    destruct p as [|x p]; [congruence|]. cbn [fail] in *. cbn [ends] in *.
    rewrite (lsp_ends w p (D w (or_introl eq_refl))) in *.
    destruct (word_eq w (x :: p)) as [E|E].
    - assert (ends w p = false) as ->. { destruct (ends w p) eqn:X; [|reflexivity]. apply ends_len in X. rewrite E in X. cbn in X. lia. }
      cbn [length]. lia.
    - destruct (ends w p); cbn [length]; lia.
  Qed.
  Lemma total_lsp x : total (lsp x) = length (filter (fun w => ends w x) dict).
  Proof using F.
    pose proof (fo_dict F) as D. unfold total. f_equal. apply filter_ext_in. intros w Hw. apply lsp_ends. apply (D w Hw).
  Qed.

  (** ** the automaton while it is filled in *)
  Definition kids (p : word) : list nat := map (fun o => num (p ++ [o])) (seq 0 K).
  Definition up (p : word) : nat := match p with [] => 0 | _ => num (removelast p) end.
  Record node_ok (done : list word) (p : word) (nd : node) : Prop := {
    no_let : let_ nd = last p 0;
    no_up : parent nd = up p;
    no_suff : suff_link nd = num (fail p) \/ suff_link nd = 0 /\ ~ In p done /\ p <> [];
    no_cnt : word_cnt nd = if in_dec word_eq p done then total p else count_occ word_eq dict p;
    no_len : length (next nd) = K;
    no_next : forall o x, nth_error (next nd) o = Some x -> x = num (p ++ [o]) \/ x = num (delta p o);
    no_kids : ~ In p done -> next nd = kids p }.
  Definition wrk (done : list word) (t : list node) : Prop :=
    length t = S (length ps) /\ forall p, In p ps -> exists nd, nth_error t (num p) = Some nd /\ node_ok done p nd.

  Lemma modify_ok t i f nd nd' : nth_error t i = Some nd -> f nd = Some nd' ->
    exists t', modify t i f = Some t' /\ length t' = length t /\ forall j, nth_error t' j = if i =? j then Some nd' else nth_error t j.
  Proof using.
    intros E G. unfold modify. rewrite E. cbn [obind]. rewrite G. cbn [obind].
    destruct (set_nth_some t i nd') as [t' E']; [apply nth_error_Some; congruence|]. exists t'. split; [exact E'|].
    split; [apply (set_nth_length _ _ _ _ E')|]. intro j. apply (set_nth_get _ _ _ _ _ E').
  Qed.
  Lemma wrk_modify done t p f nd nd' : wrk done t -> In p ps -> nth_error t (num p) = Some nd -> f nd = Some nd' -> node_ok done p nd' ->
    exists t', modify t (num p) f = Some t' /\ wrk done t'.
  Proof using F.
    intros [L W] Hp E G N. destruct (modify_ok t (num p) f nd nd' E G) as (t' & Em & L' & G'). exists t'. split; [exact Em|].
    split; [congruence|]. intros q Hq. rewrite G'. destruct (Nat.eqb_spec (num p) (num q)) as [X|X].
    - apply (num_inj p q Hp) in X. subst q. exists nd'. auto.
    - apply W. exact Hq.
  Qed.
  Lemma next_some done p nd o : node_ok done p nd -> o < K -> exists x, nth_error (next nd) o = Some x.
  Proof using. intros N H. apply nth_error_some. rewrite (no_len _ _ _ N). exact H. Qed.

  Lemma move_next_ok : forall fuel done t p o, wrk done t -> In p ps -> (forall q, In q ps -> length q <= length p -> In q done) -> o < K ->
    length p < fuel -> exists t', move_next fuel t (num p) o = Some (t', num (delta p o)) /\ wrk done t'.
  Proof using F.
    induction fuel as [|fuel IH]; intros done t p o W Hp D Ho L; [lia|]. cbn [move_next].
    pose proof W as [Lt Wt]. destruct (Wt p Hp) as (nd & E & N). rewrite E. cbn [obind].
    destruct (next_some done p nd o N Ho) as [x Ex]. rewrite Ex. cbn [obind]. unfold NIL.
    pose proof (no_next _ _ _ N o x Ex) as Hx.
    assert (Pd : num (delta p o) <> 0) by (apply num_pos; apply lsp_in).
    destruct (in_dec word_eq (p ++ [o]) ps) as [X|X].
    - assert (Ed : delta p o = p ++ [o]) by (apply lsp_id; exact X). rewrite Ed in *.
      assert (x = num (p ++ [o])) as -> by tauto. rewrite (proj2 (Nat.eqb_neq _ _) Pd). cbn [negb]. exists t. auto.
    - rewrite (proj2 (number_in ps (p ++ [o])) X) in Hx.
      assert (Upd : forall t1 nd1, wrk done t1 -> nth_error t1 (num p) = Some nd1 -> node_ok done p nd1 ->
        exists t2, modify t1 (num p) (set_next o (num (delta p o))) = Some t2 /\ wrk done t2).
      { intros t1 nd1 W1 E1 N1. destruct (set_nth_some (next nd1) o (num (delta p o))) as [nx Enx]; [rewrite (no_len _ _ _ N1); exact Ho|].
        apply (wrk_modify done t1 p _ nd1 (Node (let_ nd1) (parent nd1) (suff_link nd1) (word_cnt nd1) nx) W1 Hp E1).
        - unfold set_next. rewrite Enx. reflexivity.
        - constructor; cbn [let_ parent suff_link word_cnt next]; try apply N1.
          + rewrite (set_nth_length _ _ _ _ Enx). apply (no_len _ _ _ N1).
          + intros o' x'. rewrite (set_nth_get _ _ _ _ _ Enx). destruct (Nat.eqb_spec o o') as [<-|_]; [|apply (no_next _ _ _ N1)].
            intro Y. injection Y as <-. auto.
          + intro Y. exfalso. apply Y. apply D; [exact Hp|lia]. }
      destruct (Nat.eqb_spec x 0) as [->|Nx]; cbn [negb].
      + rewrite (num_root p Hp). destruct (word_eq p []) as [->|Np].
        * destruct (Upd t nd W E N) as (t2 & E2 & W2). rewrite (delta_nil o X) in *. rewrite num_nil in E2, E |- *.
          change ROOT with 1. rewrite E2. cbn [obind]. exists t2. auto.
        * destruct fuel as [|fuel]; [destruct p; [congruence|cbn in L; lia]|].
          assert (Sl : suff_link nd = num (fail p)).
          { destruct (no_suff _ _ _ N) as [Y|(_ & Y & _)]; [exact Y|]. exfalso. apply Y. apply D; [exact Hp|lia]. }
          assert (G : get_suff_link (S fuel) t (num p) = Some (t, num (fail p))).
          { cbn [get_suff_link]. rewrite E. cbn [obind]. rewrite Sl. unfold NIL.
            rewrite (proj2 (Nat.eqb_neq _ _) (num_pos _ (fail_in p))). reflexivity. }
          rewrite G. cbn [obind]. pose proof (fail_len p Np).
          destruct (IH done t (fail p) o W (fail_in p)) as (t1 & -> & W1); [intros q Hq Lq; apply D; [exact Hq|lia]|exact Ho|lia|].
          cbn [obind]. rewrite (delta_fail p o Np X). pose proof W1 as [_ W1']. destruct (W1' p Hp) as (nd1 & E1 & N1).
          destruct (Upd t1 nd1 W1 E1 N1) as (t2 & -> & W2). cbn [obind]. exists t2. auto.
      + assert (x = num (delta p o)) as -> by tauto. exists t. auto.
  Qed.
  Lemma get_suff_link_ok done t p fuel : wrk done t -> In p ps -> (forall q, In q ps -> length q < length p -> In q done) ->
    length p < fuel -> exists t', get_suff_link fuel t (num p) = Some (t', num (fail p)) /\ wrk done t'.
  Proof using F.
    intros W Hp D L. destruct fuel as [|fuel]; [lia|]. cbn [get_suff_link].
    pose proof W as [Lt Wt]. destruct (Wt p Hp) as (nd & E & N). rewrite E. cbn [obind]. unfold NIL.
    destruct (no_suff _ _ _ N) as [Sl|(Sl & Nd & Np)].
    - rewrite Sl, (proj2 (Nat.eqb_neq _ _) (num_pos _ (fail_in p))). cbn [negb]. exists t. auto.
    - rewrite Sl. cbn [Nat.eqb negb]. rewrite (no_up _ _ _ N).
      pose proof (app_removelast_last 0 Np) as Ep. set (r := removelast p) in *. set (o := last p 0) in *.
      assert (Hro : In (r ++ [o]) ps) by (rewrite <- Ep; exact Hp). destruct (fo_closed F r o Hro) as [Hr Ho].
      assert (Upr : up p = num r) by (unfold up; destruct p; [congruence|reflexivity]). rewrite Upr.
      assert (Upd : forall t1 nd1, wrk done t1 -> nth_error t1 (num p) = Some nd1 -> node_ok done p nd1 ->
        exists t2, modify t1 (num p) (set_suff (num (fail p))) = Some t2 /\ wrk done t2).
      { intros t1 nd1 W1 E1 N1.
        apply (wrk_modify done t1 p _ nd1 (Node (let_ nd1) (parent nd1) (num (fail p)) (word_cnt nd1) (next nd1)) W1 Hp E1); [reflexivity|].
        constructor; cbn [let_ parent suff_link word_cnt next]; try apply N1. auto. }
      assert (Lr : length p = S (length r)) by (rewrite Ep, app_length; cbn; lia).
      rewrite (num_root r Hr). destruct (word_eq r []) as [Er|Nr].
      + assert (Ef : fail p = []) by (rewrite Ep, Er; apply fail_one). destruct (Upd t nd W E N) as (t2 & E2 & W2).
        rewrite Ef, num_nil in *. change ROOT with 1. rewrite E2. cbn [obind]. exists t2. auto.
      + destruct (Wt r Hr) as (rn & Er & Nrn). rewrite Er. cbn [obind].
        assert (Sr : suff_link rn = num (fail r)).
        { destruct (no_suff _ _ _ Nrn) as [Y|(_ & Y & _)]; [exact Y|]. exfalso. apply Y. apply D; [exact Hr|lia]. }
        rewrite Sr, (no_let _ _ _ N). fold o. pose proof (fail_len r Nr).
        destruct (move_next_ok fuel done t (fail r) o W (fail_in r)) as (t1 & -> & W1); [intros q Hq Lq; apply D; [exact Hq|lia]|exact Ho|lia|].
        cbn [obind]. rewrite <- (fail_snoc r o Nr), <- Ep. pose proof W1 as [_ W1']. destruct (W1' p Hp) as (nd1 & E1 & N1).
        destruct (Upd t1 nd1 W1 E1 N1) as (t2 & -> & W2). cbn [obind]. exists t2. auto.
  Qed.

  (** ** breadth first *)
  Definition children (p : word) : list word := map (fun o => p ++ [o]) (filter (fun o => mem ps (p ++ [o])) (seq 0 K)).
  Lemma children_num p : filter (fun c => negb (c =? NIL)) (kids p) = map num (children p).
  Proof using.
    unfold kids, children. rewrite map_map. induction (seq 0 K) as [|o l IH]; [reflexivity|]. cbn [map filter].
    destruct (mem ps (p ++ [o])) eqn:M.
    - apply mem_iff in M. unfold NIL at 1. rewrite (proj2 (Nat.eqb_neq _ _) (num_pos _ M)). cbn [negb map]. f_equal. exact IH.
    - apply mem_not in M. rewrite (proj2 (number_in ps (p ++ [o])) M). cbn [Nat.eqb negb NIL]. exact IH.
  Qed.
  Lemma children_in p q : In q (children p) <-> exists o, q = p ++ [o] /\ In q ps.
  Proof using F.
    unfold children. rewrite in_map_iff. split.
    - intros (o & <- & H). apply filter_In in H as [_ H]. apply mem_iff in H. exists o. auto.
    - intros (o & -> & H). exists o. split; [reflexivity|]. apply filter_In. split; [apply in_seq; destruct (fo_closed F p o H); lia|apply mem_iff; exact H].
  Qed.
  Lemma children_nodup p : NoDup (children p).
  Proof using.
    unfold children. assert (ND : NoDup (filter (fun o => mem ps (p ++ [o])) (seq 0 K))) by (apply NoDup_filter; apply seq_NoDup).
    induction ND as [|o l H1 H2 IH]; [constructor|]. cbn [map]. constructor; [|exact IH].
    intro X. apply in_map_iff in X as (o' & E & H). apply snoc_inj in E as [_ ->]. contradiction.
  Qed.
  Record queue_ok (done q : list word) : Prop := {
    qu_nodup : NoDup (done ++ q);
    qu_in : forall p, In p (done ++ q) -> In p ps;
    qu_nil : In [] (done ++ q);
    qu_kids : forall p o, In (p ++ [o]) ps -> (In p done <-> In (p ++ [o]) (done ++ q));
    qu_lens : match q with [] => True | h :: r => forall p, In p r -> length h <= length p <= length h + 1 end;
    qu_sort : forall i j p p', nth_error q i = Some p -> nth_error q j = Some p' -> i <= j -> length p <= length p' }.
  Lemma queue_short done h q : queue_ok done (h :: q) -> forall p, In p ps -> length p < length h -> In p done.
  Proof using F.
    intros Q. assert (Low : forall p, In p (h :: q) -> length h <= length p).
    { intros p [<-|Hp]; [lia|]. pose proof (qu_lens _ _ Q) as X. cbn in X. destruct (X p Hp). lia. }
    induction p as [|o p IH] using rev_ind; intros Hp L.
    - pose proof (qu_nil _ _ Q) as X. apply in_app_iff in X as [X|X]; [exact X|]. apply Low in X. lia.
    - destruct (fo_closed F p o Hp) as [Hp' _]. rewrite app_length in L. cbn in L.
      pose proof (proj1 (qu_kids _ _ Q p o Hp) (IH Hp' ltac:(lia))) as X. apply in_app_iff in X as [X|X]; [exact X|].
      apply Low in X. rewrite app_length in X. cbn in X. lia.
  Qed.
  Lemma queue_end done : queue_ok done [] -> forall p, In p ps -> In p done.
  Proof using F.
    intros Q. induction p as [|o p IH] using rev_ind; intros Hp.
    - pose proof (qu_nil _ _ Q) as X. rewrite app_nil_r in X. exact X.
    - destruct (fo_closed F p o Hp) as [Hp' _]. pose proof (proj1 (qu_kids _ _ Q p o Hp) (IH Hp')) as X. rewrite app_nil_r in X. exact X.
  Qed.
  Lemma queue_step done h q : queue_ok done (h :: q) -> queue_ok (done ++ [h]) (q ++ children h).
  Proof using F.
    intros Q. assert (Hh : In h ps) by (apply (qu_in _ _ Q); apply in_app_iff; right; left; reflexivity).
    pose proof (qu_nodup _ _ Q) as ND. pose proof (qu_lens _ _ Q) as LE. cbn in LE.
    assert (Nh : ~ In h done) by (apply NoDup_remove_2 in ND; intro X; apply ND; apply in_app_iff; auto).
    assert (Eq : (done ++ [h]) ++ q ++ children h = (done ++ h :: q) ++ children h).
    { rewrite <- !app_assoc. reflexivity. }
    assert (Lc : forall c, In c (children h) -> length c = length h + 1).
    { intros c Hc. apply children_in in Hc as (o & -> & _). apply app_length. }
    constructor.
    - rewrite Eq. apply NoDup_app_intro; [exact ND|apply children_nodup|].
      intros c Hc Hc'. apply children_in in Hc' as (o & -> & Hc'). apply (qu_kids _ _ Q h o Hc') in Hc. contradiction.
    - intros p Hp. rewrite Eq in Hp. apply in_app_iff in Hp as [Hp|Hp]; [apply (qu_in _ _ Q p Hp)|]. apply children_in in Hp as (_ & _ & Hp). exact Hp.
    - rewrite Eq. apply in_app_iff. left. apply (qu_nil _ _ Q).
    - intros p o Hp. rewrite Eq, (in_app_iff (done ++ h :: q) (children h)), <- (qu_kids _ _ Q p o Hp), (in_app_iff done [h]), children_in. split.
      + intros [X|[<-|[]]]; [auto|]. right. exists o. auto.
      + intros [X|(o' & X & _)]; [auto|]. apply snoc_inj in X as [<- _]. right. left. reflexivity.
    - destruct q as [|h' q]; cbn [app].
      + destruct (children h) as [|c cs] eqn:Ec; [exact I|]. intros p Hp.
        rewrite (Lc c ltac:(left; reflexivity)), (Lc p ltac:(right; exact Hp)). lia.
      + destruct (LE h' ltac:(left; reflexivity)). intros p Hp. apply in_app_iff in Hp as [Hp|Hp].
        * split; [|destruct (LE p ltac:(right; exact Hp)); lia].
          apply In_nth_error in Hp as [i Hi]. apply (qu_sort _ _ Q 1 (S (S i)) h' p); [reflexivity|exact Hi|lia].
        * rewrite (Lc p Hp). lia.
    - intros i j p p' Ei Ej Lij. destruct (Nat.lt_ge_cases j (length q)) as [Lj|Lj].
      + rewrite nth_error_app1 in Ei, Ej by lia. apply (qu_sort _ _ Q (S i) (S j) p p' Ei Ej). lia.
      + rewrite nth_error_app2 in Ej by exact Lj. rewrite (Lc p' (nth_error_In _ _ Ej)).
        destruct (Nat.lt_ge_cases i (length q)) as [Li|Li].
        * rewrite nth_error_app1 in Ei by exact Li. destruct (LE p (nth_error_In _ _ Ei)). lia.
        * rewrite nth_error_app2 in Ei by exact Li. rewrite (Lc p (nth_error_In _ _ Ei)). lia.
  Qed.

  Lemma wrk_done done t h : wrk done t -> In h ps -> ~ In h done ->
    forall nd, nth_error t (num h) = Some nd -> suff_link nd = num (fail h) -> word_cnt nd = count_occ word_eq dict h ->
    forall t', length t' = length t -> (forall j, nth_error t' j = if num h =? j then Some (Node (let_ nd) (parent nd) (suff_link nd) (total h) (next nd)) else nth_error t j) ->
    wrk (done ++ [h]) t'.
  Proof using F.
    intros [L W] Hh Nh nd E Es Ec t' L' G. split; [congruence|]. intros p Hp. rewrite G.
    destruct (Nat.eqb_spec (num h) (num p)) as [X|X].
    - apply (num_inj h p Hh) in X. subst p. eexists. split; [reflexivity|]. destruct (W h Hh) as (nd' & E' & N). rewrite E in E'. injection E' as <-.
      assert (I0 : In h (done ++ [h])) by (apply in_app_iff; right; left; reflexivity).
      constructor; cbn [let_ parent suff_link word_cnt next]; try apply N.
      + left. exact Es.
      + destruct (in_dec word_eq h (done ++ [h])); [reflexivity|contradiction].
      + intro Y. contradiction.
    - destruct (W p Hp) as (nd' & E' & N). exists nd'. split; [exact E'|].
      assert (I0 : In p (done ++ [h]) <-> In p done).
      { rewrite in_app_iff. split; [intros [Y|[->|[]]]; [exact Y|congruence]|auto]. }
      constructor; try apply N.
      + destruct (no_suff _ _ _ N) as [Y|(Y1 & Y2 & Y3)]; [auto|]. right. rewrite I0. auto.
      + rewrite (no_cnt _ _ _ N). destruct (in_dec word_eq p done), (in_dec word_eq p (done ++ [h])); tauto || reflexivity.
      + intro Y. apply (no_kids _ _ _ N). rewrite <- I0. exact Y.
  Qed.
  Lemma bfs_ok : ~ In [] dict -> forall fuel done q t, wrk done t -> queue_ok done q -> length ps < fuel + length done ->
    exists t', bfs fuel t (map num q) = Some t' /\ wrk ps t'.
  Proof using F.
    intro Nil. induction fuel as [|fuel IH]; intros done q t W Q L.
    - assert (ND : NoDup done).
      { pose proof (qu_nodup _ _ Q) as ND. clear -ND. induction done as [|x l IH]; [constructor|]. cbn in ND. inversion ND as [|? ? N1 N2]; subst.
        constructor; [intro X; apply N1; apply in_app_iff; auto|apply IH; exact N2]. }
      apply NoDup_incl_length with (l' := ps) in ND; [lia|]. intros p Hp. apply (qu_in _ _ Q). apply in_app_iff. auto.
    - cbn [bfs]. destruct q as [|h q]; cbn [map].
      + exists t. split; [reflexivity|]. destruct W as [Lt W]. split; [exact Lt|]. intros p Hp. destruct (W p Hp) as (nd & E & N).
        exists nd. split; [exact E|]. pose proof (queue_end done Q p Hp) as D. constructor; try apply N.
        * destruct (no_suff _ _ _ N) as [Y|(_ & Y & _)]; [auto|contradiction].
        * rewrite (no_cnt _ _ _ N). destruct (in_dec word_eq p done), (in_dec word_eq p ps); tauto || reflexivity.
        * intro Y. contradiction.
      + assert (Hh : In h ps) by (apply (qu_in _ _ Q); apply in_app_iff; right; left; reflexivity).
        assert (Nh : ~ In h done) by (pose proof (qu_nodup _ _ Q) as ND; apply NoDup_remove_2 in ND; intro X; apply ND; apply in_app_iff; auto).
        pose proof W as [Lt Wt]. destruct (Wt h Hh) as (nd & E & N). rewrite E. cbn [obind].
        rewrite (no_kids _ _ _ N Nh), children_num.
        destruct (get_suff_link_ok done t h (length t) W Hh (queue_short done h q Q)) as (t1 & -> & W1).
        { rewrite Lt. pose proof (depth_lt h Hh). lia. }
        cbn [obind]. pose proof W1 as [Lt1 Wt1]. destruct (Wt1 h Hh) as (nd1 & E1 & N1).
        destruct (wrk_modify done t1 h (set_suff (num (fail h))) nd1 (Node (let_ nd1) (parent nd1) (num (fail h)) (word_cnt nd1) (next nd1)) W1 Hh E1 eq_refl) as (t2 & Em & W2).
        { constructor; cbn [let_ parent suff_link word_cnt next]; try apply N1. auto. }
        destruct (modify_ok t1 (num h) (set_suff (num (fail h))) nd1 _ E1 eq_refl) as (t2' & Em' & L2' & G2). rewrite Em in Em'. injection Em' as <-.
        rewrite Em. cbn [obind]. pose proof W2 as [Lt2 Wt2].
        assert (E2 : nth_error t2 (num h) = Some (Node (let_ nd1) (parent nd1) (num (fail h)) (word_cnt nd1) (next nd1))) by (rewrite G2, Nat.eqb_refl; reflexivity).
        assert (Cnt : word_cnt nd1 = count_occ word_eq dict h).
        { rewrite (no_cnt _ _ _ N1). destruct (in_dec word_eq h done); [contradiction|reflexivity]. }
        destruct (Wt2 (fail h) (fail_in h)) as (sn & Es & Ns). rewrite Es. cbn [obind].
        assert (Tot : word_cnt nd1 + word_cnt sn = total h).
        { destruct (word_eq h []) as [->|Nn].
          - cbn [fail] in Es. rewrite E2 in Es. injection Es as <-. cbn [word_cnt]. rewrite Cnt.
            rewrite (proj1 (count_occ_not_In word_eq dict []) Nil). unfold total. symmetry. apply length_zero_iff_nil.
            destruct (filter (fun w => ends w []) dict) as [|w l] eqn:X; [reflexivity|]. exfalso.
            assert (In w (filter (fun w => ends w []) dict)) as Y by (rewrite X; left; reflexivity).
            apply filter_In in Y as [Y1 Y2]. apply ends_len in Y2. destruct w; [contradiction|cbn in Y2; lia].
          - rewrite (total_step h Nn), Cnt. f_equal. rewrite (no_cnt _ _ _ Ns).
            destruct (in_dec word_eq (fail h) done) as [_|X]; [reflexivity|]. exfalso. apply X.
            apply (queue_short done h q Q); [apply fail_in|apply fail_len; exact Nn]. }
        destruct (modify_ok t2 (num h) (fun nd => set_cnt (word_cnt nd + word_cnt sn) nd) _ _ E2 eq_refl) as (t3 & -> & L3 & G3).
        cbn [obind let_ parent suff_link word_cnt next] in *. rewrite Tot in G3. rewrite <- map_app.
        apply (IH (done ++ [h])).
        * apply (wrk_done done t2 h W2 Hh Nh _ E2 eq_refl Cnt t3 L3 G3).
        * apply queue_step. exact Q.
        * rewrite app_length. cbn. lia.
  Qed.

  (** ** reading *)
  Definition ending (x : word) : nat := length (filter (fun w => ends w x) dict).
  Fixpoint reading (x text : word) : nat :=
    match text with [] => 0 | o :: text => ending (x ++ [o]) + reading (x ++ [o]) text end.
  Lemma read_ok : forall text x t r, wrk ps t -> Forall (fun o => o < K) text ->
    exists t', read t (num (lsp x)) r text = Some (t', num (lsp (x ++ text)), r + reading x text) /\ wrk ps t'.
  Proof using F.
    induction text as [|o text IH]; intros x t r W FA; cbn [read reading].
    - rewrite app_nil_r, Nat.add_0_r. exists t. auto.
    - inversion FA as [|? ? F1 F2]; subst.
      destruct (move_next_ok (length t) ps t (lsp x) o W (lsp_in x) (fun q Hq _ => Hq) F1) as (t1 & -> & W1).
      { destruct W as [Lt _]. pose proof (depth_lt _ (lsp_in x)). lia. }
      cbn [obind]. unfold delta. rewrite lsp_step. pose proof W1 as [_ W1']. destruct (W1' (lsp (x ++ [o])) (lsp_in _)) as (nd & E & N).
      rewrite E. cbn [obind]. rewrite (no_cnt _ _ _ N). destruct (in_dec word_eq (lsp (x ++ [o])) ps) as [_|X]; [|exfalso; apply X; apply lsp_in].
      rewrite total_lsp. fold (ending (x ++ [o])).
      destruct (IH (x ++ [o]) t1 (r + ending (x ++ [o])) W1 F2) as (t2 & -> & W2). exists t2. split; [|exact W2].
      rewrite <- app_assoc. cbn [app]. f_equal. f_equal. lia.
  Qed.
  Lemma ending_matches : ~ In [] dict -> forall x o, matches dict (x ++ [o]) = matches dict x + ending (x ++ [o]).
  Proof using.
    intros Nil x o. unfold matches, ending. induction dict as [|w l IH]; [reflexivity|].
    assert (Nw : w <> []) by (intros ->; apply Nil; left; reflexivity).
    cbn [map list_sum fold_right filter]. change (fold_right Nat.add 0) with list_sum.
    rewrite IH by (intro X; apply Nil; right; exact X). rewrite (occurrences_snoc w x o Nw).
    destruct (ends w (x ++ [o])); cbn [b2n length]; lia.
  Qed.
  Lemma reading_matches : ~ In [] dict -> forall text x, matches dict (x ++ text) = matches dict x + reading x text.
  Proof using.
    intros Nil. induction text as [|o text IH]; intro x; cbn [reading]; [rewrite app_nil_r; lia|].
    replace (x ++ o :: text) with ((x ++ [o]) ++ text) by (rewrite <- app_assoc; reflexivity).
    rewrite IH, (ending_matches Nil). lia.
  Qed.
  Lemma matches_nil : matches dict [] = 0.
  Proof using. unfold matches. induction dict as [|w l IH]; [reflexivity|]. cbn. exact IH. Qed.
End Automaton.
