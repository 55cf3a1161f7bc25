(** Building the dictionary. *)
From Coq Require Import List PeanoNat Lia Bool.
From Verif Require Import Lib TrieSpec TrieProofs AhoModel AhoSpec AhoProofs.
Import ListNotations.

Section Dict.
  Variable K : nat.
  Definition fresh (ps dict : list word) (p : word) : node :=
    Node (last p 0) (up ps p) (match p with [] => 1 | _ => 0 end) (count_occ word_eq dict p) (kids K ps p).
  Definition ins (ps dict : list word) (t : list node) : Prop :=
    forest K ps dict /\ length t = S (length ps) /\ forall p, In p ps -> nth_error t (number ps p) = Some (fresh ps dict p).
  Definition tight (ps dict : list word) : Prop := forall p, In p ps -> p = [] \/ exists w, In w dict /\ is_prefix p w.

  Lemma kids_nth ps p o : o < K -> nth_error (kids K ps p) o = Some (number ps (p ++ [o])).
  Proof using.
    intro H. unfold kids. rewrite nth_error_map, (nth_error_nth' (seq 0 K) 0) by (rewrite seq_length; exact H).
    rewrite seq_nth by exact H. reflexivity.
  Qed.
  Lemma kids_len ps p : length (kids K ps p) = K.
  Proof using. unfold kids. rewrite map_length, seq_length. reflexivity. Qed.
  Lemma repeat_map (p : word) (f : word -> nat) : (forall o, f (p ++ [o]) = 0) -> repeat 0 K = map (fun o => f (p ++ [o])) (seq 0 K).
  Proof using.
    intro H. rewrite (map_ext _ (fun _ => 0)) by (intro; apply H). clear. generalize 0 at 3 as b. induction K as [|k IH]; intro b; [reflexivity|].
    cbn [seq map repeat]. f_equal. apply IH.
  Qed.

  Lemma create_ok : ins [[]] [] (create K) /\ tight [[]] [].
  Proof using.
    assert (M : forall p o, number [[]] (p ++ [o]) = 0).
    { intros p o. apply number_in. intros [X|[]]. symmetry in X. apply snoc_nil in X. exact X. }
    split; [|intros p [<-|[]]; auto]. split; [|split; [reflexivity|]].
    - constructor; [constructor; [tauto|constructor]|reflexivity| |intros w []].
      intros p o [X|[]]. symmetry in X. apply snoc_nil in X. destruct X.
    - intros p [<-|[]]. cbn. unfold fresh, kids. cbn [up count_occ last]. unfold NIL. f_equal. f_equal. apply (repeat_map []). intro o. apply M.
  Qed.
  Lemma insert_letter_ok ps dict t p o : ins ps dict t -> In p ps -> o < K ->
    exists ps' t', insert_letter K t (number ps p) o = Some (t', number ps' (p ++ [o])) /\ ins ps' dict t' /\ In (p ++ [o]) ps' /\
      (forall q, In q ps' -> In q ps \/ q = p ++ [o]) /\ (forall q, In q ps -> In q ps').
  Proof using.
    intros (F & L & W) Hp Ho. unfold insert_letter. rewrite (W p Hp). cbn [obind fresh next]. rewrite kids_nth by exact Ho. cbn [obind]. unfold NIL.
    destruct (in_dec word_eq (p ++ [o]) ps) as [X|X].
    - rewrite (proj2 (Nat.eqb_neq _ _) (num_pos ps _ X)). cbn [negb]. exists ps, t. split; [reflexivity|]. split; [split; auto|]. auto.
    - rewrite (proj2 (number_in ps (p ++ [o])) X). cbn [Nat.eqb negb].
      set (ps' := ps ++ [p ++ [o]]).
      pose proof (fo_nodup _ _ _ F) as ND.
      assert (Nm : forall q, number ps' q = if word_eq q (p ++ [o]) then S (length ps) else number ps q) by (intro q; apply number_snoc; assumption).
      assert (No : forall q, In q ps -> number ps' q = number ps q).
      { intros q Hq. rewrite Nm. destruct (word_eq q (p ++ [o])) as [->|_]; [contradiction|reflexivity]. }
      set (c := Node o (number ps p) 0 0 (repeat 0 K)).
      assert (Ep : nth_error (t ++ [c]) (number ps p) = Some (fresh ps dict p)).
      { rewrite nth_error_app1; [apply W; exact Hp|]. rewrite L. pose proof (num_le K ps dict F p). lia. }
      destruct (modify_ok (t ++ [c]) (number ps p) (set_next o (length t)) _
        (Node (last p 0) (up ps p) (match p with [] => 1 | _ => 0 end) (count_occ word_eq dict p) (kids K ps' p)) Ep) as (t' & -> & L' & G).
      { unfold set_next. cbn [fresh next let_ parent suff_link word_cnt].
        destruct (set_nth_some (kids K ps p) o (length t)) as [l El]; [rewrite kids_len; exact Ho|]. rewrite El. cbn [obind]. f_equal. f_equal.
        apply list_ext. intro i. rewrite (set_nth_get _ _ _ _ _ El). destruct (Nat.lt_ge_cases i K) as [Li|Li].
        - rewrite !kids_nth by exact Li. rewrite Nm. destruct (Nat.eqb_spec o i) as [<-|N].
          + destruct (word_eq (p ++ [o]) (p ++ [o])); [rewrite L; reflexivity|congruence].
          + destruct (word_eq (p ++ [i]) (p ++ [o])) as [Y|_]; [apply snoc_inj in Y as [_ Y]; congruence|reflexivity].
        - rewrite (proj2 (Nat.eqb_neq o i)) by lia. rewrite !(proj2 (nth_error_None _ _)); [reflexivity|rewrite kids_len; exact Li..]. }
      cbn [obind]. exists ps', t'. split; [rewrite Nm; destruct (word_eq (p ++ [o]) (p ++ [o])); [rewrite L; reflexivity|congruence]|].
      split; [|split; [apply in_app_iff; right; left; reflexivity|split; [|intros q Hq; apply in_app_iff; auto]]].
      2: { intros q Hq. apply in_app_iff in Hq as [Hq|[Hq|[]]]; auto. }
      split; [|split].
      + constructor.
        * apply nodup_snoc; assumption.
        * unfold ps'. rewrite nth_error_app1; [apply (fo_nil _ _ _ F)|]. apply nth_error_Some. rewrite (fo_nil _ _ _ F). discriminate.
        * intros q x Hq. apply in_app_iff in Hq as [Hq|[Hq|[]]].
          -- destruct (fo_closed _ _ _ F q x Hq). split; [apply in_app_iff; auto|assumption].
          -- apply snoc_inj in Hq as [<- <-]. split; [apply in_app_iff; auto|exact Ho].
        * intros w Hw. apply in_app_iff. left. apply (fo_dict _ _ _ F w Hw).
      + rewrite L', app_length, L. unfold ps'. rewrite app_length. cbn. lia.
      + assert (Up : forall q, In q ps -> up ps' q = up ps q).
        { intros q Hq. unfold up. destruct q as [|x q]; [reflexivity|]. apply No.
          apply (closed_prefix K ps dict F (x :: q)); [exact Hq|]. exists [last (x :: q) 0]. apply app_removelast_last. discriminate. }
        intros q Hq. rewrite G. apply in_app_iff in Hq as [Hq|[<-|[]]].
        * rewrite (No q Hq). destruct (Nat.eqb_spec (number ps p) (number ps q)) as [Y|Y].
          -- apply (num_inj K ps dict F p q Hp) in Y. subst q. unfold fresh. rewrite (Up p Hp). reflexivity.
          -- rewrite nth_error_app1 by (rewrite L; pose proof (num_le K ps dict F q); lia). rewrite (W q Hq). unfold fresh. rewrite (Up q Hq). f_equal. f_equal.
             unfold kids. apply map_ext. intro x. rewrite Nm. destruct (word_eq (q ++ [x]) (p ++ [o])) as [V|_]; [|reflexivity].
             apply snoc_inj in V as [V _]. subst q. congruence.
        * rewrite Nm. destruct (word_eq (p ++ [o]) (p ++ [o])) as [_|V]; [|congruence].
          pose proof (num_le K ps dict F p). rewrite (proj2 (Nat.eqb_neq _ _)) by lia. rewrite nth_error_app2 by lia.
          replace (S (length ps) - length t) with 0 by lia. cbn [nth_error]. unfold c, fresh. rewrite last_last. f_equal. f_equal.
          -- unfold up. rewrite removelast_last. rewrite (No p Hp). destruct (p ++ [o]) eqn:V; [apply snoc_nil in V; destruct V|reflexivity].
          -- destruct (p ++ [o]) eqn:V; [apply snoc_nil in V; destruct V|reflexivity].
          -- symmetry. apply count_occ_not_In. intro V. apply X. apply (fo_dict _ _ _ F _ V).
          -- apply (repeat_map (p ++ [o])). intro x. apply number_in. intro V. apply in_app_iff in V as [V|[V|[]]].
             ++ apply (fo_closed _ _ _ F) in V as [V _]. contradiction.
             ++ symmetry in V. apply snoc_neq in V. exact V.
  Qed.
  Lemma insert_path_ok : forall w ps dict t p, ins ps dict t -> In p ps -> Forall (fun o => o < K) w ->
    exists ps' t', insert_path K t (number ps p) w = Some (t', number ps' (p ++ w)) /\ ins ps' dict t' /\ In (p ++ w) ps' /\
      forall q, In q ps' -> In q ps \/ is_prefix q (p ++ w).
  Proof using.
    induction w as [|o w IH]; intros ps dict t p R Hp FA; cbn [insert_path].
    - exists ps, t. rewrite app_nil_r. auto.
    - inversion FA as [|? ? F1 F2]; subst. destruct (insert_letter_ok ps dict t p o R Hp F1) as (ps1 & t1 & -> & R1 & H1 & H2 & H3). cbn [obind].
      replace (p ++ o :: w) with ((p ++ [o]) ++ w) by (rewrite <- app_assoc; reflexivity).
      destruct (IH ps1 dict t1 (p ++ [o]) R1 H1 F2) as (ps' & t' & E & R' & H4 & H5).
      exists ps', t'. split; [exact E|]. split; [exact R'|]. split; [exact H4|]. intros q Hq. destruct (H5 q Hq) as [H|H]; [|auto].
      destruct (H2 q H) as [H'| ->]; [auto|]. right. exists w. reflexivity.
  Qed.
  Lemma insert_ok ps dict t w : ins ps dict t -> tight ps dict -> Forall (fun o => o < K) w ->
    exists ps' t', insert K t w = Some (t', number ps' w) /\ ins ps' (dict ++ [w]) t' /\ tight ps' (dict ++ [w]).
  Proof using.
    intros R T FA. unfold insert. pose proof R as (F0 & _). assert (RT : ROOT = number ps []) by (rewrite (num_nil K ps dict F0); reflexivity). rewrite RT.
    destruct (insert_path_ok w ps dict t [] R (nil_in K ps dict F0) FA) as (ps' & t' & -> & R' & H1 & H2). cbn [obind app] in *.
    destruct R' as (F & L & W). clear F0 R.
    destruct (modify_ok t' (number ps' w) (fun nd => set_cnt (word_cnt nd + 1) nd) _ _ (W w H1) eq_refl) as (t2 & -> & L2 & G).
    cbn [obind]. exists ps', t2. split; [reflexivity|].
    assert (Co : forall q, count_occ word_eq (dict ++ [w]) q = count_occ word_eq dict q + if word_eq w q then 1 else 0).
    { intro q. clear. induction dict as [|v l IH]; [cbn; destruct (word_eq w q); reflexivity|]. cbn [app count_occ]. destruct (word_eq v q); lia. }
    split; [split; [|split]|].
    - constructor; try apply F. intros v Hv. apply in_app_iff in Hv as [Hv|[<-|[]]]; [apply (fo_dict _ _ _ F v Hv)|exact H1].
    - congruence.
    - intros q Hq. rewrite G. destruct (Nat.eqb_spec (number ps' w) (number ps' q)) as [X|X].
      + apply (num_inj K ps' dict F w q H1) in X. subst q. unfold fresh. cbn [let_ parent suff_link word_cnt next]. rewrite Co.
        destruct (word_eq w w); [reflexivity|congruence].
      + rewrite (W q Hq). unfold fresh. rewrite Co. destruct (word_eq w q) as [->|_]; [congruence|]. rewrite Nat.add_0_r. reflexivity.
    - intros q Hq. destruct (H2 q Hq) as [H|H].
      + destruct (T q H) as [->|(v & Hv & Pv)]; [auto|]. right. exists v. split; [apply in_app_iff; auto|exact Pv].
      + right. exists w. split; [apply in_app_iff; right; left; reflexivity|exact H].
  Qed.
  Lemma insert_all_ok : forall ws ps dict t, ins ps dict t -> tight ps dict -> Forall (Forall (fun o => o < K)) ws ->
    exists ps' t', insert_all K t ws = Some t' /\ ins ps' (dict ++ ws) t' /\ tight ps' (dict ++ ws).
  Proof using.
    induction ws as [|w ws IH]; intros ps dict t R T FA; cbn [insert_all].
    - rewrite app_nil_r. exists ps, t. auto.
    - inversion FA as [|? ? F1 F2]; subst. destruct (insert_ok ps dict t w R T F1) as (ps1 & t1 & -> & R1 & T1). cbn [obind].
      destruct (IH ps1 (dict ++ [w]) t1 R1 T1 F2) as (ps' & t' & E & R' & T'). rewrite <- app_assoc in R', T'. exists ps', t'. auto.
  Qed.
  Lemma build_ok ws : Forall (Forall (fun o => o < K)) ws -> ~ In [] ws ->
    exists ps t t', insert_all K (create K) ws = Some t /\ build t = Some t' /\ forest K ps ws /\ wrk K ps ws ps t' /\ tight ps ws.
  Proof using.
    intros FA Nil. destruct create_ok as [R T]. destruct (insert_all_ok ws _ _ _ R T FA) as (ps & t & E & (F & L & W) & T').
    cbn [app] in *. unfold build. assert (RT : ROOT = number ps []) by (rewrite (num_nil K ps ws F); reflexivity). rewrite RT.
    destruct (bfs_ok K ps ws F Nil (length t) [] [[]] t) as (t' & E' & W').
    - split; [exact L|]. intros p Hp. eexists. split; [apply W; exact Hp|]. constructor; cbn [fresh let_ parent suff_link word_cnt next]; try reflexivity.
      + destruct p as [|x p]; [left; cbn [fail]; rewrite (num_nil K ps ws F); reflexivity|]. right. split; [reflexivity|]. split; [tauto|discriminate].
      + apply kids_len.
      + intros o x Ex. assert (o < K) as Ho by (rewrite <- (kids_len ps p); apply nth_error_Some; congruence).
        rewrite kids_nth in Ex by exact Ho. injection Ex as <-. auto.
    - constructor; cbn [app].
      + constructor; [tauto|constructor].
      + intros p [<-|[]]. apply (nil_in K ps ws F).
      + left. reflexivity.
      + intros p o _. split; [intros []|]. intros [X|[]]. symmetry in X. apply snoc_nil in X. destruct X.
      + intros p [].
      + intros i j p p' Ei Ej _. destruct i as [|i]; [|destruct i; discriminate]. destruct j as [|j]; [|destruct j; discriminate]. cbn in *. injection Ei as <-. injection Ej as <-. lia.
    - cbn [length]. lia.
    - exists ps, t, t'. auto.
  Qed.
  Lemma count_all_ok ps ws t : forest K ps ws -> ~ In [] ws -> wrk K ps ws ps t -> forall texts, Forall (Forall (fun o => o < K)) texts ->
    exists rs, count_all t texts = Some rs /\ rs = map (matches ws) texts.
  Proof using.
    intros F Nil W texts. revert t W. induction texts as [|x texts IH]; intros t W FA; cbn [count_all map].
    - exists []. auto.
    - inversion FA as [|? ? F1 F2]; subst. unfold count_matches. assert (RT : ROOT = number ps []) by (rewrite (num_nil K ps ws F); reflexivity). rewrite RT.
      assert (E0 : @nil nat = lsp ps []) by (symmetry; apply lsp_id; apply (nil_in K ps ws F)). rewrite E0.
      destruct (read_ok K ps ws F x [] t 0 W F1) as (t' & -> & W'). cbn [obind].
      destruct (IH t' W' F2) as (rs & -> & ->). cbn [obind]. eexists. split; [reflexivity|]. f_equal.
      pose proof (reading_matches ws Nil x []) as X. cbn [app] in X. rewrite X, (matches_nil ws). reflexivity.
  Qed.
  Lemma spells_ok ps ws t : forest K ps ws -> wrk K ps ws ps t -> forall p, In p ps -> spells t (number ps p) p.
  Proof using.
    intros F [L W]. induction p as [|o p IH] using rev_ind; intro Hp.
    - rewrite (num_nil K ps ws F). apply spells_root.
    - destruct (W _ Hp) as (nd & E & N). pose proof (no_let _ _ _ _ _ _ N) as E1. rewrite last_last in E1.
      pose proof (no_up _ _ _ _ _ _ N) as E2.
      assert (E3 : up ps (p ++ [o]) = number ps p).
      { unfold up. rewrite removelast_last. destruct (p ++ [o]) eqn:X; [apply snoc_nil in X; destruct X|reflexivity]. }
      rewrite <- E1 at 2. apply (spells_letter t _ nd p E).
      + intro X. pose proof (num_root K ps ws F _ Hp) as Y. rewrite X, Nat.eqb_refl in Y. destruct (word_eq (p ++ [o]) []) as [V|_]; [apply snoc_nil in V; exact V|discriminate].
      + rewrite E2, E3. apply IH. apply (fo_closed _ _ _ F p o Hp).
  Qed.
End Dict.
