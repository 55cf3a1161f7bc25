(** The operations of a prefix tree. *)
From Coq Require Import List PeanoNat Lia Bool Sorted.
From Verif Require Import Lib TrieModel TrieSpec TrieProofs.
Import ListNotations.

Section Ops.
  Variable K : nat.
  Notation rep := (rep K).
  Notation shape := (shape K).
  Notation node_of := (node_of K).
  (** every node but the root lies on the way to a word *)
  Definition tight (ps ws : list word) : Prop := forall p, In p ps -> p <> [] -> exists w, In w ws /\ prefix p w.

  (** *** insertion *)
  Lemma insert_path_ok : forall w ps ws adr s p, rep ps ws adr s -> In p ps -> Forall (fun o => o < K) w ->
    exists ps' adr' s', insert_path K s (adr p) w = Some (s', adr' (p ++ w)) /\ rep ps' ws adr' s' /\ In (p ++ w) ps' /\
      forall q, In q ps' -> In q ps \/ prefix q (p ++ w).
  Proof using.
    induction w as [|o w IH]; intros ps ws adr s p R Hp F.
    - exists ps, adr, s. cbn [insert_path]. rewrite app_nil_r. auto.
    - inversion F as [|? ? F1 F2]; subst. cbn [insert_path]. replace (p ++ o :: w) with ((p ++ [o]) ++ w) by (rewrite <- app_assoc; reflexivity).
      destruct (in_dec word_eq (p ++ [o]) ps) as [X|X].
      + rewrite (insert_letter_old K ps ws adr s p o R X). cbn [obind]. apply (IH ps ws adr s (p ++ [o]) R X F2).
      + destruct (insert_letter_new K ps ws adr s p o R Hp F1 X) as (adr1 & s1 & -> & R1). cbn [obind].
        destruct (IH _ ws adr1 s1 (p ++ [o]) R1 ltac:(apply in_app_iff; right; left; reflexivity) F2) as (ps' & adr' & s' & E & R' & H1 & H2).
        exists ps', adr', s'. split; [exact E|]. split; [exact R'|]. split; [exact H1|]. intros q Hq.
        destruct (H2 q Hq) as [H|H]; [|auto]. apply in_app_iff in H as [H|[<-|[]]]; [auto|]. right. exists w. reflexivity.
  Qed.
  Lemma rep_load ps ws adr s p : rep ps ws adr s -> In p ps -> load (heap s) (adr p) = Some (node_of ps ws adr p).
  Proof using. intros (S0 & _) H. apply (sh_load _ _ _ _ _ S0 p H). Qed.
  Lemma rep_root ps ws adr s p : rep ps ws adr s -> In p ps -> (adr p =? root s) = if word_eq p [] then true else false.
  Proof using.
    intros (S0 & _ & Rt & _) H. rewrite Rt. destruct (word_eq p []) as [->|N]; [apply Nat.eqb_refl|].
    apply Nat.eqb_neq. intro X. apply N. apply (sh_inj _ _ _ _ _ S0 p [] H (sh_nil _ _ _ _ _ S0) X).
  Qed.
  (** changing the words only *)
  Lemma reword ps ws ws' adr h h' : shape ps ws adr h -> NoDup ws' -> (forall w, In w ws' -> In w ps /\ w <> []) ->
    (forall p, In p ps -> load h' (adr p) = Some (node_of ps ws' adr p)) ->
    (forall a nd, load h' a = Some nd -> exists nd', load h a = Some nd') -> shape ps ws' adr h'.
  Proof using.
    intros S0 ND I0 L V. constructor; try (apply S0; fail); try assumption.
    intros a nd E. destruct (V a nd E) as [nd' E']. apply (sh_live _ _ _ _ _ S0 a nd' E').
  Qed.
  Lemma insert_ok ps ws adr s p w : rep ps ws adr s -> tight ps ws -> In p ps -> Forall (fun o => o < K) w ->
    exists ps' adr' s', insert K s (adr p) w = Some (s', adr' (p ++ w)) /\ rep ps' (enter ws (p ++ w)) adr' s' /\
      tight ps' (enter ws (p ++ w)) /\ In (p ++ w) ps'.
  Proof using.
    intros R T Hp F. unfold insert. destruct (insert_path_ok w ps ws adr s p R Hp F) as (ps' & adr' & s' & -> & R' & H1 & H2).
    cbn [obind]. set (q := p ++ w) in *. clearbody q. clear R.
    rewrite (rep_load _ _ _ _ _ R' H1). cbn [obind]. rewrite (rep_root _ _ _ _ _ R' H1). cbn [node_of word_id].
    unfold enter. destruct (word_eq q []) as [->|Nq]; cbn [negb andb].
    - exists ps', adr', s'. split; [reflexivity|]. split; [exact R'|]. split; [|exact H1]. intros r Hr Nr.
      destruct (H2 r Hr) as [H|[v H]]; [apply T; assumption|]. symmetry in H. apply app_eq_nil in H as [-> _]. congruence.
    - destruct (in_dec word_eq q ws) as [Iq|Iq].
      + destruct (number ws q) as [|k] eqn:E; [apply number_in in E; contradiction|]. cbn [Nat.eqb].
        exists ps', adr', s'. split; [reflexivity|]. split; [exact R'|]. split; [|exact H1]. intros r Hr Nr.
        destruct (H2 r Hr) as [H|H]; [apply T; assumption|]. exists q. split; assumption.
      + rewrite (proj2 (number_in ws q) Iq). cbn [Nat.eqb].
        destruct R' as (S0 & Nn & Rt & Wd).
        destruct (modify_ok (heap s') (adr' q) (set_word_id (length (words s'))) _ _ (sh_load _ _ _ _ _ S0 q H1) eq_refl) as (h & -> & _ & G).
        cbn [obind]. exists ps', adr', (Trie h (nodes s') (root s') (words s' ++ [adr' q])). split; [reflexivity|].
        assert (ND : NoDup (ws ++ [q])) by (apply nodup_snoc; [apply (sh_words _ _ _ _ _ S0)|exact Iq]).
        split; [|split; [|exact H1]].
        * split; [|split; [exact Nn|split; [exact Rt|]]].
          2: { cbn [words]. rewrite Wd. cbn [map]. rewrite map_app. reflexivity. }
          cbn [heap]. apply reword with ws (heap s'); [exact S0|exact ND| | |].
          -- intros v Hv. apply in_app_iff in Hv as [Hv|[<-|[]]]; [apply (sh_incl _ _ _ _ _ S0 v Hv)|auto].
          -- intros r Hr. rewrite G. destruct (Nat.eqb_spec (adr' q) (adr' r)) as [E|N].
             ++ apply (sh_inj _ _ _ _ _ S0 q r H1 Hr) in E. subst r. cbn [node_of num_ch ord parent next]. f_equal.
                unfold node_of. rewrite number_snoc by (assumption || apply (sh_words _ _ _ _ _ S0)).
                destruct (word_eq q q); [|congruence]. rewrite Wd, map_length. reflexivity.
             ++ rewrite (sh_load _ _ _ _ _ S0 r Hr). f_equal. unfold node_of.
                rewrite number_snoc by (assumption || apply (sh_words _ _ _ _ _ S0)).
                destruct (word_eq r q) as [->|_]; [congruence|reflexivity].
          -- intros a nd. rewrite G. destruct (Nat.eqb_spec (adr' q) a) as [<-|_]; [|eauto].
             intros _. eexists. apply (sh_load _ _ _ _ _ S0 q H1).
        * intros r Hr Nr. destruct (H2 r Hr) as [H|H].
          -- destruct (T r H Nr) as (v & Hv & Pv). exists v. split; [apply in_app_iff; auto|exact Pv].
          -- exists q. split; [apply in_app_iff; right; left; reflexivity|exact H].
  Qed.

  Lemma numbered_in ps ws adr s id : rep ps ws adr s -> id <= length ws ->
    nth_error (words s) id = Some (adr (numbered ws id)) /\ In (numbered ws id) ps.
  Proof using.
    intros (S0 & _ & _ & Wd) H. rewrite Wd, nth_error_map. unfold numbered.
    destruct (nth_error_some ([] :: ws) id) as [w E]; [cbn; lia|]. rewrite E. cbn [option_map].
    rewrite (nth_error_nth _ _ [] E). split; [reflexivity|]. apply nth_error_In in E as [<-|E]; [apply (sh_nil _ _ _ _ _ S0)|].
    apply (sh_incl _ _ _ _ _ S0 w E).
  Qed.
  Lemma append_ok ps ws adr s id w : rep ps ws adr s -> tight ps ws -> id <= length ws -> Forall (fun o => o < K) w ->
    let v := numbered ws id ++ w in
    exists ps' adr' s', append K s id w = Some (s', number (enter ws v) v) /\ rep ps' (enter ws v) adr' s' /\ tight ps' (enter ws v).
  Proof using.
    intros R T H F v. unfold append. destruct (numbered_in ps ws adr s id R H) as [-> Hp]. cbn [obind].
    destruct (insert_ok ps ws adr s _ w R T Hp F) as (ps' & adr' & s' & -> & R' & T' & Hv). cbn [obind]. fold v in R', T', Hv |- *.
    rewrite (rep_load _ _ _ _ _ R' Hv). cbn [obind node_of word_id]. exists ps', adr', s'. auto.
  Qed.
  Lemma add_ok ps ws adr s w : rep ps ws adr s -> tight ps ws -> Forall (fun o => o < K) w ->
    exists ps' adr' s', add K s w = Some (s', number (enter ws w) w) /\ rep ps' (enter ws w) adr' s' /\ tight ps' (enter ws w).
  Proof using.
    intros R T F. unfold add. pose proof R as (S0 & _ & Rt & _). rewrite Rt.
    destruct (insert_ok ps ws adr s [] w R T (sh_nil _ _ _ _ _ S0) F) as (ps' & adr' & s' & -> & R' & T' & Hv). cbn [obind app] in *.
    rewrite (rep_load _ _ _ _ _ R' Hv). cbn [obind node_of word_id]. exists ps', adr', s'. auto.
  Qed.

  (** *** lookup *)
  Lemma find_from_ok ps ws adr s : rep ps ws adr s -> forall w p, In p ps -> Forall (fun o => o < K) w ->
    find_from s (adr p) w = Some (adr (if in_dec word_eq (p ++ w) ps then p ++ w else [])).
  Proof using.
    intros R. pose proof R as (S0 & _ & Rt & _). induction w as [|o w IH]; intros p Hp F; cbn [find_from].
    - rewrite app_nil_r. destruct (in_dec word_eq p ps); [reflexivity|contradiction].
    - inversion F as [|? ? F1 F2]; subst. rewrite (rep_load _ _ _ _ _ R Hp). cbn [obind node_of next].
      rewrite links_nth by exact F1. cbn [obind].
      replace (p ++ o :: w) with ((p ++ [o]) ++ w) by (rewrite <- app_assoc; reflexivity).
      destruct (mem ps (p ++ [o])) eqn:M.
      + apply IH; [apply mem_iff; exact M|exact F2].
      + rewrite Rt. f_equal. destruct (in_dec word_eq ((p ++ [o]) ++ w) ps) as [X|X]; [|reflexivity]. exfalso.
        apply mem_not in M. apply M. apply (prefixes_in _ _ _ _ _ S0 _ _ X). exists w. reflexivity.
  Qed.
  Lemma find_ok ps ws adr s w : rep ps ws adr s -> Forall (fun o => o < K) w -> find s w = Some (number ws w).
  Proof using.
    intros R F. pose proof R as (S0 & _ & Rt & _). unfold find. rewrite Rt.
    rewrite (find_from_ok ps ws adr s R w [] (sh_nil _ _ _ _ _ S0) F). cbn [obind app].
    assert (N0 : number ws [] = 0) by (apply number_in; intro X; apply (sh_incl _ _ _ _ _ S0) in X as [_ X]; congruence).
    destruct (in_dec word_eq w ps) as [X|X]; rewrite (rep_load _ _ _ _ _ R); cbn [obind node_of word_id].
    - reflexivity.
    - exact X.
    - rewrite N0. f_equal. symmetry. apply number_in. intro Y. apply X. apply (sh_incl _ _ _ _ _ S0 w Y).
    - apply (sh_nil _ _ _ _ _ S0).
  Qed.
  Lemma climb_ok ps ws adr s : rep ps ws adr s -> forall fuel p w, In p ps -> length p < fuel -> climb fuel s (adr p) w = Some (w ++ rev p).
  Proof using.
    intro R. pose proof R as (S0 & _). induction fuel as [|fuel IH]; intros p w Hp L; [lia|]. cbn [climb].
    rewrite (rep_root _ _ _ _ _ R Hp). destruct (word_eq p []) as [->|N]; [rewrite app_nil_r; reflexivity|].
    rewrite (rep_load _ _ _ _ _ R Hp). cbn [obind node_of parent ord].
    pose proof (app_removelast_last 0 N) as E. set (q := removelast p) in *. set (o := last p 0) in *. clearbody q o. subst p.
    rewrite app_length in L. cbn [length] in L.
    destruct (q ++ [o]) eqn:X; [apply snoc_nil in X; destruct X|]. rewrite <- X in *. cbn [obind].
    rewrite IH; [|apply (sh_closed _ _ _ _ _ S0 q o Hp)|lia]. rewrite rev_app_distr, <- app_assoc. reflexivity.
  Qed.
  Lemma get_ok ps ws adr s id : rep ps ws adr s -> id <= length ws -> get s id = Some (numbered ws id).
  Proof using.
    intros R H. unfold get. destruct (numbered_in ps ws adr s id R H) as [-> Hp]. cbn [obind].
    pose proof R as (S0 & Nn & _).
    rewrite (climb_ok ps ws adr s R); [|exact Hp|rewrite Nn; apply Nat.lt_lt_succ_r; apply (depth_lt _ _ _ _ _ _ S0 Hp)].
    cbn [obind app]. rewrite rev_involutive. reflexivity.
  Qed.

  (** *** visits *)
  Lemma alphabetic_ext p x y v v' : x < y -> alphabetic (p ++ x :: v) (p ++ y :: v').
  Proof using. intro H. induction p as [|z p IH]; cbn [app alphabetic]; [left; exact H|right; auto]. Qed.
  Lemma alphabetic_app p v : v <> [] -> alphabetic p (p ++ v).
  Proof using.
    intro H. induction p as [|z p IH]; cbn [app alphabetic]; [destruct v; [congruence|exact I]|]. right. auto.
  Qed.
  Notation lt2 := (fun a b : word * nat => alphabetic (fst a) (fst b)).
  Lemma sorted_app (l l' : list (word * nat)) : StronglySorted lt2 l -> StronglySorted lt2 l' ->
    (forall a b, In a l -> In b l' -> lt2 a b) -> StronglySorted lt2 (l ++ l').
  Proof using.
    intros H1 H2 H. induction H1 as [|a l H1 IH F]; [exact H2|]. cbn [app]. constructor.
    - apply IH. intros x y Hx. apply H. right. exact Hx.
    - apply Forall_app. split; [exact F|]. apply Forall_forall. intros y Hy. apply H; [left; reflexivity|exact Hy].
  Qed.
  Lemma prefix_split p w : prefix p w -> w = p \/ exists o, prefix (p ++ [o]) w.
  Proof using.
    intros [v ->]. destruct v as [|o v]; [left; apply app_nil_r|right]. exists o, v. rewrite <- app_assoc. reflexivity.
  Qed.
  Lemma prefix_fun p o o' w : prefix (p ++ [o]) w -> prefix (p ++ [o']) w -> o = o'.
  Proof using.
    intros [v ->] [v' E]. rewrite <- !app_assoc in E. apply app_inv_head in E. cbn in E. congruence.
  Qed.
  Lemma for_each_from_ok ps ws adr s : rep ps ws adr s -> forall fuel p, In p ps -> length ps < fuel + length p ->
    exists l, for_each_from K fuel (heap s) (adr p) p = Some l /\ StronglySorted lt2 l /\
      forall w n, In (w, n) l <-> In w ws /\ prefix p w /\ n = number ws w.
  Proof using.
    intro R. pose proof R as (S0 & _). induction fuel as [|fuel IH]; intros p Hp L.
    - pose proof (depth_lt _ _ _ _ _ _ S0 Hp). lia.
    - cbn [for_each_from]. rewrite (rep_load _ _ _ _ _ R Hp). cbn [obind node_of word_id next].
      set (F := fun o out => let* c := nth_error (links K ps adr p) o in
        match c with None => Some out | Some c => let* r := for_each_from K fuel (heap s) c (p ++ [o]) in Some (out ++ r) end).
      destruct (for_range_spec (fun c (l : list (word * nat)) => StronglySorted lt2 l /\
         forall w n, In (w, n) l <-> In w ws /\ (w = p \/ exists o, o < c /\ prefix (p ++ [o]) w) /\ n = number ws w)
         F 0 K (if number ws p =? 0 then [] else [(p, number ws p)])) as (l & E & Sl & Hl).
      + lia.
      + destruct (Nat.eqb_spec (number ws p) 0) as [Z|Z].
        * split; [constructor|]. intros w n. split; [intros []|]. intros (H & [->|(o & Ho & _)] & _); [|lia].
          apply number_in in Z. contradiction.
        * split; [constructor; constructor|]. intros w n. split.
          -- intros [X|[]]. injection X as <- <-. split; [|auto]. destruct (in_dec word_eq p ws) as [Y|Y]; [exact Y|].
             apply number_in in Y. contradiction.
          -- intros (H & [->|(o & Ho & _)] & ->); [|lia]. left. reflexivity.
      + intros c out Hc (So & Ho). unfold F. rewrite links_nth by lia. cbn [obind].
        destruct (mem ps (p ++ [c])) eqn:M.
        * apply mem_iff in M. destruct (IH (p ++ [c]) M) as (r & Er & Sr & Hr).
          { rewrite app_length. cbn [length]. lia. }
          rewrite Er. cbn [obind]. exists (out ++ r). split; [reflexivity|]. split.
          -- apply sorted_app; [exact So|exact Sr|]. intros (w & n) (w' & n') Hw Hw'. cbn [fst].
             apply Ho in Hw as (_ & Hw & _). apply Hr in Hw' as (_ & [v' ->] & _). rewrite <- app_assoc. cbn [app].
             destruct Hw as [->|(o & Lo & v & ->)].
             ++ apply alphabetic_app. discriminate.
             ++ rewrite <- app_assoc. cbn [app]. apply alphabetic_ext. exact Lo.
          -- intros w n. rewrite in_app_iff, Ho, Hr. split.
             ++ intros [(H1 & [H2|(o & Lo & H2)] & H3)|(H1 & H2 & H3)]; (split; [exact H1|split; [|exact H3]]); [auto|right; exists o; split; [lia|exact H2]|right; exists c; split; [lia|exact H2]].
             ++ intros (H1 & [H2|(o & Lo & H2)] & H3); [auto|]. destruct (Nat.eq_dec o c) as [->|N]; [auto|].
                left. split; [exact H1|]. split; [|exact H3]. right. exists o. split; [lia|exact H2].
        * apply mem_not in M. exists out. split; [reflexivity|]. split; [exact So|]. intros w n. rewrite Ho. split.
          -- intros (H1 & [H2|(o & Lo & H2)] & H3); (split; [exact H1|split; [|exact H3]]); [auto|]. right. exists o. split; [lia|exact H2].
          -- intros (H1 & [H2|(o & Lo & H2)] & H3); [auto|]. destruct (Nat.eq_dec o c) as [->|N].
             ++ exfalso. apply M. apply (prefixes_in _ _ _ _ _ S0 w); [apply (sh_incl _ _ _ _ _ S0 w H1)|exact H2].
             ++ split; [exact H1|]. split; [|exact H3]. right. exists o. split; [lia|exact H2].
      + exists l. split; [exact E|]. split; [exact Sl|]. intros w n. rewrite Hl. split; intros (H1 & H2 & H3); (split; [exact H1|split; [|exact H3]]).
        * destruct H2 as [->|(o & _ & H2)]; [apply prefix_refl|]. apply prefix_trans with (p ++ [o]); [exists [o]; reflexivity|exact H2].
        * apply prefix_split in H2 as [->|(o & H2)]; [auto|]. right. exists o. split; [|exact H2].
          apply (sh_closed _ _ _ _ _ S0 p o). apply (prefixes_in _ _ _ _ _ S0 w); [apply (sh_incl _ _ _ _ _ S0 w H1)|exact H2].
  Qed.

  (** *** removal *)
  Lemma prune_ok : forall fuel ps ws adr s p, rep ps ws adr s -> In p ps -> length p < fuel ->
    (forall q, In q ps -> q <> [] -> prefix q p \/ exists w, In w ws /\ prefix q w) ->
    exists ps' s', prune fuel s (adr p) = Some s' /\ rep ps' ws adr s' /\ tight ps' ws.
  Proof using.
    induction fuel as [|fuel IH]; intros ps ws adr s p R Hp L T; [lia|]. cbn [prune].
    rewrite (rep_root _ _ _ _ _ R Hp). destruct (word_eq p []) as [->|N].
    - exists ps, s. split; [reflexivity|]. split; [exact R|]. intros q Hq Nq. destruct (T q Hq Nq) as [[v H]|H]; [|exact H].
      symmetry in H. apply app_eq_nil in H as [-> _]. congruence.
    - rewrite (rep_load _ _ _ _ _ R Hp). cbn [obind node_of parent ord num_ch word_id].
      destruct (Nat.eqb_spec (kids K ps p) 0) as [Z1|Z1]; cbn [andb].
      2: { exists ps, s. split; [reflexivity|]. split; [exact R|]. intros q Hq Nq. destruct (T q Hq Nq) as [H|H]; [|exact H].
           destruct (existsb (fun o => mem ps (p ++ [o])) (seq 0 K)) eqn:X.
           - apply existsb_exists in X as (o & _ & Ho). apply mem_iff in Ho.
             destruct (T (p ++ [o]) Ho ltac:(apply snoc_nil)) as [[v E]|(w & Hw & Pw)].
             + apply (f_equal (@length nat)) in E. rewrite !app_length in E. cbn in E. lia.
             + exists w. split; [exact Hw|]. apply prefix_trans with p; [exact H|]. apply prefix_trans with (p ++ [o]); [exists [o]; reflexivity|exact Pw].
           - exfalso. apply Z1. apply kids_zero. intros o Ho Y. apply mem_iff in Y.
             assert (existsb (fun o => mem ps (p ++ [o])) (seq 0 K) = true); [|congruence].
             apply existsb_exists. exists o. split; [apply in_seq; lia|exact Y]. }
      destruct (Nat.eqb_spec (number ws p) 0) as [Z2|Z2].
      2: { exists ps, s. split; [reflexivity|]. split; [exact R|]. intros q Hq Nq. destruct (T q Hq Nq) as [H|H]; [|exact H].
           exists p. split; [|exact H]. destruct (in_dec word_eq p ws) as [Y|Y]; [exact Y|]. apply number_in in Y. contradiction. }
      apply number_in in Z2. pose proof (proj1 (kids_zero K ps p) Z1) as NK. clear Z1.
      pose proof (app_removelast_last 0 N) as E. set (q := removelast p) in *. set (o := last p 0) in *.
      assert (Hqo : In (q ++ [o]) ps) by (rewrite <- E; exact Hp).
      destruct R as (S0 & Nn & Rt & Wd). destruct (sh_closed _ _ _ _ _ S0 q o Hqo) as [Hq Ho].
      assert (PM : match p with [] => None | _ :: _ => Some (adr q) end = Some (adr q)) by (clear -N; destruct p; [congruence|reflexivity]).
      rewrite PM. cbn [obind]. clear PM.
      set (h := heap s) in *. pose proof (sh_load _ _ _ _ _ S0 q Hq) as Eq. rewrite Eq. cbn [obind node_of num_ch].
      assert (Npq : q <> p) by (rewrite E; intro X; symmetry in X; apply snoc_neq in X; exact X).
      assert (Npq' : adr q <> adr p) by (intro X; apply Npq; apply (sh_inj _ _ _ _ _ S0 q p Hq Hp X)).
      set (ps' := remove word_eq p ps).
      assert (Ip : forall r, In r ps' <-> In r ps /\ r <> p).
      { intro r. split; [intro X; apply in_remove in X; exact X|]. intros [X1 X2]. apply in_in_remove; assumption. }
      assert (M1 : forall r, r <> p -> mem ps' r = mem ps r).
      { intros r Nr. unfold mem. destruct (in_dec word_eq r ps') as [X|X], (in_dec word_eq r ps) as [Y|Y]; try reflexivity; exfalso.
        - apply Y. apply Ip. exact X. - apply X. apply Ip. auto. }
      assert (M2 : mem ps' p = false) by (apply mem_not; intro X; apply Ip in X as [_ X]; congruence).
      destruct (modify_ok h (adr q) (set_num_ch (kids K ps q - 1)) _ _ Eq eq_refl) as (h1 & -> & _ & G1). cbn [obind].
      assert (E1 : load h1 (adr p) = Some (node_of ps ws adr p)).
      { rewrite G1, (proj2 (Nat.eqb_neq _ _) Npq'). apply (sh_load _ _ _ _ _ S0 p Hp). }
      rewrite E1. cbn [obind node_of ord]. fold o.
      assert (E2 : load h1 (adr q) = Some (Node (number ws q) (kids K ps q - 1) (last q 0) (parent (node_of ps ws adr q)) (links K ps adr q))).
      { rewrite G1, Nat.eqb_refl. reflexivity. }
      assert (Lq : set_nth (links K ps adr q) o None = Some (links K ps' adr q)).
      { pose proof (links_set K ps ps' adr adr q o Ho) as X. rewrite <- E, M2 in X. apply X. intros y Ny. split; [|reflexivity].
        apply M1. rewrite E. intro Y. apply snoc_inj in Y as [_ Y]. auto. }
      assert (Kq : kids K ps q = S (kids K ps' q)).
      { apply kids_flip with o; [exact Ho|rewrite <- E; exact M2|apply mem_iff; exact Hqo|].
        intros y Ny. symmetry. apply M1. rewrite E. intro Y. apply snoc_inj in Y as [_ Y]. auto. }
      destruct (modify_ok h1 (adr q) (set_next o None) _ (node_of ps' ws adr q) E2) as (h2 & -> & _ & G2).
      { unfold set_next. cbn [next word_id num_ch ord parent]. rewrite Lq. cbn [obind]. unfold node_of. rewrite Kq.
        replace (S (kids K ps' q) - 1) with (kids K ps' q) by lia. destruct q; reflexivity. }
      cbn [obind].
      assert (E3 : load h2 (adr p) = Some (node_of ps ws adr p)) by (rewrite G2, (proj2 (Nat.eqb_neq _ _) Npq'); exact E1).
      destruct (free_ok h2 (nodes s) (adr p) _ E3) as (h3 & -> & _ & G3). cbn [obind].
      apply (IH ps' ws adr _ q).
      + split; [|split; [|split; [exact Rt|exact Wd]]].
        * cbn [heap]. constructor.
          -- unfold ps'. clear -S0. pose proof (sh_nodup _ _ _ _ _ S0) as ND. clear S0. induction ND as [|y l H1 H2 IH]; [constructor|]. cbn [remove].
             destruct (word_eq p y); [exact IH|]. constructor; [|exact IH]. intro X. apply in_remove in X as [X _]. auto.
          -- apply Ip. split; [apply (sh_nil _ _ _ _ _ S0)|congruence].
          -- intros r y Hr. apply Ip in Hr as [Hr Nr]. destruct (sh_closed _ _ _ _ _ S0 r y Hr) as [X1 X2]. split; [|exact X2].
             apply Ip. split; [exact X1|]. intros ->. apply (NK y X2 Hr).
          -- intros r t Hr Ht. apply Ip in Hr as [Hr _], Ht as [Ht _]. apply (sh_inj _ _ _ _ _ S0 r t Hr Ht).
          -- intros r Hr. apply Ip in Hr as [Hr Nr]. rewrite G3.
             rewrite (proj2 (Nat.eqb_neq (adr p) (adr r))) by (intro X; apply Nr; symmetry; apply (sh_inj _ _ _ _ _ S0 p r Hp Hr X)).
             rewrite G2. destruct (Nat.eqb_spec (adr q) (adr r)) as [X|X].
             ++ apply (sh_inj _ _ _ _ _ S0 q r Hq Hr) in X. subst r. reflexivity.
             ++ rewrite G1, (proj2 (Nat.eqb_neq _ _) X). rewrite (sh_load _ _ _ _ _ S0 r Hr). f_equal. symmetry.
                apply node_other; [reflexivity| |reflexivity|reflexivity]. intro y. apply M1. rewrite E. intro Y.
                apply snoc_inj in Y as [Y _]. subst r. apply X. reflexivity.
          -- intros a nd. rewrite G3. destruct (Nat.eqb_spec (adr p) a) as [X|X]; [discriminate|]. rewrite G2.
             destruct (Nat.eqb_spec (adr q) a) as [<-|Y]; [intros _; exists q; split; [apply Ip; auto|reflexivity]|].
             rewrite G1, (proj2 (Nat.eqb_neq _ _) Y). intro V. destruct (sh_live _ _ _ _ _ S0 a nd V) as (r & Hr & <-).
             exists r. split; [apply Ip; split; [exact Hr|congruence]|reflexivity].
          -- apply (sh_words _ _ _ _ _ S0).
          -- intros w Hw. destruct (sh_incl _ _ _ _ _ S0 w Hw) as [X1 X2]. split; [|exact X2]. apply Ip. split; [exact X1|].
             intros ->. auto.
        * cbn [nodes]. rewrite Nn. unfold ps'. clear -Hp S0. pose proof (sh_nodup _ _ _ _ _ S0) as ND. clear S0.
          assert (X : length (remove word_eq p ps) + 1 = length ps); [|lia].
          induction ND as [|y l H1 H2 IH]; [destruct Hp|]. cbn [remove length]. destruct (word_eq p y) as [->|N].
          -- rewrite notin_remove by exact H1. lia.
          -- cbn [length]. destruct Hp as [->|Hp]; [congruence|]. specialize (IH Hp). lia.
      + apply Ip. auto.
      + rewrite E, app_length in L. cbn [length] in L. lia.
      + intros r Hr Nr. apply Ip in Hr as [Hr Np]. destruct (T r Hr Nr) as [H|H]; [|auto]. left.
        rewrite E in H. apply prefix_snoc in H as [H|H]; [congruence|exact H].
  Qed.
  Lemma erase_ok ps ws adr s id : rep ps ws adr s -> tight ps ws -> id <= length ws ->
    exists ps' s', erase s id = Some (s', id) /\ rep ps' (take_out ws id) adr s' /\ tight ps' (take_out ws id).
  Proof using.
    intros R T H. unfold erase. destruct (numbered_in ps ws adr s id R H) as [-> Hp]. cbn [obind]. unfold erase_node.
    rewrite (rep_load _ _ _ _ _ R Hp). cbn [obind node_of word_id].
    pose proof R as (S0 & Nn & Rt & Wd). pose proof (sh_words _ _ _ _ _ S0) as ND.
    destruct id as [|i].
    - change (numbered ws 0) with (@nil nat). rewrite (proj2 (number_in ws [])) by (intro X; apply (sh_incl _ _ _ _ _ S0) in X as [_ X]; congruence).
      cbn [Nat.eqb]. exists ps, s. auto.
    - destruct (nth_error_some ws i) as [p E]; [lia|].
      assert (Ep : numbered ws (S i) = p) by (unfold numbered; cbn [nth]; apply nth_error_nth; exact E). rewrite Ep in *. clear Ep.
      rewrite (proj2 (number_nth ws p i ND) E). cbn [Nat.eqb].
      assert (Hne : ws <> []) by (intros ->; destruct i; discriminate).
      pose proof (last_nth ws Hne) as EL. set (z := last ws []) in *.
      assert (Lw : length (words s) = S (length ws)) by (rewrite Wd, map_length; reflexivity).
      assert (Ex : nth_error (words s) (S i) = Some (adr p)) by (rewrite Wd, nth_error_map; cbn [nth_error]; rewrite E; reflexivity).
      assert (Ey : nth_error (words s) (length (words s) - 1) = Some (adr z)).
      { rewrite Lw, Wd, nth_error_map. replace (S (length ws) - 1) with (S (length ws - 1)) by lia. cbn [nth_error]. rewrite EL. reflexivity. }
      rewrite Ex, Ey. cbn [obind].
      destruct (set_nth_some (words s) (S i) (adr z)) as [w1 W1]; [lia|]. rewrite W1. cbn [obind].
      destruct (set_nth_some w1 (length (words s) - 1) (adr p)) as [w2 W2]; [rewrite (set_nth_length _ _ _ _ W1); lia|]. rewrite W2. cbn [obind].
      assert (Ez : nth_error w2 (S i) = Some (adr z)).
      { rewrite (set_nth_get _ _ _ _ _ W2). destruct (Nat.eqb_spec (length (words s) - 1) (S i)) as [X|X].
        - rewrite X in Ey. congruence.
        - rewrite (set_nth_get _ _ _ _ _ W1), Nat.eqb_refl. reflexivity. }
      rewrite Ez. cbn [obind].
      destruct (take_out_ok ws i p ND E) as (ND' & I' & N'). fold z in N'.
      assert (Hz : In z ps) by (apply (sh_incl _ _ _ _ _ S0); apply (nth_error_In _ _ EL)).
      destruct (modify_ok (heap s) (adr z) (set_word_id (S i)) _ _ (sh_load _ _ _ _ _ S0 z Hz) eq_refl) as (h1 & -> & _ & G1).
      cbn [obind num_ch ord parent next node_of] in *.
      assert (E1 : exists u, load h1 (adr p) = Some (Node u (kids K ps p) (last p 0) (parent (node_of ps ws adr p)) (links K ps adr p))).
      { rewrite G1. destruct (Nat.eqb_spec (adr z) (adr p)) as [X|X].
        - apply (sh_inj _ _ _ _ _ S0 z p Hz Hp) in X. rewrite X. eexists. reflexivity.
        - rewrite (sh_load _ _ _ _ _ S0 p Hp). eexists. reflexivity. }
      destruct E1 as [u E1].
      destruct (modify_ok h1 (adr p) (set_word_id 0) _ _ E1 eq_refl) as (h2 & -> & _ & G2). cbn [obind num_ch ord parent next] in *.
      assert (Wr : removelast w2 = map adr ([] :: take_out ws (S i))).
      { apply list_ext. intro k. rewrite removelast_firstn_len.
        assert (L2 : length w2 = S (length ws)) by (rewrite (set_nth_length _ _ _ _ W2), (set_nth_length _ _ _ _ W1); exact Lw).
        rewrite L2. cbn [pred]. rewrite nth_error_map.
        assert (F : nth_error (firstn (length ws) w2) k = if k <? length ws then nth_error w2 k else None).
        { destruct (Nat.ltb_spec k (length ws)) as [X|X].
          - rewrite <- (firstn_skipn (length ws) w2) at 2. rewrite nth_error_app1; [reflexivity|]. rewrite firstn_length. lia.
          - apply nth_error_None. rewrite firstn_length. lia. }
        rewrite F, (set_nth_get _ _ _ _ _ W2), (set_nth_get _ _ _ _ _ W1), Lw, Wd, nth_error_map.
        destruct (Nat.ltb_spec k (length ws)) as [X|X].
        - rewrite (proj2 (Nat.eqb_neq (S (length ws) - 1) k)) by lia. destruct k as [|k]; [reflexivity|].
          cbn [nth_error Nat.eqb]. rewrite take_out_nth by (apply nth_error_Some; congruence).
          rewrite (proj2 (Nat.ltb_lt k (length ws - 1))) by lia. fold z. destruct (i =? k); reflexivity.
        - destruct k as [|k]; [destruct ws; [congruence|cbn in X; lia]|]. cbn [nth_error].
          rewrite take_out_nth by (apply nth_error_Some; congruence). rewrite (proj2 (Nat.ltb_ge k (length ws - 1))) by lia. reflexivity. }
      rewrite Wr.
      destruct (prune_ok (S (nodes s)) ps (take_out ws (S i)) adr (Trie h2 (nodes s) (root s) (map adr ([] :: take_out ws (S i)))) p) as (ps' & s' & -> & R' & T').
      + split; [|split; [exact Nn|split; [exact Rt|reflexivity]]]. cbn [heap]. apply reword with ws (heap s); [exact S0|exact ND'| | |].
        * intros w Hw. apply I' in Hw as [Hw _]. apply (sh_incl _ _ _ _ _ S0 w Hw).
        * intros r Hr. rewrite G2. destruct (Nat.eqb_spec (adr p) (adr r)) as [X|X].
          -- apply (sh_inj _ _ _ _ _ S0 p r Hp Hr) in X. subst r. f_equal. unfold node_of. rewrite N'. destruct (word_eq p p); [reflexivity|congruence].
          -- rewrite G1. destruct (Nat.eqb_spec (adr z) (adr r)) as [Y|Y].
             ++ apply (sh_inj _ _ _ _ _ S0 z r Hz Hr) in Y. subst r. f_equal. unfold node_of. rewrite N'.
                destruct (word_eq z p) as [V|V]; [rewrite V in X; congruence|]. destruct (word_eq z z); [reflexivity|congruence].
             ++ rewrite (sh_load _ _ _ _ _ S0 r Hr). f_equal. unfold node_of. rewrite N'.
                destruct (word_eq r p) as [->|_]; [congruence|]. destruct (word_eq r z) as [->|_]; [congruence|reflexivity].
        * intros a nd. rewrite G2. destruct (Nat.eqb_spec (adr p) a) as [<-|X].
          -- intros _. eexists. apply (sh_load _ _ _ _ _ S0 p Hp).
          -- rewrite G1. destruct (Nat.eqb_spec (adr z) a) as [<-|Y]; [|eauto]. intros _. eexists. apply (sh_load _ _ _ _ _ S0 z Hz).
      + exact Hp.
      + rewrite Nn. apply Nat.lt_lt_succ_r. apply (depth_lt _ _ _ _ _ _ S0 Hp).
      + intros q Hq Nq. destruct (T q Hq Nq) as (w & Hw & Pw). destruct (word_eq w p) as [->|V]; [left; exact Pw|].
        right. exists w. split; [apply I'; auto|exact Pw].
      + cbn [obind]. exists ps', s'. auto.
  Qed.
End Ops.
