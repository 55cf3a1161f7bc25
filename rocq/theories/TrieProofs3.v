(** Clearing, destruction and whole histories of a prefix tree. *)
From Coq Require Import List PeanoNat Lia Bool Sorted.
From Verif Require Import Lib TrieModel TrieSpec TrieProofs TrieProofs2.
Import ListNotations.

Section Hist.
  Variable K : nat.
  Notation rep := (rep K).
  Notation shape := (shape K).
  Notation node_of := (node_of K).

  Lemma nodup_map_on {A B} (f : A -> B) (l : list A) : (forall x y, In x l -> In y l -> f x = f y -> x = y) -> NoDup l -> NoDup (map f l).
  Proof using.
    intros H ND. induction ND as [|x l N1 N2 IH]; [constructor|]. cbn [map]. constructor.
    - intro X. apply in_map_iff in X as (y & E & Hy). apply N1. assert (y = x) as <- by (apply H; [right; exact Hy|left; reflexivity|exact E]). exact Hy.
    - apply IH. intros y z Hy Hz. apply H; right; assumption.
  Qed.
  Lemma shape_live ps ws adr h : shape ps ws adr h -> live h = length ps.
  Proof using.
    intro S0. unfold live. rewrite <- (map_length adr ps).
    assert (N1 : NoDup (map adr ps)) by (apply nodup_map_on; [apply (sh_inj _ _ _ _ _ S0)|apply (sh_nodup _ _ _ _ _ S0)]).
    assert (N2 : NoDup (filter (alive h) (seq 0 (length h)))) by (apply NoDup_filter; apply seq_NoDup).
    apply Nat.le_antisymm; apply NoDup_incl_length; try assumption.
    - intros a Ha. apply filter_In in Ha as [_ Ha]. unfold alive in Ha. destruct (load h a) as [nd|] eqn:E; [|discriminate].
      destruct (sh_live _ _ _ _ _ S0 a nd E) as (p & Hp & <-). apply in_map. exact Hp.
    - intros a Ha. apply in_map_iff in Ha as (p & <- & Hp). pose proof (sh_load _ _ _ _ _ S0 p Hp) as E.
      apply filter_In. split; [apply in_seq; apply load_lt in E; lia|]. unfold alive. rewrite E. reflexivity.
  Qed.
  Lemma live_free h n a nd : load h a = Some nd -> n = live h ->
    exists h', free h n a = Some (h', live h') /\ forall b, load h' b = if a =? b then None else load h b.
  Proof using.
    intros E ->. destruct (free_ok h (live h) a nd E) as (h' & F & L & G). exists h'. split; [|exact G].
    rewrite F. f_equal. f_equal. unfold live. rewrite L.
    rewrite (filter_flip (alive h') (alive h) a); [lia|apply seq_NoDup|apply in_seq; apply load_lt in E; lia| | |].
    - unfold alive. rewrite G, Nat.eqb_refl. reflexivity.
    - unfold alive. rewrite E. reflexivity.
    - intros x Hx. unfold alive. rewrite G, (proj2 (Nat.eqb_neq a x)) by congruence. reflexivity.
  Qed.

  Lemma free_all_ok ps ws adr h0 : shape ps ws adr h0 -> forall fuel p h, In p ps -> length ps < fuel + length p ->
    (forall q, In q ps -> prefix p q -> load h (adr q) = Some (node_of ps ws adr q)) ->
    exists h', free_all K fuel (Some (adr p)) (h, live h) = Some (h', live h') /\
      (forall q, In q ps -> prefix p q -> load h' (adr q) = None) /\
      (forall a, (forall q, In q ps -> prefix p q -> adr q <> a) -> load h' a = load h a).
  Proof using.
    intro S0. induction fuel as [|fuel IH]; intros p h Hp L G.
    - pose proof (depth_lt _ _ _ _ _ _ S0 Hp). lia.
    - cbn [free_all].
      destruct (for_range_spec (fun c (st : list (option node) * nat) => let '(h1, n1) := st in n1 = live h1 /\
         (forall o q, o < c -> In q ps -> prefix (p ++ [o]) q -> load h1 (adr q) = None) /\
         (forall a, (forall o q, o < c -> In q ps -> prefix (p ++ [o]) q -> adr q <> a) -> load h1 a = load h a))
         (fun o hn => let* nd := load (fst hn) (adr p) in let* c := nth_error (next nd) o in free_all K fuel c hn)
         0 K (h, live h)) as ((h1 & n1) & E & -> & D1 & D2).
      + lia.
      + split; [reflexivity|]. split; [intros; lia|]. intros a _. reflexivity.
      + intros c (h1 & n1) Hc (-> & D1 & D2). cbn [fst].
        assert (ne : forall o q, prefix (p ++ [o]) q -> q <> p).
        { intros o q [v ->] X. apply (f_equal (@length nat)) in X. rewrite !app_length in X. cbn in X. lia. }
        assert (E : load h1 (adr p) = Some (node_of ps ws adr p)).
        { rewrite D2; [apply G; [exact Hp|apply prefix_refl]|]. intros o q _ Hq Pq X.
          apply (sh_inj _ _ _ _ _ S0 q p Hq Hp) in X. apply (ne o q Pq X). }
        rewrite E. cbn [obind node_of next]. rewrite links_nth by lia. cbn [obind].
        destruct (mem ps (p ++ [c])) eqn:M.
        * apply mem_iff in M. destruct (IH (p ++ [c]) h1 M) as (h2 & E2 & F1 & F2).
          { rewrite app_length. cbn [length]. lia. }
          { intros q Hq Pq. rewrite D2.
            - apply G; [exact Hq|]. apply prefix_trans with (p ++ [c]); [exists [c]; reflexivity|exact Pq].
            - intros o r Ho Hr Pr X. apply (sh_inj _ _ _ _ _ S0 r q Hr Hq) in X. subst r.
              pose proof (prefix_fun p o c q Pr Pq). lia. }
          exists (h2, live h2). split; [exact E2|]. split; [reflexivity|]. split.
          -- intros o q Ho Hq Pq. destruct (Nat.eq_dec o c) as [->|N]; [apply F1; assumption|].
             rewrite F2; [apply (D1 o); [lia|assumption..]|]. intros r Hr Pr X. apply (sh_inj _ _ _ _ _ S0 r q Hr Hq) in X. subst r.
             apply N. apply (prefix_fun p o c q Pq Pr).
          -- intros a Ha. rewrite F2; [apply D2; intros o q Ho; apply Ha; lia|]. intros q Hq Pq. apply (Ha c); [lia|assumption..].
        * apply mem_not in M. exists (h1, live h1). split; [destruct fuel; reflexivity|]. split; [reflexivity|]. split.
          -- intros o q Ho Hq Pq. destruct (Nat.eq_dec o c) as [->|N]; [|apply (D1 o); [lia|assumption..]].
             exfalso. apply M. apply (prefixes_in _ _ _ _ _ S0 q); assumption.
          -- intros a Ha. apply D2. intros o q Ho. apply Ha. lia.
      + rewrite E. cbn [obind].
        assert (Ep : load h1 (adr p) = Some (node_of ps ws adr p)).
        { rewrite D2; [apply G; [exact Hp|apply prefix_refl]|]. intros o q _ Hq [v Pq] X.
          apply (sh_inj _ _ _ _ _ S0 q p Hq Hp) in X. subst q. apply (f_equal (@length nat)) in X. rewrite !app_length in X. cbn in X. lia. }
        destruct (live_free h1 _ _ _ Ep eq_refl) as (h2 & F & Gf). exists h2. split; [exact F|]. split.
        * intros q Hq Pq. rewrite Gf. destruct (Nat.eqb_spec (adr p) (adr q)) as [X|X]; [reflexivity|].
          apply prefix_split in Pq as [->|(o & Pq)]; [congruence|]. apply (D1 o); [|assumption..].
          apply (sh_closed _ _ _ _ _ S0 p o). apply (prefixes_in _ _ _ _ _ S0 q); assumption.
        * intros a Ha. rewrite Gf, (proj2 (Nat.eqb_neq _ _) (Ha p Hp (prefix_refl p))). apply D2.
          intros o q _ Hq Pq. apply Ha; [exact Hq|]. apply prefix_trans with (p ++ [o]); [exists [o]; reflexivity|exact Pq].
  Qed.
  Lemma nil_prefix q : prefix [] q.
  Proof using. exists q. reflexivity. Qed.
  Lemma dead_live h : (forall a, load h a = None) -> live h = 0.
  Proof using.
    intro H. unfold live. rewrite (proj2 (length_zero_iff_nil _)); [reflexivity|].
    rewrite (filter_ext (alive h) (fun _ => false)) by (intro a; unfold alive; rewrite H; reflexivity).
    generalize 0. induction (length h); intro b; [reflexivity|]. cbn. auto.
  Qed.
  Lemma destroy_ok ps ws adr s : rep ps ws adr s -> exists h, destroy K s = Some (h, 0) /\ forall a, load h a = None.
  Proof using.
    intros (S0 & Nn & Rt & Wd). unfold destroy. rewrite Rt.
    destruct (free_all_ok ps ws adr (heap s) S0 (S (nodes s)) [] (heap s) (sh_nil _ _ _ _ _ S0)) as (h & E & D1 & D2).
    - rewrite Nn. cbn [length]. lia.
    - intros q Hq _. apply (sh_load _ _ _ _ _ S0 q Hq).
    - assert (D : forall a, load h a = None).
      { intro a. destruct (load (heap s) a) as [nd|] eqn:V.
        - destruct (sh_live _ _ _ _ _ S0 a nd V) as (p & Hp & <-). apply D1; [exact Hp|apply nil_prefix].
        - rewrite D2; [exact V|]. intros q Hq _ X. subst a. rewrite (sh_load _ _ _ _ _ S0 q Hq) in V. discriminate. }
      rewrite (shape_live _ _ _ _ S0), <- Nn, (dead_live h D) in E. exists h. split; [exact E|exact D].
  Qed.
  Lemma init_ok h : (forall a, load h a = None) -> exists adr, rep [[]] [] adr (init K h 0) /\ tight [[]] [].
  Proof using.
    intro D. exists (fun _ => length h). split; [|intros p [<-|[]]; congruence]. unfold init, buy. split; [|split; [reflexivity|split; reflexivity]].
    assert (M : forall p o, mem [[]] (p ++ [o]) = false).
    { intros p o. apply mem_not. intros [X|[]]. symmetry in X. apply snoc_nil in X. exact X. }
    cbn [heap]. constructor.
    - constructor; [tauto|constructor].
    - left. reflexivity.
    - intros p o [X|[]]. symmetry in X. apply snoc_nil in X. destruct X.
    - intros p q [<-|[]] [<-|[]] _. reflexivity.
    - intros p [<-|[]]. rewrite load_buy, Nat.eqb_refl. f_equal. unfold node_of. cbn [number last]. f_equal.
      + symmetry. apply kids_zero. intros o _ X. apply mem_iff in X. rewrite M in X. discriminate.
      + unfold links. rewrite (map_ext _ (fun _ => None)) by (intro x; rewrite M; reflexivity).
        clear. generalize 0 as b. induction K as [|k IH]; intro b; [reflexivity|]. cbn [seq map repeat]. f_equal. apply IH.
    - intros a nd. rewrite load_buy. destruct (Nat.eqb_spec a (length h)) as [->|N]; [intros _; exists []; split; [left; reflexivity|reflexivity]|].
      rewrite D. discriminate.
    - constructor.
    - intros w [].
  Qed.
  Lemma clear_ok ps ws adr s : rep ps ws adr s -> exists adr' s', clear K s = Some s' /\ rep [[]] [] adr' s' /\ tight [[]] [].
  Proof using.
    intro R. destruct (destroy_ok ps ws adr s R) as (h & E & D). unfold clear. unfold destroy in E. rewrite E. cbn [obind].
    destruct (init_ok h D) as (adr' & R' & T'). exists adr', (init K h 0). auto.
  Qed.
  Lemma create_ok : exists adr, rep [[]] [] adr (create K) /\ tight [[]] [].
  Proof using. apply init_ok. intro a. destruct a; reflexivity. Qed.

  Lemma perform_ok ps ws adr s c : rep ps ws adr s -> tight ps ws -> allowed K ws c ->
    exists ps' adr' s' r, perform K s c = Some (s', r) /\ returns ws c r /\ rep ps' (after ws c) adr' s' /\ tight ps' (after ws c).
  Proof using.
    intros R T H. destruct c as [w|id w|w|id|id|id|w| | |]; cbn [allowed after returns perform] in *.
    - destruct (add_ok K ps ws adr s w R T H) as (ps' & adr' & s' & -> & R' & T'). cbn [obind]. exists ps', adr', s'. eauto.
    - destruct H as [H1 H2]. destruct (append_ok K ps ws adr s id w R T H1 H2) as (ps' & adr' & s' & -> & R' & T'). cbn [obind]. exists ps', adr', s'. eauto.
    - rewrite (find_ok K ps ws adr s w R H). cbn [obind]. exists ps, adr, s. eauto.
    - rewrite (get_ok K ps ws adr s id R H). cbn [obind]. exists ps, adr, s. eauto.
    - unfold for_each. rewrite (get_ok K ps ws adr s id R H). cbn [obind].
      destruct (numbered_in K ps ws adr s id R H) as [-> Hp]. cbn [obind].
      destruct (for_each_from_ok K ps ws adr s R (S (nodes s)) (numbered ws id) Hp) as (l & -> & Sl & Hl).
      { destruct R as (_ & Nn & _). lia. }
      cbn [obind]. exists ps, adr, s, (Visits l). split; [reflexivity|]. split; [eauto|auto].
    - destruct (erase_ok K ps ws adr s id R T H) as (ps' & s' & -> & R' & T'). cbn [obind]. exists ps', adr, s'. eauto.
    - unfold erase_word. rewrite (find_ok K ps ws adr s w R H). cbn [obind].
      destruct (erase_ok K ps ws adr s (number ws w) R T) as (ps' & s' & -> & R' & T').
      { destruct (number ws w) as [|i] eqn:E; [lia|]. apply number_nth in E; [|apply (sh_words _ _ _ _ _ (proj1 R))].
        assert (i < length ws) by (apply nth_error_Some; congruence). lia. }
      cbn [obind]. exists ps', adr, s'. eauto.
    - exists ps, adr, s. eexists. split; [reflexivity|]. split; [|auto]. unfold num_words. destruct R as (_ & _ & _ & ->). rewrite map_length. cbn [length]. f_equal. lia.
    - exists ps, adr, s. eexists. split; [reflexivity|]. split; [|auto].
      destruct R as (S0 & Nn & _). exists (remove word_eq [] ps).
      assert (ND : NoDup (remove word_eq [] ps) /\ length (remove word_eq [] ps) + 1 = length ps).
      { pose proof (sh_nodup _ _ _ _ _ S0) as ND. pose proof (sh_nil _ _ _ _ _ S0) as Hn. clear -ND Hn.
        split.
        - clear Hn. induction ND as [|y l H1 H2 IH]; [constructor|]. cbn [remove]. destruct (word_eq [] y); [exact IH|].
          constructor; [|exact IH]. intro X. apply in_remove in X as [X _]. auto.
        - induction ND as [|y l H1 H2 IH]; [destruct Hn|]. cbn [remove length]. destruct (word_eq [] y) as [E|N].
          + subst y. rewrite notin_remove by exact H1. lia.
          + cbn [length]. destruct Hn as [E|Hn]; [congruence|]. specialize (IH Hn). lia. }
      destruct ND as [ND1 ND2]. split; [unfold num_letters; f_equal; lia|]. split; [exact ND1|]. intro p. split.
      + intro X. apply in_remove in X as [X N]. split; [exact N|]. apply T; assumption.
      + intros [N (w & Hw & Pw)]. apply in_in_remove; [exact N|]. apply (prefixes_in _ _ _ _ _ S0 w); [apply (sh_incl _ _ _ _ _ S0 w Hw)|exact Pw].
    - destruct (clear_ok ps ws adr s R) as (adr' & s' & -> & R' & T'). cbn [obind]. exists [[]], adr', s'. eauto.
  Qed.
  Lemma perform_all_ok : forall cs ps ws adr s, rep ps ws adr s -> tight ps ws -> all_allowed K ws cs ->
    exists ps' adr' s' rs, perform_all K s cs = Some (s', rs) /\ all_return ws cs rs /\
      rep ps' (words_after ws cs) adr' s' /\ tight ps' (words_after ws cs).
  Proof using.
    induction cs as [|c cs IH]; intros ps ws adr s R T H; cbn [perform_all all_allowed words_after] in *.
    - exists ps, adr, s, []. auto.
    - destruct H as [H1 H2]. destruct (perform_ok ps ws adr s c R T H1) as (ps1 & adr1 & s1 & r & -> & Hr & R1 & T1). cbn [obind].
      destruct (IH ps1 _ adr1 s1 R1 T1 H2) as (ps' & adr' & s' & rs & -> & Hrs & R' & T'). cbn [obind].
      exists ps', adr', s', (r :: rs). cbn [all_return]. auto.
  Qed.
End Hist.
