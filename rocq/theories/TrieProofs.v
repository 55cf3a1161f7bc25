(** Numbered words and the memory of a prefix tree. *)
From Coq Require Import List PeanoNat Lia Bool.
From Verif Require Import Lib TrieModel TrieSpec.
Import ListNotations.

(** ** numbers *)
Lemma number_in ws w : number ws w = 0 <-> ~ In w ws.
Proof.
  induction ws as [|v ws IH]; cbn [number In]; [tauto|].
  destruct (word_eq v w) as [->|N]; [split; [discriminate|intro H; exfalso; apply H; left; reflexivity]|].
  destruct (number ws w) as [|k]; [split; [intros _ [H|H]; [auto|apply IH in H; auto]|reflexivity]|].
  split; [discriminate|]. intro H. exfalso. assert (S k = 0) by (apply IH; auto). discriminate.
Qed.
Lemma number_nth ws w i : NoDup ws -> (number ws w = S i <-> nth_error ws i = Some w).
Proof.
  revert i. induction ws as [|v ws IH]; intros i ND; cbn [number]; [split; [discriminate|destruct i; discriminate]|].
  inversion ND as [|? ? N1 N2]; subst. destruct (word_eq v w) as [->|N].
  - destruct i as [|i]; cbn [nth_error]; [tauto|]. split; [intro H; discriminate|].
    intro H. exfalso. apply N1. apply (nth_error_In _ _ H).
  - destruct i as [|i]; cbn [nth_error].
    + split; [|intro H; congruence]. destruct (number ws w); discriminate.
    + rewrite <- (IH i N2). destruct (number ws w); split; congruence.
Qed.
Lemma number_ext ws ws' w : NoDup ws -> NoDup ws' -> (forall i, nth_error ws i = Some w <-> nth_error ws' i = Some w) ->
  number ws w = number ws' w.
Proof.
  intros N1 N2 H. destruct (number ws w) as [|i] eqn:E.
  - destruct (number ws' w) as [|j] eqn:E'; [reflexivity|]. apply number_nth in E'; [|exact N2].
    apply H in E'. apply (number_nth ws w j N1) in E'. congruence.
  - apply number_nth in E; [|exact N1]. apply H in E. apply (number_nth ws' w i N2) in E. congruence.
Qed.
Lemma nodup_snoc {A} (l : list A) x : NoDup l -> ~ In x l -> NoDup (l ++ [x]).
Proof.
  intros ND H. induction l as [|y l IH]; cbn; [constructor; [tauto|constructor]|].
  inversion ND as [|? ? N1 N2]; subst. constructor.
  - rewrite in_app_iff. intros [K|[->|[]]]; [tauto|]. apply H. left. reflexivity.
  - apply IH; [exact N2|]. intro K. apply H. right. exact K.
Qed.
Lemma number_snoc ws p q : NoDup ws -> ~ In p ws -> number (ws ++ [p]) q = if word_eq q p then S (length ws) else number ws q.
Proof.
  intros ND H. destruct (word_eq q p) as [->|N].
  - apply number_nth; [apply nodup_snoc; assumption|]. rewrite nth_error_app2, Nat.sub_diag by lia. reflexivity.
  - apply number_ext; [apply nodup_snoc; assumption|exact ND|]. intro i.
    destruct (Nat.lt_ge_cases i (length ws)) as [L|L]; [rewrite nth_error_app1 by exact L; tauto|].
    rewrite nth_error_app2 by exact L. rewrite (proj2 (nth_error_None ws i) L).
    destruct (i - length ws) as [|k]; cbn [nth_error]; [split; intro X; [injection X as X; congruence|discriminate X]|destruct k; cbn [nth_error]; tauto].
Qed.

(** ** removal *)
Lemma take_out_nth ws i k : i < length ws ->
  nth_error (take_out ws (S i)) k =
    if k <? length ws - 1 then if i =? k then Some (last ws []) else nth_error ws k else None.
Proof.
  intro H. unfold take_out.
  destruct (set_nth_some ws i (last ws [])) as [ws' E]; [exact H|]. rewrite <- (set_nth_app _ _ _ _ E).
  pose proof (set_nth_length _ _ _ _ E) as L. rewrite removelast_firstn_len, L, <- (set_nth_get _ _ _ _ k E).
  destruct (k <? length ws - 1) eqn:C.
  - apply Nat.ltb_lt in C. rewrite <- (firstn_skipn (pred (length ws)) ws') at 2. rewrite nth_error_app1; [reflexivity|].
    rewrite firstn_length. lia.
  - apply Nat.ltb_ge in C. apply nth_error_None. rewrite firstn_length. lia.
Qed.
Lemma last_nth (ws : list word) : ws <> [] -> nth_error ws (length ws - 1) = Some (last ws []).
Proof.
  intro H. rewrite (app_removelast_last [] H) at 1 2. rewrite app_length. cbn [length].
  rewrite nth_error_app2 by lia. replace (length (removelast ws) + 1 - 1 - length (removelast ws)) with 0 by lia. reflexivity.
Qed.
Lemma take_out_ok ws i p : NoDup ws -> nth_error ws i = Some p ->
  NoDup (take_out ws (S i)) /\ (forall q, In q (take_out ws (S i)) <-> In q ws /\ q <> p) /\
  forall q, number (take_out ws (S i)) q =
    if word_eq q p then 0 else if word_eq q (last ws []) then S i else number ws q.
Proof.
  intros ND E. assert (H : i < length ws) by (apply nth_error_Some; congruence).
  assert (Hne : ws <> []) by (intros ->; cbn in H; lia).
  pose proof (last_nth ws Hne) as EL.
  assert (inj : forall j k x, nth_error ws j = Some x -> nth_error ws k = Some x -> j = k).
  { intros j k x E1 E2. apply (proj1 (NoDup_nth_error ws) ND); [apply nth_error_Some; congruence|congruence]. }
  assert (C : forall k q, nth_error (take_out ws (S i)) k = Some q <->
              q <> p /\ (if word_eq q (last ws []) then k = i else nth_error ws k = Some q)).
  { intros k q. rewrite take_out_nth by exact H. destruct (Nat.ltb_spec k (length ws - 1)) as [Lk|Lk].
    - destruct (Nat.eqb_spec i k) as [<-|Nk].
      + split.
        * intro X. injection X as <-. split; [|destruct (word_eq (last ws []) (last ws [])); congruence].
          intro X. rewrite X in EL. pose proof (inj _ _ _ E EL). lia.
        * intros [N X]. destruct (word_eq q (last ws [])) as [->|N']; [reflexivity|congruence].
      + split.
        * intro X. split; [intros ->; apply Nk; apply (inj _ _ p E X)|]. destruct (word_eq q (last ws [])) as [->|N']; [|exact X].
          pose proof (inj _ _ _ X EL). lia.
        * intros [N X]. destruct (word_eq q (last ws [])) as [->|N']; [lia|exact X].
    - split; [discriminate|]. intros [N X]. exfalso. destruct (word_eq q (last ws [])) as [->|N'].
      + apply N. assert (k = length ws - 1) by lia. subst k. congruence.
      + assert (k < length ws) by (apply nth_error_Some; congruence). assert (k = length ws - 1) by lia. subst k. congruence. }
  assert (ND' : NoDup (take_out ws (S i))).
  { apply NoDup_nth_error. intros j k Hj X. destruct (nth_error_some _ _ Hj) as [q Eq]. pose proof Eq as Eq'. rewrite X in Eq'.
    apply C in Eq as [N1 X1]. apply C in Eq' as [_ X2]. destruct (word_eq q (last ws [])) as [_|_]; [congruence|apply (inj _ _ _ X1 X2)]. }
  split; [exact ND'|]. split.
  - intro q. split.
    + intro X. apply In_nth_error in X as [k X]. apply C in X as [N X]. split; [|exact N].
      destruct (word_eq q (last ws [])) as [->|_]; [apply (nth_error_In _ _ EL)|apply (nth_error_In _ _ X)].
    + intros [X N]. destruct (word_eq q (last ws [])) as [E1|N1] eqn:D.
      * apply (nth_error_In _ i). apply C. rewrite D. auto.
      * apply In_nth_error in X as [k X]. apply (nth_error_In _ k). apply C. rewrite D. auto.
  - intro q. destruct (word_eq q p) as [->|N].
    + apply number_in. intro X. apply In_nth_error in X as [k X]. apply C in X. tauto.
    + destruct (word_eq q (last ws [])) as [E1|N1] eqn:D.
      * apply number_nth; [exact ND'|]. apply C. rewrite D. auto.
      * apply number_ext; [exact ND'|exact ND|]. intro k. rewrite C, D. tauto.
Qed.

(** ** prefixes *)
Lemma prefix_refl p : prefix p p.
Proof. exists []. symmetry. apply app_nil_r. Qed.
Lemma prefix_trans p q r : prefix p q -> prefix q r -> prefix p r.
Proof. intros [u ->] [v ->]. exists (u ++ v). symmetry. apply app_assoc. Qed.
Lemma prefix_snoc p q o : prefix p (q ++ [o]) -> p = q ++ [o] \/ prefix p q.
Proof.
  intros [v E]. destruct v as [|x v'] using rev_ind; [left; rewrite app_nil_r in E; auto|].
  right. rewrite app_assoc in E. apply app_inj_tail in E as [-> _]. exists v'. reflexivity.
Qed.
Lemma snoc_inj {A} (p q : list A) x y : p ++ [x] = q ++ [y] -> p = q /\ x = y.
Proof. apply app_inj_tail. Qed.
Lemma snoc_neq (p : word) o : p ++ [o] <> p.
Proof. intro E. apply (f_equal (@length nat)) in E. rewrite app_length in E. cbn in E. lia. Qed.
Lemma snoc_nil (p : word) o : p ++ [o] <> [].
Proof. destruct p; discriminate. Qed.

(** ** memory *)
Lemma load_lt h a nd : load h a = Some nd -> a < length h.
Proof. unfold load. intro H. apply nth_error_Some. destruct (nth_error h a); [discriminate|discriminate H]. Qed.
Lemma load_set h a c h' b : set_nth h a c = Some h' -> load h' b = if a =? b then c else load h b.
Proof. intro E. unfold load. rewrite (set_nth_get _ _ _ _ _ E). destruct (a =? b); [destruct c; reflexivity|reflexivity]. Qed.
Lemma modify_ok h a f nd nd' : load h a = Some nd -> f nd = Some nd' ->
  exists h', modify h a f = Some h' /\ length h' = length h /\ forall b, load h' b = if a =? b then Some nd' else load h b.
Proof.
  intros E F. unfold modify. rewrite E. cbn [obind]. rewrite F. cbn [obind].
  destruct (set_nth_some h a (Some nd') (load_lt _ _ _ E)) as [h' E']. exists h'. split; [exact E'|].
  split; [apply (set_nth_length _ _ _ _ E')|]. intro b. apply load_set. exact E'.
Qed.
Lemma free_ok h n a nd : load h a = Some nd ->
  exists h', free h n a = Some (h', n - 1) /\ length h' = length h /\ forall b, load h' b = if a =? b then None else load h b.
Proof.
  intros E. unfold free. rewrite E. cbn [obind].
  destruct (set_nth_some h a None (load_lt _ _ _ E)) as [h' E']. rewrite E'. exists h'. split; [reflexivity|].
  split; [apply (set_nth_length _ _ _ _ E')|]. intro b. apply load_set. exact E'.
Qed.
Lemma load_buy h c b : load (h ++ [Some c]) b = if b =? length h then Some c else load h b.
Proof.
  unfold load. destruct (Nat.eqb_spec b (length h)) as [->|N].
  - rewrite nth_error_app2, Nat.sub_diag by lia. reflexivity.
  - destruct (Nat.lt_ge_cases b (length h)) as [L|L]; [rewrite nth_error_app1 by exact L; reflexivity|].
    rewrite nth_error_app2 by exact L. rewrite (proj2 (nth_error_None h b) L).
    destruct (b - length h) as [|k] eqn:E; [lia|]. destruct k; reflexivity.
Qed.

Section Rep.
  Variable K : nat.
  Definition mem (ps : list word) (q : word) : bool := if in_dec word_eq q ps then true else false.
  Lemma mem_iff ps q : mem ps q = true <-> In q ps.
  Proof using. unfold mem. destruct (in_dec word_eq q ps); split; auto; discriminate. Qed.
  Lemma mem_not ps q : mem ps q = false <-> ~ In q ps.
  Proof using. unfold mem. destruct (in_dec word_eq q ps); split; auto; [discriminate|tauto]. Qed.
  Definition kids (ps : list word) (p : word) : nat := length (filter (fun o => mem ps (p ++ [o])) (seq 0 K)).
  Definition links (ps : list word) (adr : word -> nat) (p : word) : list (option nat) :=
    map (fun o => if mem ps (p ++ [o]) then Some (adr (p ++ [o])) else None) (seq 0 K).
  Definition node_of (ps ws : list word) (adr : word -> nat) (p : word) : node :=
    Node (number ws p) (kids ps p) (last p 0) (match p with [] => None | _ => Some (adr (removelast p)) end) (links ps adr p).

  Record shape (ps ws : list word) (adr : word -> nat) (h : list (option node)) : Prop := {
    sh_nodup : NoDup ps;
    sh_nil : In [] ps;
    sh_closed : forall p o, In (p ++ [o]) ps -> In p ps /\ o < K;
    sh_inj : forall p q, In p ps -> In q ps -> adr p = adr q -> p = q;
    sh_load : forall p, In p ps -> load h (adr p) = Some (node_of ps ws adr p);
    sh_live : forall a nd, load h a = Some nd -> exists p, In p ps /\ adr p = a;
    sh_words : NoDup ws;
    sh_incl : forall w, In w ws -> In w ps /\ w <> [] }.
  Definition rep (ps ws : list word) (adr : word -> nat) (s : trie) : Prop :=
    shape ps ws adr (heap s) /\ nodes s = length ps /\ root s = adr [] /\ words s = map adr ([] :: ws).

  Lemma links_nth ps adr p o : o < K -> nth_error (links ps adr p) o = Some (if mem ps (p ++ [o]) then Some (adr (p ++ [o])) else None).
  Proof using.
    intro H. unfold links. rewrite nth_error_map.
    assert (E : nth_error (seq 0 K) o = Some o).
    { rewrite (nth_error_nth' (seq 0 K) 0) by (rewrite seq_length; exact H). rewrite seq_nth by exact H. reflexivity. }
    rewrite E. reflexivity.
  Qed.
  Lemma links_len ps adr p : length (links ps adr p) = K.
  Proof using. unfold links. rewrite map_length, seq_length. reflexivity. Qed.
  Lemma links_set ps ps' adr adr' p o : o < K ->
    (forall x, x <> o -> mem ps' (p ++ [x]) = mem ps (p ++ [x]) /\ adr' (p ++ [x]) = adr (p ++ [x])) ->
    set_nth (links ps adr p) o (if mem ps' (p ++ [o]) then Some (adr' (p ++ [o])) else None) = Some (links ps' adr' p).
  Proof using.
    intros H X. destruct (set_nth_some (links ps adr p) o (if mem ps' (p ++ [o]) then Some (adr' (p ++ [o])) else None)) as [l E]; [rewrite links_len; exact H|].
    rewrite E. f_equal. apply list_ext. intro i. rewrite (set_nth_get _ _ _ _ _ E).
    destruct (Nat.eqb_spec o i) as [<-|N]; [rewrite links_nth by exact H; reflexivity|].
    destruct (Nat.lt_ge_cases i K) as [L|L].
    - rewrite !links_nth by exact L. destruct (X i ltac:(congruence)) as [-> ->]. reflexivity.
    - rewrite !(proj2 (nth_error_None _ _)); [reflexivity|rewrite links_len; exact L..].
  Qed.
  Lemma filter_flip (f g : nat -> bool) o l : NoDup l -> In o l -> f o = false -> g o = true -> (forall x, x <> o -> g x = f x) ->
    length (filter g l) = S (length (filter f l)).
  Proof using.
    intros ND I0 F G E. induction l as [|x l IH]; [destruct I0|]. inversion ND as [|? ? N1 N2]; subst. cbn [filter].
    destruct (Nat.eq_dec x o) as [->|N].
    - rewrite F, G. cbn [length]. f_equal. f_equal. apply filter_ext_in. intros y Hy. apply E. intros ->. auto.
    - destruct I0 as [->|I0]; [congruence|]. rewrite (E x N). destruct (f x); cbn [length]; rewrite IH by assumption; reflexivity.
  Qed.
  Lemma kids_flip ps ps' p o : o < K -> mem ps (p ++ [o]) = false -> mem ps' (p ++ [o]) = true ->
    (forall x, x <> o -> mem ps' (p ++ [x]) = mem ps (p ++ [x])) -> kids ps' p = S (kids ps p).
  Proof using.
    intros H F G E. unfold kids. apply filter_flip with o; [apply seq_NoDup|apply in_seq; lia|exact F|exact G|exact E].
  Qed.
  Lemma kids_zero ps p : kids ps p = 0 <-> forall o, o < K -> ~ In (p ++ [o]) ps.
  Proof using.
    unfold kids. split.
    - intros H o Ho X. apply length_zero_iff_nil in H.
      assert (In o (filter (fun o => mem ps (p ++ [o])) (seq 0 K))) as Y.
      { apply filter_In. split; [apply in_seq; lia|apply mem_iff; exact X]. }
      rewrite H in Y. destruct Y.
    - intro H. destruct (filter _ (seq 0 K)) as [|o l] eqn:E; [reflexivity|]. exfalso.
      assert (Y : In o (filter (fun o => mem ps (p ++ [o])) (seq 0 K))) by (rewrite E; left; reflexivity).
      apply filter_In in Y as [Y1 Y2]. apply in_seq in Y1. apply mem_iff in Y2. apply (H o); [lia|exact Y2].
  Qed.
  Lemma node_other ps ps' ws ws' adr adr' p : number ws' p = number ws p ->
    (forall o, mem ps' (p ++ [o]) = mem ps (p ++ [o])) ->
    (forall o, mem ps (p ++ [o]) = true -> adr' (p ++ [o]) = adr (p ++ [o])) ->
    (p <> [] -> adr' (removelast p) = adr (removelast p)) ->
    node_of ps' ws' adr' p = node_of ps ws adr p.
  Proof using.
    intros E1 E2 E3 E4. unfold node_of. rewrite E1. f_equal.
    - unfold kids. f_equal. apply filter_ext. exact E2.
    - destruct p as [|x p]; [reflexivity|]. rewrite E4 by discriminate. reflexivity.
    - unfold links. apply map_ext. intro o. rewrite E2. destruct (mem ps (p ++ [o])) eqn:M; [rewrite E3 by exact M|]; reflexivity.
  Qed.
  Lemma prefixes_in ps ws adr h : shape ps ws adr h -> forall q p, In q ps -> prefix p q -> In p ps.
  Proof using.
    intros S0 q. induction q as [|o q IH] using rev_ind; intros p Hq Hp.
    - destruct Hp as [v E]. symmetry in E. apply app_eq_nil in E as [-> _]. exact Hq.
    - apply prefix_snoc in Hp as [->|Hp]; [exact Hq|]. apply IH; [|exact Hp]. apply (sh_closed _ _ _ _ S0 q o Hq).
  Qed.
  Lemma depth_lt ps ws adr h p : shape ps ws adr h -> In p ps -> length p < length ps.
  Proof using.
    intros S0 Hp.
    assert (ND : NoDup (map (fun k => firstn k p) (seq 0 (S (length p))))).
    { apply NoDup_nth_error. intros i j Hi E. rewrite map_length, seq_length in Hi.
      assert (T : forall k, k < S (length p) -> nth_error (map (fun k => firstn k p) (seq 0 (S (length p)))) k = Some (firstn k p)).
      { intros k Hk. rewrite nth_error_map, (nth_error_nth' (seq 0 (S (length p))) 0) by (rewrite seq_length; exact Hk).
        rewrite seq_nth by exact Hk. reflexivity. }
      rewrite T in E by exact Hi. assert (Hj : j < S (length p)).
      { destruct (Nat.lt_ge_cases j (S (length p))) as [L|L]; [exact L|].
        rewrite (proj2 (nth_error_None _ _)) in E; [discriminate|]. rewrite map_length, seq_length. exact L. }
      rewrite T in E by exact Hj. injection E as E. apply (f_equal (@length nat)) in E. rewrite !firstn_length in E. lia. }
    apply NoDup_incl_length with (l' := ps) in ND.
    - rewrite map_length, seq_length in ND. exact ND.
    - intros q Hq. apply in_map_iff in Hq as (k & <- & _). apply (prefixes_in _ _ _ _ S0 p); [exact Hp|].
      exists (skipn k p). symmetry. apply firstn_skipn.
  Qed.
  Lemma letters_lt ps ws adr h p : shape ps ws adr h -> In p ps -> Forall (fun o => o < K) p.
  Proof using.
    intros S0. induction p as [|o p IH] using rev_ind; intro Hp; [constructor|].
    destruct (sh_closed _ _ _ _ S0 p o Hp) as [H1 H2]. apply Forall_app. split; [apply IH; exact H1|]. constructor; [exact H2|constructor].
  Qed.

  (** *** a new node *)
  Lemma insert_letter_old ps ws adr s p o : rep ps ws adr s -> In (p ++ [o]) ps ->
    insert_letter K s (adr p) o = Some (s, adr (p ++ [o])).
  Proof using.
    intros (S0 & _) H. destruct (sh_closed _ _ _ _ S0 p o H) as [Hp Ho]. unfold insert_letter.
    rewrite (sh_load _ _ _ _ S0 p Hp). cbn [obind node_of next]. rewrite links_nth by exact Ho. cbn [obind].
    rewrite (proj2 (mem_iff ps (p ++ [o])) H). reflexivity.
  Qed.
  Lemma insert_letter_new ps ws adr s p o : rep ps ws adr s -> In p ps -> o < K -> ~ In (p ++ [o]) ps ->
    exists adr' s', insert_letter K s (adr p) o = Some (s', adr' (p ++ [o])) /\ rep (ps ++ [p ++ [o]]) ws adr' s'.
  Proof using.
    intros (S0 & Nn & Rt & Wd) Hp Ho Hn. unfold insert_letter.
    rewrite (sh_load _ _ _ _ S0 p Hp). cbn [obind node_of next]. rewrite links_nth by exact Ho. cbn [obind].
    rewrite (proj2 (mem_not ps (p ++ [o])) Hn). unfold buy.
    set (h := heap s) in *. set (c := length h).
    set (h1 := h ++ [Some (Node 0 0 0 None (repeat None K))]).
    set (adr' := fun q => if word_eq q (p ++ [o]) then c else adr q).
    set (ps' := ps ++ [p ++ [o]]).
    assert (Lt : forall q, In q ps -> adr q < c) by (intros q Hq; apply (load_lt _ _ _ (sh_load _ _ _ _ S0 q Hq))).
    assert (A1 : forall q, In q ps -> adr' q = adr q).
    { intros q Hq. unfold adr'. destruct (word_eq q (p ++ [o])) as [->|_]; [contradiction|reflexivity]. }
    assert (A2 : adr' (p ++ [o]) = c) by (unfold adr'; destruct (word_eq (p ++ [o]) (p ++ [o])); congruence).
    assert (M1 : forall q, q <> p ++ [o] -> mem ps' q = mem ps q).
    { intros q N. unfold mem, ps'. destruct (in_dec word_eq q (ps ++ [p ++ [o]])) as [X|X], (in_dec word_eq q ps) as [Y|Y]; try reflexivity; exfalso.
      - apply in_app_iff in X as [X|[X|[]]]; [auto|congruence].
      - apply X. apply in_app_iff. auto. }
    assert (M2 : mem ps' (p ++ [o]) = true) by (apply mem_iff; apply in_app_iff; right; left; reflexivity).
    assert (Np : adr p <> c) by (specialize (Lt p Hp); lia).
    pose proof (sh_load _ _ _ _ S0 p Hp) as Ep. fold h in Ep.
    assert (E1 : load h1 (adr p) = Some (node_of ps ws adr p)).
    { unfold h1. rewrite load_buy. fold c. rewrite (proj2 (Nat.eqb_neq _ _) Np). exact Ep. }
    destruct (modify_ok h1 (adr p) (set_next o (Some c)) _ (Node (number ws p) (kids ps p) (last p 0) (parent (node_of ps ws adr p)) (links ps' adr' p)) E1)
      as (h2 & -> & L2 & G2).
    { unfold set_next. cbn [node_of next word_id num_ch ord parent].
      pose proof (links_set ps ps' adr adr' p o Ho) as X. rewrite M2, A2 in X. rewrite X; [reflexivity|].
      intros x Nx. assert (N' : p ++ [x] <> p ++ [o]) by (intro X'; apply snoc_inj in X' as [_ X']; auto).
      split; [apply M1; exact N'|]. unfold adr'. destruct (word_eq (p ++ [x]) (p ++ [o])); [contradiction|reflexivity]. }
    cbn [obind].
    assert (E2 : load h2 c = Some (Node 0 0 0 None (repeat None K))).
    { rewrite G2, (proj2 (Nat.eqb_neq _ _) Np). unfold h1. rewrite load_buy. fold c. rewrite Nat.eqb_refl. reflexivity. }
    destruct (modify_ok h2 c (set_parent (adr p)) _ _ E2 eq_refl) as (h3 & -> & L3 & G3). cbn [obind word_id num_ch ord parent next] in *.
    assert (E3 : load h3 c = Some (Node 0 0 0 (Some (adr p)) (repeat None K))) by (rewrite G3, Nat.eqb_refl; reflexivity).
    destruct (modify_ok h3 c (set_ord o) _ _ E3 eq_refl) as (h4 & -> & L4 & G4). cbn [obind word_id num_ch ord parent next] in *.
    assert (E4 : load h4 (adr p) = Some (Node (number ws p) (kids ps p) (last p 0) (parent (node_of ps ws adr p)) (links ps' adr' p))).
    { rewrite G4, G3, G2, Nat.eqb_refl. rewrite (proj2 (Nat.eqb_neq c (adr p))) by congruence. reflexivity. }
    rewrite E4. cbn [obind].
    destruct (modify_ok h4 (adr p) (set_num_ch (kids ps p + 1)) _ _ E4 eq_refl) as (h5 & E5 & L5 & G5). cbn [obind word_id num_ch ord parent next] in *.
    cbn [node_of num_ch]. rewrite E5. cbn [obind].
    exists adr', (Trie h5 (nodes s + 1) (root s) (words s)). split; [rewrite A2; reflexivity|].
    assert (Kp : kids ps' p = kids ps p + 1).
    { rewrite (kids_flip ps ps' p o Ho); [lia|apply mem_not; exact Hn|exact M2|].
      intros x Nx. apply M1. intro X'. apply snoc_inj in X' as [_ X']. auto. }
    split; [|split; [cbn [nodes]; unfold ps'; rewrite app_length; cbn [length]; lia|split]].
    2: { cbn [root]. rewrite (A1 [] (sh_nil _ _ _ _ S0)). exact Rt. }
    2: { cbn [words]. rewrite Wd. apply map_ext_in. intros q Hq. symmetry. apply A1. destruct Hq as [<-|Hq]; [apply (sh_nil _ _ _ _ S0)|apply (sh_incl _ _ _ _ S0 q Hq)]. }
    cbn [heap]. constructor.
    - apply nodup_snoc; [apply (sh_nodup _ _ _ _ S0)|exact Hn].
    - apply in_app_iff. left. apply (sh_nil _ _ _ _ S0).
    - intros q x Hq. apply in_app_iff in Hq as [Hq|[Hq|[]]].
      + destruct (sh_closed _ _ _ _ S0 q x Hq) as [X1 X2]. split; [apply in_app_iff; auto|exact X2].
      + apply snoc_inj in Hq as [<- <-]. split; [apply in_app_iff; auto|exact Ho].
    - intros q r Hq Hr E. apply in_app_iff in Hq as [Hq|[<-|[]]]; apply in_app_iff in Hr as [Hr|[<-|[]]].
      + rewrite !A1 in E by assumption. apply (sh_inj _ _ _ _ S0 q r Hq Hr E).
      + rewrite A2, A1 in E by assumption. specialize (Lt q Hq). lia.
      + rewrite A2, A1 in E by assumption. specialize (Lt r Hr). lia.
      + reflexivity.
    - intros q Hq. rewrite G5, G4, G3, G2. unfold h1. rewrite load_buy. fold c.
      apply in_app_iff in Hq as [Hq|[<-|[]]].
      + rewrite (A1 q Hq). destruct (Nat.eqb_spec (adr p) (adr q)) as [E|N].
        * apply (sh_inj _ _ _ _ S0 p q Hp Hq) in E. subst q. f_equal. unfold node_of. rewrite Kp. f_equal.
          destruct p as [|x p']; [reflexivity|]. cbn [parent node_of]. f_equal. symmetry. apply A1.
          apply (prefixes_in _ _ _ _ S0 (x :: p') _ Hp). exists [last (x :: p') 0]. apply app_removelast_last. discriminate.
        * specialize (Lt q Hq). rewrite (proj2 (Nat.eqb_neq c (adr q))) by lia. rewrite (proj2 (Nat.eqb_neq (adr q) c)) by lia.
          rewrite (sh_load _ _ _ _ S0 q Hq). f_equal. symmetry. apply node_other; [reflexivity| | |].
          -- intro x. apply M1. intro X. apply snoc_inj in X as [X _]. subst q. apply N. reflexivity.
          -- intros x Hx. apply A1. apply mem_iff. exact Hx.
          -- intro Hne. apply A1. apply (prefixes_in _ _ _ _ S0 q _ Hq). exists [last q 0]. apply app_removelast_last. exact Hne.
      + rewrite A2. rewrite (proj2 (Nat.eqb_neq _ _) Np), Nat.eqb_refl. f_equal. unfold node_of.
        rewrite (proj2 (number_in ws (p ++ [o]))) by (intro X; apply (sh_incl _ _ _ _ S0) in X as [X _]; auto).
        assert (NK : forall x, mem ps' ((p ++ [o]) ++ [x]) = false).
        { intro x. rewrite M1 by apply snoc_neq. apply mem_not. intro X. apply (sh_closed _ _ _ _ S0) in X as [X _]. auto. }
        f_equal.
        * symmetry. apply kids_zero. intros x _. apply mem_not. apply NK.
        * rewrite last_last. reflexivity.
        * rewrite removelast_last. rewrite (A1 p Hp). destruct (p ++ [o]) eqn:X; [apply snoc_nil in X; destruct X|reflexivity].
        * unfold links. rewrite (map_ext _ (fun _ => None)) by (intro x; rewrite NK; reflexivity).
          clear. generalize 0 as b. induction K as [|k IH]; intro b; [reflexivity|]. cbn [seq map repeat]. f_equal. apply IH.
    - intros a nd. rewrite G5, G4, G3, G2. unfold h1. rewrite load_buy. fold c. intro E.
      destruct (Nat.eqb_spec (adr p) a) as [<-|N1]; [exists p; split; [apply in_app_iff; auto|apply A1; exact Hp]|].
      destruct (Nat.eqb_spec c a) as [<-|N2]; [exists (p ++ [o]); split; [apply in_app_iff; right; left; reflexivity|exact A2]|].
      rewrite (proj2 (Nat.eqb_neq a c)) in E by congruence. destruct (sh_live _ _ _ _ S0 a nd E) as (q & Hq & Eq).
      exists q. split; [apply in_app_iff; auto|rewrite A1; assumption].
    - apply (sh_words _ _ _ _ S0).
    - intros w Hw. destruct (sh_incl _ _ _ _ S0 w Hw) as [X1 X2]. split; [apply in_app_iff; auto|exact X2].
  Qed.
End Rep.
