(** The palindromic tree of every string. *)
From Coq Require Import List PeanoNat ZArith Lia Bool.
From Verif Require Import Lib TrieSpec TrieProofs PalModel PalSpec PalProofs.
Import ListNotations.

Definition idx (qs : list (list nat)) (p : list nat) : nat := match number qs p with 0 => 0 | n => S n end.
Definition kidx (qs : list (list nat)) (k : key) : nat := match k with None => NEGAT | Some p => idx qs p end.
Definition kin (qs : list (list nat)) (k : key) : Prop := match k with None => True | Some p => In p qs end.
Definition kword (k : key) : list nat := match k with None => [] | Some p => p end.

Lemma idx_zero qs p : idx qs p = 0 <-> ~ In p qs.
Proof. rewrite <- number_in. unfold idx. destruct (number qs p); split; congruence. Qed.
Lemma idx_nth qs p i : NoDup qs -> (idx qs p = S (S i) <-> nth_error qs i = Some p).
Proof. intro ND. rewrite <- (number_nth qs p i ND). unfold idx. destruct (number qs p); split; congruence. Qed.
Lemma idx_pos qs p : In p qs -> 2 <= idx qs p.
Proof. intro H. destruct (idx qs p) as [|[|i]] eqn:E; [apply idx_zero in E; contradiction| |lia]. unfold idx in E. destruct (number qs p); discriminate. Qed.
Lemma idx_inj qs p q : NoDup qs -> In p qs -> idx qs p = idx qs q -> p = q.
Proof.
  intros ND H E. pose proof (idx_pos qs p H). destruct (idx qs p) as [|[|i]] eqn:E1; [lia..|]. symmetry in E.
  apply (idx_nth qs _ _ ND) in E1. apply (idx_nth qs _ _ ND) in E. congruence.
Qed.
Lemma idx_lt qs p : NoDup qs -> idx qs p < 2 + length qs.
Proof.
  intro ND. destruct (idx qs p) as [|[|i]] eqn:E; [lia..|]. apply (idx_nth qs _ _ ND) in E.
  assert (i < length qs) by (apply nth_error_Some; congruence). lia.
Qed.
Lemma kidx_inj qs k k' : NoDup qs -> kin qs k -> kin qs k' -> kidx qs k = kidx qs k' -> k = k'.
Proof.
  intros ND H H' E. destruct k as [p|], k' as [p'|]; cbn in *; [f_equal; apply (idx_inj qs); assumption| | |reflexivity].
  - apply idx_pos in H. unfold NEGAT in E. lia.
  - apply idx_pos in H'. unfold NEGAT in E. lia.
Qed.
Lemma idx_snoc qs q p : NoDup qs -> ~ In q qs -> idx (qs ++ [q]) p = if weq p q then 2 + length qs else idx qs p.
Proof.
  intros ND H. unfold idx. rewrite (number_snoc qs q p ND H). change word_eq with weq. destruct (weq p q); [reflexivity|reflexivity].
Qed.
Lemma kidx_snoc qs q k : NoDup qs -> ~ In q qs -> k <> Some q -> kidx (qs ++ [q]) k = kidx qs k.
Proof. intros ND H N. destruct k as [p|]; [|reflexivity]. cbn. rewrite (idx_snoc qs q p ND H). destruct (weq p q); [congruence|reflexivity]. Qed.

Lemma list_ext_len {A} (a b : list A) : length a = length b -> (forall i, i < length a -> nth_error a i = nth_error b i) -> a = b.
Proof.
  intros L H. apply list_ext. intro i. destruct (Nat.lt_ge_cases i (length a)) as [X|X]; [apply H; exact X|].
  rewrite (proj2 (nth_error_None a i) X). symmetry. apply nth_error_None. lia.
Qed.

Section Tree.
  Variable K : nat.

  Record desc (s : list nat) (qs : list (list nat)) (k : key) (nd : node) : Prop := {
    d_len : len nd = klen k;
    d_suff : suff nd = kidx qs (kup k);
    d_depth : depth nd = length (chain (kword k));
    d_next : next nd = map (fun c => idx qs (ext k c)) (seq 0 K);
    d_cnt : kword k <> [] -> cnt nd = times (kword k) (map lps (prefixes s));
    d_pos : kword k <> [] -> exists i, pos nd = Z.of_nat i /\ first_at (kword k) s i }.
  Record inv (s : list nat) (qs : list (list nat)) (t : list node) : Prop := {
    i_nodup : NoDup qs;
    i_nil : nth_error qs 0 = Some [];
    i_in : forall p, In p qs <-> palindrome p = true /\ sub p s;
    i_len : length t = 2 + length qs;
    i_ord : forall p, In p qs -> p <> [] -> idx qs (lps (tl p)) < idx qs p;
    i_nodes : forall k, kin qs k -> exists nd, nth_error t (kidx qs k) = Some nd /\ desc s qs k nd }.

  Lemma ksuf_kin s qs t k : inv s qs t -> ksuf k s -> kin qs k.
  Proof. intros W H. destruct k as [p|]; [|exact Logic.I]. destruct H as [H P]. apply (i_in _ _ _ W). split; [exact P|apply sub_suf; exact H]. Qed.
  Lemma kin_kup s qs t k : inv s qs t -> kin qs k -> kin qs (kup k).
  Proof.
    intros W H. destruct k as [[|x p]|]; cbn in *; auto. apply (i_in _ _ _ W) in H as [P X]. apply (i_in _ _ _ W). split; [apply lps_pal|].
    apply (suf_sub _ (x :: p)); [|exact X]. apply (suf_trans _ p); [apply lps_suf|exists [x]; reflexivity].
  Qed.
  Lemma idx_nil s qs t : inv s qs t -> idx qs [] = EMPTY.
  Proof. intro W. apply (idx_nth qs [] 0 (i_nodup _ _ _ W)). apply (i_nil _ _ _ W). Qed.
  Lemma kidx_pos qs k : kin qs k -> 1 <= kidx qs k.
  Proof. destruct k as [p|]; cbn; [intro H; apply idx_pos in H; lia|unfold NEGAT; lia]. Qed.
  Lemma kidx_lt s qs t k : inv s qs t -> kidx qs k < length t.
  Proof.
    intro W. rewrite (i_len _ _ _ W). destruct k as [p|]; cbn; [apply (idx_lt qs p (i_nodup _ _ _ W))|].
    pose proof (i_nil _ _ _ W) as H. destruct qs; [discriminate|]. unfold NEGAT. cbn. lia.
  Qed.
  Lemma kup_idx s qs t k : inv s qs t -> kin qs k -> k <> None -> kidx qs (kup k) < kidx qs k.
  Proof.
    intros W H N. destruct k as [[|x p]|]; [| |congruence]; cbn [kup kidx].
    - rewrite (idx_nil s qs t W). unfold NEGAT, EMPTY. lia.
    - apply (i_ord _ _ _ W (x :: p) H). discriminate.
  Qed.

  Lemma find_ok s qs t c : inv s qs t -> forall n k, ksuf k s -> kidx qs k <= n ->
    exists k', find_suffix n t (s ++ [c]) (kidx qs k) c = Some (kidx qs k') /\ ksuf k' s /\ is_suffix (ext k' c) (s ++ [c]) /\ kl k' <= kl k /\
      forall k'', ksuf k'' s -> is_suffix (ext k'' c) (s ++ [c]) -> kl k'' <= kl k -> kl k'' <= kl k'.
  Proof.
    intros W n. induction n as [|n IH]; intros k H L; pose proof (ksuf_kin s qs t k W H) as HI.
    - pose proof (kidx_pos qs k HI). lia.
    - cbn [find_suffix]. destruct (i_nodes _ _ _ W k HI) as (nd & E & D). rewrite E. cbn [obind]. rewrite (d_len _ _ _ _ D), (d_suff _ _ _ _ D).
      assert (GO : ~ is_suffix (ext k c) (s ++ [c]) -> exists k', find_suffix n t (s ++ [c]) (kidx qs (kup k)) c = Some (kidx qs k') /\ ksuf k' s /\ is_suffix (ext k' c) (s ++ [c]) /\ kl k' <= kl k /\
        forall k'', ksuf k'' s -> is_suffix (ext k'' c) (s ++ [c]) -> kl k'' <= kl k -> kl k'' <= kl k').
      { intro N. assert (NK : k <> None) by (intros ->; apply N; exists s; reflexivity).
        pose proof (kup_idx s qs t k W HI NK) as LI. pose proof (kup_lt k NK) as LL.
        destruct (IH (kup k) (kup_suf k s H) ltac:(lia)) as (k' & F & H1 & H2 & H3 & H4). exists k'. split; [exact F|]. split; [exact H1|]. split; [exact H2|].
        split; [lia|]. intros k'' A B C. apply H4; [exact A|exact B|]. apply (kup_max k k'' s H A).
        destruct (Nat.eq_dec (kl k'') (kl k)) as [X|X]; [|lia]. exfalso. apply N. rewrite (kl_inj k k'' s H A (eq_sym X)). exact B. }
      destruct (test_ok k s c H) as [[T N]|[T (x & X & I)]]; rewrite T.
      + exact (GO N).
      + rewrite X. cbn [obind]. destruct (x =? c) eqn:E2.
        * apply Nat.eqb_eq in E2. exists k. split; [reflexivity|]. split; [exact H|]. split; [apply I; exact E2|]. split; [lia|]. auto.
        * apply Nat.eqb_neq in E2. apply GO. intro Y. apply E2. apply I. exact Y.
  Qed.

  Lemma next_at s qs k nd c : desc s qs k nd -> c < K -> nth_error (next nd) c = Some (idx qs (ext k c)).
  Proof.
    intros D L. rewrite (d_next _ _ _ _ D), nth_error_map, (nth_error_nth' (seq 0 K) 0) by (rewrite seq_length; exact L).
    rewrite seq_nth by exact L. reflexivity.
  Qed.
  Lemma times_snoc p s c : times p (map lps (prefixes (s ++ [c]))) = times p (map lps (prefixes s)) + (if weq (lps (s ++ [c])) p then 1 else 0).
  Proof. unfold times. rewrite prefixes_snoc, map_app, count_occ_app. cbn [map count_occ]. destruct (weq (lps (s ++ [c])) p); lia. Qed.

  (** an old palindrome *)
  Lemma add_old s qs t c q nd t' : inv s qs t -> q = lps (s ++ [c]) -> In q qs -> nth_error t (idx qs q) = Some nd ->
    set_nth t (idx qs q) (Node (len nd) (pos nd) (cnt nd + 1) (depth nd) (suff nd) (next nd)) = Some t' -> inv (s ++ [c]) qs t'.
  Proof.
    intros W Eq Hq E U. constructor; try apply W.
    - intro p. rewrite (i_in _ _ _ W), sub_snoc. split; [tauto|]. intros [P [X|X]]; [tauto|]. split; [exact P|].
      apply (suf_sub _ q); [rewrite Eq; apply lps_max; assumption|]. apply (i_in _ _ _ W). exact Hq.
    - rewrite (set_nth_length _ _ _ _ U). apply (i_len _ _ _ W).
    - intros k Hk. rewrite (set_nth_get _ _ _ _ (kidx qs k) U). destruct (i_nodes _ _ _ W k Hk) as (nd0 & E0 & D0).
      destruct (idx qs q =? kidx qs k) eqn:X.
      + apply Nat.eqb_eq in X. assert (k = Some q) by (apply (kidx_inj qs); [apply W|exact Hk|exact Hq|symmetry; exact X]). subst k.
        eexists. split; [reflexivity|]. cbn [kidx] in E0. rewrite E in E0. injection E0 as <-. destruct D0 as [D1 D2 D3 D4 D5 D6].
        constructor; cbn [len suff depth next cnt pos kword] in *; auto.
        * intro N. rewrite D5 by exact N. rewrite times_snoc, <- Eq. destruct (weq q q); [reflexivity|congruence].
        * intro N. destruct (D6 N) as (i & P & Fi). exists i. split; [exact P|]. apply first_snoc. exact Fi.
      + apply Nat.eqb_neq in X. exists nd0. split; [exact E0|]. destruct D0 as [D1 D2 D3 D4 D5 D6]. constructor; auto.
        * intro N. rewrite D5 by exact N. rewrite times_snoc, <- Eq. destruct (weq q (kword k)) as [Z|Z]; [|lia].
          exfalso. apply X. destruct k as [p|]; [|cbn in N; congruence]. cbn in Z |- *. rewrite Z. reflexivity.
        * intro N. destruct (D6 N) as (i & P & Fi). exists i. split; [exact P|]. apply first_snoc. exact Fi.
  Qed.

  (** a new palindrome *)
  Lemma add_new s qs t c k nd q2 t' nx : inv s qs t -> c < K -> ksuf k s -> is_suffix (ext k c) (s ++ [c]) -> ext k c = lps (s ++ [c]) -> ~ In (ext k c) qs ->
    nth_error t (kidx qs k) = Some nd -> q2 = lps (tl (ext k c)) ->
    set_nth (next nd) c (length t) = Some nx ->
    set_nth (t ++ [Node (len nd + 2) (Z.of_nat (length (s ++ [c])) - (len nd + 2)) 1 (length (chain q2) + 1) (idx qs q2) (repeat NIL K)])
      (kidx qs k) (Node (len nd) (pos nd) (cnt nd) (depth nd) (suff nd) nx) = Some t' ->
    inv (s ++ [c]) (qs ++ [ext k c]) t'.
  Proof.
    intros W LC Hk HS Eq NI E E2 U1 U2. set (q := ext k c) in *. pose proof (i_nodup _ _ _ W) as ND.
    assert (PQ : palindrome q = true) by (apply (ext_pal k c s Hk)).
    assert (NQ : q <> []) by (apply ext_nonempty).
    assert (NS : ~ sub q s) by (intro X; apply NI, (i_in _ _ _ W); split; assumption).
    assert (Q2 : In q2 qs).
    { apply (i_in _ _ _ W). subst q2. split; [apply lps_pal|]. apply (occurred _ q s c HS PQ NQ); [apply lps_suf|apply lps_pal]. }
    assert (ND' : NoDup (qs ++ [q])) by (apply nodup_snoc; assumption).
    assert (HKI : kin qs k) by (apply (ksuf_kin s qs t k W Hk)).
    assert (ID : forall p, idx (qs ++ [q]) p = if weq p q then 2 + length qs else idx qs p) by (intro p; apply (idx_snoc qs q p ND NI)).
    assert (KID : forall k0, k0 <> Some q -> kidx (qs ++ [q]) k0 = kidx qs k0) by (intros k0 N0; apply (kidx_snoc qs q k0 ND NI N0)).
    assert (OLD : forall k0, kin qs k0 -> k0 <> Some q) by (intros k0 H0 ->; exact (NI H0)).
    assert (ELEN : len nd = klen k). { destruct (i_nodes _ _ _ W k HKI) as (n0 & E0 & D0). rewrite E in E0. injection E0 as <-. apply D0. }
    assert (LQ : (len nd + 2)%Z = Z.of_nat (length q)) by (rewrite ELEN; unfold q, klen; rewrite ext_len; lia).
    constructor.
    - exact ND'.
    - rewrite nth_error_app1; [apply (i_nil _ _ _ W)|]. apply nth_error_Some. rewrite (i_nil _ _ _ W). discriminate.
    - intro p. rewrite in_app_iff, (i_in _ _ _ W), sub_snoc. cbn [In]. split.
      + intros [[P X]|[<-|[]]]; [tauto|]. split; [exact PQ|right; exact HS].
      + intros [P [X|X]]; [left; tauto|]. assert (Y : is_suffix p q) by (rewrite Eq; apply lps_max; assumption).
        destruct (weq p q) as [->|N]; [right; left; reflexivity|]. left. split; [exact P|].
        apply (occurred p q s c HS PQ NQ); [apply (suf_tl _ _ Y N)|exact P].
    - rewrite (set_nth_length _ _ _ _ U2), !app_length, (i_len _ _ _ W). cbn [length]. lia.
    - intros p Hp Np. rewrite !ID. apply in_app_iff in Hp as [Hp|[<-|[]]].
      + destruct (weq p q) as [X|_]; [congruence|].
        assert (H1 : In (lps (tl p)) qs). { pose proof (kin_kup s qs t (Some p) W Hp) as Y. destruct p; [congruence|]. exact Y. }
        destruct (weq (lps (tl p)) q) as [X|_]; [rewrite X in H1; contradiction|]. apply (i_ord _ _ _ W p Hp Np).
      + destruct (weq q q) as [_|X]; [|congruence]. rewrite <- E2. destruct (weq q2 q) as [X|_]; [congruence|].
        apply (idx_lt qs q2 ND).
    - intros k0 H0. rewrite (set_nth_get _ _ _ _ (kidx (qs ++ [q]) k0) U2).
      assert (CASE : k0 = Some q \/ kin qs k0 /\ k0 <> Some q).
      { destruct k0 as [p|]; [|right; split; [exact Logic.I|discriminate]]. cbn in H0. apply in_app_iff in H0 as [H0|[<-|[]]]; [right; split; [exact H0|apply (OLD (Some p) H0)]|left; reflexivity]. }
      destruct CASE as [->|[H1 N1]].
      + assert (KQ : kidx (qs ++ [q]) (Some q) = length t). { cbn [kidx]. rewrite ID, (i_len _ _ _ W). destruct (weq q q); [reflexivity|congruence]. }
        rewrite KQ. pose proof (kidx_lt s qs t k W). destruct (kidx qs k =? length t) eqn:X; [apply Nat.eqb_eq in X; lia|]. clear X.
        rewrite nth_error_app2, Nat.sub_diag by lia. cbn [nth_error]. eexists. split; [reflexivity|].
        constructor; cbn [len suff depth next cnt pos kword].
        * rewrite LQ. unfold klen. cbn [kl]. lia.
        * destruct q as [|x q'] eqn:EQ; [congruence|]. cbn [kup kidx]. rewrite <- E2, ID. destruct (weq q2 (x :: q')) as [X|_]; [congruence|reflexivity].
        * rewrite (chain_pal q NQ PQ), <- E2. cbn [length]. lia.
        * apply list_ext_len; [rewrite repeat_length, map_length, seq_length; reflexivity|]. intros i Hi. rewrite repeat_length in Hi.
          rewrite nth_error_map, (nth_error_nth' (seq 0 K) 0) by (rewrite seq_length; exact Hi). rewrite seq_nth by exact Hi. cbn [option_map plus].
          rewrite (nth_error_nth' (repeat NIL K) NIL) by (rewrite repeat_length; exact Hi). rewrite nth_repeat. f_equal. symmetry. apply idx_zero.
          rewrite in_app_iff. intros [X|[X|[]]].
          -- apply NS. apply (sub_mid i i). apply (i_in _ _ _ W). exact X.
          -- apply (f_equal (@length nat)) in X. rewrite (ext_len (Some q)) in X. cbn [kl] in X. lia.
        * intros _. rewrite times_snoc, <- Eq. destruct (weq q q) as [_|X]; [|congruence].
          replace (times q (map lps (prefixes s))) with 0; [reflexivity|]. symmetry. apply count_occ_not_In. rewrite in_map_iff. intros (p & X & Y).
          apply NS. rewrite <- X. apply (suf_sub _ p); [apply lps_suf|apply in_prefixes; exact Y].
        * intros _. exists (length (s ++ [c]) - length q). split; [|apply first_new; assumption].
          rewrite LQ. apply suf_len in HS. lia.
      + rewrite (KID k0 N1). destruct (i_nodes _ _ _ W k0 H1) as (nd0 & E0 & D0).
        assert (NC : lps (s ++ [c]) = kword k0 -> kword k0 <> [] -> False).
        { intros X Y. destruct k0 as [p|]; [|cbn in Y; congruence]. cbn in X. apply N1. congruence. }
        assert (NXT : forall i, ext k0 i <> q -> idx (qs ++ [q]) (ext k0 i) = idx qs (ext k0 i)) by (intros i X; rewrite ID; destruct (weq (ext k0 i) q); [contradiction|reflexivity]).
        assert (UP : kidx (qs ++ [q]) (kup k0) = kidx qs (kup k0)) by (apply KID, OLD; apply (kin_kup s qs t k0 W H1)).
        destruct (kidx qs k =? kidx qs k0) eqn:X.
        * apply Nat.eqb_eq in X. apply (kidx_inj qs k k0 ND HKI H1) in X. subst k0. rewrite E in E0. injection E0 as <-.
          eexists. split; [reflexivity|]. destruct D0 as [D1 D2 D3 D4 D5 D6]. constructor; cbn [len suff depth next cnt pos]; auto.
          -- rewrite UP. exact D2.
          -- apply list_ext_len; [rewrite (set_nth_length _ _ _ _ U1), D4, !map_length; reflexivity|]. intros i Hi.
             rewrite (set_nth_length _ _ _ _ U1), D4, map_length, seq_length in Hi.
             rewrite (set_nth_get _ _ _ _ i U1), D4, !nth_error_map, (nth_error_nth' (seq 0 K) 0) by (rewrite seq_length; exact Hi).
             rewrite seq_nth by exact Hi. cbn [option_map plus]. rewrite ID, (i_len _ _ _ W). destruct (c =? i) eqn:Y.
             ++ apply Nat.eqb_eq in Y. subst i. fold q. destruct (weq q q); [reflexivity|congruence].
             ++ apply Nat.eqb_neq in Y. destruct (weq (ext k i) q) as [V|_]; [|reflexivity]. apply ext_inj in V as [_ V]. congruence.
          -- intro N. rewrite D5 by exact N. rewrite times_snoc. destruct (weq (lps (s ++ [c])) (kword k)) as [V|_]; [|lia]. destruct (NC V N).
          -- intro N. destruct (D6 N) as (i & P & Fi). exists i. split; [exact P|]. apply first_snoc. exact Fi.
        * apply Nat.eqb_neq in X. exists nd0. split; [rewrite nth_error_app1; [exact E0|apply (kidx_lt s qs t k0 W)]|].
          destruct D0 as [D1 D2 D3 D4 D5 D6]. constructor; auto.
          -- rewrite UP. exact D2.
          -- rewrite D4. apply map_ext. intro i. symmetry. apply NXT. intro V. apply ext_inj in V as [V _]. apply X. rewrite V. reflexivity.
          -- intro N. rewrite D5 by exact N. rewrite times_snoc. destruct (weq (lps (s ++ [c])) (kword k0)) as [V|_]; [|lia]. destruct (NC V N).
          -- intro N. destruct (D6 N) as (i & P & Fi). exists i. split; [exact P|]. apply first_snoc. exact Fi.
  Qed.

  (** ** the whole tree *)
  Record good (s : list nat) (qs : list (list nat)) (p : tree) : Prop := {
    g_inv : inv s qs (nodes p);
    g_str : string p = s;
    g_cur : cur p = idx qs (lps s);
    g_total : total p = length (palindromes s) }.
  Lemma total_snoc s c : length (palindromes (s ++ [c])) = length (palindromes s) + length (chain (lps (s ++ [c]))).
  Proof. unfold palindromes. rewrite substrings_snoc, filter_app, app_length. f_equal. fold (chain (s ++ [c])). rewrite chain_lps. reflexivity. Qed.

  Lemma init_good : good [] [[]] (init K).
  Proof.
    constructor; [|reflexivity..]. constructor; cbn [init nodes].
    - constructor; [intros []|constructor].
    - reflexivity.
    - intro p. cbn [In]. split; [intros [<-|[]]; split; [reflexivity|exists [], []; reflexivity]|]. intros [_ X]. apply sub_nil in X. left. congruence.
    - reflexivity.
    - intros p [<-|[]] N. congruence.
    - assert (N : forall k, repeat NIL K = map (fun c => idx [[]] (ext k c)) (seq 0 K)).
      { intro k. apply list_ext_len; [rewrite repeat_length, map_length, seq_length; reflexivity|]. intros i Hi. rewrite repeat_length in Hi.
        rewrite nth_error_map, (nth_error_nth' (seq 0 K) 0) by (rewrite seq_length; exact Hi). rewrite seq_nth by exact Hi.
        rewrite (nth_error_nth' (repeat NIL K) NIL) by (rewrite repeat_length; exact Hi). rewrite nth_repeat. cbn [option_map plus]. f_equal. symmetry. apply idx_zero.
        intros [X|[]]. apply (ext_nonempty k i). congruence. }
      intros [p|] Hk.
      + destruct Hk as [<-|[]]. eexists. split; [reflexivity|]. constructor; cbn [len suff depth next cnt pos kword]; try reflexivity; try congruence. apply N.
      + eexists. split; [reflexivity|]. constructor; cbn [len suff depth next cnt pos kword]; try reflexivity; try congruence. apply N.
  Qed.

  Lemma add_ok s qs p c : good s qs p -> c < K ->
    exists p' r, add K p c = Some (p', r) /\ exists qs', good (s ++ [c]) qs' p' /\
      (r = 0 /\ qs' = qs /\ In (lps (s ++ [c])) qs \/ r = 1 /\ qs' = qs ++ [lps (s ++ [c])] /\ ~ In (lps (s ++ [c])) qs).
  Proof.
    intros G LC. pose proof (g_inv _ _ _ G) as W. unfold add. rewrite (g_str _ _ _ G), (g_cur _ _ _ G), (g_total _ _ _ G).
    set (t := nodes p) in *. pose proof (i_nodup _ _ _ W) as ND.
    assert (KS : ksuf (Some (lps s)) s) by (split; [apply lps_suf|apply lps_pal]).
    destruct (find_ok s qs t c W (length t) (Some (lps s)) KS) as (k & F & Hk & HS & Lk & M); [pose proof (kidx_lt s qs t (Some (lps s)) W); lia|].
    cbn [kidx] in F. rewrite F. cbn [obind].
    assert (Eq : ext k c = lps (s ++ [c])).
    { apply (lps_ext k s c Hk HS). intros k' H' X'. apply M; [exact H'|exact X'|]. destruct k' as [p'|]; [|cbn; lia]. cbn [kl]. apply le_n_S, suf_len, lps_max; apply H'. }
    pose proof (ksuf_kin s qs t k W Hk) as HKI. destruct (i_nodes _ _ _ W k HKI) as (nd & E & D). rewrite E. cbn [obind].
    rewrite (next_at s qs k nd c D LC). cbn [obind]. set (q := ext k c) in *. destruct (idx qs q =? NIL) eqn:X; cbn [negb].
    - apply Nat.eqb_eq, idx_zero in X.
      assert (F2 : find_suffix2 t (s ++ [c]) (kidx qs k) c = Some (idx qs (lps (tl q))) /\ In (lps (tl q)) qs).
      { unfold find_suffix2. destruct k as [pk|].
        - destruct (kidx qs (Some pk) =? NEGAT) eqn:Y; [apply Nat.eqb_eq in Y; pose proof (idx_pos qs pk HKI); cbn in Y; unfold NEGAT in Y; lia|].
          rewrite E. cbn [obind]. rewrite (d_suff _ _ _ _ D).
          destruct (find_ok s qs t c W (length t) (kup (Some pk)) (kup_suf _ s Hk)) as (k2 & F2 & H2 & HS2 & L2 & M2); [pose proof (kidx_lt s qs t (kup (Some pk)) W); lia|].
          rewrite F2. cbn [obind]. destruct (i_nodes _ _ _ W k2 (ksuf_kin s qs t k2 W H2)) as (nd2 & E2 & D2). rewrite E2. cbn [obind].
          rewrite (next_at s qs k2 nd2 c D2 LC). destruct (lps_ext2 (Some pk) k2 s c Hk HS ltac:(discriminate) H2 HS2 L2 M2) as [T1 T2].
          fold q in T1, T2. rewrite T2. split; [reflexivity|]. rewrite <- T2. apply (i_in _ _ _ W). split; [apply (ext_pal k2 c s H2)|].
          apply (occurred _ q s c HS (ext_pal _ c s Hk) (ext_nonempty _ c) T1). apply (ext_pal k2 c s H2).
        - cbn [kidx]. rewrite Nat.eqb_refl. subst q. cbn [ext tl lps]. rewrite (idx_nil s qs t W). split; [reflexivity|]. apply (nth_error_In _ 0). apply (i_nil _ _ _ W). }
      destruct F2 as [F2 HQ2]. rewrite F2. cbn [obind]. set (q2 := lps (tl q)) in *.
      destruct (i_nodes _ _ _ W (Some q2) HQ2) as (nd2 & E2 & D2). cbn [kidx] in E2. rewrite E2. cbn [obind].
      rewrite (d_depth _ _ _ _ D2). cbn [kword].
      destruct (set_nth_some (next nd) c (length t)) as (nx & U1); [rewrite (d_next _ _ _ _ D), map_length, seq_length; exact LC|]. rewrite U1. cbn [obind].
      set (new := Node (len nd + 2) _ 1 _ _ _).
      destruct (set_nth_some (t ++ [new]) (kidx qs k) (Node (len nd) (pos nd) (cnt nd) (depth nd) (suff nd) nx)) as (t' & U2);
        [rewrite app_length; pose proof (kidx_lt s qs t k W); lia|].
      rewrite U2. cbn [obind]. eexists. eexists. split; [reflexivity|]. exists (qs ++ [q]). split.
      + constructor; cbn [nodes string cur total].
        * apply (add_new s qs t c k nd q2 t' nx); auto.
        * reflexivity.
        * rewrite <- Eq, (idx_snoc qs q q ND X). destruct (weq q q); [apply (i_len _ _ _ W)|congruence].
        * rewrite total_snoc, <- Eq, (chain_pal q (ext_nonempty k c) (ext_pal k c s Hk)). cbn [length]. fold q2. lia.
      + right. rewrite <- Eq. auto.
    - apply Nat.eqb_neq in X. assert (HQ : In q qs) by (destruct (in_dec weq q qs) as [Y|Y]; [exact Y|apply idx_zero in Y; contradiction]).
      destruct (i_nodes _ _ _ W (Some q) HQ) as (nq & Enq & Dq). cbn [kidx] in Enq. rewrite Enq. cbn [obind].
      destruct (set_nth_some t (idx qs q) (Node (len nq) (pos nq) (cnt nq + 1) (depth nq) (suff nq) (next nq))) as (t' & U); [apply nth_error_Some; congruence|].
      rewrite U. cbn [obind]. eexists. eexists. split; [reflexivity|]. exists qs. split.
      + constructor; cbn [nodes string cur total].
        * apply (add_old s qs t c q nq t' W Eq HQ Enq U).
        * reflexivity.
        * rewrite <- Eq. reflexivity.
        * rewrite total_snoc, <- Eq, (d_depth _ _ _ _ Dq). reflexivity.
      + left. rewrite <- Eq. auto.
  Qed.

  Lemma add_all_ok w : forall s qs p, good s qs p -> Forall (fun c => c < K) w ->
    exists p' n qs', add_all K p w = Some (p', n) /\ good (s ++ w) qs' p' /\ length qs' = length qs + n.
  Proof.
    induction w as [|c w IH]; intros s qs p G FA; cbn [add_all].
    - exists p, 0, qs. rewrite app_nil_r. auto.
    - inversion FA as [|? ? L FA']; subst. destruct (add_ok s qs p c G L) as (p1 & r & -> & qs1 & G1 & C). cbn [obind].
      destruct (IH (s ++ [c]) qs1 p1 G1 FA') as (p2 & n & qs2 & -> & G2 & L2). cbn [obind]. exists p2, (r + n), qs2. split; [reflexivity|].
      rewrite <- app_assoc in G2. split; [exact G2|]. destruct C as [(-> & -> & _)|(-> & -> & _)]; [lia|]. rewrite app_length in L2. cbn in L2. lia.
  Qed.
End Tree.
