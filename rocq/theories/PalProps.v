(** C155: the tree of palindromic substrings. *)
From Coq Require Import List PeanoNat ZArith Lia Bool.
From Verif Require Import Lib TrieSpec TrieProofs PalModel PalSpec PalProofs PalProofs2 PalProofs3.
Import ListNotations.

Lemma in_palindromes w s : In w (palindromes s) <-> w <> [] /\ palindrome w = true /\ sub w s.
Proof. unfold palindromes. rewrite filter_In, in_substrings. tauto. Qed.
Lemma good_ps K s qs p : good K s qs p -> exists ps, qs = [] :: ps /\ NoDup ps /\ (forall w, In w ps <-> In w (palindromes s)) /\
  (forall w i, In w qs -> (idx qs w = i <-> node_of ps w i)).
Proof.
  intro G. pose proof (g_inv _ _ _ _ G) as W. pose proof (i_nil _ _ _ _ W) as H. destruct qs as [|q ps]; [discriminate|]. injection H as ->. exists ps.
  pose proof (i_nodup _ _ _ _ W) as ND. inversion ND as [|? ? N1 N2]; subst. split; [reflexivity|]. split; [exact N2|]. split.
  - intro w. rewrite in_palindromes, <- (i_in _ _ _ _ W w). cbn [In]. split; [|intros [X [Y|Y]]; [congruence|exact Y]].
    intro Hw. split; [|right; exact Hw]. intros ->. contradiction.
  - intros w i Hw. split.
    + intros <-. pose proof (idx_pos _ w Hw) as L. destruct (idx ([] :: ps) w) as [|[|[|j]]] eqn:E; [lia..| |].
      * left. apply (idx_nth _ w 0 ND) in E. injection E as ->. split; reflexivity.
      * right. exists j. apply (idx_nth _ w (S j) ND) in E. split; [exact E|reflexivity].
    + intros [[-> ->]|(j & E & ->)]; [apply (idx_nth _ [] 0 ND); reflexivity|apply (idx_nth _ w (S j) ND); exact E].
Qed.

(** Any string over the alphabet can be added; total and distinct count its palindromic substrings, and add_all returns
    the number of new ones. *)
Theorem C155_totals : forall (K : nat) (s : list nat), Forall (fun c => c < K) s ->
  exists p n, add_all K (init K) s = Some (p, n) /\ total p = length (palindromes s) /\
    distinct p = length (distinct_of (palindromes s)) /\ n = distinct p.
Proof.
  intros K s FA. destruct (add_all_ok K s [] [[]] (init K) (init_good K) FA) as (p & n & qs & E & G & L). cbn [app] in G. exists p, n. split; [exact E|].
  split; [apply G|]. destruct (good_ps K s qs p G) as (ps & -> & ND & HI & _).
  assert (D : distinct p = length ps). { unfold distinct. rewrite (i_len _ _ _ _ (g_inv _ _ _ _ G)). cbn. unfold RESERVED. lia. }
  cbn [length] in L. split; [|lia]. rewrite D. apply Nat.le_antisymm; apply NoDup_incl_length.
  - exact ND.
  - intros w Hw. apply nodup_In. apply HI. exact Hw.
  - apply NoDup_nodup.
  - intros w Hw. apply nodup_In in Hw. apply HI. exact Hw.
Qed.

(** The nodes are the palindromic substrings, each once, with length, first occurrence, number of palindromic suffixes,
    the node of the longest proper palindromic suffix and the nodes one letter longer on both sides; the current node is
    that of the longest palindromic suffix. *)
Theorem C155_nodes : forall (K : nat) (s : list nat) p n, Forall (fun c => c < K) s -> add_all K (init K) s = Some (p, n) ->
  exists ps, NoDup ps /\ (forall w, In w ps <-> In w (palindromes s)) /\ length (nodes p) = RESERVED + length ps /\
    (exists w, longest_pal_suffix s w /\ node_of ps w (cur p)) /\
    (forall j w, nth_error ps j = Some w ->
      exists nd i v, nth_error (nodes p) (RESERVED + j) = Some nd /\ len nd = Z.of_nat (length w) /\
        pos nd = Z.of_nat i /\ first_at w s i /\ depth nd = length (filter palindrome (suffixes w)) /\
        longest_pal_suffix (tl w) v /\ node_of ps v (suff nd)) /\
    (forall i w c, node_of ps w i -> c < K ->
      exists nd m, nth_error (nodes p) i = Some nd /\ nth_error (next nd) c = Some m /\
        (In (c :: w ++ [c]) (palindromes s) /\ node_of ps (c :: w ++ [c]) m \/ ~ In (c :: w ++ [c]) (palindromes s) /\ m = NIL)) /\
    (forall c, c < K ->
      exists nd m, nth_error (nodes p) NEGAT = Some nd /\ nth_error (next nd) c = Some m /\
        (In [c] (palindromes s) /\ node_of ps [c] m \/ ~ In [c] (palindromes s) /\ m = NIL)).
Proof.
  intros K s p n FA E0. destruct (add_all_ok K s [] [[]] (init K) (init_good K) FA) as (p' & n' & qs & E & G & L). cbn [app] in G.
  rewrite E0 in E. injection E as <- <-. destruct (good_ps K s qs p G) as (ps & -> & ND & HI & HN). pose proof (g_inv _ _ _ _ G) as W.
  assert (NX : forall k c, kin ([] :: ps) k -> c < K -> exists nd m, nth_error (nodes p) (kidx ([] :: ps) k) = Some nd /\ nth_error (next nd) c = Some m /\
    (In (ext k c) (palindromes s) /\ node_of ps (ext k c) m \/ ~ In (ext k c) (palindromes s) /\ m = NIL)).
  { intros k c Hk Hc. destruct (i_nodes _ _ _ _ W k Hk) as (nd & En & D). exists nd, (idx ([] :: ps) (ext k c)). split; [exact En|].
    split; [apply (next_at K s _ k nd c D Hc)|]. destruct (in_dec weq (ext k c) ([] :: ps)) as [X|X].
    - left. split; [|apply HN; [exact X|reflexivity]]. destruct X as [X|X]; [destruct (ext_nonempty k c); congruence|]. apply HI. exact X.
    - right. split; [|apply idx_zero; exact X]. intro Y. apply X. right. apply HI. exact Y. }
  exists ps. split; [exact ND|]. split; [exact HI|]. split; [exact (i_len _ _ _ _ W)|]. split; [|split; [|split]].
  - exists (lps s). split; [apply lps_longest|]. apply HN; [|symmetry; apply G]. apply (i_in _ _ _ _ W). split; [apply lps_pal|apply sub_suf, lps_suf].
  - intros j w Ej. assert (Hw : In w ([] :: ps)) by (right; apply (nth_error_In _ _ Ej)).
    assert (Nw : w <> []). { intro X. apply nth_error_In, HI, in_palindromes in Ej. tauto. }
    assert (Iw : idx ([] :: ps) w = RESERVED + j) by (apply (HN w _ Hw); right; exists j; auto).
    destruct (i_nodes _ _ _ _ W (Some w) Hw) as (nd & En & D). cbn [kidx] in En. rewrite Iw in En. destruct D as [D1 D2 D3 D4 D5 D6]. cbn [kword] in *.
    destruct (D6 Nw) as (i & Pi & Fi). exists nd, i, (lps (tl w)). split; [exact En|]. split; [rewrite D1; unfold klen; cbn [kl]; lia|]. split; [exact Pi|].
    split; [exact Fi|]. split; [exact D3|]. split; [apply lps_longest|]. pose proof (kin_kup K s _ _ (Some w) W Hw) as HU.
    destruct w as [|x w]; [congruence|]. cbn [kup] in *. apply HN; [exact HU|]. symmetry. exact D2.
  - intros i w c Hi Hc. assert (Hw : In w ([] :: ps)). { destruct Hi as [[_ ->]|(j & Ej & _)]; [left; reflexivity|right; apply (nth_error_In _ _ Ej)]. }
    assert (Iw : idx ([] :: ps) w = i) by (apply (HN w i Hw); exact Hi). subst i. exact (NX (Some w) c Hw Hc).
  - intros c Hc. exact (NX None c Logic.I Hc).
Qed.

(** One more letter: add returns 1 if there is a palindrome that was not there before, and 0 otherwise. *)
Theorem C155_add : forall (K : nat) (s : list nat) (c : nat) p n, Forall (fun c => c < K) s -> c < K -> add_all K (init K) s = Some (p, n) ->
  exists p' r, add K p c = Some (p', r) /\
    (r = 1 /\ (exists w, In w (palindromes (s ++ [c])) /\ ~ In w (palindromes s)) /\ distinct p' = distinct p + 1 \/
     r = 0 /\ (forall w, In w (palindromes (s ++ [c])) -> In w (palindromes s)) /\ distinct p' = distinct p).
Proof.
  intros K s c p n FA Hc E0. destruct (add_all_ok K s [] [[]] (init K) (init_good K) FA) as (p1 & n' & qs & E & G & L). cbn [app] in G.
  rewrite E0 in E. injection E as <- <-. destruct (add_ok K s qs p c G Hc) as (p' & r & E & qs' & G' & C). exists p', r. split; [exact E|].
  destruct (good_ps K s qs p G) as (ps & -> & ND & HI & _). destruct (good_ps K _ qs' p' G') as (ps' & -> & ND' & HI' & _).
  unfold distinct. rewrite (i_len _ _ _ _ (g_inv _ _ _ _ G)), (i_len _ _ _ _ (g_inv _ _ _ _ G')). unfold RESERVED.
  destruct C as [(-> & X & Y)|(-> & X & Y)]; injection X as ->.
  - right. split; [reflexivity|]. split; [|reflexivity]. intros w Hw. apply HI, HI'. exact Hw.
  - left. split; [reflexivity|]. split; [|cbn [length app]; rewrite app_length; cbn [length]; lia]. exists (lps (s ++ [c])). split.
    + apply HI', in_app_iff. right. left. reflexivity.
    + intro Z. apply Y. right. apply HI. exact Z.
Qed.

(** After propagate every node holds the number of occurrences of its palindrome. *)
Theorem C155_propagate : forall (K : nat) (s : list nat) p n, Forall (fun c => c < K) s -> add_all K (init K) s = Some (p, n) ->
  exists p' ps, propagate p = Some p' /\ NoDup ps /\ (forall w, In w ps <-> In w (palindromes s)) /\ length (nodes p') = RESERVED + length ps /\
    forall j w, nth_error ps j = Some w ->
      exists nd i, nth_error (nodes p') (RESERVED + j) = Some nd /\ len nd = Z.of_nat (length w) /\ pos nd = Z.of_nat i /\ first_at w s i /\
        cnt nd = times w (substrings s).
Proof.
  intros K s p n FA E0. destruct (add_all_ok K s [] [[]] (init K) (init_good K) FA) as (p1 & n' & qs & E & G & L). cbn [app] in G.
  rewrite E0 in E. injection E as <- <-. destruct (good_ps K s qs p G) as (ps & -> & ND & HI & HN). pose proof (g_inv _ _ _ _ G) as W.
  destruct (propagate_ok K s _ _ W) as (t' & Et & Lt & P). unfold propagate. rewrite Et. cbn [obind]. eexists. exists ps. split; [reflexivity|]. cbn [nodes].
  split; [exact ND|]. split; [exact HI|]. split; [rewrite Lt; exact (i_len _ _ _ _ W)|].
  intros j w Ej. assert (Hw : In w ([] :: ps)) by (right; apply (nth_error_In _ _ Ej)).
  assert (Nw : w <> []). { intro X. apply nth_error_In, HI, in_palindromes in Ej. tauto. }
  assert (Iw : idx ([] :: ps) w = RESERVED + j) by (apply (HN w _ Hw); right; exists j; auto).
  destruct (i_nodes _ _ _ _ W (Some w) Hw) as (nd & En & D). cbn [kidx] in En. rewrite Iw in En. destruct (P _ nd En) as (nd' & En' & (A1 & A2 & _) & C).
  destruct (d_pos _ _ _ _ _ D Nw) as (i & Pi & Fi). exists nd', i. split; [exact En'|]. split; [rewrite <- A1, (d_len _ _ _ _ _ D); unfold klen; cbn [kl]; lia|].
  split; [rewrite <- A2; exact Pi|]. split; [exact Fi|]. rewrite C by (unfold RESERVED; lia). rewrite <- Iw. apply (passed_end K s _ _ W); assumption.
Qed.

Example C155_case :
  (let* '(p, n) := add_all 2 (init 2) [0; 1; 0; 0; 1; 0; 1] in
   let* q := propagate p in
   Some (n, total p, distinct p, cur p, map (fun nd => (len nd, pos nd, cnt nd)) (skipn RESERVED (nodes q)))) =
  Some (7, 13, 7, 9, [(1%Z, 0%Z, 4); (1%Z, 1%Z, 3); (3%Z, 0%Z, 2); (2%Z, 2%Z, 1); (4%Z, 1%Z, 1); (6%Z, 0%Z, 1); (3%Z, 4%Z, 1)]) /\
  length (palindromes [0; 1; 0; 0; 1; 0; 1]) = 13 /\ length (distinct_of (palindromes [0; 1; 0; 0; 1; 0; 1])) = 7 /\
  times [0] (substrings [0; 1; 0; 0; 1; 0; 1]) = 4 /\ Forall (fun c => c < 2) [0; 1; 0; 0; 1; 0; 1].
Proof. split; [vm_compute; reflexivity|]. split; [vm_compute; reflexivity|]. split; [vm_compute; reflexivity|]. split; [vm_compute; reflexivity|]. repeat constructor. Qed.
Print Assumptions C155_totals.
Print Assumptions C155_nodes.
Print Assumptions C155_add.
Print Assumptions C155_propagate.
