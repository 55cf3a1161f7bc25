(** C153: prefix trees. *)
From Coq Require Import List PeanoNat Lia Bool Sorted.
From Verif Require Import Lib TrieModel TrieSpec TrieProofs TrieProofs2 TrieProofs3.
Import ListNotations.

(** Every history of calls on a new tree succeeds, and every call returns what it should for the numbered words
    that the calls before it have left. *)
Theorem C153_histories : forall (K : nat) (cs : list call), all_allowed K [] cs ->
  exists s rs, perform_all K (create K) cs = Some (s, rs) /\ all_return [] cs rs.
Proof.
  intros K cs H. destruct (create_ok K) as (adr & R & T).
  destruct (perform_all_ok K cs _ _ _ _ R T H) as (ps & adr' & s & rs & E & Hr & _). exists s, rs. auto.
Qed.

(** At every moment the tree holds one cell per letter and one for the root, its destructor releases them all (each
    once) and the counter of nodes is then zero. *)
Theorem C153_memory : forall (K : nat) (cs : list call) s rs, all_allowed K [] cs -> perform_all K (create K) cs = Some (s, rs) ->
  live (heap s) = num_letters s + 1 /\ exists h, destroy K s = Some (h, 0) /\ live h = 0.
Proof.
  intros K cs s rs H E. destruct (create_ok K) as (adr & R & T).
  destruct (perform_all_ok K cs _ _ _ _ R T H) as (ps & adr' & s' & rs' & E' & _ & R' & _). rewrite E in E'. injection E' as <- <-.
  split.
  - destruct R' as (S0 & Nn & _). rewrite (shape_live _ _ _ _ _ S0). unfold num_letters. rewrite Nn.
    pose proof (sh_nil _ _ _ _ _ S0) as X. destruct ps; [destruct X|cbn [length]; lia].
  - destruct (destroy_ok K _ _ _ _ R') as (h & Ed & D). exists h. split; [exact Ed|apply dead_live; exact D].
Qed.

(** The words themselves, in any history: adding a word makes it found and leaves the others' numbers alone, erasing
    makes it not found and leaves all others found; no word ever appears twice. *)
Lemma numbered_words : forall (K : nat) cs, all_allowed K [] cs -> NoDup (words_after [] cs) /\ ~ In [] (words_after [] cs).
Proof.
  intros K cs H. destruct (create_ok K) as (adr & R & T).
  destruct (perform_all_ok K cs _ _ _ _ R T H) as (ps & adr' & s & rs & _ & _ & R' & _). destruct R' as (S0 & _).
  split; [apply (sh_words _ _ _ _ _ S0)|]. intro X. apply (sh_incl _ _ _ _ _ S0) in X as [_ X]. congruence.
Qed.
Theorem C153_add : forall (K : nat) cs w, all_allowed K [] cs -> w <> [] ->
  let ws := words_after [] cs in
  number (after ws (Add w)) w <> 0 /\
  (forall v, v <> w -> number (after ws (Add w)) v = number ws v) /\
  (number ws w <> 0 -> after ws (Add w) = ws).
Proof.
  intros K cs w H N ws. destruct (numbered_words K cs H) as [ND _]. fold ws in ND. cbn [after]. unfold enter.
  destruct (word_eq w []) as [->|_]; [congruence|]. destruct (in_dec word_eq w ws) as [Y|Y].
  - split; [intro X; apply number_in in X; contradiction|]. auto.
  - split; [rewrite number_snoc by assumption; destruct (word_eq w w); [discriminate|congruence]|]. split.
    + intros v Nv. rewrite number_snoc by assumption. destruct (word_eq v w); [contradiction|reflexivity].
    + intro X. exfalso. apply X. apply number_in. exact Y.
Qed.
Theorem C153_erase : forall (K : nat) cs id, all_allowed K [] cs -> 1 <= id <= length (words_after [] cs) ->
  let ws := words_after [] cs in
  let ws' := after ws (Erase id) in
  number ws' (numbered ws id) = 0 /\
  (forall v, v <> numbered ws id -> v <> numbered ws (length ws) -> number ws' v = number ws v) /\
  (id < length ws -> number ws' (numbered ws (length ws)) = id) /\
  length ws' = length ws - 1.
Proof.
  intros K cs id H Hid ws ws'. destruct (numbered_words K cs H) as [ND _]. fold ws in ND, Hid.
  destruct id as [|i]; [lia|]. destruct (nth_error_some ws i) as [p E]; [lia|].
  assert (Ep : numbered ws (S i) = p) by (unfold numbered; cbn [nth]; apply nth_error_nth; exact E). rewrite Ep.
  destruct (take_out_ok ws i p ND E) as (ND' & I' & N'). unfold ws'. cbn [after].
  assert (Hne : ws <> []) by (intros X; rewrite X in Hid; cbn in Hid; lia).
  assert (El : numbered ws (length ws) = last ws []).
  { unfold numbered. destruct (length ws) as [|n] eqn:L; [lia|]. cbn [nth]. apply nth_error_nth. rewrite <- last_nth by exact Hne. rewrite L. f_equal. lia. }
  rewrite El. repeat split.
  - rewrite N'. destruct (word_eq p p); [reflexivity|congruence].
  - intros v N1 N2. rewrite N'. destruct (word_eq v p); [contradiction|]. destruct (word_eq v (last ws [])); [contradiction|reflexivity].
  - intro L. rewrite N'. destruct (word_eq (last ws []) p) as [X|X]; [|destruct (word_eq (last ws []) (last ws [])); congruence].
    exfalso. pose proof (last_nth ws Hne) as Y. rewrite X in Y. pose proof (proj1 (NoDup_nth_error ws) ND i (length ws - 1) ltac:(lia)). rewrite E, Y in H0. specialize (H0 eq_refl). lia.
  - unfold take_out. rewrite removelast_firstn_len, firstn_length, app_length, firstn_length. cbn [length]. rewrite skipn_length. lia.
Qed.

Definition trie_sample : list call :=
  [Add [2; 0; 1]; Add [2; 0]; Add [1]; Append 2 [1; 1]; Find [2; 0]; Find [2]; Get 4; ForEach 2; Erase 1; NumWords; NumLetters;
   Get 1; EraseWord [2; 0; 1; 1]; NumLetters; Add []; ForEach 0; Clear; NumLetters; Add [0]].
Example C153_case : all_allowed 3 [] trie_sample /\
  option_map snd (perform_all 3 (create 3) trie_sample) = Some
    [Number 1; Number 2; Number 3; Number 4; Number 2; Number 0; Word [2; 0; 1; 1];
     Visits [([2; 0], 2); ([2; 0; 1], 1); ([2; 0; 1; 1], 4)]; Number 1; Number 3; Number 5;
     Word [2; 0; 1; 1]; Number 1; Number 3; Number 0; Visits [([1], 1); ([2; 0], 2)]; Done; Number 0; Number 1].
Proof. split; [cbn; repeat split; repeat constructor|vm_compute; reflexivity]. Qed.
Print Assumptions C153_histories.
Print Assumptions C153_memory.
Print Assumptions C153_add.
Print Assumptions C153_erase.
