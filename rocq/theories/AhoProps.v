(** C154: dictionary matching. *)
From Coq Require Import List PeanoNat Lia Bool.
From Verif Require Import Lib TrieSpec TrieProofs AhoModel AhoSpec AhoProofs AhoProofs2.
Import ListNotations.

(** Insert any dictionary of nonempty words, build, then count in any number of texts: every count is the number of
    occurrences of the words in that text. *)
Theorem C154_count_matches : forall (K : nat) (dict texts : list (list nat)),
  Forall (Forall (fun o => o < K)) dict -> ~ In [] dict -> Forall (Forall (fun o => o < K)) texts ->
  exists t t', insert_all K (create K) dict = Some t /\ build t = Some t' /\ count_all t' texts = Some (map (matches dict) texts).
Proof.
  intros K dict texts FA Nil FT. destruct (build_ok K dict FA Nil) as (ps & t & t' & E & B & F & W & _).
  destruct (count_all_ok K ps dict t' F Nil W texts FT) as (rs & C & ->). exists t, t'. auto.
Qed.

(** The node reached by any text stands for its longest suffix that begins a word of the dictionary. *)
Theorem C154_state : forall (K : nat) (dict : list (list nat)) (text : list nat) t t',
  Forall (Forall (fun o => o < K)) dict -> ~ In [] dict -> Forall (fun o => o < K) text ->
  insert_all K (create K) dict = Some t -> build t = Some t' ->
  exists t'' i r w, read t' ROOT 0 text = Some (t'', i, r) /\ spells t'' i w /\ longest_match dict text w.
Proof.
  intros K dict text t0 t0' FA Nil FT E0 B0. destruct (build_ok K dict FA Nil) as (ps & t & t' & E & B & F & W & T).
  rewrite E0 in E. injection E as <-. rewrite B0 in B. injection B as <-.
  assert (RT : ROOT = number ps (lsp ps [])) by (rewrite lsp_id by apply (nil_in K ps dict F); rewrite (num_nil K ps dict F); reflexivity).
  rewrite RT. destruct (read_ok K ps dict F text [] t0' 0 W FT) as (t2 & -> & W2). cbn [app].
  exists t2. eexists. eexists. exists (lsp ps text). split; [reflexivity|].
  split; [apply (spells_ok K ps dict t2 F W2); apply (lsp_in K ps dict F)|]. split; [apply lsp_suffix|]. split.
  - destruct (T (lsp ps text) (lsp_in K ps dict F text)) as [H|H]; auto.
  - intros w' Sx (v & Hv & Pv).
    assert (Hw : In w' ps) by (apply (closed_prefix K ps dict F v); [apply (fo_dict _ _ _ F v Hv)|exact Pv]).
    apply ends_iff in Sx. rewrite <- (lsp_ends K ps dict F w' text Hw) in Sx. apply ends_len. exact Sx.
Qed.

(** The restriction to nonempty words is needed: build adds the count of the root to itself, so an empty word that was
    inserted once counts twice for every letter read. *)
Theorem C154_empty_word_twice : exists t t' t'', insert_all 1 (create 1) [[]] = Some t /\ build t = Some t' /\
  count_matches t' [0; 0; 0] = Some (t'', 6).
Proof. eexists. eexists. eexists. split; [reflexivity|]. split; [reflexivity|]. vm_compute. reflexivity. Qed.

Definition aho_dict : list (list nat) := [[0; 1]; [1]; [1; 0; 1]; [0; 0]; [1]].
Example C154_case :
  (let* t := insert_all 2 (create 2) aho_dict in let* t := build t in count_all t [[0; 1; 0; 1; 1]; [0; 0; 0; 1]; []]) = Some [9; 5; 0] /\
  map (matches aho_dict) [[0; 1; 0; 1; 1]; [0; 0; 0; 1]; []] = [9; 5; 0] /\ Forall (Forall (fun o => o < 2)) aho_dict /\ ~ In [] aho_dict.
Proof.
  split; [vm_compute; reflexivity|].
  split; [reflexivity|]. split; [repeat constructor|]. intro H. repeat (destruct H as [H|H]; [discriminate|]). destruct H.
Qed.
Print Assumptions C154_count_matches.
Print Assumptions C154_state.
Print Assumptions C154_empty_word_twice.
