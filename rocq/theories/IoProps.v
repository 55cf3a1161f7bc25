(** Buffered input and output. *)
From Verif Require Import Lib IoModel IoSpec IoProofs IoProofs2.
Open Scope nat_scope.

(** * C50 *)
(** the histories: a fresh reader over the text s, and any legal calls after it, each seen both by the code and by the client's view *)
Inductive history (chunk : nat -> nat -> nat -> nat) (cap : nat) (s : list Z) : reader -> rview -> Prop :=
| H_new : history chunk cap s (reader_new cap s) (mkv s None false)
| H_call r v o r' x v' : history chunk cap s r v -> legal v o -> step chunk cap r o = Some (r', x) -> rspec cap v o x v' -> history chunk cap s r' v'.
Lemma rspec_det cap v o x v1 v2 : rspec cap v o x v1 -> rspec cap v o x v2 -> v1 = v2.
Proof.
  intros H1 H2. destruct H1; inversion H2; subst; try reflexivity.
  match goal with E : firstn ?a p = firstn ?b p |- _ => assert (a = b) by (apply (f_equal (@length Z)) in E; rewrite !firstn_length in E; lia); now subst end.
Qed.
Lemma history_sim chunk cap s r v : honest chunk -> 0 < cap -> history chunk cap s r v -> sim cap r v.
Proof.
  intros Hh Hc. induction 1 as [|r v o r' x v' H IH Hl E S]; [apply new_sim|]. destruct (step_sim chunk cap Hh r v o Hc IH Hl) as (r2 & x2 & v2 & E2 & S2 & M).
  rewrite E in E2. injection E2 as <- <-. now rewrite (rspec_det _ _ _ _ _ _ S S2).
Qed.
(** whatever happened before, the next legal call succeeds and does what the buffer-free description says *)
Theorem C50_buffered_reader chunk cap s r v o : honest chunk -> 0 < cap -> history chunk cap s r v -> legal v o ->
  exists r' x v', step chunk cap r o = Some (r', x) /\ rspec cap v o x v' /\ history chunk cap s r' v' /\ read_failed r' = failed v'.
Proof.
  intros Hh Hc H Hl. destruct (step_sim chunk cap Hh r v o Hc (history_sim _ _ _ _ _ Hh Hc H) Hl) as (r' & x & v' & E & S & M).
  exists r', x, v'. split; [exact E|]. split; [exact S|]. split; [now apply (H_call _ _ _ r v o r' x v')|]. now destruct M as (_ & _ & F & _).
Qed.
(** the calls made so far have delivered exactly a prefix of the text: sequence of outputs *)
Definition delivered (o : rout) : list Z := match o with OBytes l => l | _ => [] end.
Fixpoint steps (chunk : nat -> nat -> nat -> nat) (cap : nat) (r : reader) (l : list rop) : option (reader * list rout) :=
  match l with [] => Some (r, []) | o :: l => let* '(r, x) := step chunk cap r o in let* '(r, xs) := steps chunk cap r l in Some (r, x :: xs) end.
Lemma read_all chunk cap (Hh : honest chunk) (Hc : 0 < cap) l f : forall p r, (exists q, sim cap r (mkv p q f)) ->
  l = map (fun _ => ReadChar) p -> exists r', steps chunk cap r l = Some (r', map OInt p) /\ exists q, sim cap r' (mkv [] q f).
Proof.
  intros p; revert l. induction p as [|c p IH]; intros l r (q & H) ->; cbn [map steps].
  - exists r. split; [reflexivity|]. now exists q.
  - destruct (read_char_spec chunk cap Hh r _ Hc H) as (r1 & c1 & E & K). cbn [pend] in K. destruct K as [-> K]. cbn [step]. rewrite E. cbn [obind].
    destruct (IH _ r1 (ex_intro _ (Some c) K) eq_refl) as (r' & E' & H'). rewrite E'. cbn [obind]. exists r'. now split.
Qed.
Theorem C50_read_all chunk cap s : honest chunk -> 0 < cap ->
  exists r r', steps chunk cap (reader_new cap s) (map (fun _ => ReadChar) s) = Some (r, map OInt s) /\ read_failed r = false /\
    step chunk cap r ReadChar = Some (r', OInt (-1)) /\ read_failed r' = true.
Proof.
  intros Hh Hc. destruct (read_all chunk cap Hh Hc (map (fun _ => ReadChar) s) false s (reader_new cap s)) as (r & E & q & H); [eexists; apply new_sim|reflexivity|].
  destruct (read_char_spec chunk cap Hh r _ Hc H) as (r1 & c1 & E1 & K). cbn [pend] in K. destruct K as [-> K]. exists r, r1. split; [exact E|].
  split; [apply H|]. cbn [step]. rewrite E1. split; [reflexivity|apply K].
Qed.
(** the string_reader is an honest source *)
Theorem C50_string_reader : honest string_chunk.
Proof. intros t req rem. unfold string_chunk. lia. Qed.
(** a source that delivers one character at a time *)
Definition drip (t req rem : nat) : nat := Nat.min 1 (Nat.min req rem).
Example C50_case : honest drip /\
  exists r, steps drip 3 (reader_new 3 [65; 66; 67; 68; 69]%Z) [ReadChar; Unread; Read 3; Data 2; Skip 7; ReadChar] =
    Some (r, [OInt 65; OUnit; OBytes [65; 66; 67]; OPtr [68; 69]; OCount 2; OInt (-1)])%Z.
Proof. split; [intros t req rem; unfold drip; lia|]. eexists. vm_compute. reflexivity. Qed.
(** REFUTED: a read of more than the buffer holds comes back short and raises the failure flag although the input has it all *)
Theorem C50_large_read_refuted : exists r, steps string_chunk 2 (reader_new 2 [65; 66; 67]%Z) [Read 3] = Some (r, [OBytes [65; 66]%Z]) /\ read_failed r = true.
Proof. eexists. vm_compute. split; reflexivity. Qed.
(** REFUTED: skip never refills, so it may skip nothing although the input has characters *)
Theorem C50_skip_refuted : exists r, steps string_chunk 2 (reader_new 2 [65; 66; 67]%Z) [Skip 1; ReadChar] = Some (r, [OCount 0; OInt 65%Z]).
Proof. eexists. vm_compute. reflexivity. Qed.
(** REFUTED: the character 0xFF (signed -1) is delivered as -1, the same value as the end of input *)
Theorem C50_eof_refuted : exists r, steps string_chunk 8 (reader_new 8 [-1; 65]%Z) [ReadChar; ReadChar; ReadChar] = Some (r, [OInt (-1); OInt 65; OInt (-1)]%Z).
Proof. eexists. vm_compute. reflexivity. Qed.
Print Assumptions C50_buffered_reader. Print Assumptions C50_read_all. Print Assumptions C50_string_reader.
Print Assumptions C50_large_read_refuted. Print Assumptions C50_skip_refuted. Print Assumptions C50_eof_refuted.

(** * C51 *)
Definition wstep (cap : nat) (w : writer) (o : wop) : option writer :=
  match o with
  | WChar c => write_char cap w c
  | Write l => write cap w l
  | Flush => flush w
  | Reserve_ n => let* '(w, _) := wreserve cap w n in Some w
  | Printf n s => printf cap w n s
  end.
Fixpoint wsteps (cap : nat) (w : writer) (l : list wop) : option writer := match l with [] => Some w | o :: l => let* w := wstep cap w o in wsteps cap w l end.
Lemma wsteps_sim cap (Hc : 0 < cap) l : forall w W, wsim cap w W -> Forall (fits cap) l -> exists w', wsteps cap w l = Some w' /\ wsim cap w' (W ++ concat (map written l)).
Proof.
  induction l as [|o l IH]; intros w W H Hf; cbn [wsteps map concat].
  - exists w. now rewrite app_nil_r.
  - inversion Hf as [|? ? F1 F2]; subst.
    assert (G : exists w1, wstep cap w o = Some w1 /\ wsim cap w1 (W ++ written o)).
    { destruct o as [c|s| |n|n s]; cbn [wstep written].
      - now apply write_char_spec. - now apply write_spec.
      - destruct (flush_spec cap Hc w W H) as (w1 & E & H1 & _). exists w1. rewrite app_nil_r. now split.
      - destruct (wreserve_spec cap Hc w W n H) as (w1 & k & E & H1 & _). rewrite E. exists w1. rewrite app_nil_r. now split.
      - cbn [fits] in F1. now apply printf_spec. }
    destruct G as (w1 & E & H1). rewrite E. cbn [obind]. destruct (IH _ _ H1 F2) as (w' & E' & H'). exists w'. split; [exact E'|]. now rewrite app_assoc.
Qed.
(** any calls, then a flush (or the destructor): the underlying writer has received the written characters, all of them, once, in order *)
Theorem C51_buffered_writer cap l : 0 < cap -> Forall (fits cap) l ->
  exists w w', wsteps cap (writer_new cap) l = Some w /\ flush w = Some w' /\ out w' = concat (map written l).
Proof.
  intros Hc Hf. destruct (wsteps_sim cap Hc l _ _ (new_wsim cap Hc) Hf) as (w & E & H). destruct (flush_spec cap Hc w _ H) as (w' & E' & _ & _ & O).
  exists w, w'. now repeat split.
Qed.
(** at every moment the underlying writer has received a prefix, and at most a buffer full is missing *)
Theorem C51_never_ahead cap l : 0 < cap -> Forall (fits cap) l ->
  exists w held, wsteps cap (writer_new cap) l = Some w /\ out w ++ held = concat (map written l) /\ length held <= cap.
Proof.
  intros Hc Hf. destruct (wsteps_sim cap Hc l _ _ (new_wsim cap Hc) Hf) as (w & E & (A & B & C)). exists w, (firstn (wptr w) (wbuff w)). split; [exact E|].
  split; [exact C|]. rewrite firstn_length. lia.
Qed.
(** string_writer: the target receives the text, cut off at its capacity *)
Theorem C51_string_writer cap (l : list (list Z + Z)) :
  fold_left (fun o x => match x with inl s => sw_write cap o s | inr c => sw_char cap o c end) l [] = firstn cap (concat (map (fun x => match x with inl s => s | inr c => [c] end) l)).
Proof.
  set (g := fun o (x : list Z + Z) => match x with inl s => sw_write cap o s | inr c => sw_char cap o c end).
  set (txt := fun x : list Z + Z => match x with inl s => s | inr c => [c] end).
  assert (G : forall l W, fold_left g l (firstn cap W) = firstn cap (W ++ concat (map txt l))).
  { clear l. intros l. induction l as [|x l IH]; intros W; cbn [fold_left map concat]; [now rewrite app_nil_r|]. rewrite app_assoc, <- IH. f_equal.
    assert (L : length (firstn cap W) = Nat.min cap (length W)) by apply firstn_length.
    assert (K : forall s, sw_write cap (firstn cap W) s = firstn cap (W ++ s)).
    { intros s. unfold sw_write. rewrite L. rewrite firstn_app. destruct (cap <=? Nat.min cap (length W)) eqn:Q.
      - apply Nat.leb_le in Q. replace (cap - length W) with 0 by lia. now rewrite firstn_O, app_nil_r.
      - apply Nat.leb_gt in Q. f_equal. replace (cap - Nat.min cap (length W)) with (cap - length W) by lia.
        destruct (Nat.le_ge_cases (length s) (cap - length W)); [rewrite !firstn_all2 by lia; reflexivity|]. f_equal. lia. }
    unfold g, txt. destruct x as [s|c]; [apply K|]. rewrite <- K. unfold sw_char, sw_write. rewrite L. destruct (cap <=? Nat.min cap (length W)) eqn:Q; [reflexivity|].
    apply Nat.leb_gt in Q. f_equal. cbn [length]. replace (Nat.min 1 (cap - Nat.min cap (length W))) with 1 by lia. reflexivity. }
  specialize (G l []). now rewrite firstn_nil in G.
Qed.
Example C51_case : let ops := [WChar 65; Write [66; 67; 68; 69; 70]; Printf 3 [71; 72]; Flush; WChar 73]%Z in
  Forall (fits 3) ops /\ option_map out (let* w := wsteps 3 (writer_new 3) ops in flush w) = Some [65; 66; 67; 68; 69; 70; 71; 72; 73]%Z.
Proof. split; [repeat constructor; cbn; lia|]. vm_compute. reflexivity. Qed.
(** REFUTED without capacity >= 1: write makes no progress (the flushed writer is in the state it was in), so it never ends *)
Theorem C51_capacity_refuted : flush (writer_new 0) = Some (mkw [0%Z] 0 [] 1) /\ write 0 (writer_new 0) [65%Z] = None.
Proof. split; vm_compute; reflexivity. Qed.
Print Assumptions C51_buffered_writer. Print Assumptions C51_never_ahead. Print Assumptions C51_string_writer. Print Assumptions C51_capacity_refuted.

(** * C52 *)
(** writing: an optional minus and the decimal digits of the magnitude, padded with zeros to len digits and no further *)
Theorem C52_write cap wd l d len : 0 < cap -> Forall (fits cap) l -> (wd <= 64)%Z -> (- 2 ^ (wd - 1) < d < 2 ^ (wd - 1))%Z -> len <= 50 ->
  exists w w1 w2 dg, wsteps cap (writer_new cap) l = Some w /\ write_integral cap wd w d len = Some w1 /\ flush w1 = Some w2 /\
    out w2 = concat (map written l) ++ sign d ++ dg /\ decimal (Z.abs d) len dg.
Proof.
  intros Hc Hf Hw Hd Hl. destruct (wsteps_sim cap Hc l _ _ (new_wsim cap Hc) Hf) as (w & E & H).
  destruct (write_integral_spec cap wd w _ d len Hc H Hd Hw Hl) as (w1 & dg & E1 & H1 & D). destruct (flush_spec cap Hc w1 _ H1) as (w2 & E2 & _ & _ & O).
  exists w, w1, w2, dg. split; [exact E|]. split; [exact E1|]. split; [exact E2|]. split; [exact O|exact D].
Qed.
(** reading: blanks, an optional sign, digits, and then anything that is not a digit *)
Theorem C52_read chunk cap s r v wd ws sg dg q : honest chunk -> 0 < cap -> history chunk cap s r v ->
  pend v = ws ++ sg ++ dg ++ q -> Forall blank ws -> (sg = [] \/ sg = [43%Z] \/ sg = [45%Z]) -> dg <> [] -> Forall is_digit dg ->
  (q <> [] -> ~ is_digit (hd 0%Z q) /\ hd 0%Z q <> (-1)%Z) -> (value dg < 2 ^ (wd - 1))%Z ->
  exists r', read_integral chunk cap wd r = Some (r', if (hd 0 sg =? 45)%Z then - value dg else value dg)%Z /\ pending r' = q.
Proof.
  intros Hh Hc H Hp Hw Hs Hn Hd Hq Hv. apply history_sim in H; [|exact Hh|exact Hc]. destruct v as [p l f]. cbn [pend] in Hp. subst p.
  destruct (read_integral_spec chunk cap Hh Hc wd r ws sg dg q l f H Hw Hs Hn Hd Hq Hv) as (r' & E & H'). exists r'. split; [exact E|]. now destruct H' as (_ & P & _).
Qed.
(** the round trip: what was written, between blanks and a non-digit, reads back as the same number *)
Theorem C52_round_trip chunk cap capw wd d len ws q : honest chunk -> 0 < cap -> 0 < capw -> (wd <= 64)%Z -> (- 2 ^ (wd - 1) < d < 2 ^ (wd - 1))%Z -> 1 <= len <= 50 ->
  Forall blank ws -> (q <> [] -> ~ is_digit (hd 0%Z q) /\ hd 0%Z q <> (-1)%Z) ->
  exists w1 w2 r', write_integral capw wd (writer_new capw) d len = Some w1 /\ flush w1 = Some w2 /\
    read_integral chunk cap wd (reader_new cap (ws ++ out w2 ++ q)) = Some (r', d) /\ pending r' = q.
Proof.
  intros Hh Hc Hcw Hw Hd Hl Hws Hq. destruct (write_integral_spec capw wd _ _ d len Hcw (new_wsim capw Hcw) Hd Hw ltac:(lia)) as (w1 & dg & E1 & H1 & (D1 & D2 & D3 & D4)).
  destruct (flush_spec capw Hcw w1 _ H1) as (w2 & E2 & _ & _ & O).
  destruct (C52_read chunk cap (ws ++ out w2 ++ q) (reader_new cap (ws ++ out w2 ++ q)) (mkv (ws ++ out w2 ++ q) None false) wd ws (sign d) dg q) as (r' & E & P); try assumption.
  - constructor.
  - cbn [pend]. rewrite O. cbn [app]. now rewrite <- app_assoc.
  - unfold sign. destruct (d <? 0)%Z; auto.
  - destruct dg; [cbn in D3; lia|discriminate].
  - lia.
  - exists w1, w2, r'. split; [exact E1|]. split; [exact E2|]. split; [|exact P]. rewrite E. do 2 f_equal. rewrite D2. unfold sign. destruct (Z.ltb_spec d 0); cbn; lia.
Qed.
(** words and lines *)
Theorem C52_read_string chunk cap s r v ws t q : honest chunk -> 0 < cap -> history chunk cap s r v -> pend v = ws ++ t ++ q ->
  Forall blank ws -> Forall (fun c => 32 < c)%Z t -> t <> [] -> (q <> [] -> blank (hd 0%Z q)) ->
  exists r', read_string chunk cap r = Some (r', t) /\ pending r' = q.
Proof.
  intros Hh Hc H Hp Hw Ht Hn Hq. apply history_sim in H; [|exact Hh|exact Hc]. destruct v as [p l f]. cbn [pend] in Hp. subst p.
  destruct (read_string_spec chunk cap Hh Hc r ws t q l f H Hw Ht Hn Hq) as (r' & E & H'). exists r'. split; [exact E|]. now destruct H' as (_ & P & _).
Qed.
Theorem C52_read_line chunk cap s r v t q delim : honest chunk -> 0 < cap -> history chunk cap s r v -> pend v = t ++ q ->
  Forall (fun c => c <> delim /\ c <> (-1)%Z) t -> (q <> [] -> hd 0%Z q = delim) ->
  exists r', read_line chunk cap r delim = Some (r', t) /\ pending r' = tl q /\ read_failed r' = (failed v || isnil q)%bool.
Proof.
  intros Hh Hc H Hp Ht Hq. apply history_sim in H; [|exact Hh|exact Hc]. destruct v as [p l f]. cbn [pend] in Hp. subst p.
  destruct (read_line_spec chunk cap Hh Hc r t q l f delim H Ht Hq) as (r' & E & l' & H'). exists r'. split; [exact E|]. destruct H' as (_ & P & F & _). now split.
Qed.
Example C52_case :
  (let* w1 := write_integral 4 32 (writer_new 4) (-120) 5 in let* w2 := flush w1 in
   let* '(r', x) := read_integral drip 3 32 (reader_new 3 ([32; 10] ++ out w2 ++ [44; 49])%Z) in Some (out w2, x, pending r')) =
  Some ([45; 48; 48; 49; 50; 48], -120, [44; 49])%Z.
Proof. vm_compute. reflexivity. Qed.
(** REFUTED for the least value of the type: its negation is undefined when writing, and reading its text overflows *)
Theorem C52_min_refuted : write_integral 8 32 (writer_new 8) (- 2 ^ 31) 1 = None /\
  read_integral string_chunk 16 32 (reader_new 16 [45; 50; 49; 52; 55; 52; 56; 51; 54; 52; 56]%Z) = None.
Proof. split; vm_compute; reflexivity. Qed.
(** REFUTED for len > 50: only 50 digits are written *)
Theorem C52_len_refuted : option_map (fun w => wptr w) (write_integral 80 32 (writer_new 80) 7 60) = Some 50.
Proof. vm_compute. reflexivity. Qed.
Print Assumptions C52_write. Print Assumptions C52_read. Print Assumptions C52_round_trip. Print Assumptions C52_read_string. Print Assumptions C52_read_line.
Print Assumptions C52_min_refuted. Print Assumptions C52_len_refuted.
