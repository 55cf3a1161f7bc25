(** C152: range minimum queries. *)
From Coq Require Import ZArith List PeanoNat Lia Bool.
From Verif Require Import Lib BitsModel RmqModel RmqSpec RmqProofs RmqProofs2.
Import ListNotations.

(** After [build] over any sequence, whatever the order, the block size and the filler of the last block, the answer for
    every nonempty range is the first position of a least element of that range. *)
Theorem C152_first_minimum : forall (A : Type) (comp : A -> A -> bool) (B : nat) (dflt : A) (l : list A),
  strict_weak comp -> 0 < B -> (Z.of_nat (length l) < 2 ^ 31)%Z ->
  exists s, build comp B dflt l = Some s /\
    forall b e, b < e <= length l ->
      exists i, get_index comp B s b e = Some i /\ first_min comp l b e i /\ get_value comp B s b e = nth_error l i.
Proof.
  intros A comp B dflt l SW HB HL. destruct (rmq_ok comp B dflt SW l HB HL) as (s & E & _ & Q).
  exists s. split; [exact E|exact Q].
Qed.

(** The answer is the only one: two structures, with whatever block sizes and fillers, agree. *)
Theorem C152_block_size_irrelevant : forall (A : Type) (comp : A -> A -> bool) (B B' : nat) (dflt dflt' : A) (l : list A) s s' b e,
  strict_weak comp -> 0 < B -> 0 < B' -> (Z.of_nat (length l) < 2 ^ 31)%Z ->
  build comp B dflt l = Some s -> build comp B' dflt' l = Some s' -> b < e <= length l ->
  get_index comp B s b e = get_index comp B' s' b e.
Proof.
  intros A comp B B' dflt dflt' l s s' b e SW HB HB' HL E E' H.
  destruct (rmq_ok comp B dflt SW l HB HL) as (s1 & E1 & _ & Q). destruct (rmq_ok comp B' dflt' SW l HB' HL) as (s2 & E2 & _ & Q').
  rewrite E in E1. injection E1 as <-. rewrite E' in E2. injection E2 as <-.
  destruct (Q b e H) as (i & -> & M & _). destruct (Q' b e H) as (j & -> & M' & _). f_equal.
  destruct M as (R & x & Ex & M1 & M2), M' as (R' & y & Ey & M1' & M2').
  destruct (Nat.lt_trichotomy i j) as [L|[L|L]]; [|exact L|].
  - pose proof (M2' i x ltac:(lia) Ex). pose proof (M1 j y ltac:(lia) Ey). congruence.
  - pose proof (M2 j y ltac:(lia) Ey). pose proof (M1' i x ltac:(lia) Ex). congruence.
Qed.

(** [size] counts the filler too: it is the length rounded up to a whole number of blocks. *)
Theorem C152_size_is_padded : forall (A : Type) (comp : A -> A -> bool) (B : nat) (dflt : A) (l : list A) s,
  strict_weak comp -> 0 < B -> (Z.of_nat (length l) < 2 ^ 31)%Z -> build comp B dflt l = Some s ->
  length l <= size s < length l + B /\ Nat.divide B (size s).
Proof.
  intros A comp B dflt l s SW HB HL E. destruct (rmq_ok comp B dflt SW l HB HL) as (s1 & E1 & S1 & _).
  rewrite E in E1. injection E1 as <-. rewrite S1. split; [|exists ((length l + B - 1) / B); reflexivity].
  pose proof (Nat.div_mod_eq (length l + B - 1) B). pose proof (Nat.mod_upper_bound (length l + B - 1) B ltac:(lia)). nia.
Qed.
Theorem C152_size_refuted : ~ (forall (A : Type) (comp : A -> A -> bool) (B : nat) (dflt : A) (l : list A) s,
  strict_weak comp -> 0 < B -> build comp B dflt l = Some s -> size s = length l).
Proof.
  intro H.
  assert (SW : strict_weak Nat.ltb).
  { split; [intro; apply Nat.ltb_irrefl|]. split.
    - intros x y E. apply Nat.ltb_lt in E. apply Nat.ltb_ge. lia.
    - intros x y z E1 E2. apply Nat.ltb_ge in E1, E2. apply Nat.ltb_ge. lia. }
  specialize (H nat Nat.ltb 2 0 [5] _ SW ltac:(lia) eq_refl). cbv in H. discriminate.
Qed.

(** The library's integer logarithm by multiplication, for every 32 bit number. *)
Theorem C152_log2 : forall x : Z, (0 <= x < 2 ^ 32)%Z -> log2_32 x = Some (Z.log2 x).
Proof. exact log2_32_ok. Qed.

Definition rmq_sample : list nat := [5; 2; 8; 2; 9; 1; 7; 3; 1; 4; 6; 2; 8].
Example C152_case : match build Nat.ltb 3 0 rmq_sample with
  | Some s => get_index Nat.ltb 3 s 1 5 = Some 1 /\ get_index Nat.ltb 3 s 0 13 = Some 5 /\ get_index Nat.ltb 3 s 6 13 = Some 8 /\
              get_value Nat.ltb 3 s 9 13 = Some 2 /\ size s = 15
  | None => False
  end.
Proof. vm_compute. repeat split. Qed.
Print Assumptions C152_first_minimum.
Print Assumptions C152_block_size_irrelevant.
Print Assumptions C152_size_is_padded.
Print Assumptions C152_size_refuted.
Print Assumptions C152_log2.
