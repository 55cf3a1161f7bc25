(** Specification of the palindromes in a string. *)
From Coq Require Import List PeanoNat ZArith.
From Verif Require Import PalModel.
Import ListNotations.

Definition palindrome (s : list nat) : bool := if list_eq_dec Nat.eq_dec (rev s) s then true else false.
Definition is_suffix (q s : list nat) : Prop := exists u, s = u ++ q.
(** p is the longest palindromic suffix of s *)
Definition longest_pal_suffix (s p : list nat) : Prop :=
  is_suffix p s /\ palindrome p = true /\ forall q, is_suffix q s -> palindrome q = true -> length q <= length p.
(** the nonempty suffixes and prefixes, each once *)
Fixpoint suffixes (s : list nat) : list (list nat) := match s with [] => [] | _ :: r => s :: suffixes r end.
Definition prefixes (s : list nat) : list (list nat) := map (fun n => firstn n s) (seq 1 (length s)).
(** the nonempty substrings, each as often as it occurs *)
Definition substrings (s : list nat) : list (list nat) := flat_map suffixes (prefixes s).
Definition palindromes (s : list nat) : list (list nat) := filter palindrome (substrings s).
Definition distinct_of (l : list (list nat)) : list (list nat) := nodup (list_eq_dec Nat.eq_dec) l.
Definition times (p : list nat) (l : list (list nat)) : nat := count_occ (list_eq_dec Nat.eq_dec) l p.
(** p occurs in s at position i, and nowhere before *)
Definition first_at (p s : list nat) (i : nat) : Prop :=
  (exists u v, s = u ++ p ++ v /\ length u = i) /\ forall u v, s = u ++ p ++ v -> i <= length u.
(** ps lists the palindromes of the nodes from RESERVED on: node of p, NIL if there is none *)
Definition node_of (ps : list (list nat)) (p : list nat) (i : nat) : Prop :=
  i = EMPTY /\ p = [] \/ exists j, nth_error ps j = Some p /\ i = RESERVED + j.
