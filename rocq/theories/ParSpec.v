(** What a parallel execution must achieve. *)
From Verif Require Import Lib ParModel.
From Coq Require Import Permutation.
Open Scope nat_scope.

(** the jobs a provider hands out when it is asked one by one, and the provider that is left *)
Inductive supplies {P J} (has_next : P -> bool) (next : P -> J * P) : P -> list J -> P -> Prop :=
| Sup_nil p : supplies has_next next p [] p
| Sup_cons p j p1 js p2 : has_next p = true -> next p = (j, p1) -> supplies has_next next p1 js p2 -> supplies has_next next p (j :: js) p2.
(** all of them *)
Definition all_jobs {P J} (has_next : P -> bool) (next : P -> J * P) (p : P) (js : list J) : Prop := exists q, supplies has_next next p js q /\ has_next q = false.

(** the calls seen in a trace *)
Definition taken {J R} (tr : list (event J R)) : list J := flat_map (fun e => match e with ENext _ j => [j] | _ => [] end) tr.
Definition executed {J R} (tr : list (event J R)) : list (R * J) := flat_map (fun e => match e with EExec _ j r => [(r, j)] | _ => [] end) tr.
Definition collected {J R} (tr : list (event J R)) : list (R * J) := flat_map (fun e => match e with ECollect _ r j => [(r, j)] | _ => [] end) tr.
(** consecutive pieces of [a, b), none longer than len *)
Inductive pieces (len : Z) : Z -> Z -> list (Z * Z) -> Prop :=
| P_nil a : pieces len a a []
| P_cons a m b l : (a < m)%Z -> (m - a <= len)%Z -> (m <= b)%Z -> pieces len m b l -> pieces len a b ((a, m) :: l).
