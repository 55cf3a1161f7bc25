(** What a call of the visitor of a walk says. *)
From Verif Require Import Lib.
Open Scope nat_scope.

(** (chain_begin, chain_end, path_first, path_last, path_length, direction) *)
Notation call := (Z * Z * Z * Z * Z * bool)%type.
(** the index on the path and the node, for every position of the segment *)
Definition covers (node : nat -> option (option nat)) (c : call) : list (Z * option nat) :=
  let '(b, e, f, _, _, rev) := c in
  map (fun t => ((if rev : bool then f - Z.of_nat t else f + Z.of_nat t)%Z, match node (Z.to_nat b + t) with Some x => x | None => None end)) (seq 0 (Z.to_nat (e - b))).
(** the segment is not empty, its last position has the index path_last, and the length of the path is total *)
Definition call_ok (total : Z) (c : call) : Prop :=
  let '(b, e, f, l, uv, rev) := c in (0 <= b < e /\ uv = total /\ l = if rev : bool then f - (e - b - 1) else f + (e - b - 1))%Z.
