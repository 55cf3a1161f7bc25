(** What a buffered reader and a buffered writer promise, with no buffer in sight. *)
From Verif Require Import Lib.
Open Scope nat_scope.

(** * Reading. The state a client can reason about: the characters not delivered yet, the character that may be
    unread (the last call was a successful read_char), and the failure flag *)
Record rview := mkv { pend : list Z; last : option Z; failed : bool }.
Inductive rop := ReadChar | Read (n : nat) | Skip (n : nat) | Unread | Data (n : nat) | Reserve (n : nat).
Inductive rout := OInt (c : Z) | OBytes (l : list Z) | OCount (n : nat) | OPtr (l : list Z) | ONull | OUnit.
(** [cap]: the size of the buffer. A request for more than it holds may come back short *)
Inductive rspec (cap : nat) : rview -> rop -> rout -> rview -> Prop :=
| S_char c p l f : rspec cap (mkv (c :: p) l f) ReadChar (OInt c) (mkv p (Some c) f)
| S_eof l f : rspec cap (mkv [] l f) ReadChar (OInt (-1)) (mkv [] None true)
| S_read p l f n k : k <= n -> k <= length p -> (n <= cap -> k = Nat.min n (length p)) -> (k = 0 -> n = 0 \/ p = []) ->
    rspec cap (mkv p l f) (Read n) (OBytes (firstn k p)) (mkv (skipn k p) None (f || (k <? n)))
| S_skip p l f n k : k <= n -> k <= length p -> rspec cap (mkv p l f) (Skip n) (OCount k) (mkv (skipn k p) None f)
| S_unread p c f : rspec cap (mkv p (Some c) f) Unread OUnit (mkv (c :: p) None f)
| S_data p l f n k : n <= k -> k <= length p -> rspec cap (mkv p l f) (Data n) (OPtr (firstn k p)) (mkv p None f)
| S_null p l f n : (n <= cap -> length p < n) -> rspec cap (mkv p l f) (Data n) ONull (mkv p None true)
| S_reserve p l f n k : k <= length p -> (n <= cap -> Nat.min n (length p) <= k) -> rspec cap (mkv p l f) (Reserve n) (OCount k) (mkv p None f).
(** the documented contract: unread only directly after a successful read_char *)
Definition legal (v : rview) (o : rop) : Prop := o = Unread -> last v <> None.

(** the underlying reader delivers something as long as something is left, and never too much *)
Definition honest (chunk : nat -> nat -> nat -> nat) : Prop :=
  forall t req rem, chunk t req rem <= Nat.min req rem /\ (0 < req -> 0 < rem -> 0 < chunk t req rem).

(** * Writing *)
Inductive wop := WChar (c : Z) | Write (l : list Z) | Flush | Reserve_ (n : nat) | Printf (n : nat) (s : list Z).
Definition written (o : wop) : list Z := match o with WChar c => [c] | Write l => l | Printf _ s => s | _ => [] end.
(** sprintf output fits the reserved space and has no zero in it *)
Definition fits (cap : nat) (o : wop) : Prop := match o with Printf n s => length s < n /\ n <= cap /\ ~ In 0%Z s | _ => True end.

(** * Decimal notation *)
Definition is_digit (c : Z) : Prop := (48 <= c <= 57)%Z.
(** the value of a digit string, most significant digit first *)
Definition value (l : list Z) : Z := fold_left (fun a c => a * 10 + (c - 48))%Z l 0%Z.
(** l is d in decimal, padded with zeros to at least len digits and no further *)
Definition decimal (d : Z) (len : nat) (l : list Z) : Prop :=
  Forall is_digit l /\ value l = d /\ len <= length l /\ (len < length l -> hd 48%Z l <> 48%Z).
Definition sign (d : Z) : list Z := if (d <? 0)%Z then [45%Z] else [].
Definition blank (c : Z) : Prop := (0 <= c <= 32)%Z.
