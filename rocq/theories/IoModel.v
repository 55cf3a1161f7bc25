(** Model of io/reader.h and io/writer.h (buffered_reader, simple_reader, string_reader, buffered_writer, simple_writer,
    string_writer). Characters are signed 8-bit values as integers. Buffers are memory cells with positions;
    reading or writing outside the allocated capacity + 1 cells is [None]. *)
From Verif Require Import Lib.
Open Scope nat_scope.

(** std::copy(src, buff + pos) *)
Definition blit (buff : list Z) (pos : nat) (src : list Z) : option (list Z) :=
  let* _ := guard (pos + length src <=? length buff) in
  Some (firstn pos buff ++ src ++ skipn (pos + length src) buff).
(** the cells [a, b) *)
Definition cells (buff : list Z) (a b : nat) : option (list Z) :=
  let* _ := guard ((a <=? b) && (b <=? length buff)) in Some (firstn (b - a) (skipn a buff)).

(** * Reader *)
Section Reader.
  (** the underlying reader: [chunk t req rem] is how many characters its t-th read(.., req) call delivers when rem remain *)
  Variable chunk : nat -> nat -> nat -> nat.
  Variable capacity : nat.
  Record reader := mkr { buff : list Z; ptr : nat; end_ : nat; read_failed : bool; rest : list Z; calls : nat }.
  (** constructor: reader.h 147-152 *)
  Definition reader_new (s : list Z) : reader := mkr (repeat 0%Z (capacity + 1)) 0 0 false s 0.
  (** refill: reader.h 164-179 *)
  Definition refill (r : reader) : option (reader * nat) :=
    let* l := cells (buff r) (ptr r) (end_ r) in
    let* b := blit (buff r) 0 l in
    let available := length l in
    let* '(b, e, s, t) := loopZ (Z.of_nat capacity + 2) (fun '(b, e, s, t) =>
      if e <? capacity then
        let len := chunk t (capacity - e) (length s) in
        if len =? 0 then Some (inr (b, e, s, t + 1)) else
        let* _ := guard (len <=? length s) in
        let* b := blit b e (firstn len s) in Some (inl (b, e + len, skipn len s, t + 1))
      else Some (inr (b, e, s, t))) (b, available, rest r, calls r) in
    let* b := set_nth b e 0%Z in
    Some (mkr b 0 e (read_failed r) s t, e).
  (** reserve: reader.h 183-186 *)
  Definition reserve (r : reader) (count : nat) : option (reader * nat) :=
    let* _ := guard (ptr r <=? end_ r) in
    let available := end_ r - ptr r in
    if count <=? available then Some (r, available) else refill r.
  Definition fail (r : reader) : reader := mkr (buff r) (ptr r) (end_ r) true (rest r) (calls r).
  Definition seek (r : reader) (p : nat) : reader := mkr (buff r) p (end_ r) (read_failed r) (rest r) (calls r).
  (** data: reader.h 191-198; the result is the text between ptr and end, or None for nullptr *)
  Definition data (r : reader) (count : nat) : option (reader * option (list Z)) :=
    let* '(r, available) := reserve r count in
    if available <? count then Some (fail r, None) else let* l := cells (buff r) (ptr r) (end_ r) in Some (r, Some l).
  (** skip: reader.h 215-220 *)
  Definition skip (r : reader) (count : nat) : option (reader * nat) :=
    let* _ := guard (ptr r <=? end_ r) in
    let count := Nat.min count (end_ r - ptr r) in Some (seek r (ptr r + count), count).
  (** unread_char: reader.h 225-227 *)
  Definition unread_char (r : reader) : option reader := match ptr r with O => None | S p => Some (seek r p) end.
  (** read_char: reader.h 229-236 *)
  Definition read_char (r : reader) : option (reader * Z) :=
    let* '(r, available) := reserve r 1 in
    if available <? 1 then Some (fail r, (-1)%Z) else
    let* c := nth_error (buff r) (ptr r) in Some (seek r (ptr r + 1), c).
  (** read: reader.h 238-245 *)
  Definition read (r : reader) (count : nat) : option (reader * list Z) :=
    let* '(r, available) := reserve r count in
    let r := if available <? count then fail r else r in
    let count := Nat.min count available in
    let* l := cells (buff r) (ptr r) (ptr r + count) in Some (seek r (ptr r + count), l).

  (** * simple_reader. The loops read at most the remaining characters; [fuel] counts them *)
  Definition fuel (r : reader) : Z := (Z.of_nat (length (rest r) + end_ r) + 2)%Z.
  (** read_line: reader.h 268-276 *)
  Definition read_line (r : reader) (delim : Z) : option (reader * list Z) :=
    let* '(r, c) := read_char r in
    loopZ (fuel r) (fun '(r, c, s) =>
      if negb (c =? delim)%Z && negb (c =? -1)%Z then let* '(r, c') := read_char r in Some (inl (r, c', s ++ [c])) else Some (inr (r, s))) (r, c, []).
  Definition unread_unless_eof (r : reader) (c : Z) : option reader := if (c =? -1)%Z then Some r else unread_char r.
  (** skip_whitespaces: reader.h 292-298 *)
  Definition skip_whitespaces (r : reader) : option reader :=
    let* '(r, c) := read_char r in
    let* '(r, c) := loopZ (fuel r) (fun '(r, c) => if (0 <=? c)%Z && (c <=? 32)%Z then let* '(r, c) := read_char r in Some (inl (r, c)) else Some (inr (r, c))) (r, c) in
    unread_unless_eof r c.
  (** read_string: reader.h 279-289 *)
  Definition read_string (r : reader) : option (reader * list Z) :=
    let* r := skip_whitespaces r in
    let* '(r, c) := read_char r in
    let* '(r, c, s) := loopZ (fuel r) (fun '(r, c, s) =>
      if (32 <? c)%Z then let* '(r, c') := read_char r in Some (inl (r, c', s ++ [c])) else Some (inr (r, c, s))) (r, c, []) in
    let* r := unread_unless_eof r c in Some (r, s).
  (** read_sign: reader.h 302-308 *)
  Definition read_sign (r : reader) : option (reader * Z) :=
    let* '(r, c) := read_char r in
    if (c =? 45)%Z then Some (r, (-1)%Z) else if (c =? 43)%Z then Some (r, 1%Z) else
    let* r := unread_unless_eof r c in Some (r, 1%Z).
  (** arithmetic in a signed type of w bits *)
  Definition in_width (w : Z) (x : Z) : option Z := if (- 2 ^ (w - 1) <=? x)%Z && (x <? 2 ^ (w - 1))%Z then Some x else None.
  (** read_digits<I>: reader.h 311-323; the digit counter is not modelled for integers *)
  Definition read_digits (w : Z) (r : reader) (d : Z) : option (reader * Z) :=
    let* '(r, c) := read_char r in
    let* '(r, c, d) := loopZ (fuel r) (fun '(r, c, d) =>
      if (48 <=? c)%Z && (c <=? 57)%Z then
        let* d := in_width w (d * 10)%Z in let* d := in_width w (d + (c - 48))%Z in
        let* '(r, c) := read_char r in Some (inl (r, c, d))
      else Some (inr (r, c, d))) (r, c, d) in
    let* r := unread_unless_eof r c in Some (r, d).
  (** read_integral_number<I>: reader.h 326-332 *)
  Definition read_integral (w : Z) (r : reader) : option (reader * Z) :=
    let* r := skip_whitespaces r in
    let* '(r, s) := read_sign r in
    let* '(r, d) := read_digits w r 0%Z in
    let* d := (if (s <? 0)%Z then in_width w (- d)%Z else Some d) in Some (r, d).
End Reader.

(** string_reader: reader.h 94-126, as the chunk schedule it produces *)
Definition string_chunk (t req rem : nat) : nat := Nat.min req rem.

(** * Writer. [out] is everything the underlying writer has received, [flushes] counts its flush() calls *)
Section Writer.
  Variable capacity : nat.
  Record writer := mkw { wbuff : list Z; wptr : nat; out : list Z; flushes : nat }.
  (** constructor: writer.h 145-151 *)
  Definition writer_new : writer := mkw (repeat 0%Z (capacity + 1)) 0 [] 0.
  (** flush: writer.h 159-165; the destructor 153-156 calls it *)
  Definition flush (w : writer) : option writer :=
    let* l := cells (wbuff w) 0 (wptr w) in let* b := set_nth (wbuff w) 0 0%Z in Some (mkw b 0 (out w ++ l) (flushes w + 1)).
  (** reserve: writer.h 169-172 *)
  Definition wreserve (w : writer) (count : nat) : option (writer * nat) :=
    let* _ := guard (wptr w <=? capacity) in
    if count <=? capacity - wptr w then Some (w, capacity - wptr w) else let* w := flush w in Some (w, capacity - wptr w).
  (** write_char: writer.h 194-200 *)
  Definition write_char (w : writer) (c : Z) : option writer :=
    let* w := (if capacity <=? wptr w then flush w else Some w) in
    let* b := set_nth (wbuff w) (wptr w) c in Some (mkw b (wptr w + 1) (out w) (flushes w)).
  (** write: writer.h 202-213. end - ptr is unsigned: ptr beyond end is [None] *)
  Definition write (w : writer) (l : list Z) : option writer :=
    loopZ (2 * Z.of_nat (length l) + 3) (fun '(w, l) =>
      if length l =? 0 then Some (inr w) else
      let* _ := guard (wptr w <=? capacity) in
      let len := Nat.min (capacity - wptr w) (length l) in
      let* b := blit (wbuff w) (wptr w) (firstn len l) in
      let w := mkw b (wptr w + len) (out w) (flushes w) in
      let l := skipn len l in
      if 0 <? length l then let* w := flush w in Some (inl (w, l)) else Some (inl (w, l))) (w, l).
  (** sprintf into data() followed by advance(): writer.h 182-192. strlen stops at the first zero *)
  Fixpoint strlen (l : list Z) : option nat := match l with [] => None | c :: l => if (c =? 0)%Z then Some 0 else let* n := strlen l in Some (n + 1) end.
  Definition printf (w : writer) (count : nat) (s : list Z) : option writer :=
    let* '(w, available) := wreserve w count in
    let* _ := guard (length s <? available) in
    let* b := blit (wbuff w) (wptr w) (s ++ [0%Z]) in
    let* n := strlen (skipn (wptr w) b) in Some (mkw b (wptr w + n) (out w) (flushes w)).

  (** write_integral_number<I>: writer.h 245-261; tc has 50 cells *)
  Definition digits_loop (d : Z) (len : nat) : option (list Z) :=
    loopZ 52 (fun '(d, i, tc) =>
      if ((0 <? d)%Z || (i <? len)) && (i <? 50) then Some (inl (Z.quot d 10, i + 1, tc ++ [(Z.rem d 10 + 48)%Z])) else Some (inr tc)) (d, 0, []).
  Fixpoint write_chars (w : writer) (l : list Z) : option writer := match l with [] => Some w | c :: l => let* w := write_char w c in write_chars w l end.
  Definition write_integral (wd : Z) (w : writer) (d : Z) (len : nat) : option writer :=
    let* '(w, d) := (if (d <? 0)%Z then let* d := in_width wd (- d)%Z in let* w := write_char w 45 in Some (w, d) else Some (w, d)) in
    let* tc := digits_loop d len in write_chars w (rev tc).
End Writer.

(** string_writer: writer.h 97-124. The target holds [capacity] cells; [o] are the cells written *)
Definition sw_char (capacity : nat) (o : list Z) (c : Z) : list Z := if capacity <=? length o then o else o ++ [c].
Definition sw_write (capacity : nat) (o l : list Z) : list Z := if capacity <=? length o then o else o ++ firstn (Nat.min (length l) (capacity - length o)) l.
