(** Model of structure/container/bit_vector.h. Words of 2^k bits are integers as in BitsModel (k = 3, 4, 5, 6 for the four unsigned
    types); sizes and positions are naturals (no wrap-around of size_t). Reads and writes outside the word vector, and shifts by a
    word width or more, are None. *)
From Verif Require Import Lib BitsModel.
Open Scope nat_scope.

(** sz and words: 41-42 *)
Definition bvec := (nat * list Z)%type.

Section BitVec.
Variable k : nat.
(** L: 26; WW: 25 *)
Definition L : nat := 2 ^ k.
Definition W : Z := width k.
Definition WW : Z := bnot W 0%Z.
(** a shift of a word by a bit count *)
Definition lsh (x : Z) (l : nat) : option Z := shl W x (Z.of_nat l).
Definition rsh (x : Z) (l : nat) : option Z := shr W x (Z.of_nat l).

(** num_words: 332-334; first_bits: 337-339 *)
Definition num_words (sz : nat) : nat := (sz + L - 1) / L.
Definition first_bits (l : nat) : option Z := make_ones W (Z.of_nat l).
(** bit_vector(sz): 45 *)
Definition bv_new (sz : nat) : bvec := (sz, repeat 0%Z (num_words sz + 1)).
(** std::vector::resize *)
Definition vec_resize (ws : list Z) (n : nat) : list Z := firstn n ws ++ repeat 0%Z (n - length ws).
(** resize: 319-324; words.back() = W0 *)
Definition bv_resize (v : bvec) (n : nat) : option bvec :=
  let ws := vec_resize (snd v) (num_words n + 1) in
  let* w := nth_error ws (n / L) in let* m := first_bits (n mod L) in
  let* ws := set_nth ws (n / L) (Z.land w m) in
  let* ws := set_nth ws (length ws - 1) 0%Z in Some (n, ws).
(** reserve: 314-316 *)
Definition bv_reserve (v : bvec) (n : nat) : option bvec := if fst v <? n then bv_resize v n else Some v.
(** set: 268-279 *)
Definition bv_set_words (ws : list Z) (pos : nat) (val : Z) : option (list Z) :=
  let i := pos / L in
  let* m := lsh 1 (pos mod L) in let* w := nth_error ws i in
  if (val =? 0)%Z then set_nth ws i (Z.land w (bnot W m)) else
  if (val =? 1)%Z then set_nth ws i (Z.lor w m) else
  if (val =? -1)%Z then set_nth ws i (Z.lxor w m) else Some ws.
Definition bv_set (v : bvec) (pos : nat) (val : Z) : option bvec := let* ws := bv_set_words (snd v) pos val in Some (fst v, ws).
(** bit_at: 282-285 *)
Definition bv_bit_at (v : bvec) (pos : nat) : option Z := let* w := nth_error (snd v) (pos / L) in let* x := rsh w (pos mod L) in Some (Z.land x 1).
(** bit_proxy assignments: 35-38 *)
Definition proxy_set (v : bvec) (pos : nat) (val : Z) : option bvec := bv_set v pos (Z.land val 1).
Definition proxy_xor (v : bvec) (pos : nat) (val : Z) : option bvec := if (val =? 1)%Z then bv_set v pos (-1) else Some v.
Definition proxy_or (v : bvec) (pos : nat) (val : Z) : option bvec := if (val =? 1)%Z then bv_set v pos 1 else Some v.
Definition proxy_and (v : bvec) (pos : nat) (val : Z) : option bvec := if (val =? 0)%Z then bv_set v pos 0 else Some v.
(** constructor from a range: 48-55; the default size 0 of the members is followed by resize *)
Definition bv_of_range (l : list Z) : option bvec :=
  let* v := bv_resize (0, []) (length l) in
  let* '(v, _) := for_range 0 (length l) (fun i '(v, pos) => let* x := nth_error l i in let* v := bv_set v pos (Z.land x 1) in Some (v, pos + 1)) (v, 0) in Some v.
(** push_back: 303-306; pop_back: 309-311 (sz - 1 of an empty vector wraps around) *)
Definition bv_push_back (v : bvec) (val : Z) : option bvec := let* v := bv_resize v (fst v + 1) in bv_set v (fst v - 1) val.
Definition bv_pop_back (v : bvec) : option bvec := if fst v =? 0 then None else bv_resize v (fst v - 1).

(** word_at with index and offset: 293-295; with a position: 288-290 *)
Definition word_at2 (ws : list Z) (i l : nat) : option Z :=
  let* a := nth_error ws i in
  if l =? 0 then Some a else
  let* b := nth_error ws (i + 1) in let* x := rsh a l in let* y := lsh b (L - l) in Some (Z.lor x y).
Definition word_at (ws : list Z) (pos : nat) : option Z := word_at2 ws (pos / L) (pos mod L).

(** apply of an operation on one range: 142-163. The operation gets the current words, so that it can read the same vector *)
Definition bv_apply (ws : list Z) (b e : nat) (op : list Z -> Z -> nat -> nat -> option Z) (backwards : bool) : option (list Z) :=
  let ib := b / L in let ie := e / L in let lb := b mod L in let le := e mod L in
  let* mb0 := lsh WW lb in let* me0 := first_bits le in
  let mb := if ib =? ie then Z.land mb0 me0 else mb0 in
  let me := if ib =? ie then Z.land mb0 me0 else me0 in
  let* w := nth_error ws ib in let* x := rsh w lb in let* y := op ws x 0 (L - lb) in let* y := lsh y lb in
  let wb := Z.lor (Z.land w (bnot W mb)) (Z.land y mb) in
  if ib =? ie then set_nth ws ib wb else
  let* w := nth_error ws ie in let* y := op ws w (e - b - le) le in
  let we := Z.lor (Z.land w (bnot W me)) (Z.land y me) in
  let body := fun i ws => let* w := nth_error ws i in let* y := op ws w (i * L - b) L in set_nth ws i y in
  let* ws := (if backwards then for_down (ib + 1) ie body ws else for_range (ib + 1) ie body ws) in
  let* ws := set_nth ws ib wb in set_nth ws ie we.
(** apply with a second range: 168-174; v2 = None stands for the same vector. The operation acts on two words *)
Definition bv_apply2 (ws : list Z) (b1 : nat) (v2 : option (list Z)) (b2 len : nat) (op : Z -> Z -> Z) : option (list Z) :=
  bv_apply ws b1 (b1 + len) (fun ws w pos _ => let* x := word_at (match v2 with Some ws2 => ws2 | None => ws end) (b2 + pos) in Some (op w x)) (b2 <? b1).
(** the word operations: 342-353 *)
Definition op1 (f : Z -> Z) : list Z -> Z -> nat -> nat -> option Z := fun _ w _ _ => Some (f w).
Definition op_set0 (w : Z) : Z := 0%Z.
Definition op_set1 (w : Z) : Z := WW.
Definition op_nop (w : Z) : Z := w.
Definition op_flip (w : Z) : Z := bnot W w.
Definition op_set (w1 w2 : Z) : Z := w2.
Definition op_setn (w1 w2 : Z) : Z := bnot W w2.
Definition op_and (w1 w2 : Z) : Z := Z.land w1 w2.
Definition op_or (w1 w2 : Z) : Z := Z.lor w1 w2.
Definition op_xor (w1 w2 : Z) : Z := Z.lxor w1 w2.
Definition op_nand (w1 w2 : Z) : Z := bnot W (Z.land w1 w2).
Definition op_nor (w1 w2 : Z) : Z := bnot W (Z.lor w1 w2).
Definition op_eq (w1 w2 : Z) : Z := bnot W (Z.lxor w1 w2).
(** member form of apply *)
Definition bv_apply1 (v : bvec) (b e : nat) (f : Z -> Z) : option bvec := let* ws := bv_apply (snd v) b e (op1 f) false in Some (fst v, ws).
(** logical operators: 79-83; that = None stands for the same vector *)
Definition bv_not (v : bvec) : option bvec := bv_apply1 v 0 (fst v) op_flip.
Definition bv_combine (op : Z -> Z -> Z) (v : bvec) (that : option bvec) : option bvec :=
  let sz2 := match that with Some u => fst u | None => fst v end in
  let* v := bv_reserve v sz2 in
  let* ws := bv_apply2 (snd v) 0 (option_map snd that) 0 sz2 op in Some (fst v, ws).
Definition bv_and (v : bvec) (that : option bvec) : option bvec :=
  let sz2 := match that with Some u => fst u | None => fst v end in
  let* v := bv_combine op_and v that in bv_apply1 v sz2 (fst v) op_set0.
Definition bv_or : bvec -> option bvec -> option bvec := bv_combine op_or.
Definition bv_xor : bvec -> option bvec -> option bvec := bv_combine op_xor.

(** shifts: 88-98 and 100-111, for cnt >= 0. In >>= a q above wsz makes wsz - q wrap around; words[0] is then assigned from words[q], beyond the end *)
Definition bv_shr (v : bvec) (cnt : nat) : option bvec :=
  let wsz := length (snd v) - 1 in let q := cnt / L in let r := cnt mod L in
  if wsz <? q then None else
  let* ws := for_range 0 (wsz - q) (fun i ws => let* x := word_at2 ws (i + q) r in set_nth ws i x) (snd v) in
  let* ws := for_range (wsz - q) wsz (fun i ws => set_nth ws i 0%Z) ws in Some (fst v, ws).
Definition bv_shl (v : bvec) (cnt : nat) : option bvec :=
  let wsz := length (snd v) - 1 in let q := cnt / L in let r := cnt mod L in
  let* ws := for_range (q + 1) (Nat.max (q + 1) wsz) (fun i ws =>
    let* x := (if r =? 0 then nth_error ws (i - q) else
      let* a := nth_error ws (i - q - 1) in let* b := nth_error ws (i - q) in let* a := rsh a (L - r) in let* b := lsh b r in Some (Z.lor a b)) in
    set_nth ws i x) (snd v) in
  let* w := nth_error ws 0 in let* w := lsh w r in let* ws := set_nth ws q w in
  let* ws := for_range 0 q (fun i ws => set_nth ws i 0%Z) ws in Some (fst v, ws).

(** scan of one range: 117-125; the visitor threads a state *)
Definition bv_scan {S} (ws : list Z) (b e : nat) (visit : S -> Z -> nat -> nat -> option (bool * S)) (s : S) : option (bool * S) :=
  let ib := b / L in let ie := e / L in let lb := b mod L in let le := e mod L in
  let* w := nth_error ws ib in let* x := rsh w lb in
  let* '(r, s) := visit s x 0 ((if negb (ib =? ie) then L else le) - lb) in
  let* '(r, s) := for_range (ib + 1) (Nat.max (ib + 1) ie) (fun i '(r, s) =>
    if (r : bool) then (let* w := nth_error ws i in visit s w (i * L - b) L) else Some (r, s)) (r, s) in
  if r && negb (ib =? ie) then (let* w := nth_error ws ie in visit s w (e - b - le) le) else Some (r, s).
(** scan of two ranges: 131-136 *)
Definition bv_scan2 {S} (ws1 : list Z) (b1 : nat) (ws2 : list Z) (b2 len : nat) (visit : S -> Z -> Z -> nat -> option (bool * S)) (s : S) : option (bool * S) :=
  bv_scan ws1 b1 (b1 + len) (fun s w pos l => let* x := word_at ws2 (b2 + pos) in visit s w x l) s.
(** hamming_distance: 228-237 *)
Definition bv_hamming (v1 : bvec) (b1 : nat) (v2 : bvec) (b2 len : nat) : option Z :=
  let* '(_, d) := bv_scan2 (snd v1) b1 (snd v2) b2 len (fun d w1 w2 l =>
    let w := Z.lxor w1 w2 in
    let* w := (if l <? L then let* m := first_bits l in Some (Z.land w m) else Some w) in
    let* c := bit_cnt1 k w in Some (true, (d + c)%Z)) 0%Z in Some d.
(** compare: 240-253; the sign of the result *)
Definition bv_compare (v1 : bvec) (b1 e1 : nat) (v2 : bvec) (b2 e2 : nat) : option Z :=
  let len1 := e1 - b1 in let len2 := e2 - b2 in let len := Nat.min len1 len2 in
  let* '(_, ret) := bv_scan2 (snd v1) b1 (snd v2) b2 len (fun ret w1 w2 l =>
    let* w1 := (if l <? L then let* m := first_bits l in Some (Z.land w1 m) else Some w1) in
    let* w2 := (if l <? L then let* m := first_bits l in Some (Z.land w2 m) else Some w2) in
    if (w1 =? w2)%Z then Some (true, ret) else
    let* r1 := bit_reverse k w1 in let* r2 := bit_reverse k w2 in Some (false, if (r1 <? r2)%Z then (-1)%Z else 1%Z)) 0%Z in
  if negb (ret =? 0)%Z then Some ret else if negb (len1 =? len2) then Some (if len1 <? len2 then (-1)%Z else 1%Z) else Some 0%Z.
(** comparison operators: 67-72 *)
Definition bv_cmp (v1 v2 : bvec) : option Z := bv_compare v1 0 (fst v1) v2 0 (fst v2).

(** reverse: 177-201 *)
Definition bv_reverse_words (ws : list Z) (b e : nat) : option (list Z) :=
  if e <=? b then Some ws else
  let ib := b / L in let ie := e / L in let lb := b mod L in let le := e mod L in let l := lb + le in
  let* mb0 := lsh WW lb in let* me0 := first_bits le in
  let mb := if ib =? ie then Z.land mb0 me0 else mb0 in
  let me := if ib =? ie then Z.land mb0 me0 else me0 in
  let* w := nth_error ws ie in let we := Z.land w (bnot W me) in
  let* we := (if negb (le =? 0) then let* x := word_at ws b in let* x := bit_reverse k x in let* x := rsh x (L - le) in Some (Z.lor we (Z.land x me)) else Some we) in
  if ib =? ie then set_nth ws ie we else
  let* w := nth_error ws ib in let wb := Z.land w (bnot W mb) in
  let* x := word_at ws (e - (L - lb)) in let* x := bit_reverse k x in let wb := Z.lor wb (Z.land x mb) in
  let* ws := (if l <? L then for_down (ib + 1) ie (fun i ws => let* x := word_at2 ws (i - 1) l in let* x := bit_reverse k x in set_nth ws i x) ws
              else for_range (ib + 1) ie (fun i ws => let* x := word_at2 ws i (l - L) in let* x := bit_reverse k x in set_nth ws i x) ws) in
  let* ws := for_range 0 ((ie - 1 - ib) / 2) (fun t ws => let i := ib + 1 + t in let j := ie - 1 - t in
    let* x := nth_error ws i in let* y := nth_error ws j in let* ws := set_nth ws i y in set_nth ws j x) ws in
  let* ws := set_nth ws ib wb in set_nth ws ie we.
Definition bv_reverse (v : bvec) (b e : nat) : option bvec := let* ws := bv_reverse_words (snd v) b e in Some (fst v, ws).
(** swap: 205-209 (for begin1 > begin2 it calls itself once with the ranges exchanged); rotate_left: 212-217; rotate_right: 220-225 *)
Definition bv_swap_ordered (v : bvec) (b1 e1 b2 e2 : nat) : option bvec :=
  let* v := bv_reverse v b1 e1 in let* v := bv_reverse v e1 b2 in let* v := bv_reverse v b2 e2 in bv_reverse v b1 e2.
Definition bv_swap (v : bvec) (b1 e1 b2 e2 : nat) : option bvec := if b2 <? b1 then bv_swap_ordered v b2 e2 b1 e1 else bv_swap_ordered v b1 e1 b2 e2.
Definition bv_rotate (v : bvec) (b mid e : nat) : option bvec :=
  let* v := bv_reverse v b mid in let* v := bv_reverse v mid e in bv_reverse v b e.
Definition bv_rotate_left (v : bvec) (b e cnt : nat) : option bvec := if e <=? b then Some v else bv_rotate v b (b + cnt mod (e - b)) e.
Definition bv_rotate_right (v : bvec) (b e cnt : nat) : option bvec := if e <=? b then Some v else bv_rotate v b (e - cnt mod (e - b)) e.

(** to_string: 255-265; characters are their codes. The string is filled word by word and cut to the length of the range *)
Definition bv_to_string (v : bvec) (b e : nat) : option (list Z) :=
  let* s := for_range 0 ((e - b + L - 1) / L) (fun t s =>
    let* w := word_at (snd v) (b + t * L) in
    let* '(s, _) := for_range 0 L (fun _ '(s, w) => Some (s ++ [(48 + Z.land w 1)%Z], Z.shiftr w 1)) (s, w) in Some s) [] in
  Some (firstn (e - b) s).
End BitVec.
