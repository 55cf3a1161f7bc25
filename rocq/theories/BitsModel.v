(** Model of include/altruct/algorithm/math/bits.h and src/algorithm/math/bits.cpp.
    A word of width W = 2^k is a Z; the unsigned types are the range [0, 2^W).
    [wrap W] is the conversion back to the unsigned type; `>>` on a non-negative
    value is [Z.shiftr]. The integer promotions of the 8 and 16 bit types are
    invisible because every result is converted back. Signed instantiations are
    covered only for non-negative values (on which they agree). *)
From Verif Require Import Lib.
Local Open Scope Z_scope.

Definition wrap (W x : Z) : Z := x mod 2 ^ W.

(** bits.h:26-43 (make_bit .. mix_bits); [pos] outside [0,W) is an undefined shift *)
Definition shl (W x pos : Z) : option Z :=
  if (0 <=? pos) && (pos <? W) then Some (wrap W (Z.shiftl x pos)) else None.
Definition shr (W x pos : Z) : option Z :=
  if (0 <=? pos) && (pos <? W) then Some (Z.shiftr x pos) else None.
Definition bnot (W x : Z) : Z := wrap W (Z.lnot x).
(* bits.h:26 *)
Definition make_bit (W pos : Z) : option Z := shl W 1 pos.
(* bits.h:28 *)
Definition make_ones (W cnt : Z) : option Z := let* b := make_bit W cnt in Some (wrap W (b - 1)).
(* bits.h:30 *)
Definition get_bit (W val pos : Z) : option Z := let* v := shr W val pos in Some (Z.land v 1).
(* bits.h:32 *)
Definition set_bit (W val pos : Z) : option Z := let* b := shl W 1 pos in Some (Z.lor val b).
(* bits.h:34 *)
Definition flip_bit (W val pos : Z) : option Z := let* b := shl W 1 pos in Some (Z.lxor val b).
(* bits.h:36 *)
Definition clear_bit (W val pos : Z) : option Z := let* b := shl W 1 pos in Some (Z.land val (bnot W b)).
(* bits.h:38-41 *)
Definition erase_bit (W val pos : Z) : option Z :=
  let* b := shl W 1 pos in
  let lo_mask := wrap W (b - 1) in
  let* v := shr W val 1 in
  Some (Z.lor (Z.land v (bnot W lo_mask)) (Z.land val lo_mask)).
(* bits.h:43 *)
Definition mix_bits (W val0 val1 mask : Z) : Z := Z.lor (Z.land val0 (bnot W mask)) (Z.land val1 mask).

(** bits.h:85-100; the template argument SHIFT is 2^(k-1), ..., 2, 1, 0 *)
Fixpoint or_down (k : nat) (x : Z) : Z :=
  match k with
  | O => x
  | S k' => or_down k' (Z.lor x (Z.shiftr x (2 ^ Z.of_nat k')))
  end.

(** bits.h:112-127 *)
Fixpoint xor_down (k : nat) (x : Z) : Z :=
  match k with
  | O => x
  | S k' => xor_down k' (Z.lxor x (Z.shiftr x (2 ^ Z.of_nat k')))
  end.

(* width of the word whose first shift is 2^(k-1) *)
Definition width (k : nat) : Z := 2 ^ Z.of_nat k.

(** bits.h:134-136 *)
Definition neg (W x : Z) : Z := wrap W (wrap W (Z.lnot x) + 1).

(** bits.h:142-144 and 150-152 *)
Definition gray_to_bin (k : nat) (x : Z) : Z := xor_down k x.
Definition bin_to_gray (x : Z) : Z := Z.lxor x (Z.shiftr x 1).

(** bits.h:158-161 *)
Definition hi_bit (k : nat) (x : Z) : Z := let x := or_down k x in Z.lxor x (Z.shiftr x 1).
(** bits.h:167-169 *)
Definition lo_bit (W x : Z) : Z := Z.land x (neg W x).
(** bits.h:176-187 *)
Definition is_not_pow2 (W x : Z) : bool := negb (Z.land x (wrap W (x - 1)) =? 0).
Definition is_pow2 (W x : Z) : bool := Z.land x (wrap W (x - 1)) =? 0.
(** bits.h:194-196 *)
Definition next_pow2 (k : nat) (x : Z) : Z := wrap (width k) (or_down k x + 1).

(** src bits.cpp:40-45,72: the popcount table is filled by the initialiser;
    [n] is the table size 2^16 *)
Definition cnt1_table (n : nat) : option (list Z) :=
  for_range 1 n (fun x t => let* a := nth_error t (x / 2) in
                            set_nth t x (a + Z.land (Z.of_nat x) 1)) (repeat 0 n).
Definition tbl16 : nat := Z.to_nat (2 ^ 16).
(* bits.cpp:42-43 (uint8_t and uint16_t) *)
Definition bit_cnt1_16 (x : Z) : option Z :=
  let* t := cnt1_table tbl16 in nth_error t (Z.to_nat x).
(* bits.cpp:44 *)
Definition bit_cnt1_32 (x : Z) : option Z :=
  let* a := bit_cnt1_16 (wrap 16 x) in let* b := bit_cnt1_16 (wrap 16 (Z.shiftr x 16)) in Some (a + b).
(* bits.cpp:45 *)
Definition bit_cnt1_64 (x : Z) : option Z :=
  let* a := bit_cnt1_32 (wrap 32 x) in let* b := bit_cnt1_32 (wrap 32 (Z.shiftr x 32)) in Some (a + b).
(* overload resolution on the word type, by k = log2 of the width *)
Definition bit_cnt1 (k : nat) (x : Z) : option Z :=
  match k with
  | 3%nat | 4%nat => bit_cnt1_16 x
  | 5%nat => bit_cnt1_32 x
  | 6%nat => bit_cnt1_64 x
  | _ => None
  end.

(** bits.h:202-212 *)
Definition lzc (k : nat) (x : Z) : option Z := let* c := bit_cnt1 k (or_down k x) in Some (width k - c).
Definition tzc (k : nat) (x : Z) : option Z := bit_cnt1 k (wrap (width k) (lo_bit (width k) x - 1)).

(** bits.h:219-222 *)
Definition sign_mag (W x : Z) : Z :=
  let HI_BIT := 2 ^ (W - 1) in
  if negb (Z.land x HI_BIT =? 0) then Z.lxor (neg W x) HI_BIT else x.

(** bits.h:229-235; returns the new value of `x` and the flag *)
Definition next_combination (k : nat) (x size : Z) : option (Z * bool) :=
  let W := width k in
  let* ones := make_ones W size in
  let v := Z.land (wrap W (x + lo_bit W x)) ones in
  let* t := tzc k x in
  let* w := shr W (Z.lxor v x) t in
  let* w2 := shr W w 2 in
  let y := Z.lor v w2 in
  Some (if negb (v =? 0) then y else w, negb (v =? 0)).

(** src bits.cpp:13-34,71 *)
Definition ilog2_table (n : nat) : option (list Z) :=
  for_range 2 n (fun x t => let* a := nth_error t (x / 2) in set_nth t x (a + 1)) (repeat 0 n).
(* bits.cpp:16-18 *)
Definition tbl_ilog2_32 : list Z :=
  [0; 9; 1; 10; 13; 21; 2; 29; 11; 14; 16; 18; 22; 25; 3; 30;
   8; 12; 20; 28; 15; 17; 24; 7; 19; 27; 23; 6; 26; 5; 4; 31].
(* bits.cpp:19-23 *)
Definition tbl_ilog2_64 : list Z :=
  [0; 58; 1; 59; 47; 53; 2; 60; 39; 48; 27; 54; 33; 42; 3; 61;
   51; 37; 40; 49; 18; 28; 20; 55; 30; 34; 11; 43; 14; 22; 4; 62;
   57; 46; 52; 38; 26; 32; 41; 50; 36; 17; 19; 29; 10; 13; 21; 56;
   45; 25; 31; 35; 16; 9; 12; 44; 24; 15; 8; 23; 7; 6; 5; 63].
(* bits.cpp:25-26 *)
Definition ilog2_16 (x : Z) : option Z := let* t := ilog2_table tbl16 in nth_error t (Z.to_nat x).
(* bits.cpp:28 *)
Definition ilog2_32 (x : Z) : option Z :=
  nth_error tbl_ilog2_32 (Z.to_nat (Z.shiftr (wrap 32 (or_down 5 x * 0x07C4ACDD)) 27)).
(* bits.cpp:29 *)
Definition ilog2_64 (x : Z) : option Z :=
  nth_error tbl_ilog2_64 (Z.to_nat (Z.shiftr (wrap 64 (or_down 6 x * 0x03f6eaf2cd271461)) 58)).
(* bits.cpp:25-34, by word type; signed arguments are first cast to unsigned *)
Definition ilog2 (k : nat) (x : Z) : option Z :=
  match k with
  | 3%nat | 4%nat => ilog2_16 x
  | 5%nat => ilog2_32 x
  | 6%nat => ilog2_64 x
  | _ => None
  end.

(** src bits.cpp:50-60,73-74 *)
Definition tbl_rev_4 : list Z := [0; 8; 4; 12; 2; 10; 6; 14; 1; 9; 5; 13; 3; 11; 7; 15].
(* bits.cpp:59 *)
Definition bit_reverse_8_ (x : Z) : option Z :=
  let* a := nth_error tbl_rev_4 (Z.to_nat (Z.land x 0xF)) in
  let* b := nth_error tbl_rev_4 (Z.to_nat (Z.shiftr x 4)) in
  Some (wrap 8 (Z.lor (Z.shiftl a 4) b)).
(* bits.cpp:52,73 *)
Definition tbl_rev_8 : option (list Z) :=
  for_range 1 256 (fun x t => let* r := bit_reverse_8_ (Z.of_nat x) in set_nth t x r) (repeat 0 256).
(* bits.cpp:55 *)
Definition bit_reverse_8 (x : Z) : option Z := let* t := tbl_rev_8 in nth_error t (Z.to_nat x).
(* bits.cpp:60 *)
Definition bit_reverse_16_ (x : Z) : option Z :=
  let* a := bit_reverse_8 (wrap 8 x) in
  let* b := bit_reverse_8 (wrap 8 (Z.shiftr x 8)) in
  Some (Z.lor (Z.shiftl a 8) b).
(* bits.cpp:53,74 *)
Definition rev_16_table (n : nat) : option (list Z) :=
  for_range 1 n (fun x t => let* r := bit_reverse_16_ (Z.of_nat x) in set_nth t x r) (repeat 0 n).
(* bits.cpp:56 *)
Definition bit_reverse_16 (x : Z) : option Z := let* t := rev_16_table tbl16 in nth_error t (Z.to_nat x).
(* bits.cpp:57 *)
Definition bit_reverse_32 (x : Z) : option Z :=
  let* a := bit_reverse_16 (wrap 16 x) in
  let* b := bit_reverse_16 (wrap 16 (Z.shiftr x 16)) in
  Some (Z.lor (Z.shiftl a 16) b).
(* bits.cpp:58 *)
Definition bit_reverse_64 (x : Z) : option Z :=
  let* a := bit_reverse_32 (wrap 32 x) in
  let* b := bit_reverse_32 (wrap 32 (Z.shiftr x 32)) in
  Some (Z.lor (Z.shiftl a 32) b).
Definition bit_reverse (k : nat) (x : Z) : option Z :=
  match k with
  | 3%nat => bit_reverse_8 x
  | 4%nat => bit_reverse_16 x
  | 5%nat => bit_reverse_32 x
  | 6%nat => bit_reverse_64 x
  | _ => None
  end.
