(** Properties C31, C32: bit vectors. k = 3, 4, 5, 6 are the word widths 8, 16, 32, 64; the theorems without word_type hold for every k. *)
From Verif Require Import Lib BitsModel BitsSpec BitsProofs2 BitVecModel BitVecSpec BitVecProofs BitVecProofs2 BitVecProofs3 BitVecProofs4 BitVecProofs5.
Open Scope nat_scope.

(** * C31 *)
Theorem C31_new : forall k n, represents k (bv_new k n) (repeat false n).
Proof. exact new_run. Qed.
(** a representation determines the sequence and the words *)
Theorem C31_sequence_unique : forall k v l l', represents k v l -> represents k v l' -> l = l'.
Proof.
  intros k v l l' (A1 & _ & _ & A4) (B1 & _ & _ & B4). apply bool_list_ext; [lia|]. intros p. now rewrite <- A4, <- B4.
Qed.
Theorem C31_from_range : forall k xs, exists v, bv_of_range k xs = Some v /\ represents k v (map Z.odd xs).
Proof. exact of_range_run. Qed.
Theorem C31_resize : forall k v l n, represents k v l -> exists v', bv_resize k v n = Some v' /\ represents k v' (fit n l).
Proof. exact resize_run. Qed.
Theorem C31_reserve : forall k v l n, represents k v l -> exists v', bv_reserve k v n = Some v' /\ represents k v' (fit (Nat.max (length l) n) l).
Proof. exact reserve_run. Qed.
Theorem C31_get : forall k v l p, represents k v l -> p < length l -> bv_bit_at k v p = Some (if nth p l false then 1 else 0)%Z.
Proof. exact bit_at_run. Qed.
(** set: 0 clears, 1 sets, -1 flips, any other value changes nothing *)
Theorem C31_set : forall k v l p val, represents k v l -> p < length l -> exists v', bv_set k v p val = Some v' /\
  represents k v' (if (val =? 0)%Z then replace_range p (p + 1) [false] l else if (val =? 1)%Z then replace_range p (p + 1) [true] l
    else if (val =? -1)%Z then replace_range p (p + 1) [negb (nth p l false)] l else l).
Proof. exact set_run. Qed.
(** assignments through the proxy *)
Lemma put_same (l : list bool) p : p < length l -> replace_range p (p + 1) [nth p l false] l = l.
Proof.
  intros H. apply bool_list_ext; [apply (put_bit_length l p); exact H|]. intros q. fold (put_bit l p (nth p l false)). rewrite put_bit_nth by exact H. destruct (Nat.eqb_spec p q); subst; reflexivity.
Qed.
Lemma put_at (l : list bool) p x : p < length l -> nth p l false = x -> replace_range p (p + 1) [x] l = l.
Proof. intros H <-. now apply put_same. Qed.
Theorem C31_proxy : forall k v l p val, represents k v l -> p < length l ->
  (exists v', proxy_set k v p val = Some v' /\ represents k v' (replace_range p (p + 1) [Z.odd val] l)) /\
  ((val = 0 \/ val = 1)%Z ->
   (exists v', proxy_xor k v p val = Some v' /\ represents k v' (replace_range p (p + 1) [xorb (nth p l false) (Z.odd val)] l)) /\
   (exists v', proxy_or k v p val = Some v' /\ represents k v' (replace_range p (p + 1) [nth p l false || Z.odd val] l)) /\
   (exists v', proxy_and k v p val = Some v' /\ represents k v' (replace_range p (p + 1) [nth p l false && Z.odd val] l))).
Proof.
  intros k v l p val R Hp. pose proof (fun x => set_run k v l p x R Hp) as S. split.
  - unfold proxy_set. destruct (S (Z.land val 1)) as (v' & E & R'). exists v'. split; [exact E|]. rewrite land1 in R'. destruct (Z.odd val); exact R'.
  - intros HV. unfold proxy_xor, proxy_or, proxy_and. destruct (S (-1)%Z) as (v1 & E1 & R1). destruct (S 1%Z) as (v2 & E2 & R2). destruct (S 0%Z) as (v3 & E3 & R3). cbn in R1, R2, R3. destruct HV as [-> | ->]; cbn [Z.eqb Z.odd].
    + rewrite xorb_false_r, orb_false_r, andb_false_r. rewrite (put_same l p Hp). repeat split; eauto.
    + rewrite xorb_true_r, orb_true_r, andb_true_r. rewrite (put_same l p Hp). repeat split; eauto.
Qed.
Theorem C31_push_back : forall k v l val, represents k v l -> (val = 0 \/ val = 1)%Z -> exists v', bv_push_back k v val = Some v' /\ represents k v' (l ++ [Z.odd val]).
Proof. exact push_run. Qed.
Theorem C31_pop_back : forall k v l x, represents k v (l ++ [x]) -> exists v', bv_pop_back k v = Some v' /\ represents k v' l.
Proof. exact pop_run. Qed.
(** operations on one range *)
Theorem C31_range : forall k v l b e g f, represents k v l -> b <= e -> e <= length l ->
  In (g, f) [(op_set0, fun _ => false); (op_set1 k, fun _ => true); (op_nop, fun x => x); (op_flip k, negb)] ->
  exists v', bv_apply1 k v b e g = Some v' /\ represents k v' (replace_range b e (map f (slice b e l)) l).
Proof.
  intros k v l b e g f R H1 H2 G. destruct (bitops k) as (B1 & B2 & B3 & B4 & _). cbn [In] in G. destruct G as [G|[G|[G|[G|[]]]]]; injection G as <- <-; now apply apply1_run.
Qed.
(** operations on two ranges: of two vectors, or of one vector (u = None) also when the ranges overlap; the second operand is the content before the call *)
Theorem C31_two_ranges : forall k v l b1 (u : option bvec) l2 b2 len g f, represents k v l -> match u with Some u => represents k u l2 | None => l2 = l end ->
  b1 + len <= length l -> b2 + len <= length l2 ->
  In (g, f) [(op_set, fun _ y => y); (op_setn k, fun _ y => negb y); (op_and, andb); (op_or, orb); (op_xor, xorb); (op_nand k, fun x y => negb (x && y)); (op_nor k, fun x y => negb (x || y)); (op_eq k, Bool.eqb)] ->
  exists ws, bv_apply2 k (snd v) b1 (option_map snd u) b2 len g = Some ws /\
    represents k (fst v, ws) (replace_range b1 (b1 + len) (zip f (slice b1 (b1 + len) l) (slice b2 (b2 + len) l2)) l).
Proof.
  intros k v l b1 u l2 b2 len g f R Ru H1 H2 G. destruct (bitops k) as (_ & _ & _ & _ & B1 & B2 & B3 & B4 & B5 & B6 & B7 & B8). cbn [In] in G.
  destruct G as [G|[G|[G|[G|[G|[G|[G|[G|[]]]]]]]]]; injection G as <- <-; now apply apply2_run.
Qed.
(** and, or, xor, not of whole vectors; the shorter operand is extended with zeros; u = None is v op= v *)
Theorem C31_logic : forall k v l (u : option bvec) l2, represents k v l -> match u with Some u => represents k u l2 | None => l2 = l end ->
  let n := Nat.max (length l) (length l2) in
  (exists v', bv_and k v u = Some v' /\ represents k v' (zip andb (fit n l) (fit n l2))) /\
  (exists v', bv_or k v u = Some v' /\ represents k v' (zip orb (fit n l) (fit n l2))) /\
  (exists v', bv_xor k v u = Some v' /\ represents k v' (zip xorb (fit n l) (fit n l2))) /\
  (exists v', bv_not k v = Some v' /\ represents k v' (map negb l)).
Proof.
  intros k v l u l2 R Ru n. destruct (bitops k) as (_ & _ & _ & _ & _ & _ & _ & B4 & B5 & _). split; [now apply and_run|]. split; [apply logic_run; auto; intros []; reflexivity|]. split; [apply logic_run; auto; intros []; reflexivity|]. now apply not_run.
Qed.
(** comparison of two ranges and of whole vectors, distance, text *)
Theorem C31_compare : forall k, word_type k -> forall v1 l1 b1 e1 v2 l2 b2 e2, represents k v1 l1 -> represents k v2 l2 -> b1 <= e1 -> e1 <= length l1 -> b2 <= e2 -> e2 <= length l2 ->
  bv_compare k v1 b1 e1 v2 b2 e2 = Some (lex (slice b1 e1 l1) (slice b2 e2 l2)).
Proof. exact compare_run. Qed.
Lemma slice_all {A} (l : list A) : slice 0 (length l) l = l.
Proof. unfold slice. rewrite Nat.sub_0_r. cbn [skipn]. apply firstn_all. Qed.
Theorem C31_operators : forall k, word_type k -> forall v1 l1 v2 l2, represents k v1 l1 -> represents k v2 l2 -> bv_cmp k v1 v2 = Some (lex l1 l2) /\ (bv_cmp k v1 v2 = Some 0%Z <-> l1 = l2).
Proof.
  intros k HK v1 l1 v2 l2 R1 R2. assert (E : bv_cmp k v1 v2 = Some (lex l1 l2)). { unfold bv_cmp. rewrite (proj1 R1), (proj1 R2), (compare_run k HK v1 l1 _ _ v2 l2 _ _ R1 R2) by lia. now rewrite !slice_all. }
  split; [exact E|]. rewrite E. split.
  - intros H. injection H as H. revert l2 H R2 E. clear R1. induction l1 as [|x l1 IH]; intros [|y l2] H R2 E; cbn [lex] in H; try discriminate; [reflexivity|]. assert (X : x = y /\ lex l1 l2 = 0%Z) by (destruct x, y; cbn in H; try discriminate; auto). destruct X as (-> & H'). f_equal. clear - H'. revert l2 H'. induction l1 as [|x l1 IH]; intros [|z l2] H; cbn [lex] in H; try discriminate; [reflexivity|]. destruct x, z; cbn in H; try discriminate; f_equal; now apply IH.
  - intros ->. f_equal. clear. induction l2 as [|y l2 IH]; [reflexivity|]. cbn [lex]. now rewrite eqb_reflx.
Qed.
Theorem C31_hamming_distance : forall k, word_type k -> forall v1 l1 b1 v2 l2 b2 len, represents k v1 l1 -> represents k v2 l2 -> b1 + len <= length l1 -> b2 + len <= length l2 ->
  bv_hamming k v1 b1 v2 b2 len = Some (Z.of_nat (differences (slice b1 (b1 + len) l1) (slice b2 (b2 + len) l2))).
Proof. exact hamming_run. Qed.
(** characters '0' = 48 and '1' = 49 *)
Theorem C31_to_string : forall k v l b e, represents k v l -> b <= e -> e <= length l -> bv_to_string k v b e = Some (map (fun x : bool => if x then 49 else 48)%Z (slice b e l)).
Proof. exact to_string_run. Qed.
(** reversal, rotation and exchange of ranges *)
Theorem C31_reverse : forall k, word_type k -> forall v P X S, represents k v (P ++ X ++ S) -> exists v', bv_reverse k v (length P) (length P + length X) = Some v' /\ represents k v' (P ++ rev X ++ S).
Proof. exact reverse_at. Qed.
Theorem C31_rotate_left : forall k, word_type k -> forall v P X S cnt, represents k v (P ++ X ++ S) ->
  exists v', bv_rotate_left k v (length P) (length P + length X) cnt = Some v' /\ represents k v' (P ++ (skipn (cnt mod length X) X ++ firstn (cnt mod length X) X) ++ S).
Proof. intros k HK v P X S cnt R. now apply rotate_left_run. Qed.
Theorem C31_rotate_right : forall k, word_type k -> forall v P X S cnt, represents k v (P ++ X ++ S) ->
  exists v', bv_rotate_right k v (length P) (length P + length X) cnt = Some v' /\ represents k v' (P ++ (skipn (length X - cnt mod length X) X ++ firstn (length X - cnt mod length X) X) ++ S).
Proof. intros k HK v P X S cnt R. now apply rotate_right_run. Qed.
Theorem C31_swap : forall k, word_type k -> forall v P A M B S b1 e1 b2 e2, represents k v (P ++ A ++ M ++ B ++ S) -> b1 = length P -> e1 = b1 + length A -> b2 = e1 + length M -> e2 = b2 + length B ->
  (exists v', bv_swap k v b1 e1 b2 e2 = Some v' /\ represents k v' (P ++ B ++ M ++ A ++ S)) /\
  (b1 < b2 -> exists v', bv_swap k v b2 e2 b1 e1 = Some v' /\ represents k v' (P ++ B ++ M ++ A ++ S)).
Proof. intros k HK v P A M B S b1 e1 b2 e2. now apply swap_run'. Qed.

(** * C32 *)
(** a shift to the right by at most the width of all words; the words in use are (size + L - 1) / L *)
Theorem C32_shift_right : forall k v l cnt, represents k v l -> cnt / 2 ^ k <= (length l + 2 ^ k - 1) / 2 ^ k -> exists v', bv_shr k v cnt = Some v' /\ represents k v' (fit (length l) (skipn cnt l)).
Proof. exact shr_run. Qed.
(** a shift to the left, when no word is needed after it has been overwritten: with w words in use and cnt = q L + r, that is q <= w <= 2 q + 1, or q = 0
    and (r = 0 or w <= 2). Then the positions below the size hold the shifted bits *)
Theorem C32_shift_left : forall k v l cnt, represents k v l ->
  let w := (length l + 2 ^ k - 1) / 2 ^ k in let q := cnt / 2 ^ k in let r := cnt mod 2 ^ k in
  q <= w -> (w <= 2 * q + 1 \/ (q = 0 /\ (r = 0 \/ w <= 2))) ->
  exists v', bv_shl k v cnt = Some v' /\ fst v' = length l /\ length (snd v') = length (snd v) /\ Forall (fun w => word (2 ^ Z.of_nat k) w) (snd v') /\
    forall p, p < length l -> bit_of k (snd v') p = nth p (repeat false cnt ++ l) false.
Proof. intros k v l cnt R w q r H1 H2. apply shl_run; [exact R|]. split; [exact H1|exact H2]. Qed.
(** what is false of the code. Three words, shift by one: bit 14 arrives at 15 and also at 16 *)
Definition bits14 : list bool := repeat false 14 ++ [true] ++ repeat false 9.
Theorem C32_shift_left_refuted : exists v l cnt v', represents 3 v l /\ bv_shl 3 v cnt = Some v' /\ exists p, p < length l /\ bit_of 3 (snd v') p <> nth p (repeat false cnt ++ l) false.
Proof.
  destruct (of_range_run 3 (map (fun x : bool => if x then 1 else 0)%Z bits14)) as (v & E & R). exists v, bits14, 1. vm_compute in E. injection E as <-. eexists. split; [exact R|]. split; [vm_compute; reflexivity|]. exists 16. split; [vm_compute; repeat constructor|]. vm_compute. discriminate.
Qed.
(** bits shifted past the size stay in the last word and come back on resize *)
Theorem C32_stale_bits_refuted : exists v v' v'', represents 3 v [true] /\ bv_shl 3 v 1 = Some v' /\ bv_resize 3 v' 2 = Some v'' /\ bv_bit_at 3 v' 0 = Some 0%Z /\ bv_bit_at 3 v'' 1 = Some 1%Z.
Proof.
  destruct (of_range_run 3 [1%Z]) as (v & E & R). exists v. vm_compute in E. injection E as <-. eexists. eexists. split; [exact R|]. split; [vm_compute; reflexivity|]. split; [vm_compute; reflexivity|]. split; [vm_compute; reflexivity|vm_compute; reflexivity].
Qed.
(** shifts by more than all the words leave the word vector *)
Theorem C32_long_shift_refuted : forall k v l cnt, represents k v l -> (length l + 2 ^ k - 1) / 2 ^ k < cnt / 2 ^ k -> bv_shr k v cnt = None /\ bv_shl k v cnt = None.
Proof.
  intros k v l cnt R H. apply rep_elim in R as (R1 & R2 & R3 & R4). change ((length l + 2 ^ k - 1) / 2 ^ k) with (num_words k (length l)) in H. change (2 ^ k) with (L k) in H. split.
  - unfold bv_shr. rewrite R2. destruct (Nat.ltb_spec (num_words k (length l) + 1 - 1) (cnt / L k)); [reflexivity|lia].
  - unfold bv_shl. rewrite R2. replace (Nat.max (cnt / L k + 1) (num_words k (length l) + 1 - 1)) with (cnt / L k + 1) by lia. unfold for_range. rewrite Nat.sub_diag. cbn [for_n obind]. rewrite (nth_some (snd v) 0 0%Z) by lia. cbn [obind]. destruct (lsh_run k (nth 0 (snd v) 0%Z) (cnt mod L k)) as (w & -> & _); [apply Nat.mod_upper_bound; pose proof (L_pos k); lia|]. cbn [obind]. rewrite set_nth_none by lia. reflexivity.
Qed.

(** * A concrete case: 11 bits in words of 8 *)
Definition case_bits : list Z := [1; 1; 0; 1; 0; 0; 1; 0; 1; 1; 0]%Z.
Example C31_case : exists v, bv_of_range 3 case_bits = Some v /\ represents 3 v [true; true; false; true; false; false; true; false; true; true; false] /\
  (exists v', bv_apply1 3 v 2 10 (op_flip 3) = Some v' /\ bv_to_string 3 v' 0 11 = Some [49; 49; 49; 48; 49; 49; 48; 49; 48; 48; 48]%Z) /\
  (exists ws, bv_apply2 3 (snd v) 3 None 0 8 op_set = Some ws /\ bv_to_string 3 (11, ws) 0 11 = Some [49; 49; 48; 49; 49; 48; 49; 48; 48; 49; 48]%Z) /\
  (exists v', bv_not 3 v = Some v' /\ bv_bit_at 3 v' 10 = Some 1%Z).
Proof.
  destruct (of_range_run 3 case_bits) as (v & E & R). exists v. split; [exact E|]. vm_compute in E. injection E as <-. split; [exact R|]. split; [|split]; eexists; (split; [vm_compute; reflexivity|vm_compute; reflexivity]).
Qed.
Example C31_reverse_case : word_type 3 /\ exists v, represents 3 v ([true; true; false] ++ [true; false; false; true; false; true; true] ++ [false]).
Proof. split; [unfold word_type; lia|]. destruct (of_range_run 3 case_bits) as (v & E & R). exists v. exact R. Qed.
Example C32_case : exists v, represents 3 v (map Z.odd case_bits) /\
  (exists v', bv_shr 3 v 9 = Some v' /\ bv_to_string 3 v' 0 11 = Some [49; 48; 48; 48; 48; 48; 48; 48; 48; 48; 48]%Z) /\
  (exists v', bv_shl 3 v 3 = Some v' /\ bv_to_string 3 v' 0 11 = Some [48; 48; 48; 49; 49; 48; 49; 48; 48; 49; 48]%Z).
Proof.
  destruct (of_range_run 3 case_bits) as (v & E & R). exists v. split; [exact R|]. vm_compute in E. injection E as <-. split; eexists; (split; [vm_compute; reflexivity|vm_compute; reflexivity]).
Qed.

Print Assumptions C31_new.
Print Assumptions C31_sequence_unique.
Print Assumptions C31_from_range.
Print Assumptions C31_resize.
Print Assumptions C31_reserve.
Print Assumptions C31_get.
Print Assumptions C31_set.
Print Assumptions C31_proxy.
Print Assumptions C31_push_back.
Print Assumptions C31_pop_back.
Print Assumptions C31_range.
Print Assumptions C31_two_ranges.
Print Assumptions C31_logic.
Print Assumptions C31_compare.
Print Assumptions C31_operators.
Print Assumptions C31_hamming_distance.
Print Assumptions C31_to_string.
Print Assumptions C31_reverse.
Print Assumptions C31_rotate_left.
Print Assumptions C31_rotate_right.
Print Assumptions C31_swap.
Print Assumptions C32_shift_right.
Print Assumptions C32_shift_left.
Print Assumptions C32_shift_left_refuted.
Print Assumptions C32_stale_bits_refuted.
Print Assumptions C32_long_shift_refuted.
