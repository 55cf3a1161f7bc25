From Coq Require Import Znumtheory Permutation Sorted.
From Verif Require Import Lib BaseModel BaseProofs CombModel CombSpec CombProofs CombProofs2.
Local Open Scope Z_scope.

(** C62: words of L bits *)
Theorem C62_integer_to_range : forall L val min max, 0 <= L -> 0 <= min <= max -> max < 2 ^ L -> 0 <= val < 2 ^ L ->
  min <= integer_to_range L val min max <= max.
Proof. intros. now apply integer_to_range_in. Qed.
Theorem C62_biggest_multiple : forall L w, 0 <= L -> 0 < w < 2 ^ L ->
  0 <= biggest_multiple L w < 2 ^ L /\ (w | or_full L (biggest_multiple L w)) /\ or_full L (biggest_multiple L w) <= 2 ^ L /\
  (forall m, (w | m) -> m <= 2 ^ L -> m <= or_full L (biggest_multiple L w)).
Proof.
  intros L w HL Hw. destruct (biggest_multiple_spec L HL w Hw) as (A & D & B). split; [exact A|]. split; [exact D|]. split; [lia|].
  intros m [q ->] Hm. destruct D as [k Ek]. rewrite Ek in B. rewrite Ek. clear -Hw Hm B.
  assert (Q : q < k + 1) by (apply Zmult_lt_reg_r with w; lia). apply Z.mul_le_mono_nonneg_r; lia.
Qed.
(** below the multiple every target is hit by the same number of words: exactly one per block of the width *)
Theorem C62_unbiased : forall L min max t v, 0 <= L -> 0 <= min <= max -> max < 2 ^ L -> min <= t <= max ->
  0 <= v < or_full L (biggest_multiple L ((max - min + 1) mod 2 ^ L)) ->
  (integer_to_range L v min max = t <->
   exists j, 0 <= j < or_full L (biggest_multiple L ((max - min + 1) mod 2 ^ L)) / (max - min + 1) /\ v = (t - min) + (max - min + 1) * j).
Proof. intros L min max t v HL H1 H2 H3. exact (unbiased L HL min max t v H1 H2 H3). Qed.
Theorem C62_uniform_next : forall (S : Type) (next : S -> Z * S) L min max st, 0 <= L -> 0 <= min <= max -> max < 2 ^ L ->
  (forall s, 0 <= fst (next s) < 2 ^ L) ->
  let B := or_full L (biggest_multiple L ((max - min + 1) mod 2 ^ L)) in
  min <= fst (uniform_next L next min max st) <= max /\
  exists k, (k < 20)%nat /\ uniform_next L next min max st = (integer_to_range L (fst (draw next st k)) min max, snd (draw next st k)) /\
    (forall j, (j < k)%nat -> B <= fst (draw next st j)) /\ ((k < 19)%nat -> fst (draw next st k) < B).
Proof.
  intros S next L min max st HL H1 H2 Hn B.
  assert (HD : forall k s, 0 <= fst (draw next s k) < 2 ^ L) by (induction k; intros s; cbn [draw]; auto).
  unfold uniform_next. set (m := biggest_multiple L ((max - min + 1) mod 2 ^ L)) in *.
  destruct (uniform_next_loop_spec L next m 19 st) as (k & Hk & E & R & A).
  cbv zeta. destruct (uniform_next_loop next 19 m st) as [val st'] eqn:EL. cbn [fst snd]. split.
  - apply integer_to_range_in; auto. replace val with (fst (draw next st k)) by now rewrite <- E. apply HD.
  - exists k. split; [lia|]. rewrite <- E. cbn [fst snd]. split; [reflexivity|]. unfold B, or_full. split.
    + intros j Hj. destruct (R j Hj) as [N Le]. destruct (Z.eqb_spec m 0); [lia|exact Le].
    + intros Hk'. specialize (A Hk'). rewrite <- E in A. cbn [fst] in A. destruct (Z.eqb_spec m 0); [|lia].
      replace val with (fst (draw next st k)) by now rewrite <- E. apply HD.
Qed.
(** a counter as generator, one byte, a die: 252 = 6 * 42, so 252..255 are rejected *)
Example C62_case : biggest_multiple 8 6 = 252 /\ integer_to_range 8 255 10 19 = 15 /\ biggest_multiple 8 16 = 0 /\
  uniform_next 8 (fun s => (s mod 256, s + 1)) 1 6 252 = (1, 257).
Proof. vm_compute. repeat split. Qed.

(** C67 *)
Theorem C67_factorial_prime_exponent : forall n p, 0 <= n -> prime p ->
  exists e, factorial_prime_exponent n p = Some e /\ exponent_of p (zfact n) e.
Proof. intros n p Hn Hp. destruct (fpe_run n p Hn Hp) as (e & u & E & He & Nu & Ef). exists e. split; [exact E|]. now apply exponent_intro with (u := u). Qed.
Theorem C67_binomial_prime_exponent : forall n k p b, 0 <= k <= n -> prime p -> b * (zfact k * zfact (n - k)) = zfact n ->
  exists e, binomial_prime_exponent n k p = Some e /\ exponent_of p b e.
Proof.
  intros n k p b Hk Hp Eb. destruct (fpe_run n p ltac:(lia) Hp) as (e & u & E & He & Nu & Ef).
  destruct (fpe_run (n - k) p ltac:(lia) Hp) as (e1 & u1 & E1 & He1 & Nu1 & Ef1). destruct (fpe_run k p ltac:(lia) Hp) as (e2 & u2 & E2 & He2 & Nu2 & Ef2).
  unfold binomial_prime_exponent. rewrite E, E1, E2. cbn [obind]. exists (e - e1 - e2). split; [reflexivity|].
  destruct (exponent_div p e u (e1 + e2) (u1 * u2) b Hp He ltac:(lia) Nu) as (Le & w & Nw & Ew).
  - now apply not_div_mul.
  - rewrite <- Ef, <- Eb, Ef1, Ef2, Z.pow_add_r by lia. ring.
  - apply exponent_intro with (u := w); auto; [lia|]. rewrite Ew. f_equal. f_equal. lia.
Qed.
Theorem C67_multinomial_prime_exponent : forall ks p m, Forall (fun k => 0 <= k) ks -> prime p -> m * zprodl (map zfact ks) = zfact (zsuml ks) ->
  exists e, multinomial_prime_exponent ks p = Some e /\ exponent_of p m e.
Proof.
  intros ks p m F Hp Em. pose proof (prime_pos p Hp) as P1. unfold multinomial_prime_exponent.
  destruct (mpe_run p ks Hp F 0 0 1) as (r & e' & n' & v' & E & En & He' & Nv & Ev & Er); [lia|lia|intros D; apply Z.divide_1_r_nonneg in D; lia|].
  rewrite E. exists (r - e'). split; [reflexivity|]. assert (S0 : 0 <= n') by (rewrite En; destruct (multinomial_divides ks F); lia).
  destruct (fpe_run n' p S0 Hp) as (e & u & E2 & He & Nu & Ef). rewrite Er in E2. injection E2 as ->.
  destruct (exponent_div p e u e' v' m Hp He He' Nu Nv) as (Le & w & Nw & Ew).
  - rewrite <- Ev, <- Ef, En, Z.add_0_l, <- Em. change (p ^ 0) with 1. ring.
  - apply exponent_intro with (u := w); auto; lia.
Qed.
Example C67_case : prime 3 /\ factorial_prime_exponent 100 3 = Some 48 /\ 252 * (zfact 5 * zfact (10 - 5)) = zfact 10 /\ binomial_prime_exponent 10 5 3 = Some 2 /\
  2520 * zprodl (map zfact [5; 3; 2]) = zfact (zsuml [5; 3; 2]) /\ multinomial_prime_exponent [5; 3; 2] 3 = Some 2.
Proof. split; [exact prime_3|]. vm_compute. repeat split. Qed.

(** C74: multinomial(k1..km) = (k1+..+km)! / (k1! .. km!), exactly *)
Theorem C74_multinomial : forall ks, Forall (fun k => 0 <= k) ks ->
  exists m, multinomial ks = Some m /\ m * zprodl (map zfact ks) = zfact (zsuml ks).
Proof.
  intros ks F. unfold multinomial. rewrite multinomial_loop_spec by (auto; lia). rewrite Z.add_0_l, Z.mul_1_l.
  assert (P : 0 < zprodl (map zfact ks)) by (clear; induction ks as [|k ks IH]; cbn [map zprodl]; [lia|]; pose proof (zfact_pos k); nia).
  destruct (multinomial_divides ks F) as [[m Em] _]. exists m. rewrite cdiv_some by lia. split; [|lia]. f_equal. rewrite Em. apply Z.quot_mul. lia.
Qed.
Example C74_case : Forall (fun k => 0 <= k) [5; 3; 2] /\ multinomial [5; 3; 2] = Some 2520.
Proof. split; [repeat constructor; lia|reflexivity]. Qed.

(** C08 *)
Theorem C08_digits : forall n b len, 0 <= n -> 2 <= b -> exists vd,
  integer_digits n b 0 = Some vd /\ from_digits vd b = n /\ digits_value b vd = n /\ Forall (fun d => 0 <= d < b) vd /\
  (vd <> [] -> last vd 0 <> 0) /\
  integer_digits n b len = Some (vd ++ repeat 0 (len - length vd)) /\ from_digits (vd ++ repeat 0 (len - length vd)) b = n.
Proof.
  intros n b len Hn Hb. destruct (integer_digits_run n b Hn Hb) as (vd & E & Ev & F & La & _).
  exists vd. rewrite !E. cbn [Nat.sub repeat]. rewrite app_nil_r, !from_digits_spec, digits_value_app, digits_value_zeros. 
  repeat split; auto. lia.
Qed.
(** the digit string is written most significant first, one character per digit *)
Theorem C08_integer_string : forall ds, Forall (fun d => 0 <= d < 36) ds ->
  integer_string ds = Some (map (fun d => if d <? 10 then 48 + d else 97 + (d - 10)) (rev ds)).
Proof.
  intros ds F. unfold integer_string. assert (F' : Forall (fun d => 0 <= d < 36) (rev ds)).
  { apply Forall_forall. intros x Hx. apply in_rev in Hx. rewrite Forall_forall in F. auto. }
  rewrite integer_string_loop_spec by exact F'. cbn [app]. f_equal. apply map_ext_in. intros d Hd. rewrite Forall_forall in F'. specialize (F' d Hd).
  assert (G : forall k : nat, (k < 36)%nat -> nth k digit_chars 0 = if Z.of_nat k <? 10 then 48 + Z.of_nat k else 97 + (Z.of_nat k - 10)).
  { intros k Hk. do 36 (destruct k as [|k]; [reflexivity|]). lia. }
  rewrite G by lia. now rewrite Z2Nat.id by lia.
Qed.
Example C08_case : integer_digits 1234 16 5 = Some [2; 13; 4; 0; 0] /\ from_digits [2; 13; 4; 0; 0] 16 = 1234 /\ integer_string [2; 13; 4] = Some [52; 100; 50].
Proof. vm_compute. repeat split. Qed.

(** C66 *)
Theorem C66_next_partition : forall d s v, (0 < d)%nat -> is_partition d s v -> exists v' b, next_partition v = Some (v', b) /\
  (b = true -> is_partition d s v' /\ lex_lt v' v /\ (forall w, is_partition d s w -> lex_lt w v -> w = v' \/ lex_lt w v')) /\
  (b = false -> v' = s :: repeat 0 (d - 1) /\ (forall w, is_partition d s w -> ~ lex_lt w v)).
Proof.
  intros d s v Hd Hv. destruct (next_partition_run d s Hd (length v) v []) as (v' & b & E & H).
  - reflexivity.
  - now rewrite app_nil_r.
  - intros [|? ?] HL; [intros _ _ _ []|discriminate].
  - cbn [length repeat] in E. rewrite app_nil_r in *. exists v', b. split; [exact E|]. split; intros ->; exact H.
Qed.
Example C66_case : is_partition 4 7 [3; 3; 1; 0] /\ next_partition [3; 3; 1; 0] = Some ([3; 2; 2; 0], true) /\ next_partition [2; 2; 2; 1] = Some ([7; 0; 0; 0], false).
Proof. split; [|split; reflexivity]. repeat split; repeat constructor; lia. Qed.
(** [perms l] lists all permutations; for a sorted l in lexicographic order *)
Theorem C66_nth_permutation : forall (A : Type) (v : list A) o, 0 <= o -> 
  exists r, nth_permutation v o = Some r /\ nth_error (perms v) (Z.to_nat (o mod zfact (Z.of_nat (length v)))) = Some r.
Proof. intros A v o Ho. destruct (nth_permutation_run v o Ho) as (r & H1 & H2). exists r. auto. Qed.
Theorem C66_perms_meaning : (forall (A : Type) (l p : list A), In p (perms l) <-> Permutation p l) /\
  (forall (A : Type) (l : list A), Z.of_nat (length (perms l)) = zfact (Z.of_nat (length l))) /\
  (forall l : list Z, StronglySorted Z.lt l -> StronglySorted lex_lt (perms l)).
Proof.
  split; [|split].
  - intros A l p. now apply perms_complete.
  - intros A l. unfold perms, zfact. rewrite perms_n_length, Nat2Z.id; reflexivity.
  - intros l HS. now apply perms_sorted.
Qed.
Example C66_case2 : nth_permutation [1; 2; 3; 4] 9 = Some [2; 3; 4; 1] /\ nth_error (perms [1; 2; 3; 4]) 9 = Some [2; 3; 4; 1].
Proof. split; reflexivity. Qed.

Print Assumptions C62_integer_to_range. Print Assumptions C62_biggest_multiple. Print Assumptions C62_unbiased. Print Assumptions C62_uniform_next.
Print Assumptions C67_factorial_prime_exponent. Print Assumptions C67_binomial_prime_exponent. Print Assumptions C67_multinomial_prime_exponent.
Print Assumptions C74_multinomial. Print Assumptions C08_digits. Print Assumptions C08_integer_string.
Print Assumptions C66_next_partition. Print Assumptions C66_nth_permutation. Print Assumptions C66_perms_meaning.
