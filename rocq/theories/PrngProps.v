From Verif Require Import Lib PrngModel PrngSpec PrngProofs PrngProofs2 PrngProofs3.
Open Scope Z_scope.

(** C114: xorshift_64star: every draw keeps the state and the result 64-bit words; equal results, as equal new states, come only from equal states; from every
    state the generator returns to it; zero stays at zero and no other state reaches zero or draws zero *)
Theorem C114_xorshift64 x : word 64 x ->
  word 64 (fst (xs64_next x)) /\ word 64 (snd (xs64_next x)) /\
  (forall y, word 64 y -> fst (xs64_next x) = fst (xs64_next y) \/ snd (xs64_next x) = snd (xs64_next y) -> x = y) /\
  (exists n, (1 <= n)%nat /\ times n (fun x => snd (xs64_next x)) x = x) /\
  (x <> 0 -> fst (xs64_next x) <> 0 /\ snd (xs64_next x) <> 0).
Proof.
  intros H. split; [now apply xs64_word|]. split; [now apply xs64_word|]. split; [intros y Hy [E|E]; [now apply xs64_out|now apply xs64_inj]|]. split; [now apply xs64_periodic|now apply xs64_nonzero].
Qed.
(** the shifts and the multiplier are those of Vigna's xorshift64* *)
Theorem C114_step x : word 64 x -> exists a b c, xs64_next x = (c * 2685821657736338717 mod 2 ^ 64, c) /\
  a = Z.lxor x (x / 2 ^ 12) /\ b = Z.lxor a (a * 2 ^ 25 mod 2 ^ 64) /\ c = Z.lxor b (b / 2 ^ 27).
Proof. intros _. eexists _, _, _. unfold xs64_next, u64. cbv zeta. rewrite !Z.shiftr_div_pow2, !Z.shiftl_mul_pow2 by lia. repeat split. Qed.
Example C114_case : word 64 42 /\ fst (xs64_next 42) = 6255019084209693600 /\ xs64_next 0 = (0, 0).
Proof. split; [split; [lia|reflexivity]|vm_compute; auto]. Qed.

(** C115: xorshift_1024star: a draw from a valid state succeeds and leaves a valid state; no two states step to the same one; every state is
    returned to; only the zero state steps to the zero state; seeding by a nonzero number gives sixteen nonzero words, the draws of the 64-bit generator *)
Theorem C115_xorshift1024 s p : valid (s, p) ->
  exists a b r s' p', nth_error s p = Some a /\ nth_error s p' = Some b /\ p' = ((p + 1) mod 16)%nat /\
    (exists b1, b1 = Z.lxor b (b * 2 ^ 31 mod 2 ^ 64) /\ r = Z.lxor (Z.lxor a (a / 2 ^ 30)) (Z.lxor b1 (b1 / 2 ^ 11))) /\
    xs1024_next (s, p) = Some (r * 1181783497276652981 mod 2 ^ 64, (s', p')) /\ set_nth s p' r = Some s' /\ valid (s', p').
Proof.
  intros V. destruct (xs1024_run s p V) as (a & b & s' & A1 & A2 & A3 & A4 & _ & _ & A5). exists a, b, (Z.lxor (Z.lxor a (Z.shiftr a 30)) (mixed b)), s', ((p + 1) mod 16)%nat. split; [exact A1|]. split; [exact A2|]. split; [reflexivity|]. split; [|split; [exact A4|split; [exact A3|exact A5]]].
  exists (Z.lxor b (u64 (Z.shiftl b 31))). unfold mixed, u64. rewrite !Z.shiftr_div_pow2, !Z.shiftl_mul_pow2 by lia. split; reflexivity.
Qed.
Theorem C115_reversible g h r r' g' : valid g -> valid h -> xs1024_next g = Some (r, g') -> xs1024_next h = Some (r', g') -> g = h.
Proof. intros Hg Hh E1 E2. apply xs1024_inj; [exact Hg|exact Hh|]. unfold xs1024_step. now rewrite E1, E2. Qed.
Theorem C115_periodic g : valid g -> exists n, (1 <= n)%nat /\ times n (fun g => match xs1024_next g with Some (_, g') => g' | None => g end) g = g.
Proof. exact (xs1024_periodic g). Qed.
Theorem C115_alive s p r s' p' : valid (s, p) -> xs1024_next (s, p) = Some (r, (s', p')) -> (exists x, In x s /\ x <> 0) -> exists x, In x s' /\ x <> 0.
Proof.
  intros V E (x & I & NZ). destruct (Exists_dec (fun x => x <> 0) s' (fun x => match Z.eq_dec x 0 with left e => right (fun f => f e) | right n => left n end)) as [X|X]; [apply Exists_exists in X; exact X|]. exfalso. apply NZ. apply (xs1024_zero s p V); [|exact I]. unfold xs1024_step. rewrite E. cbn [fst]. intros y Iy. destruct (Z.eq_dec y 0); [assumption|]. exfalso. apply X, Exists_exists. now exists y.
Qed.
Theorem C115_seed x : word 64 x -> valid (xs1024_seed x) /\ (x <> 0 -> Forall (fun v => v <> 0) (fst (xs1024_seed x))) /\
  forall i, (i < 16)%nat -> nth_error (fst (xs1024_seed x)) i = Some (fst (xs64_next (times i (fun x => snd (xs64_next x)) x))).
Proof. exact (xs1024_seed_ok x). Qed.
Example C115_case : valid (xs1024_seed 1) /\ match xs1024_next (xs1024_seed 1) with Some (r, (_, p)) => r <> 0 /\ p = 1%nat | None => False end.
Proof. split; [exact (proj1 (C115_seed 1 (conj (Z.le_0_1) (eq_refl : 1 < 2 ^ 64))))|vm_compute; split; [discriminate|reflexivity]]. Qed.

(** the generator g delivers the sequence x: n calls of randInt() give the tempered terms from the first on; saving and loading after them gives back
    the generator; randInt(b) returns the first draw that, cut to the digits of b, is at most b, and the next draw is the one after it *)
Definition delivers (x : nat -> Z) (g : mtrand) : Prop :=
  forall n, exists g', draw 624 397 n g = Some (map (fun i => mt_output (x i)) (seq 0 n), g') /\ mt_load 624 (mt_save g') = Some g' /\
    forall b j fuel, word 32 b -> (forall i, (i < j)%nat -> b < mt_output (x (n + i)%nat) mod 2 ^ bits b) -> mt_output (x (n + j)%nat) mod 2 ^ bits b <= b -> Z.of_nat j < fuel ->
      exists g'' h, randInt_upto 624 397 fuel g' b = Some (mt_output (x (n + j)%nat) mod 2 ^ bits b, g'') /\ randInt 624 397 g'' = Some (mt_output (x (n + j + 1)%nat), h).
Lemma HM : (2 <= 397)%nat. Proof. apply Nat.leb_le. reflexivity. Qed.
Lemma HN : (397 < 624)%nat. Proof. apply Nat.ltb_lt. reflexivity. Qed.
Lemma tracks_delivers x g : mt_sequence 624 397 x -> (forall k, word 32 (x k)) -> tracks 624 x 624 g -> delivers (fun i => x (624 + i)%nat) g.
Proof.
  assert (G : forall N M, (2 <= M)%nat -> (M < N)%nat -> mt_sequence N M x -> (forall k, word 32 (x k)) -> tracks N x N g -> forall n, exists g', draw N M n g = Some (map (fun i => mt_output (x (N + i)%nat)) (seq 0 n), g') /\ mt_load N (mt_save g') = Some g' /\
    forall b j fuel, word 32 b -> (forall i, (i < j)%nat -> b < mt_output (x (N + (n + i))%nat) mod 2 ^ bits b) -> mt_output (x (N + (n + j))%nat) mod 2 ^ bits b <= b -> Z.of_nat j < fuel ->
      exists g'' h, randInt_upto N M fuel g' b = Some (mt_output (x (N + (n + j))%nat) mod 2 ^ bits b, g'') /\ randInt N M g'' = Some (mt_output (x (N + (n + j + 1))%nat), h)).
  - intros N M HM HN Hx Hw HT n. destruct (draw_ok N M HM HN x Hx (fun k _ => Hw k) n N g HT) as (g' & E & T). exists g'. split; [exact E|]. split; [exact (save_load N M HM HN x _ g' T)|]. intros b j fuel Hb H1 H2 Hf. destruct (upto_ok N M HM HN x Hx (fun k _ => Hw k) b Hb j (N + n) g' fuel T) as (g'' & E2 & T2); [intros i Hi; rewrite <- Nat.add_assoc; now apply H1|rewrite <- Nat.add_assoc; exact H2|exact Hf|]. destruct (randInt_ok N M HM HN x Hx (fun k _ => Hw k) _ g'' T2) as (h & E3 & _). exists g'', h. rewrite !Nat.add_assoc. split; [exact E2|exact E3].
  - intros Hx Hw HT. exact (G 624%nat 397%nat HM HN Hx Hw HT).
Qed.

(** C116: the Mersenne Twister: seeded by a number or by a non-empty array the generator delivers MT19937 *)
Theorem C116_stream seed : exists x g, mt_sequence 624 397 x /\ mt_seeded 624 seed x /\ seed_one 624 397 seed = Some g /\ delivers (fun i => x (624 + i)%nat) g.
Proof. destruct (seed_one_ok 624 397 seed HM HN) as (x & g & H1 & H2 & H3 & _ & H5 & H6). exists x, g. split; [exact H1|]. split; [exact H2|]. split; [exact H5|]. now apply tracks_delivers. Qed.
Theorem C116_array key : key <> [] -> exists x g, mt_sequence 624 397 x /\ mt_array_seeded 624 key x /\ seed_array 624 397 key = Some g /\ delivers (fun i => x (624 + i)%nat) g.
Proof.
  intros NE. assert (HK : (1 <= length key)%nat) by (destruct key; [contradiction|cbn; lia]). destruct (seed_array_ok 624 397 key HM HN HK) as (x & g & H1 & H2 & H3 & _ & H5 & H6). exists x, g. split; [exact H1|]. split; [exact H2|]. split; [exact H5|]. now apply tracks_delivers.
Qed.
(** seeding by an empty array reads outside of it *)
Theorem C116_empty_refuted : seed_array 624 397 [] = None.
Proof. apply seed_array_empty. apply Nat.leb_le. reflexivity. Qed.
(** the state never dies: no sequence from either seeding has a zero state, and no 624 draws in a row are all zero *)
Theorem C116_alive x k : mt_sequence 624 397 x -> (forall i, (i < 624)%nat -> word 32 (x i)) -> (exists seed, mt_seeded 624 seed x) \/ (exists key, mt_array_seeded 624 key x) ->
  ~ zero_window 624 x k /\ ~ forall i, (i < 624)%nat -> mt_output (x (k + i)%nat) = 0.
Proof.
  assert (G : forall N M, (2 <= M)%nat -> (M < N)%nat -> mt_sequence N M x -> (forall i, (i < N)%nat -> word 32 (x i)) -> (exists seed, mt_seeded N seed x) \/ (exists key, mt_array_seeded N key x) -> ~ zero_window N x k /\ ~ forall i, (i < N)%nat -> mt_output (x (k + i)%nat) = 0).
  - intros N M HM HN Hx Hw HS. pose proof (seq_word N M HM HN x Hx Hw) as XW. assert (Z0 : ~ zero_window N x 0).
    { intros (Z1 & Z2). destruct HS as [(seed & _ & XS)|(key & z & v & rounds & _ & _ & _ & _ & X0 & _)]; [|rewrite X0 in Z1; discriminate]. pose proof (XS 2%nat ltac:(lia)) as E. cbn [Nat.sub] in E. pose proof (Z2 1%nat ltac:(lia)) as E1. pose proof (Z2 2%nat ltac:(lia)) as E2. cbn [Nat.add] in E1, E2. rewrite E1, E2 in E. discriminate. }
    split; [intros W; apply Z0; exact (zero_never N M x k HM HN Hx XW W)|exact (outputs_never N M x k HM HN Hx XW Z0)].
  - exact (G 624%nat 397%nat HM HN).
Qed.
(** no information is lost in the tempering *)
Theorem C116_tempering x y : word 32 x -> word 32 y -> word 32 (mt_output x) /\ (mt_output x = mt_output y -> x = y).
Proof. intros Hx Hy. rewrite <- !temper_eq. split; [now apply temper_word|now apply temper_inj]. Qed.
(** the reference values of MT19937 *)
Example C116_case : match seed_one 624 397 5489 with Some g => match draw 624 397 3 g with Some (l, g') => l = [3499211612; 581869302; 3890346734] /\ match randInt_upto 624 397 100 g' 9 with Some (v, _) => v <= 9 | None => False end | None => False end | None => False end /\
  match seed_array 624 397 [0x123; 0x234; 0x345; 0x456] with Some g => match draw 624 397 3 g with Some (l, _) => l = [1067595299; 955945823; 477289528] | None => False end | None => False end.
Proof. vm_compute. repeat split; discriminate. Qed.
Print Assumptions C114_xorshift64.
Print Assumptions C114_step.
Print Assumptions C115_xorshift1024.
Print Assumptions C115_reversible.
Print Assumptions C115_periodic.
Print Assumptions C115_alive.
Print Assumptions C115_seed.
Print Assumptions C116_stream.
Print Assumptions C116_array.
Print Assumptions C116_empty_refuted.
Print Assumptions C116_alive.
Print Assumptions C116_tempering.
