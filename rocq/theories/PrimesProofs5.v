From Verif Require Import Lib PrimesModel PrimesSpec PrimesProofs PrimesProofs2.
Open Scope nat_scope.

Lemma for_n_ext' {S} k : forall a (f g : nat -> S -> option S) s, (forall i s, a <= i < a + k -> f i s = g i s) -> for_n k a f s = for_n k a g s.
Proof. induction k as [|k IH]; intros a f g s H; [reflexivity|]. cbn [for_n]. rewrite (H a) by lia. destruct (g a s); cbn [obind]; [|reflexivity]. apply IH. intros i t Hi. apply H. lia. Qed.
Lemma for_range_ext' {S} a b (f g : nat -> S -> option S) s : (forall i s, a <= i < b -> f i s = g i s) -> for_range a b f s = for_range a b g s.
Proof. intros H. unfold for_range. apply for_n_ext'. intros i t Hi. apply H. lia. Qed.
Lemma stride_off_run {A} (body : nat -> list A -> option (list A)) (f : A -> A) o a n d l :
  (forall j l v, nth_error l (o + j) = Some v -> body j l = set_nth l (o + j) (f v)) -> 0 < d -> o + n <= length l ->
  exists l', for_step a n d body l = Some l' /\ length l' = length l /\
    forall x, nth_error l' x = if (o + a <=? x) && (x <? o + n) && ((x - (o + a)) mod d =? 0) then option_map f (nth_error l x) else nth_error l x.
Proof.
  intros HB Hd Hn. destruct (stride_run (fun j l => if o <=? j then body (j - o) l else let* v := nth_error l j in set_nth l j (f v)) f (o + a) (o + n) d l) as (l' & E & L & V); [|exact Hd|exact Hn|].
  - intros j l1 v Ev. destruct (Nat.leb_spec o j); [|now rewrite Ev]. replace j with (o + (j - o)) in Ev by lia. rewrite (HB _ _ _ Ev). f_equal. lia.
  - exists l'. split; [|split; [exact L|exact V]]. rewrite <- E. unfold for_step. destruct (Nat.eqb_spec d 0); [lia|]. replace (o + n - (o + a)) with (n - a) by lia. apply for_range_ext'. intros k s Hk. destruct (Nat.leb_spec o (o + a + k * d)); [|lia]. f_equal. lia.
Qed.
Lemma fill_off_run {A} (c : A) o a n l : o + n <= length l -> exists l', for_range a (Nat.max a n) (fun i l => set_nth l (o + i) c) l = Some l' /\ length l' = length l /\ forall x, nth_error l' x = if (o + a <=? x) && (x <? o + n) then Some c else nth_error l x.
Proof.
  intros Hn. destruct (for_range_spec (fun i l' => length l' = length l /\ forall x, nth_error l' x = if (o + a <=? x) && (x <? o + i) then Some c else nth_error l x) (fun i l => set_nth l (o + i) c) a (Nat.max a n) l) as (l' & E & L & V); [lia| | |].
  - split; [reflexivity|]. intros x. destruct (Nat.leb_spec (o + a) x), (Nat.ltb_spec x (o + a)); try lia; reflexivity.
  - intros i l1 Hi (L & V). destruct (set_nth_some l1 (o + i) c) as [l2 E2]; [lia|]. rewrite E2. exists l2. split; [reflexivity|]. split; [now rewrite (set_nth_length _ _ _ _ E2)|]. intros x. rewrite (set_nth_get _ _ _ _ x E2), V. destruct (Nat.eqb_spec (o + i) x) as [<-|].
    + destruct (Nat.leb_spec (o + a) (o + i)); [|lia]. destruct (Nat.ltb_spec (o + i) (o + S i)); [reflexivity|lia].
    + destruct (Nat.leb_spec (o + a) x); [|reflexivity]. cbn [andb]. destruct (Nat.ltb_spec x (o + i)), (Nat.ltb_spec x (o + S i)); try reflexivity; lia.
  - exists l'. split; [exact E|]. split; [exact L|]. intros x. rewrite V. destruct (Nat.leb_spec (o + a) x); [|reflexivity]. cbn [andb]. destruct (Nat.ltb_spec x (o + Nat.max a n)), (Nat.ltb_spec x (o + n)); try reflexivity; lia.
Qed.
Lemma write_int_run mem k v : 4 * k + 3 < length mem -> exists mem', write_int mem k v = Some mem' /\ length mem' = length mem /\ (forall x, x < 4 * k \/ 4 * k + 3 < x -> nth_error mem' x = nth_error mem x) /\
  nth_error mem' (4 * k) = Some (v mod 256) /\ nth_error mem' (4 * k + 1) = Some (v / 256 mod 256) /\ nth_error mem' (4 * k + 2) = Some (v / 256 / 256 mod 256) /\ nth_error mem' (4 * k + 3) = Some (v / 256 / 256 / 256 mod 256).
Proof.
  intros H. unfold write_int. assert (ND : (4 * k <> 4 * k + 1 /\ 4 * k <> 4 * k + 2 /\ 4 * k <> 4 * k + 3 /\ 4 * k + 1 <> 4 * k + 2 /\ 4 * k + 1 <> 4 * k + 3 /\ 4 * k + 2 <> 4 * k + 3) /\ 4 * k + 1 < 4 * k + 3 /\ 4 * k + 2 < 4 * k + 3 /\ 4 * k < 4 * k + 3) by lia.
  generalize (v mod 256) (v / 256 mod 256) (v / 256 / 256 mod 256) (v / 256 / 256 / 256 mod 256). intros b0 b1 b2 b3. assert (Hx0 : forall x, x < 4 * k \/ 4 * k + 3 < x -> x <> 4 * k /\ x <> 4 * k + 1 /\ x <> 4 * k + 2 /\ x <> 4 * k + 3) by lia. revert H ND Hx0. generalize (4 * k). intros a H ND Hx0.
  destruct (set_nth_some mem a b0) as [m0 E0]; [lia|]. rewrite E0. cbn [obind]. pose proof (set_nth_length _ _ _ _ E0) as L0.
  destruct (set_nth_some m0 (a + 1) b1) as [m1 E1]; [lia|]. rewrite E1. cbn [obind]. pose proof (set_nth_length _ _ _ _ E1) as L1.
  destruct (set_nth_some m1 (a + 2) b2) as [m2 E2]; [lia|]. rewrite E2. cbn [obind]. pose proof (set_nth_length _ _ _ _ E2) as L2.
  destruct (set_nth_some m2 (a + 3) b3) as [m3 E3]; [lia|]. rewrite E3. pose proof (set_nth_length _ _ _ _ E3) as L3.
  exists m3. split; [reflexivity|]. split; [lia|]. assert (V : forall x, nth_error m3 x = if a + 3 =? x then Some b3 else if a + 2 =? x then Some b2 else if a + 1 =? x then Some b1 else if a =? x then Some b0 else nth_error mem x) by (intros x; now rewrite (set_nth_get _ _ _ _ x E3), (set_nth_get _ _ _ _ x E2), (set_nth_get _ _ _ _ x E1), (set_nth_get _ _ _ _ x E0)).
  split; [intros x Hx; specialize (Hx0 x Hx)|]; [|repeat split]; rewrite V; repeat match goal with |- context [?u =? ?w] => destruct (Nat.eqb_spec u w); try lia end; reflexivity.
Qed.
Lemma bytes_value v : (Z.of_nat v < 2 ^ 31)%Z -> v mod 256 + 256 * (v / 256 mod 256 + 256 * (v / 256 / 256 mod 256 + 256 * (v / 256 / 256 / 256 mod 256))) = v.
Proof.
  intros H. pose proof (Nat.div_mod v 256 ltac:(lia)) as A. pose proof (Nat.div_mod (v / 256) 256 ltac:(lia)) as B. pose proof (Nat.div_mod (v / 256 / 256) 256 ltac:(lia)) as C.
  rewrite (Nat.mod_small (v / 256 / 256 / 256)); [lia|]. change (2 ^ 31)%Z with 2147483648%Z in H. lia.
Qed.
Lemma read_written mem k v : (Z.of_nat v < 2 ^ 31)%Z -> nth_error mem (4 * k) = Some (v mod 256) -> nth_error mem (4 * k + 1) = Some (v / 256 mod 256) -> nth_error mem (4 * k + 2) = Some (v / 256 / 256 mod 256) -> nth_error mem (4 * k + 3) = Some (v / 256 / 256 / 256 mod 256) -> read_int mem k = Some v.
Proof. intros H E0 E1 E2 E3. unfold read_int. rewrite E0. cbn [obind]. rewrite E1. cbn [obind]. rewrite E2. cbn [obind]. rewrite E3. cbn [obind]. now rewrite bytes_value. Qed.
Lemma read_same m1 m2 k : (forall x, 4 * k <= x <= 4 * k + 3 -> nth_error m2 x = nth_error m1 x) -> read_int m2 k = read_int m1 k.
Proof. intros H. unfold read_int. rewrite !H by lia. reflexivity. Qed.
(** the sieve sharing the memory of p *)
Lemma in_place_run mem0 n : 1 <= n -> (Z.of_nat n <= 2 ^ 31)%Z -> length mem0 = 4 * n ->
  exists mem, primes_in_place mem0 n = Some (mem, length (primes_below n)) /\ length mem = 4 * n /\ (forall k p, nth_error (primes_below n) k = Some p -> read_int mem k = Some p) /\ read_int mem (length (primes_below n)) = Some 0.
Proof.
  intros H1 Hb L0. unfold primes_in_place. cbv zeta. destruct (Nat.ltb_spec 0 n); [|lia]. destruct (set_nth_some mem0 (3 * n + 0) 0) as [ma Ea]; [lia|]. rewrite Ea. cbn [obind]. pose proof (set_nth_length _ _ _ _ Ea) as La.
  assert (S1 : exists mb, (if 1 <? n then set_nth ma (3 * n + 1) 0 else Some ma) = Some mb /\ length mb = 4 * n). { destruct (Nat.ltb_spec 1 n); [|exists ma; split; [reflexivity|lia]]. destruct (set_nth_some ma (3 * n + 1) 0) as [mb E]; [lia|]. exists mb. rewrite (set_nth_length _ _ _ _ E). split; [exact E|lia]. }
  destruct S1 as (mb & -> & Lb). cbn [obind]. destruct (fill_off_run 1 (3 * n) 2 n mb) as (m1 & E1 & L1 & V1); [lia|]. rewrite E1. cbn [obind].
  match goal with |- context [for_range 2 _ ?f (m1, 0)] => destruct (for_range_spec (fun i '(mem, m) => m = length (primes_below i) /\ length mem = 4 * n /\ (forall k p, nth_error (primes_below i) k = Some p -> read_int mem k = Some p) /\
     (forall x, i <= x < n -> exists b, nth_error mem (3 * n + x) = Some b /\ (b <> 0 <-> unstruck i x))) f 2 (Nat.max 2 n) (m1, 0)) as ([mem m] & E & Em & Lm & Rm & _) end; [lia| | |].
  - split; [reflexivity|]. split; [lia|]. split; [intros [|k] p Hk; discriminate|]. intros x Hx. exists 1. rewrite V1. destruct (Nat.leb_spec (3 * n + 2) (3 * n + x)); [|lia]. destruct (Nat.ltb_spec (3 * n + x) (3 * n + n)); [|lia]. split; [reflexivity|]. split; [intros _|lia]. split; [lia|]. intros r Pr Hr. pose proof (prime_ge r Pr). lia.
  - intros i [mem m] Hi (-> & Lm & Rm & Vm). destruct (Vm i) as (b & Eb & Hb0); [lia|]. rewrite Eb. cbn [obind]. rewrite unstruck_prime in Hb0. rewrite primes_below_S. pose proof (primes_below_le i) as Hle. destruct (Nat.eqb_spec b 0) as [->|Nb].
    + assert (primeb i = false) as -> by (destruct (primeb i) eqn:P; [apply primeb_spec in P; tauto|reflexivity]). rewrite app_nil_r. assert (NP : ~ is_prime i) by (intros P; apply Hb0 in P; lia). eexists. split; [reflexivity|]. cbv beta iota. split; [reflexivity|]. split; [exact Lm|]. split; [exact Rm|]. intros x Hx. destruct (Vm x) as (b & E1' & Hx1); [lia|]. exists b. split; [exact E1'|]. rewrite Hx1. unfold unstruck. split; intros (U1 & U2); (split; [exact U1|]); intros r Pr Hr; [|apply U2; auto; lia]. destruct (Nat.eq_dec r i) as [->|]; [contradiction|apply U2; auto; lia].
    + apply Hb0 in Nb as Pi. rewrite (proj2 (primeb_spec i) Pi). destruct (write_int_run mem (length (primes_below i)) i) as (mw & Ew & Lw & Ow & W0 & W1 & W2 & W3); [lia|]. rewrite Ew. cbn [obind]. set (k0 := length (primes_below i)) in *.
      assert (Rw : forall k p, nth_error (primes_below i ++ [i]) k = Some p -> read_int mw k = Some p). { intros k p Hk. destruct (le_lt_dec k0 k) as [G|G]. - rewrite nth_error_app2 in Hk by exact G. destruct (k - length (primes_below i)) as [|z] eqn:Ez; [|destruct z; discriminate]. cbn in Hk. injection Hk as <-. assert (k = k0) as -> by (unfold k0 in *; lia). apply read_written; auto. lia. - rewrite nth_error_app1 in Hk by exact G. rewrite <- (Rm k p Hk). apply read_same. intros x Hx. apply Ow. lia. }
      assert (Vw : forall x, i < x < n -> nth_error mw (3 * n + x) = nth_error mem (3 * n + x)) by (intros x Hx; apply Ow; lia).
      destruct (Nat.ltb_spec (n / i) i) as [Hbig|Hsmall].
      * eexists. split; [reflexivity|]. cbv beta iota. split; [rewrite app_length; reflexivity|]. split; [lia|]. split; [exact Rw|]. intros x Hx. rewrite Vw by lia. destruct (Vm x) as (c & E2 & H2); [lia|]. exists c. split; [exact E2|]. rewrite H2. unfold unstruck. split; intros (U1 & U2); (split; [exact U1|]); intros r Pr Hr; [|apply U2; auto; lia].
        destruct (Nat.eq_dec r i) as [->|]; [|apply U2; auto; lia]. assert (n < i * i) by (pose proof (Nat.mul_succ_div_gt n i ltac:(lia)); nia). lia.
      * destruct (stride_off_run (fun j mem => set_nth mem (3 * n + j) 0) (fun _ => 0) (3 * n) (i * i) n i mw) as (mq & Eq & Lq & Vq); [reflexivity|lia|lia|]. rewrite Eq. cbn [obind]. eexists. split; [reflexivity|]. cbv beta iota. split; [rewrite app_length; reflexivity|]. split; [lia|]. split.
        -- intros k p Hk. rewrite <- (Rw k p Hk). assert (k < length (primes_below i ++ [i])) by (apply nth_error_Some; congruence). rewrite app_length in *. cbn [length] in *. apply read_same. intros x Hx. rewrite Vq. destruct (Nat.leb_spec (3 * n + i * i) x); [unfold k0 in *; nia|reflexivity].
        -- intros x Hx. rewrite Vq, Vw by lia. destruct (Vm x) as (c & E2 & H2); [lia|]. rewrite E2. replace (3 * n + x - (3 * n + i * i)) with (x - i * i) by lia.
           assert (St : (3 * n + i * i <=? 3 * n + x) && (3 * n + x <? 3 * n + n) && ((x - i * i) mod i =? 0) = (i * i <=? x) && (x mod i =? 0)). { destruct (Nat.ltb_spec (3 * n + x) (3 * n + n)); [|lia]. rewrite andb_true_r. destruct (Nat.leb_spec (3 * n + i * i) (3 * n + x)), (Nat.leb_spec (i * i) x); try reflexivity; try lia. cbn [andb]. f_equal. rewrite <- (Nat.mod_add (x - i * i) i i) by lia. f_equal. lia. }
           rewrite St. cbn [option_map]. destruct ((i * i <=? x) && (x mod i =? 0)) eqn:M.
           ++ exists 0. split; [reflexivity|]. split; [lia|]. intros (U1 & U2). apply andb_prop in M as (M1 & M2). apply Nat.leb_le in M1. apply mod_div in M2; [|lia]. elim (U2 i Pi); auto.
           ++ exists c. split; [reflexivity|]. rewrite H2. unfold unstruck. split; intros (U1 & U2); (split; [exact U1|]); intros r Pr Hr; [|apply U2; auto; lia]. destruct (Nat.eq_dec r i) as [->|]; [|apply U2; auto; lia]. intros Hs Hd. apply mod_div in Hd; [|lia]. apply Nat.leb_le in Hs. rewrite Hs, Hd in M. discriminate.
  - rewrite E. cbn [obind]. assert (En : primes_below (Nat.max 2 n) = primes_below n) by (destruct (le_lt_dec 2 n); [now rewrite Nat.max_r|]; assert (n = 1) as -> by lia; reflexivity). rewrite En in *. subst m. pose proof (primes_below_le n) as Hle.
    destruct (write_int_run mem (length (primes_below n)) 0) as (mw & Ew & Lw & Ow & W0 & W1 & W2 & W3); [lia|]. rewrite Ew. cbn [obind]. exists mw. split; [reflexivity|]. split; [lia|]. split; [|apply read_written; auto; lia].
    intros k p Hk. rewrite <- (Rm k p Hk). assert (k < length (primes_below n)) by (apply nth_error_Some; congruence). apply read_same. intros x Hx. apply Ow. lia.
Qed.
