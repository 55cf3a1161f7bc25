From Verif Require Import Lib BaseModel BaseProofs PrimesModel PrimesSpec PrimesProofs PrimesProofs2 PrimesProofs3 NumTheory SegModel SegSpec.
Open Scope nat_scope.

(** ** strides through a view *)
Lemma step_view {S A} (view : S -> nat -> A) (R : nat -> A -> A -> Prop) (body : nat -> S -> option S) o a n d s : o <= a -> 0 < d ->
  (forall j s1, a <= j -> j < n -> (j - a) mod d = 0 -> view s1 (j - o) = view s (j - o) -> exists s', body j s1 = Some s' /\ R j (view s1 (j - o)) (view s' (j - o)) /\ forall x, o + x <> j -> view s' x = view s1 x) ->
  exists s', for_step a n d body s = Some s' /\ forall x, if (a <=? o + x) && (o + x <? n) && ((o + x - a) mod d =? 0) then R (o + x) (view s x) (view s' x) else view s' x = view s x.
Proof.
  intros Ho Hd HB. unfold for_step. destruct (Nat.eqb_spec d 0); [lia|].
  destruct (for_range_spec (fun k s' => forall x, if (a <=? o + x) && (o + x <? n) && ((o + x - a) mod d =? 0) && (o + x <? a + k * d) then R (o + x) (view s x) (view s' x) else view s' x = view s x)
    (fun k => body (a + k * d)) 0 ((n - a + (d - 1)) / d) s) as (s' & E & V); [lia| | |].
  - intros x. destruct (Nat.leb_spec a (o + x)); [|reflexivity]. destruct (Nat.ltb_spec (o + x) (a + 0 * d)); [lia|]. now rewrite andb_false_r.
  - intros k s1 Hk V. assert (Hx : a + k * d < n) by (apply stride_count; lia). set (j := a + k * d) in *.
    assert (M : (j - a) mod d = 0) by (unfold j; replace (a + k * d - a) with (k * d) by lia; apply Nat.mod_mul; lia).
    assert (Ev : view s1 (j - o) = view s (j - o)). { specialize (V (j - o)). replace (o + (j - o)) with j in V by (unfold j; lia). destruct (Nat.ltb_spec j j); [lia|]. now rewrite andb_false_r in V. }
    destruct (HB j s1) as (s2 & E2 & R2 & F2); [unfold j; lia|exact Hx|exact M|exact Ev|]. exists s2. split; [exact E2|]. intros x. specialize (V x). destruct (Nat.eq_dec (o + x) j) as [Ex|Nx].
    + assert (x = j - o) by lia. subst x. rewrite Ex in *. rewrite Ev in R2. destruct (Nat.leb_spec a j); [|lia]. destruct (Nat.ltb_spec j n); [|lia]. rewrite M. cbn [andb Nat.eqb]. destruct (Nat.ltb_spec j (a + Datatypes.S k * d)); [exact R2|unfold j in *; lia].
    + rewrite (F2 x Nx). destruct ((a <=? o + x) && (o + x <? n) && ((o + x - a) mod d =? 0)) eqn:M1; [|exact V]. cbn [andb] in *. apply stride_mem in M1 as (k' & E' & _); [|lia]. rewrite E' in *.
      destruct (Nat.ltb_spec (a + k' * d) j), (Nat.ltb_spec (a + k' * d) (a + Datatypes.S k * d)); try exact V; exfalso; unfold j in *; (destruct (lt_eq_lt_dec k' k) as [[X|X]|X]; [nia|subst; lia|nia]).
  - exists s'. split; [exact E|]. intros x. specialize (V x). destruct ((a <=? o + x) && (o + x <? n) && ((o + x - a) mod d =? 0)) eqn:M; [|exact V]. cbn [andb] in V. apply stride_mem in M as (k & E' & Hx); [|lia].
    destruct (Nat.ltb_spec (o + x) (a + (n - a + (d - 1)) / d * d)); [exact V|]. assert (k < (n - a + (d - 1)) / d) by (apply stride_count; lia). nia.
Qed.
Lemma for_n_shift {S} k : forall a (body : nat -> S -> option S) s i, for_n k (a + i) body s = for_n k i (fun j => body (a + j)) s.
Proof. induction k as [|k IH]; intros a body s i; [reflexivity|]. cbn [for_n]. destruct (body (a + i) s); cbn [obind]; [|reflexivity]. rewrite <- IH. f_equal. lia. Qed.
Lemma for_n_ext {S} k : forall i (f g : nat -> S -> option S) s, (forall j s, f j s = g j s) -> for_n k i f s = for_n k i g s.
Proof. induction k as [|k IH]; intros i f g s H; [reflexivity|]. cbn [for_n]. rewrite H. destruct (g i s); cbn [obind]; [|reflexivity]. now apply IH. Qed.
Lemma for_range_step {S} (body : nat -> S -> option S) a n s : for_range a (Nat.max a n) body s = for_step a n 1 body s.
Proof.
  unfold for_step. cbn [Nat.eqb]. unfold for_range. rewrite Nat.sub_diag, Nat.add_0_r, Nat.div_1_r, Nat.sub_0_r. replace (Nat.max a n - a) with (n - a) by lia. rewrite <- (Nat.add_0_r a) at 2. rewrite for_n_shift. apply for_n_ext. intros j t. f_equal. lia.
Qed.
Lemma range_view {S A} (view : S -> nat -> A) (R : nat -> A -> A -> Prop) (body : nat -> S -> option S) o a n s : o <= a ->
  (forall j s1, a <= j -> j < n -> view s1 (j - o) = view s (j - o) -> exists s', body j s1 = Some s' /\ R j (view s1 (j - o)) (view s' (j - o)) /\ forall x, o + x <> j -> view s' x = view s1 x) ->
  exists s', for_range a (Nat.max a n) body s = Some s' /\ forall x, if (a <=? o + x) && (o + x <? n) then R (o + x) (view s x) (view s' x) else view s' x = view s x.
Proof.
  intros Ho HB. rewrite for_range_step. destruct (step_view view R body o a n 1 s Ho) as (s' & E & V); [lia| |].
  - intros j s1 H1 H2 _. now apply HB.
  - exists s'. split; [exact E|]. intros x. specialize (V x). rewrite Nat.mod_1_r in V. cbn [Nat.eqb] in V. now rewrite andb_true_r in V.
Qed.
Lemma put_view {A} o (l : list A) j v old : o <= j -> nth_error l (j - o) = Some old -> exists l', put o l j v = Some l' /\ nth_error l' (j - o) = Some v /\ forall x, o + x <> j -> nth_error l' x = nth_error l x.
Proof.
  intros H E. assert (Hl : j - o < length l) by (apply nth_error_Some; rewrite E; discriminate). destruct (set_nth_some l (j - o) v Hl) as [l' E']. exists l'. split; [exact E'|]. split.
  - rewrite (set_nth_get _ _ _ _ (j - o) E'). now rewrite Nat.eqb_refl.
  - intros x Hx. rewrite (set_nth_get _ _ _ _ x E'). destruct (Nat.eqb_spec (j - o) x); [lia|reflexivity].
Qed.
Lemma upd_put {A} o (l : list A) j f v : nth_error l (j - o) = Some v -> upd o l j f = put o l j (f v).
Proof. intros E. unfold upd, modify. now rewrite E. Qed.
Lemma multiple_nat_run a b : 0 < a -> exists m, multiple_nat a b = Some m /\ Nat.divide a m /\ b <= m < b + a.
Proof.
  intros H. unfold multiple_nat. destruct (multiple_run (Z.of_nat a) (Z.of_nat b)) as (m & E & [c D] & B); [lia|]. rewrite E. cbn [obind]. exists (Z.to_nat m). split; [reflexivity|]. split; [|lia]. exists (Z.to_nat c). nia.
Qed.
(** the multiples of d visited from the first one not below b *)
Lemma from_multiple b d m n y : 0 < d -> Nat.divide d m -> b <= m < b + d -> (m <=? y) && (y <? n) && ((y - m) mod d =? 0) = (b <=? y) && (y <? n) && (y mod d =? 0).
Proof.
  intros Hd D Hb. destruct D as [c ->]. rewrite (stride_multiple c (c * d) n d y Hd eq_refl). destruct (y <? n); [|now rewrite !andb_false_r]. rewrite !andb_true_r. destruct (y mod d =? 0) eqn:M; [|now rewrite !andb_false_r]. rewrite !andb_true_r.
  apply mod_div in M as [k ->]; [|lia]. destruct (Nat.leb_spec (c * d) (k * d)), (Nat.leb_spec b (k * d)); try reflexivity; [nia|]. exfalso. assert (k < c) by nia. nia.
Qed.
Lemma first_view {A} b0 c (v : A) q b : b0 <= b -> (b = c -> b - b0 < length q) -> exists q', put_first b0 c v (q, b) = Some (q', if b =? c then b + 1 else b) /\ length q' = length q /\ forall x, nth_error q' x = if (b =? c) && (b0 + x =? b) then Some v else nth_error q x.
Proof.
  intros H0 H. unfold put_first. destruct (Nat.eqb_spec b c) as [->|].
  - unfold put. destruct (set_nth_some q (c - b0) v) as [q' E]; [now apply H|]. rewrite E. exists q'. split; [reflexivity|]. split; [apply (set_nth_length _ _ _ _ E)|]. intros x. rewrite (set_nth_get _ _ _ _ x E). cbn [andb]. destruct (Nat.eqb_spec (c - b0) x), (Nat.eqb_spec (b0 + x) c); try reflexivity; lia.
  - exists q. split; [reflexivity|]. split; [reflexivity|]. intros x. reflexivity.
Qed.
Lemma view_length {A} (l l' : list A) : (forall x, nth_error l x = None <-> nth_error l' x = None) -> length l' = length l.
Proof. intros H. destruct (lt_eq_lt_dec (length l') (length l)) as [[X|X]|X]; [exfalso| |exfalso]. - assert (Y : nth_error l' (length l') = None) by now apply nth_error_None. apply H in Y. apply nth_error_None in Y. lia. - exact X. - assert (Y : nth_error l (length l) = None) by now apply nth_error_None. apply H in Y. apply nth_error_None in Y. lia. Qed.
Lemma firstn_nth {A} (l : list A) m i : i < m -> nth_error (firstn m l) i = nth_error l i.
Proof. revert m i. induction l as [|a l IH]; intros [|m] [|i] H; try lia; try reflexivity. cbn. apply IH. lia. Qed.
Lemma firstn_S {A} (l : list A) i v : nth_error l i = Some v -> firstn (S i) l = firstn i l ++ [v].
Proof. revert i. induction l as [|a l IH]; intros [|i] H; try discriminate; [injection H as ->; reflexivity|]. cbn in *. f_equal. now apply IH. Qed.
Lemma primes_below_sorted L : forall i j a b, i < j -> nth_error (primes_below L) i = Some a -> nth_error (primes_below L) j = Some b -> a < b.
Proof.
  induction L as [|L IH]; intros i j a b H Ea Eb; [destruct i; discriminate|]. rewrite primes_below_S in Ea, Eb. destruct (primeb L); [|rewrite app_nil_r in *; now apply (IH i j)].
  assert (Hj : j < length (primes_below L ++ [L])) by (apply nth_error_Some; rewrite Eb; discriminate). rewrite app_length in Hj. cbn in Hj. rewrite nth_error_app1 in Ea by lia. destruct (le_lt_dec (length (primes_below L)) j).
  - rewrite nth_error_app2 in Eb by lia. replace (j - length (primes_below L)) with 0 in Eb by lia. injection Eb as <-. apply nth_error_In in Ea. now apply primes_below_in in Ea.
  - rewrite nth_error_app1 in Eb by lia. now apply (IH i j).
Qed.

(** ** segmented_q *)
Lemma seg_q_loop_run L p m b0 b2 e : firstn m p = primes_below L -> m <= length p -> b0 <= b2 ->
  forall k i b q, i + k = m -> b2 <= b -> (forall j r, i <= j -> nth_error (primes_below L) j = Some r -> b <= Nat.max b2 (r * r)) -> e - b0 <= length q ->
  exists q', seg_q_loop k i b0 b e q p = Some q' /\ forall x, nth_error q' x = if (b2 <=? b0 + x) && (b0 + x <? e) && existsb (fun r => (r * r <=? b0 + x) && ((b0 + x) mod r =? 0)) (skipn i (primes_below L)) then Some false else nth_error q x.
Proof.
  intros HP Hm H02. assert (Lm : length (primes_below L) = m) by (rewrite <- HP, firstn_length; lia). induction k as [|k IH]; intros i b q Hi Hb Hbs Hl; cbn [seg_q_loop].
  - exists q. split; [reflexivity|]. intros x. rewrite skipn_all2 by lia. cbn [existsb]. now rewrite andb_false_r.
  - destruct (nth_error (primes_below L) i) as [r|] eqn:Er; [|apply nth_error_None in Er; lia]. assert (Er' : nth_error p i = Some r) by (rewrite <- Er, <- HP; symmetry; apply firstn_nth; lia). rewrite Er'. cbn [obind].
    assert (Pr : is_prime r) by (apply nth_error_In in Er; now apply primes_below_in in Er). pose proof (prime_ge r Pr) as Hr2.
    assert (Eb : Nat.max b (r * r) = Nat.max b2 (r * r)) by (specialize (Hbs i r ltac:(lia) Er); lia). rewrite Eb. clear b Hb Hbs Eb.
    assert (Hsk : skipn i (primes_below L) = r :: skipn (S i) (primes_below L)). { clear - Er. revert Er. generalize (primes_below L). intros l. revert i. induction l as [|a l IH]; intros [|i] E; try discriminate; [injection E as ->; reflexivity|]. now apply IH. }
    assert (Hlt : forall r', In r' (skipn (S i) (primes_below L)) -> r < r'). { intros r' H. apply In_nth_error in H as [j Ej]. apply (primes_below_sorted L i (S i + j)); [lia|exact Er|]. rewrite <- Ej. clear. revert j. generalize (S i) as n, (primes_below L) as l. induction n as [|n IH]; intros l j; [reflexivity|]. destruct l; [destruct j; reflexivity|]. cbn. apply IH. }
    destruct (Nat.leb_spec e (Nat.max b2 (r * r))) as [He|He].
    + exists q. split; [reflexivity|]. intros x. destruct ((b2 <=? b0 + x) && (b0 + x <? e)) eqn:B; [|reflexivity]. apply andb_prop in B as (B1 & B2). apply Nat.leb_le in B1. apply Nat.ltb_lt in B2. cbn [andb]. rewrite Hsk. destruct (existsb _ _) eqn:X; [|reflexivity]. exfalso. apply existsb_exists in X as (r' & I & X). apply andb_prop in X as (X & _). apply Nat.leb_le in X. destruct I as [<-|I]; [lia|]. apply Hlt in I. nia.
    + destruct (multiple_nat_run r (Nat.max b2 (r * r))) as (s & Es & Ds & Bs); [lia|]. rewrite Es. cbn [obind].
      destruct (step_view (@nth_error bool) (fun _ _ v => v = Some false) (fun a q => put b0 q a false) b0 s e r q) as (q1 & E1 & V1); [lia|lia| |].
      { intros j s1 H1 H2 _ Ev. destruct (nth_error q (j - b0)) as [w|] eqn:Ew; [|apply nth_error_None in Ew; lia]. destruct (put_view b0 s1 j false w) as (l' & A1 & A2 & A3); [lia|exact Ev|]. exists l'. auto. }
      rewrite E1. cbn [obind]. assert (V1' : forall x, nth_error q1 x = if (Nat.max b2 (r * r) <=? b0 + x) && (b0 + x <? e) && ((b0 + x) mod r =? 0) then Some false else nth_error q x). { intros x. specialize (V1 x). rewrite (from_multiple (Nat.max b2 (r * r)) r s e) in V1 by (exact Ds || lia). destruct (_ && _); exact V1. }
      assert (L1 : length q1 = length q). { apply view_length. intros x. rewrite V1'. destruct (_ && _) eqn:B; [|reflexivity]. apply andb_prop in B as (B & _). apply andb_prop in B as (_ & B). apply Nat.ltb_lt in B. split; [|discriminate]. intros X. apply nth_error_None in X. lia. }
      destruct (IH (i + 1) (Nat.max b2 (r * r)) q1) as (q2 & E2 & V2); [lia|lia| |lia|].
      { intros j r' Hj Ej. assert (r < r') by (apply (primes_below_sorted L i j); [lia|exact Er|exact Ej]). nia. }
      exists q2. split; [exact E2|]. intros x. rewrite V2, V1', Nat.add_1_r, Hsk. cbn [existsb].
      assert (Bm : (Nat.max b2 (r * r) <=? b0 + x) = (b2 <=? b0 + x) && (r * r <=? b0 + x)) by (destruct (Nat.leb_spec (Nat.max b2 (r * r)) (b0 + x)), (Nat.leb_spec b2 (b0 + x)), (Nat.leb_spec (r * r) (b0 + x)); try reflexivity; lia). rewrite Bm.
      destruct (b2 <=? b0 + x), (b0 + x <? e), (r * r <=? b0 + x), ((b0 + x) mod r =? 0), (existsb _ _); reflexivity.
Qed.
Lemma primeb_existsb L y : 2 <= y -> y < L * L -> primeb y = negb (existsb (fun r => (r * r <=? y) && (y mod r =? 0)) (primes_below L)).
Proof.
  intros H2 HL. destruct (primeb y) eqn:P; symmetry; [apply negb_true_iff|apply negb_false_iff].
  - apply primeb_spec in P. destruct (existsb _ _) eqn:X; [|reflexivity]. exfalso. apply existsb_exists in X as (r & I & X). apply primes_below_in in I as (_ & Pr). pose proof (prime_ge r Pr). apply andb_prop in X as (X1 & X2). apply Nat.leb_le in X1. apply mod_div in X2; [|lia]. apply prime_divides_prime in X2; [subst; nia|exact Pr|exact P].
  - assert (NP : ~ is_prime y) by (rewrite <- primeb_spec, P; discriminate). destruct (composite_factor y H2 NP) as (r & Pr & D & Q). pose proof (prime_ge r Pr). apply existsb_exists. exists r. split; [apply primes_below_in; split; [nia|exact Pr]|]. apply andb_true_intro. split; [now apply Nat.leb_le|]. apply mod_div; [lia|exact D].
Qed.
Lemma segmented_q_run q b e p m : sieving_primes p m e -> e - b <= length q -> (b < 2 -> 2 <= e) -> exists q', segmented_q q b e p m = Some q' /\ segment b e primeb q q'.
Proof.
  intros (L & Hm & HP & HL) Hl H2. unfold segmented_q. destruct (first_view b 0 false q b) as (q1 & E1 & L1 & V1); [lia|lia|]. rewrite E1. cbn [obind].
  set (b1 := if b =? 0 then b + 1 else b) in *. assert (Hb1 : b1 = Nat.max b 1) by (unfold b1; destruct (Nat.eqb_spec b 0); lia). clearbody b1.
  destruct (first_view b 1 false q1 b1) as (q2 & E2 & L2 & V2); [lia|lia|]. rewrite E2. cbn [obind].
  set (b2 := if b1 =? 1 then b1 + 1 else b1) in *. assert (Hb2 : b2 = Nat.max b 2) by (unfold b2; destruct (Nat.eqb_spec b1 1); lia). clearbody b2.
  destruct (range_view (@nth_error bool) (fun _ _ v => v = Some true) (fun a q => put b q a true) b b2 e q2) as (q3 & E3 & V3); [lia| |].
  { intros j s1 A1 A2 Ev. destruct (nth_error q2 (j - b)) as [w|] eqn:Ew; [|apply nth_error_None in Ew; lia]. destruct (put_view b s1 j true w) as (l' & B1 & B2 & B3); [lia|exact Ev|]. exists l'. auto. }
  rewrite E3. cbn [obind]. assert (L3 : length q3 = length q2). { apply view_length. intros x. specialize (V3 x). destruct (_ && _) eqn:B; [|now rewrite V3]. apply andb_prop in B as (_ & B). apply Nat.ltb_lt in B. rewrite V3. split; [|discriminate]. intros X. apply nth_error_None in X. lia. }
  destruct (seg_q_loop_run L p m b b2 e HP Hm ltac:(lia) m 0 b2 q3) as (q4 & E4 & V4); [lia|lia|intros; lia|lia|]. exists q4. split; [exact E4|]. cbn [skipn] in V4.
  assert (V : forall x, b + x < e -> nth_error q4 x = Some (primeb (b + x))).
  { intros x Hx. rewrite V4. specialize (V3 x). destruct (Nat.ltb_spec (b + x) e); [|lia]. destruct (Nat.leb_spec b2 (b + x)); cbn [andb] in *.
    - rewrite (primeb_existsb L) by lia. destruct (existsb _ _); [reflexivity|exact V3].
    - rewrite V3, V2, V1. assert (b + x = 0 \/ b + x = 1) as [Z|Z] by lia; rewrite Z.
      + destruct (Nat.eqb_spec 0 b1); [lia|]. rewrite andb_false_r. destruct (Nat.eqb_spec b 0); [|lia]. subst b. reflexivity.
      + destruct (Nat.eqb_spec b1 1) as [->|]; [|lia]. reflexivity. }
  assert (W : forall x, e <= b + x -> nth_error q4 x = nth_error q x).
  { intros x Hx. rewrite V4. specialize (V3 x). destruct (Nat.ltb_spec (b + x) e); [lia|]. rewrite andb_false_r in *. cbn [andb]. rewrite V3, V2, V1. destruct (Nat.eqb_spec b1 1), (Nat.eqb_spec (b + x) b1), (Nat.eqb_spec b 0), (Nat.eqb_spec (b + x) b); cbn [andb]; try reflexivity; lia. }
  split; [|split].
  - apply view_length. intros x. destruct (le_lt_dec e (b + x)); [now rewrite W|]. rewrite V by lia. split; [|discriminate]. intros X. apply nth_error_None in X. lia.
  - intros x Hx. rewrite V by lia. do 2 f_equal. lia.
  - intros i Hi. apply W. lia.
Qed.
