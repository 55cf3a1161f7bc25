From Verif Require Import Lib PrimesSpec PrimesProofs MeisselSpec MeisselModel TripleProofs.
From Coq Require Import Permutation.
Open Scope nat_scope.

(** ** prefixes of the primes *)
Lemma pb_len_mono a b : a <= b -> length (primes_below a) <= length (primes_below b).
Proof. intros H. destruct (primes_below_mono a b H) as (l & ->). rewrite app_length. lia. Qed.
Lemma pb_same a b : length (primes_below a) = length (primes_below b) -> primes_below a = primes_below b.
Proof.
  intros H. destruct (le_lt_dec a b) as [L|L].
  - destruct (primes_below_mono a b L) as (l & E). rewrite E in H |- *. rewrite app_length in H. destruct l; [now rewrite app_nil_r|cbn in H; lia].
  - destruct (primes_below_mono b a) as (l & E); [lia|]. rewrite E in H |- *. rewrite app_length in H. destruct l; [now rewrite app_nil_r|cbn in H; lia].
Qed.
Lemma pb_last B n : length (primes_below B) = S n -> exists q, is_prime q /\ q < B /\ primes_below B = primes_below q ++ [q].
Proof.
  revert n. induction B as [|B IH]; intros n; [discriminate|]. rewrite primes_below_S. destruct (primeb B) eqn:E.
  - intros _. exists B. split; [now apply primeb_spec|]. split; [lia|reflexivity].
  - rewrite app_nil_r. intros H. destruct (IH n H) as (q & H1 & H2 & H3). exists q. split; [exact H1|]. split; [lia|exact H3].
Qed.
Lemma pb_nth B k : k < length (primes_below B) -> exists q, is_prime q /\ q < B /\ nth_error (primes_below B) k = Some q /\ length (primes_below q) = k.
Proof.
  induction B as [|B IH]; [cbn; lia|]. rewrite primes_below_S. destruct (primeb B) eqn:E.
  - rewrite app_length. cbn [length]. intros H. destruct (Nat.eq_dec k (length (primes_below B))) as [->|N].
    + exists B. split; [now apply primeb_spec|]. split; [lia|]. split; [|reflexivity]. rewrite nth_error_app2 by lia. now rewrite Nat.sub_diag.
    + destruct IH as (q & H1 & H2 & H3 & H4); [lia|]. exists q. split; [exact H1|]. split; [lia|]. split; [|exact H4]. rewrite nth_error_app1 by lia. exact H3.
  - rewrite app_nil_r. intros H. destruct (IH H) as (q & H1 & H2 & H3 & H4). exists q. split; [exact H1|]. split; [lia|]. split; [exact H3|exact H4].
Qed.
Lemma pb_filter a b : a <= b -> length (filter (fun x => a <=? x) (primes_below b)) = length (primes_below b) - length (primes_below a).
Proof.
  intros H. destruct (primes_below_mono a b H) as (l & E).
  assert (G : forall k, a <= k -> length (filter (fun x => a <=? x) (primes_below k)) + length (primes_below a) = length (primes_below k)).
  { induction 1 as [|k Hk IH].
    - assert (F : filter (fun x => a <=? x) (primes_below a) = []); [|rewrite F; cbn; lia].
      assert (X : forall l, (forall x, In x l -> x < a) -> filter (fun x => a <=? x) l = []). { induction l0 as [|x l0 IH]; intros Hl; [reflexivity|]. cbn. pose proof (Hl x (or_introl eq_refl)). destruct (Nat.leb_spec a x); [lia|]. apply IH. intros y Hy. apply Hl. now right. }
      apply X. intros x Hx. apply primes_below_in in Hx. lia.
    - rewrite primes_below_S, filter_app, !app_length. destruct (primeb k); cbn [filter length]; [|lia]. destruct (Nat.leb_spec a k); cbn [length]; lia. }
  specialize (G b H). lia.
Qed.

(** ** Legendre's recurrence *)
Definition roughb (ps : list nat) (x : nat) : bool := forallb (fun p => negb (x mod p =? 0)) ps.
Lemma roughb_spec ps x : (forall p, In p ps -> is_prime p) -> (roughb ps x = true <-> forall p, In p ps -> ~ Nat.divide p x).
Proof.
  intros P. unfold roughb. rewrite forallb_forall. split.
  - intros H p Hp D. pose proof (prime_ge _ (P p Hp)). specialize (H p Hp). apply negb_true_iff, Nat.eqb_neq in H. apply H. apply Nat.mod_divide; [lia|exact D].
  - intros H p Hp. pose proof (prime_ge _ (P p Hp)). apply negb_true_iff, Nat.eqb_neq. intros X. apply Nat.mod_divide in X; [|lia]. exact (H p Hp X).
Qed.
Lemma filter_split {A} (f g : A -> bool) l : length (filter (fun x => f x && g x) l) + length (filter (fun x => f x && negb (g x)) l) = length (filter f l).
Proof. induction l as [|x l IH]; [reflexivity|]. cbn. destruct (f x), (g x); cbn; lia. Qed.
Lemma rough_step ps q m : (forall p, In p ps -> is_prime p) -> ~ In q ps -> is_prime q -> rough_count (ps ++ [q]) m + rough_count ps (m / q) = rough_count ps m.
Proof.
  intros P Nq Pq. pose proof (prime_ge _ Pq) as Q2. unfold rough_count. fold (roughb ps). rewrite <- (filter_split (roughb ps) (fun x => negb (x mod q =? 0)) (seq 1 m)).
  f_equal.
  - f_equal. apply filter_ext. intros x. change (forallb _ (ps ++ [q])) with (roughb (ps ++ [q]) x). unfold roughb. rewrite forallb_app. cbn. now rewrite andb_true_r.
  - rewrite <- (map_length (fun x => q * x)). apply Permutation_length, NoDup_Permutation.
    + apply FinFun.Injective_map_NoDup; [intros a b H; nia|]. apply NoDup_filter, seq_NoDup.
    + apply NoDup_filter, seq_NoDup.
    + intros x. rewrite in_map_iff. setoid_rewrite filter_In. setoid_rewrite in_seq. rewrite negb_involutive, andb_true_iff, Nat.eqb_eq, (roughb_spec ps x P). split.
      * intros (k & <- & Hk & Rk). change (roughb ps k = true) in Rk. rewrite (roughb_spec ps k P) in Rk. pose proof (Nat.mul_div_le m q ltac:(lia)). split; [split; [nia|nia]|]. split.
        -- intros p Hp D. apply prime_euclid in D as [D|D]; [|exact (Rk p Hp D)|exact (P p Hp)]. apply prime_divides_prime in D; [congruence|exact (P p Hp)|exact Pq].
        -- rewrite Nat.mul_comm. apply Nat.mod_mul. lia.
      * intros (Hx & Rx & Mx). apply Nat.mod_divide in Mx as [k Hk]; [|lia]. exists k. split; [lia|]. split.
        -- split; [destruct k; lia|]. assert (k <= m / q) by (apply Nat.div_le_lower_bound; lia). lia.
        -- change (roughb ps k = true). rewrite (roughb_spec ps k P). intros p Hp D. apply (Rx p Hp). rewrite Hk. now apply Nat.divide_mul_l.
Qed.

(** ** the memoised recursion *)
Lemma key_small m n : (Z.of_nat m < 2 ^ 48)%Z -> (Z.of_nat n < 2 ^ 16)%Z -> phi_key m n = (Z.of_nat m * 2 ^ 16 + Z.of_nat n)%Z.
Proof. intros. unfold phi_key. apply Z.mod_small. lia. Qed.
Definition phi_inv (t : memo) : Prop := forall m B r, (Z.of_nat m < 2 ^ 48)%Z -> (Z.of_nat (length (primes_below B)) < 2 ^ 16)%Z -> 0 < m ->
  t (phi_key m (length (primes_below B))) = Some r -> r = Z.of_nat (rough_count (primes_below B) m).
Lemma phi_put t m B : phi_inv t -> (Z.of_nat m < 2 ^ 48)%Z -> (Z.of_nat (length (primes_below B)) < 2 ^ 16)%Z ->
  phi_inv (memo_put t (phi_key m (length (primes_below B))) (Z.of_nat (rough_count (primes_below B) m))).
Proof.
  intros It Hm HB m' B' r Hm' HB' P'. unfold memo_put. destruct (Z.eqb_spec (phi_key m' (length (primes_below B'))) (phi_key m (length (primes_below B)))) as [E|N]; [|now apply It].
  intros [= <-]. rewrite !key_small in E by assumption. assert (m' = m) as -> by lia. rewrite (pb_same B' B) by lia. reflexivity.
Qed.
Lemma rough_nil m : rough_count [] m = m.
Proof. unfold rough_count. cbn [forallb]. assert (E : forall l : list nat, filter (fun _ => true) l = l) by (induction l as [|a l IH]; cbn; congruence). rewrite E. apply seq_length. Qed.
Lemma phi_run p B n m t : (exists rest, p = primes_below B ++ rest) -> length (primes_below B) = n -> (Z.of_nat m < 2 ^ 48)%Z -> (Z.of_nat n < 2 ^ 16)%Z -> phi_inv t ->
  exists t', phi_rec p n m t = Some (Z.of_nat (rough_count (primes_below B) m), t') /\ phi_inv t'.
Proof.
  revert B m t. induction n as [|n IH]; intros B m t Hp HB Hm Hn It.
  - apply length_zero_iff_nil in HB. rewrite HB, rough_nil. exists t. now split.
  - cbn [phi_rec]. destruct (Nat.eqb_spec m 0) as [->|Nm]; [exists t; now split|].
    destruct (t (phi_key m (S n))) as [r|] eqn:Et.
    + rewrite <- HB in Et. apply It in Et; [|exact Hm|lia|lia]. subst r. exists t. now split.
    + destruct (pb_last B n HB) as (q & Pq & Hq & EB). pose proof (prime_ge q Pq). rewrite EB, app_length in HB. cbn in HB. destruct Hp as (rest & Hp).
      assert (Hp' : exists rest, p = primes_below q ++ rest) by (exists (q :: rest); rewrite Hp, EB, <- app_assoc; reflexivity).
      destruct (IH q m t Hp') as (t1 & E1 & I1); [lia|exact Hm|lia|exact It|]. rewrite E1. cbn [obind].
      assert (Eq : nth_error p n = Some q). { rewrite Hp, EB, <- app_assoc. cbn [app]. assert (n = length (primes_below q)) as -> by lia. apply nth_app_mid. }
      rewrite Eq. cbn [obind]. destruct (Nat.eqb_spec q 0) as [|_]; [lia|].
      assert (Hd : m / q <= m) by (apply Nat.div_le_upper_bound; nia).
      destruct (IH q (m / q) t1 Hp') as (t2 & E2 & I2); [lia|lia|lia|exact I1|]. rewrite E2. cbn [obind].
      pose proof (rough_step (primes_below q) q m ltac:(intros p0 H0; apply primes_below_in in H0; tauto) ltac:(intros H0; apply primes_below_in in H0; lia) Pq) as R. rewrite <- EB in R.
      replace (Z.of_nat (rough_count (primes_below q) m) - Z.of_nat (rough_count (primes_below q) (m / q)))%Z with (Z.of_nat (rough_count (primes_below B) m)) by lia.
      eexists. split; [reflexivity|]. assert (HBn : S n = length (primes_below B)) by (rewrite EB, app_length; cbn; lia). rewrite HBn. apply phi_put; [exact I2|exact Hm|lia].
Qed.

(** ** Meissel's identity *)
Lemma flat_map_len {A B} (f : A -> list B) l : Z.of_nat (length (flat_map f l)) = fold_right (fun x s => (Z.of_nat (length (f x)) + s)%Z) 0%Z l.
Proof. induction l as [|x l IH]; [reflexivity|]. cbn. rewrite app_length, Nat2Z.inj_add, IH. reflexivity. Qed.
Definition term (m p : nat) : Z := (Z.of_nat (pi_of (m / p)) - Z.of_nat (length (primes_below p)))%Z.
Definition total (m : nat) (l : list nat) : Z := fold_right (fun p s => (term m p + s)%Z) 0%Z l.
Lemma meissel y m P : 2 <= y -> y <= m -> m < y * y * y -> NoDup P -> (forall p, In p P <-> is_prime p /\ y < p /\ p * p <= m) ->
  (Z.of_nat (rough_count (primes_below (y + 1)) m) = 1 + (Z.of_nat (pi_of m) - Z.of_nat (pi_of y)) + total m P)%Z.
Proof.
  intros Hy Hym Hcube NP HP.
  pose (fl := fun p => map (fun q => p * q) (filter (fun q => p <=? q) (primes_below (m / p + 1)))).
  assert (Hfl : forall p x, In p P -> (In x (fl p) <-> exists q, is_prime q /\ p <= q /\ x = p * q /\ x <= m)).
  { intros p x Hp. apply HP in Hp as (Pp & Hp1 & Hp2). unfold fl. rewrite in_map_iff. setoid_rewrite filter_In. setoid_rewrite primes_below_in. setoid_rewrite Nat.leb_le. split.
    - intros (q & <- & ((Hq & Pq) & Hpq)). exists q. pose proof (Nat.mul_div_le m p ltac:(lia)). repeat split; try assumption; [apply Pq|apply Pq|nia].
    - intros (q & Pq & Hpq & -> & Hx). exists q. split; [reflexivity|]. assert (q <= m / p) by (apply Nat.div_le_lower_bound; lia). repeat split; try assumption; [lia|apply Pq|apply Pq]. }
  assert (Len : length (filter (roughb (primes_below (y + 1))) (seq 1 m)) = length ([1] ++ filter (fun x => y + 1 <=? x) (primes_below (m + 1)) ++ flat_map fl P)).
  { apply Permutation_length, NoDup_Permutation.
    - apply NoDup_filter, seq_NoDup.
    - assert (N1 : ~ In 1 (filter (fun x => y + 1 <=? x) (primes_below (m + 1)) ++ flat_map fl P)).
      { rewrite in_app_iff, filter_In, in_flat_map, Nat.leb_le. intros [[_ X]|(p & Hp & X)]; [lia|]. apply (Hfl p 1 Hp) in X as (q & Pq & _ & E & _). pose proof (prime_ge _ Pq). apply HP in Hp. nia. }
      cbn [app]. constructor; [exact N1|].
      assert (App : forall a b : list nat, NoDup a -> NoDup b -> (forall x, In x a -> In x b -> False) -> NoDup (a ++ b)).
      { induction a as [|x a IH]; intros b Na Nb D; [exact Nb|]. inversion Na; subst. cbn. constructor; [rewrite in_app_iff; intros [X|X]; [contradiction|exact (D x (or_introl eq_refl) X)]|]. apply IH; [assumption|assumption|]. intros z Hz. apply D. now right. }
      apply App.
      + apply NoDup_filter, primes_below_nodup.
      + apply NoDup_flat_map; [exact NP| |].
        * intros p Hp. apply HP in Hp as (Pp & _). pose proof (prime_ge _ Pp). unfold fl. apply FinFun.Injective_map_NoDup; [intros a b H1; nia|]. apply NoDup_filter, primes_below_nodup.
        * intros a b t Ha Hb Ta Tb. apply (Hfl a t Ha) in Ta as (q & Pq & Hq & -> & _). apply (Hfl b _ Hb) in Tb as (r & Pr & Hr & E & _).
          apply HP in Ha as (Pa & _). apply HP in Hb as (Pb & _). pose proof (prime_ge _ Pa). pose proof (prime_ge _ Pb).
          assert (D : Nat.divide a (b * r)) by (exists q; lia). apply prime_euclid in D as [D|D]; [apply prime_divides_prime in D; [exact D|exact Pa|exact Pb]| |exact Pa].
          apply prime_divides_prime in D; [|exact Pa|exact Pr]. subst r. assert (q = b) by nia. lia.
      + intros x Hx Hf. apply filter_In in Hx as (Hx & _). apply primes_below_in in Hx as (_ & Px). apply in_flat_map in Hf as (p & Hp & Hf). apply (Hfl p x Hp) in Hf as (q & Pq & _ & E & _).
        apply HP in Hp as (Pp & _). pose proof (prime_ge _ Pp). pose proof (prime_ge _ Pq). assert (D : Nat.divide p x) by (exists q; lia). apply prime_divides_prime in D; [nia|exact Pp|exact Px].
    - assert (Big : forall p, is_prime p -> ~ In p (primes_below (y + 1)) -> y < p). { intros p Pp N. destruct (le_lt_dec p y); [|assumption]. elim N. apply primes_below_in. split; [lia|exact Pp]. }
      assert (PR : forall p, In p (primes_below (y + 1)) -> is_prime p) by (intros p Hp; apply primes_below_in in Hp; tauto).
      intros x. rewrite filter_In, in_seq, (roughb_spec _ _ PR). cbn [app In]. rewrite in_app_iff, filter_In, primes_below_in, in_flat_map, Nat.leb_le. split.
      + intros (Hx & R). assert (R' : forall p, is_prime p -> Nat.divide p x -> y < p) by (intros p Pp D; apply Big; [exact Pp|intros X; exact (R p X D)]).
        destruct (Nat.eq_dec x 1) as [->|N1]; [now left|right]. destruct (prime_dec' x) as [Px|Nx]; [left; split; [split; [lia|exact Px]|specialize (R' x Px (Nat.divide_refl x)); lia]|right].
        destruct (least_factor x ltac:(lia)) as (p & Pp & [k Hk] & Least). pose proof (prime_ge _ Pp) as P2. assert (Yp : y < p) by (apply R'; [exact Pp|exists k; exact Hk]).
        assert (Hk2 : 2 <= k). { destruct k as [|[|k]]; [lia| |lia]. elim Nx. assert (x = p) as -> by lia. exact Pp. }
        assert (Hpk : p <= k) by (apply Least; [exact Hk2|exists p; lia]).
        assert (Pk : is_prime k).
        { destruct (prime_dec' k) as [|Nk]; [assumption|exfalso]. destruct (composite_factor k Hk2 Nk) as (r & Pr & [s Hs] & Sq). assert (Yr : y < r) by (apply R'; [exact Pr|exists (s * p); nia]).
          assert (y * y <= k) by nia. assert (y * (y * y) <= p * k) by (apply Nat.mul_le_mono; lia). nia. }
        exists p. assert (Hp : In p P) by (apply HP; repeat split; [apply Pp|apply Pp|exact Yp|nia]). split; [exact Hp|]. apply (Hfl p x Hp). exists k. split; [exact Pk|]. split; [exact Hpk|]. split; lia.
      + intros [<-|[((Hx & Px) & Hxy)|(p & Hp & Hf)]].
        * split; [lia|]. intros p Hp D. apply PR, prime_ge in Hp. apply Nat.divide_1_r in D. lia.
        * pose proof (prime_ge _ Px). split; [lia|]. intros p Hp D. apply primes_below_in in Hp as (Hp & Pp). apply prime_divides_prime in D; [lia|exact Pp|exact Px].
        * apply (Hfl p x Hp) in Hf as (q & Pq & Hpq & -> & Hx). apply HP in Hp as (Pp & Hp & _). pose proof (prime_ge _ Pq). split; [nia|]. intros r Hr D. apply primes_below_in in Hr as (Hr & Pr).
          apply prime_euclid in D as [D|D]; [| |exact Pr]; (apply prime_divides_prime in D; [lia|assumption|assumption]). }
  assert (Tot : Z.of_nat (length (flat_map fl P)) = total m P).
  { rewrite flat_map_len. unfold total. assert (G : forall p, In p P -> Z.of_nat (length (fl p)) = term m p).
    { intros p Hp. apply HP in Hp as (Pp & _ & Hp). pose proof (prime_ge _ Pp). unfold fl, term, pi_of. assert (p <= m / p) by (apply Nat.div_le_lower_bound; lia).
      rewrite map_length, pb_filter by lia. pose proof (pb_len_mono p (m / p + 1) ltac:(lia)). lia. }
    clear - G. induction P as [|p P IH]; [reflexivity|]. cbn. rewrite (G p (or_introl eq_refl)), IH; [reflexivity|]. intros q Hq. apply G. now right. }
  unfold rough_count. change (length (filter _ (seq 1 m))) with (length (filter (roughb (primes_below (y + 1))) (seq 1 m))). rewrite Len, !app_length, pb_filter by lia. cbn [length].
  pose proof (pb_len_mono (y + 1) (m + 1) ltac:(lia)). unfold pi_of. lia.
Qed.

(** ** the sum over pairs *)
Lemma filter_last {A} (f : A -> bool) l x : f x = true -> filter f (l ++ [x]) = filter f l ++ [x].
Proof. intros H. rewrite filter_app. cbn. now rewrite H. Qed.
Lemma total_app m a b : total m (a ++ b) = (total m a + total m b)%Z.
Proof. unfold total. induction a as [|x a IH]; [reflexivity|]. cbn. rewrite IH. lia. Qed.
Lemma p2_run y m pi p b B qq : 2 <= y -> pi_table b pi -> m / y <= b -> prime_list B p -> is_prime qq -> qq < B -> y < qq -> m < qq * qq ->
  exists P, p2 m (pi_of y) pi p = Some (total m P) /\ NoDup P /\ forall x, In x P <-> is_prime x /\ y < x /\ x * x <= m.
Proof.
  intros Hy Hpi Hb (rest & Hp) Pq HqB Hyq Hmq. unfold p2.
  destruct (loopZ_spec (fun '(k, r) =>
    let* q := nth_error p k in
    if (q * q <=? m)%nat then
      if (q =? 0)%nat then None else
      let* v := nth_error pi (m / q) in Some (inl (S k, r + (v - Z.of_nat k))%Z)
    else Some (inr r))
    (fun '(k, r) => exists z, y < z /\ k = length (primes_below z) /\ (forall x, is_prime x -> y < x -> x < z -> x * x <= m) /\ r = total m (filter (fun x => y + 1 <=? x) (primes_below z)))
    (fun r => exists P, r = total m P /\ NoDup P /\ forall x, In x P <-> is_prime x /\ y < x /\ x * x <= m)
    (fun '(k, _) => (Z.of_nat (length p) - Z.of_nat k)%Z)) with (fuel := (Z.of_nat (length p) + 1)%Z) (s := (pi_of y, 0%Z)) as (r & E & P & -> & H).
  - intros (k & r) (z & Hz & -> & Hsq & ->).
    assert (HzB : length (primes_below z) < length (primes_below B)).
    { assert (Hzq : z <= qq). { destruct (le_lt_dec z qq); [assumption|]. specialize (Hsq qq Pq Hyq ltac:(assumption)). lia. }
      destruct (primes_below_mono (S qq) B ltac:(lia)) as (l & ->). rewrite app_length, primes_below_S. apply primeb_spec in Pq. rewrite Pq, app_length. cbn. pose proof (pb_len_mono z qq Hzq). lia. }
    destruct (pb_nth B _ HzB) as (q & Pq' & HqB' & Eq & Lq).
    assert (Enth : nth_error p (length (primes_below z)) = Some q) by (rewrite Hp, nth_error_app1 by exact HzB; exact Eq). rewrite Enth. cbn [obind].
    assert (Esame : primes_below z = primes_below q) by (apply pb_same; lia). pose proof (prime_ge _ Pq') as Q2.
    assert (Hzq : z <= q). { destruct (le_lt_dec z q); [assumption|]. assert (X : In q (primes_below z)) by (apply primes_below_in; auto). rewrite Esame in X. apply primes_below_in in X. lia. }
    destruct (Nat.leb_spec (q * q) m) as [L|L].
    + destruct (Nat.eqb_spec q 0) as [|_]; [lia|].
      assert (Hmq' : m / q <= b). { assert (m / q <= m / y) by (apply Nat.div_le_compat_l; lia). lia. }
      rewrite (Hpi _ Hmq'). cbn [obind]. eexists. split; [reflexivity|]. cbv beta iota. split; [|rewrite Hp, app_length; lia].
      exists (S q). split; [lia|]. pose proof (proj2 (primeb_spec q) Pq') as Eb. rewrite primes_below_S, Eb, <- Esame. split; [rewrite app_length; cbn; lia|]. split.
      * intros x Px Hx1 Hx2. destruct (Nat.eq_dec x q) as [->|]; [exact L|]. destruct (le_lt_dec z x) as [G|G]; [|now apply Hsq]. exfalso. assert (X : In x (primes_below q)) by (apply primes_below_in; split; [lia|exact Px]). rewrite <- Esame in X. apply primes_below_in in X. lia.
      * rewrite filter_last by (apply Nat.leb_le; lia). rewrite total_app. cbn [total fold_right]. unfold term. rewrite <- Esame. lia.
    + eexists. split; [reflexivity|]. cbv beta iota. eexists. split; [reflexivity|]. split; [apply NoDup_filter, primes_below_nodup|]. intros x. rewrite filter_In, primes_below_in, Nat.leb_le. split.
      * intros ((Hx & Px) & Hy'). split; [exact Px|]. split; [lia|]. apply Hsq; [exact Px|lia|exact Hx].
      * intros (Px & Hx1 & Hx2). split; [|lia]. split; [|exact Px]. assert (Hxq : x < q) by nia. assert (X : In x (primes_below q)) by (apply primes_below_in; split; [lia|exact Px]). rewrite <- Esame in X. apply primes_below_in in X. lia.
  - intros (k & r) (z & Hz & -> & Hsq & ->).
    assert (Hzq : z <= qq). { destruct (le_lt_dec z qq); [assumption|]. specialize (Hsq qq Pq Hyq ltac:(assumption)). lia. }
    pose proof (pb_len_mono z B ltac:(lia)). rewrite Hp, app_length. lia.
  - exists (y + 1). split; [lia|]. split; [reflexivity|]. split; [intros x _ Hx1 Hx2; lia|]. assert (F : length (filter (fun x => y + 1 <=? x) (primes_below (y + 1))) = 0) by (rewrite pb_filter by lia; lia). apply length_zero_iff_nil in F. now rewrite F.
  - lia.
  - exists P. split; [exact E|exact H].
Qed.

(** ** the whole computation, over any history of calls *)
Definition pi_inv (t : memo) : Prop := forall m r, t (Z.of_nat m) = Some r -> r = Z.of_nat (pi_of m).
Lemma pi_small m : m < 2 -> pi_of m = 0.
Proof. intros H. destruct m as [|[|m]]; [reflexivity|reflexivity|lia]. Qed.
Lemma cube_le cb m : cb ^ 3 <= m -> cb * cb * cb <= m. Proof. cbn. nia. Qed.
Lemma deprecated_run cb m pi p sz t1 t2 : (m < 2 \/ meissel_inputs cb m pi p sz) -> phi_inv t1 -> pi_inv t2 ->
  exists t1' t2', prime_pi_deprecated cb m pi p sz (t1, t2) = Some (Z.of_nat (pi_of m), (t1', t2')) /\ phi_inv t1' /\ pi_inv t2'.
Proof.
  intros Hin I1 I2. unfold prime_pi_deprecated. destruct (Nat.ltb_spec m 2) as [L2|G2]; [rewrite pi_small by exact L2; exists t1, t2; split; [reflexivity|]; now split|].
  destruct Hin as [|((C1 & C2) & M48 & b & B & q & Hpi & Hb1 & Hb2 & Hsz & Hp & Pq & HqB & Hyq & Hmq)]; [lia|].
  destruct (Nat.ltb_spec m sz) as [Ls|Gs]; [rewrite (Hpi m (Hsz Ls)); cbn [obind]; exists t1, t2; split; [reflexivity|]; now split|].
  destruct (t2 (Z.of_nat m)) as [v|] eqn:Et; [apply I2 in Et; subst v; exists t1, t2; split; [reflexivity|]; now split|].
  replace (S cb) with (cb + 1) by lia. rewrite (Hpi _ Hb1). cbn [obind]. rewrite Nat2Z.id. set (y := cb + 1) in *.
  apply cube_le in C1. assert (Hcb : 1 <= cb). { destruct cb; [|lia]. cbn in C2. lia. }
  assert (C3 : m < y * y * y) by (unfold y in *; cbn in C2; nia). assert (Hym : y <= m). { unfold y. destruct (Nat.eq_dec cb 1) as [->|]; [lia|]. nia. }
  assert (Hn : (Z.of_nat (pi_of y) < 2 ^ 16)%Z). { pose proof (primes_below_le (y + 1)) as X. fold (pi_of y) in X. unfold y in *. assert (Z.of_nat cb < 2 ^ 16)%Z; [|lia]. destruct (Z_lt_le_dec (Z.of_nat cb) (2 ^ 16)) as [|G]; [assumption|exfalso].
    assert (2 ^ 16 * 2 ^ 16 <= Z.of_nat cb * Z.of_nat cb)%Z by (apply Z.mul_le_mono_nonneg; lia). assert (2 ^ 16 * 2 ^ 16 * 2 ^ 16 <= Z.of_nat cb * Z.of_nat cb * Z.of_nat cb)%Z by (apply Z.mul_le_mono_nonneg; lia). rewrite <- !Nat2Z.inj_mul in *. lia. }
  assert (Hpre : exists rest, p = primes_below (y + 1) ++ rest). { destruct Hp as (rest & ->). destruct (primes_below_mono (y + 1) B ltac:(lia)) as (l & ->). eexists. rewrite <- app_assoc. reflexivity. }
  destruct (phi_run p (y + 1) (pi_of y) m t1 Hpre eq_refl M48 Hn I1) as (t1' & E1 & I1'). rewrite E1. cbn [obind].
  destruct (p2_run y m pi p b B q ltac:(lia) Hpi Hb2 Hp Pq HqB Hyq Hmq) as (P & E2 & NP & HP). rewrite E2. cbn [obind].
  pose proof (meissel y m P ltac:(lia) Hym C3 NP HP) as Me.
  replace (Z.of_nat (rough_count (primes_below (y + 1)) m) - total m P + Z.of_nat (pi_of y) - 1)%Z with (Z.of_nat (pi_of m)) by lia.
  exists t1'. eexists. split; [reflexivity|]. split; [exact I1'|]. intros m' r. unfold memo_put. destruct (Z.eqb_spec (Z.of_nat m') (Z.of_nat m)) as [E|_]; [|apply I2]. intros [= <-]. assert (m' = m) as -> by lia. reflexivity.
Qed.
Lemma calls_run cs t1 t2 : Forall (fun '(cb, m, pi, p, sz) => m < 2 \/ meissel_inputs cb m pi p sz) cs -> phi_inv t1 -> pi_inv t2 ->
  pi_calls cs (t1, t2) = Some (map (fun '(cb, m, pi, p, sz) => Z.of_nat (pi_of m)) cs).
Proof.
  revert t1 t2. induction cs as [|((((cb, m), pi), p), sz) cs IH]; intros t1 t2 H I1 I2; [reflexivity|]. inversion H; subst. cbn [pi_calls].
  destruct (deprecated_run cb m pi p sz t1 t2) as (t1' & t2' & E & I1' & I2'); [assumption|assumption|assumption|]. rewrite E. cbn [obind]. rewrite IH by assumption. reflexivity.
Qed.
