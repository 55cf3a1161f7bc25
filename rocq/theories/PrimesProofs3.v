From Coq Require Import Permutation.
From Verif Require Import Lib PrimesModel PrimesSpec PrimesProofs PrimesProofs2.
Open Scope nat_scope.

(** ** counting *)
Definition cnt (P : nat -> bool) (l : list nat) : nat := length (filter P l).
Lemma cnt_app P a b : cnt P (a ++ b) = cnt P a + cnt P b.
Proof. unfold cnt. now rewrite filter_app, app_length. Qed.
Lemma cnt_ext P Q l : (forall x, In x l -> P x = Q x) -> cnt P l = cnt Q l.
Proof. intros H. unfold cnt. f_equal. now apply filter_ext_in. Qed.
Lemma cnt_shift P m a k : cnt P (seq (a + m) k) = cnt (fun x => P (x + m)) (seq a k).
Proof. unfold cnt. revert a. induction k as [|k IH]; intros a; [reflexivity|]. cbn [seq filter]. specialize (IH (S a)). cbn [Nat.add] in IH. destruct (P (a + m)); cbn [length]; now rewrite IH. Qed.
Lemma cnt_periodic P m q : (forall x, P (x + m) = P x) -> cnt P (seq 1 (q * m)) = q * cnt P (seq 1 m).
Proof.
  intros H. induction q as [|q IH]; [reflexivity|]. cbn [Nat.mul]. rewrite seq_app, cnt_app, cnt_shift. rewrite (cnt_ext (fun x => P (x + m)) P) by (intros; apply H). now rewrite IH.
Qed.
Lemma cnt_multiples P q m : 0 < q -> cnt (fun x => P x && (x mod q =? 0)) (seq 1 (q * m)) = cnt (fun k => P (q * k)) (seq 1 m).
Proof.
  intros Hq. unfold cnt. rewrite <- (map_length (fun k => q * k) (filter (fun k => P (q * k)) (seq 1 m))). apply Permutation_length. apply NoDup_Permutation.
  - apply NoDup_filter, seq_NoDup.
  - apply FinFun.Injective_map_NoDup; [intros x y E; nia|]. apply NoDup_filter, seq_NoDup.
  - intros x. rewrite filter_In, in_seq, in_map_iff. split.
    + intros (H1 & H2). apply andb_prop in H2 as (H2 & H3). apply mod_div in H3 as [k Hk]; [|exact Hq]. exists k. split; [lia|]. apply filter_In. rewrite in_seq. split; [nia|]. rewrite <- H2. f_equal. lia.
    + intros (k & <- & H). apply filter_In in H as (H1 & H2). apply in_seq in H1. split; [nia|]. rewrite H2. cbn [andb]. apply mod_div; [exact Hq|]. exists k. lia.
Qed.
Lemma cnt_split P Q l : cnt P l = cnt (fun x => P x && Q x) l + cnt (fun x => P x && negb (Q x)) l.
Proof. unfold cnt. induction l as [|x l IH]; [reflexivity|]. cbn [filter]. destruct (P x), (Q x); cbn [andb negb length]; lia. Qed.

(** ** euler_phi *)
(** free ps k: no member of ps divides k *)
Definition free (ps : list nat) (k : nat) : bool := forallb (fun q => negb (k mod q =? 0)) ps.
Lemma mod_add_div k m q : 0 < q -> Nat.divide q m -> (k + m) mod q = k mod q.
Proof. intros H [c ->]. apply Nat.mod_add. lia. Qed.
Lemma free_step ps q m : is_prime q -> (forall r, In r ps -> is_prime r /\ r <> q /\ Nat.divide r (q * m)) ->
  cnt (free ps) (seq 1 (q * m)) / q * (q - 1) = cnt (free (ps ++ [q])) (seq 1 (q * m)).
Proof.
  intros Pq H. pose proof (prime_ge q Pq) as Hq. assert (Hm : forall r, In r ps -> 0 < r /\ Nat.divide r m /\ ~ Nat.divide r q).
  { intros r Hr. destruct (H r Hr) as (P & N & D). pose proof (prime_ge r P). assert (~ Nat.divide r q) by (intros X; apply N; now apply prime_divides_prime). split; [lia|]. split; [|assumption]. apply prime_euclid in D as [D|D]; [contradiction|exact D|exact P]. }
  assert (Per : forall x, free ps (x + m) = free ps x). { intros x. unfold free. clear - Hm. induction ps as [|r ps IH]; [reflexivity|]. cbn [forallb]. rewrite IH by (intros s Hs; apply Hm; now right). destruct (Hm r (or_introl eq_refl)) as (A & B & _). now rewrite mod_add_div. }
  assert (Mul : forall x, free ps (q * x) = free ps x). { intros x. unfold free. clear - Hm H. induction ps as [|r ps IH]; [reflexivity|]. cbn [forallb]. rewrite IH; [|intros s Hs; apply H; now right|intros s Hs; apply Hm; now right]. f_equal. f_equal. destruct (Hm r (or_introl eq_refl)) as (A & _ & C). destruct (H r (or_introl eq_refl)) as (P & _). apply eq_true_iff_eq. rewrite !mod_div by exact A. split; [|apply Nat.divide_mul_r]. intros D. apply prime_euclid in D as [D|D]; [contradiction|exact D|exact P]. }
  pose proof (cnt_periodic (free ps) m q Per) as E1. pose proof (cnt_multiples (free ps) q m ltac:(lia)) as E2. pose proof (cnt_split (free ps) (fun x => x mod q =? 0) (seq 1 (q * m))) as E3.
  assert (E4 : cnt (free (ps ++ [q])) (seq 1 (q * m)) = cnt (fun x => free ps x && negb (x mod q =? 0)) (seq 1 (q * m))). { apply cnt_ext. intros x _. unfold free. rewrite forallb_app. cbn [forallb]. now rewrite andb_true_r. }
  rewrite (cnt_ext (fun k => free ps (q * k)) (free ps)) in E2 by (intros; apply Mul). rewrite E4. rewrite E1 at 1. rewrite Nat.mul_comm, Nat.mul_comm with (n := q), Nat.div_mul by lia. nia.
Qed.
Lemma fold_phi x k : 0 < x -> fold_left (fun v q => if x mod q =? 0 then v / q * (q - 1) else v) (primes_below k) x = cnt (free (filter (fun q => x mod q =? 0) (primes_below k))) (seq 1 x).
Proof.
  intros Hx. induction k as [|k IH].
  - cbn. unfold cnt. rewrite <- (seq_length x 1) at 1. f_equal. generalize (seq 1 x). induction l as [|y l IHl]; [reflexivity|]. cbn. now rewrite <- IHl.
  - rewrite fold_snoc, IH, primes_below_S, filter_app. destruct (primeb k) eqn:P; cbn [filter]; [|now rewrite app_nil_r]. destruct (x mod k =? 0) eqn:M; [|now rewrite app_nil_r].
    apply primeb_spec in P. pose proof (prime_ge k P). apply mod_div in M as [m Hm]; [|lia]. rewrite Nat.mul_comm in Hm. set (ps := filter _ _). assert (Hps : forall r, In r ps -> is_prime r /\ r <> k /\ Nat.divide r x). { intros r Hr. apply filter_In in Hr as (Hr & D). apply primes_below_in in Hr as (A & B). pose proof (prime_ge r B). split; [exact B|]. split; [lia|]. apply mod_div in D; [exact D|lia]. }
    clearbody ps. subst x. now apply free_step.
Qed.
Lemma gcd_free x k : 0 < x -> (Nat.gcd k x =? 1) = free (filter (fun q => x mod q =? 0) (primes_below (S x))) k.
Proof.
  intros Hx. apply eq_true_iff_eq. rewrite Nat.eqb_eq. unfold free. rewrite forallb_forall. split.
  - intros G q Hq. apply filter_In in Hq as (Hq & D). apply primes_below_in in Hq as (_ & P). pose proof (prime_ge q P). apply negb_true_iff. apply mod_div_false; [lia|]. intros D'. apply mod_div in D; [|lia]. assert (X : Nat.divide q (Nat.gcd k x)) by (apply Nat.gcd_greatest; assumption). rewrite G in X. apply Nat.divide_1_r in X. lia.
  - intros H. destruct (Nat.eq_dec (Nat.gcd k x) 1) as [|N]; [assumption|exfalso]. assert (Nat.gcd k x <> 0) by (intros E; apply Nat.gcd_eq_0 in E; lia). destruct (least_factor (Nat.gcd k x)) as (p & P & D & _); [lia|]. pose proof (prime_ge p P).
    assert (D1 : Nat.divide p k) by (etransitivity; [exact D|apply Nat.gcd_divide_l]). assert (D2 : Nat.divide p x) by (etransitivity; [exact D|apply Nat.gcd_divide_r]). pose proof (div_le p x Hx D2).
    specialize (H p). rewrite filter_In, primes_below_in in H. assert (X : negb (k mod p =? 0) = true) by (apply H; split; [split; [lia|exact P]|apply mod_div; [lia|exact D2]]). apply negb_true_iff in X. apply mod_div_false in X; [contradiction|lia].
Qed.
Lemma fold_stable {A} (F : nat -> A -> A) x n v : 0 < x -> x < n -> fold_left (fun v q => if x mod q =? 0 then F q v else v) (primes_below n) v = fold_left (fun v q => if x mod q =? 0 then F q v else v) (primes_below (S x)) v.
Proof.
  intros H0 Hx. destruct (primes_below_mono (S x) n) as (t & E); [lia|]. assert (Ht : forall y, In y t -> x < y).
  { intros y Hy. assert (X : In y (primes_below n)) by (rewrite E; apply in_or_app; now right). apply primes_below_in in X as (_ & X). destruct (le_lt_dec y x); [exfalso|assumption]. pose proof (primes_below_nodup n) as ND. rewrite E in ND. assert (H : In y (primes_below (S x))) by (apply primes_below_in; split; [lia|exact X]). clear - ND Hy H. induction (primes_below (S x)) as [|z w IH]; [contradiction|]. cbn in ND. inversion ND; subst. destruct H as [->|H]; [apply H2, in_or_app; now right|now apply IH]. }
  rewrite E, fold_left_app. generalize (fold_left (fun v q => if x mod q =? 0 then F q v else v) (primes_below (S x)) v). clear - Ht H0. induction t as [|y t IH]; intros u; [reflexivity|]. cbn [fold_left]. rewrite Nat.mod_small by (apply Ht; now left). destruct (Nat.eqb_spec x 0); [lia|]. apply IH. intros z Hz. apply Ht. now right.
Qed.
Lemma euler_phi_run phi0 n rest : n <= length phi0 -> exists phi, euler_phi phi0 n (primes_below n ++ rest) (length (primes_below n)) = Some phi /\ table n totient phi0 phi.
Proof.
  intros Hn. unfold euler_phi. destruct (fill0_run (fun i => i) (fun i nu => set_nth nu i i) n phi0) as (l1 & E1 & L1 & V1); [reflexivity|lia|]. rewrite E1. cbn [obind].
  destruct (prime_sieve_run (fun q v => v / q * (q - 1)) (fun pi j nu => modify nu j (fun v => v / pi * (pi - 1))) (primes_below n) rest n l1) as (l2 & E2 & L2 & V2); [intros q; apply modify_body|apply primes_pos|lia|].
  exists l2. split; [exact E2|]. split; [lia|]. split; intros i Hi; rewrite V2, V1.
  - destruct (Nat.ltb_spec i n); [|lia]. rewrite andb_true_r. destruct (Nat.ltb_spec 0 i); cbn [option_map].
    + f_equal. rewrite (fold_stable (fun q v => v / q * (q - 1))) by lia. rewrite fold_phi by lia. unfold totient. apply cnt_ext. intros k _. symmetry. now apply gcd_free.
    + assert (i = 0) as -> by lia. reflexivity.
  - destruct (Nat.ltb_spec i n); [lia|]. now rewrite andb_false_r.
Qed.

(** ** moebius_mu *)
Definition mstep (x : nat) (v : Z) (q : nat) : Z := let v := if x mod (q * q) =? 0 then 0%Z else v in if x mod q =? 0 then (v * - Z.of_nat q)%Z else v.
Definition mval (x k : nat) : Z := fold_left (mstep x) (primes_below k) 1%Z.
Definition sqfree_below (x k : nat) : Prop := forall r, is_prime r -> r < k -> ~ Nat.divide (r * r) x.
Definition dprimes (x k : nat) : list nat := filter (fun q => x mod q =? 0) (primes_below k).
Definition nprod (l : list nat) : nat := fold_right Nat.mul 1 l.
Lemma dprimes_S x k : dprimes x (S k) = if primeb k && (x mod k =? 0) then dprimes x k ++ [k] else dprimes x k.
Proof. unfold dprimes. rewrite primes_below_S, filter_app. destruct (primeb k); cbn [filter andb]; [|now rewrite app_nil_r]. destruct (x mod k =? 0); [reflexivity|now rewrite app_nil_r]. Qed.
Lemma nprod_app a b : nprod (a ++ b) = nprod a * nprod b.
Proof. unfold nprod. induction a as [|x a IH]; cbn; [lia|]. rewrite IH. lia. Qed.
Lemma mval_S x k : mval x (S k) = if primeb k then mstep x (mval x k) k else mval x k.
Proof. unfold mval. apply fold_snoc. Qed.
Lemma mval_value x k : (sqfree_below x k /\ mval x k = (Z.of_nat (nprod (dprimes x k)) * (-1) ^ Z.of_nat (length (dprimes x k)))%Z) \/ (~ sqfree_below x k /\ mval x k = 0%Z).
Proof.
  induction k as [|k IH]; [left; split; [intros r _ Hr; lia|reflexivity]|]. rewrite mval_S, dprimes_S. destruct (primeb k) eqn:P.
  - apply primeb_spec in P. pose proof (prime_ge k P). cbn [andb]. unfold mstep. destruct (x mod (k * k) =? 0) eqn:M2.
    + apply mod_div in M2; [|nia]. right. split; [intros X; apply (X k P); [lia|exact M2]|]. destruct (x mod k =? 0); reflexivity.
    + apply mod_div_false in M2; [|nia]. assert (Q : sqfree_below x (S k) <-> sqfree_below x k). { unfold sqfree_below. split; intros X r Pr Hr; [apply X; auto|]. destruct (Nat.eq_dec r k) as [->|]; [exact M2|apply X; auto; lia]. }
      rewrite Q. destruct IH as [(A & B)|(A & B)]; [left|right]; (split; [exact A|]); rewrite B; destruct (x mod k =? 0); try reflexivity.
      rewrite nprod_app, app_length. cbn [nprod fold_right length]. rewrite Nat2Z.inj_add, Z.pow_add_r by lia. change ((-1) ^ Z.of_nat 1)%Z with (-1)%Z. lia.
  - assert (NP : ~ is_prime k) by (rewrite <- primeb_spec, P; discriminate). cbn [andb]. assert (Q : sqfree_below x (S k) <-> sqfree_below x k). { unfold sqfree_below. split; intros X r Pr Hr; [apply X; auto|]. destruct (Nat.eq_dec r k) as [->|]; [contradiction|apply X; auto; lia]. }
    rewrite Q. exact IH.
Qed.
Lemma dprimes_in x k p : In p (dprimes x k) <-> p < k /\ is_prime p /\ Nat.divide p x.
Proof. unfold dprimes. rewrite filter_In, primes_below_in. split; [intros ((A & B) & C)|intros (A & B & C)]; pose proof (prime_ge p B); [apply mod_div in C; [auto|lia]|]. split; [auto|]. apply mod_div; [lia|exact C]. Qed.
Lemma prod_primes_divide l x : NoDup l -> (forall p, In p l -> is_prime p /\ Nat.divide p x) -> Nat.divide (nprod l) x.
Proof.
  induction l as [|p l IH]; intros ND H; [apply Nat.divide_1_l|]. inversion ND; subst. cbn [nprod fold_right]. fold (nprod l). destruct IH as [c Hc]; [assumption|intros q Hq; apply H; now right|]. destruct (H p (or_introl eq_refl)) as (P & D).
  assert (Np : ~ Nat.divide p (nprod l)). { clear - P H H2. induction l as [|q l IH]; intros D; [cbn in D; apply Nat.divide_1_r in D; pose proof (prime_ge p P); lia|]. cbn [nprod fold_right] in D. apply prime_euclid in D as [D|D]; [| |exact P]. - apply prime_divides_prime in D; [subst; apply H2; now left|exact P|]. apply (H q). right. now left. - apply IH; [|intros X; apply H2; now right|exact D]. intros r [<-|Hr]; apply H; [now left|right; now right]. }
  rewrite Hc in D. apply prime_euclid in D as [[d Hd]|D]; [| contradiction|exact P]. exists d. rewrite Hc, Hd. lia.
Qed.
Lemma nprod_pos l : (forall p, In p l -> is_prime p) -> 0 < nprod l.
Proof. induction l as [|p l IH]; intros H; [cbn; lia|]. cbn [nprod fold_right]. fold (nprod l). pose proof (prime_ge p (H p (or_introl eq_refl))). assert (0 < nprod l) by (apply IH; intros q Hq; apply H; now right). nia. Qed.
Lemma mval_one x : 2 <= x -> (mval x x = 1%Z <-> is_prime x).
Proof.
  intros Hx. destruct (mval_value x x) as [(A & B)|(A & B)]; rewrite B.
  - split.
    + intros E. destruct (prime_dec' x) as [|NP]; [assumption|exfalso]. destruct (composite_factor x Hx NP) as (p & P & D & S2). pose proof (prime_ge p P). assert (I : In p (dprimes x x)) by (apply dprimes_in; repeat split; auto; nia || apply P).
      apply in_split in I as (a & b & I). assert (2 <= nprod (dprimes x x)). { assert (Hp : forall q, In q (dprimes x x) -> is_prime q) by (intros q Hq; now apply dprimes_in in Hq). rewrite I in *. rewrite nprod_app. cbn [nprod fold_right]. fold (nprod b). assert (0 < nprod a) by (apply nprod_pos; intros q Hq; apply Hp, in_or_app; now left). assert (0 < nprod b) by (apply nprod_pos; intros q Hq; apply Hp, in_or_app; right; now right). nia. }
      revert E. destruct (Z.Even_or_Odd (Z.of_nat (length (dprimes x x)))) as [Ev|Od]; [rewrite Z.pow_opp_even with (a := 1%Z) by exact Ev|rewrite Z.pow_opp_odd with (a := 1%Z) by exact Od]; rewrite Z.pow_1_l by lia; lia.
    + intros P. assert (dprimes x x = []) as ->; [|reflexivity]. destruct (dprimes x x) as [|q l] eqn:E; [reflexivity|exfalso]. assert (I : In q (dprimes x x)) by (rewrite E; now left). apply dprimes_in in I as (I1 & I2 & I3). apply prime_divides_prime in I3; auto. lia.
  - split; [discriminate|]. intros P. exfalso. apply A. intros r Pr Hr D. assert (D' : Nat.divide r x) by (etransitivity; [|exact D]; exists r; reflexivity). apply prime_divides_prime in D'; auto. lia.
Qed.

(** the Moebius function from the primes below k *)
Lemma mobius_squarefree x : 0 < x -> (forall r, is_prime r -> ~ Nat.divide (r * r) x) -> mobius x = ((-1) ^ Z.of_nat (length (prime_divisors x)))%Z.
Proof.
  intros Hx H. unfold mobius. destruct (Nat.eqb_spec x 0); [lia|]. destruct (existsb _ _) eqn:E; [|reflexivity]. exfalso. apply existsb_exists in E as (d & Hd & M). apply in_seq in Hd. apply mod_div in M; [|nia]. destruct (least_factor d) as (p & P & D & _); [lia|]. apply (H p P). etransitivity; [|exact M]. apply Nat.mul_divide_mono_l with (p := p) in D as D1. apply Nat.mul_divide_mono_r with (p := d) in D as D2. etransitivity; eassumption.
Qed.
Lemma mobius_square x r : 0 < x -> is_prime r -> Nat.divide (r * r) x -> mobius x = 0%Z.
Proof.
  intros Hx P D. pose proof (prime_ge r P). unfold mobius. destruct (Nat.eqb_spec x 0); [lia|]. destruct (existsb _ _) eqn:E; [reflexivity|]. exfalso. assert (X : existsb (fun d => x mod (d * d) =? 0) (seq 2 x) = true); [|congruence]. apply existsb_exists. exists r. split; [|apply mod_div; [nia|exact D]]. apply in_seq. pose proof (div_le _ _ Hx D). nia.
Qed.
Definition mfix (i : nat) (v : Z) : Z := if (v =? Z.of_nat i)%Z then 1%Z else if (v =? - Z.of_nat i)%Z then (-1)%Z else if (v <? 0)%Z then 1%Z else if (0 <? v)%Z then (-1)%Z else v.
Lemma mfix_correct x k : 2 <= x -> x < k * k -> mfix x (mval x k) = mobius x.
Proof.
  intros Hx Hk. destruct (mval_value x k) as [(A & B)|(A & B)].
  - assert (Sq : forall r, is_prime r -> ~ Nat.divide (r * r) x). { intros r Pr. destruct (le_lt_dec k r); [|now apply A]. intros D. apply div_le in D; [|lia]. nia. }
    rewrite mobius_squarefree by (exact Sq || lia). rewrite B. clear A B.
    assert (HL : forall p, In p (dprimes x k) -> is_prime p /\ Nat.divide p x) by (intros p Hp; apply dprimes_in in Hp as (_ & H1 & H2); auto).
    assert (ND : NoDup (dprimes x k)) by (apply NoDup_filter, primes_below_nodup).
    destruct (prod_primes_divide _ x ND HL) as [c Hc]. assert (Hp0 : 0 < nprod (dprimes x k)) by (apply nprod_pos; intros p Hp; now apply HL).
    assert (Hc' : forall r, is_prime r -> Nat.divide r c -> k <= r). { intros r Pr D. destruct (le_lt_dec k r) as [|Hr]; [assumption|exfalso]. assert (I : In r (dprimes x k)). { apply dprimes_in. split; [exact Hr|]. split; [exact Pr|]. rewrite Hc. now apply Nat.divide_mul_l. } apply (Sq r Pr). rewrite Hc. assert (D2 : Nat.divide r (nprod (dprimes x k))). { clear - I. induction (dprimes x k) as [|p l IH]; [contradiction|]. cbn [nprod fold_right]. destruct I as [->|I]; [apply Nat.divide_factor_l|apply Nat.divide_mul_r; now apply IH]. } destruct D as [u Hu], D2 as [w Hw]. exists (u * w). rewrite Hu, Hw. lia. }
    set (L := dprimes x k) in *. set (N := nprod L) in *.
    assert (Ec : c = 1 /\ length (prime_divisors x) = length L \/ 2 <= c /\ length (prime_divisors x) = S (length L)).
    { assert (HP : forall p, In p (prime_divisors x) <-> is_prime p /\ (In p L \/ Nat.divide p c)).
      { intros p. rewrite prime_divisors_in. unfold L. rewrite dprimes_in. split; [intros (_ & P & D)|intros (P & D)]; (split; [exact P || lia|]).
        - destruct (le_lt_dec k p); [right|left; auto]. rewrite Hc in D. apply prime_euclid in D as [D|D]; [exact D| |exact P]. exfalso. assert (G : forall l, (forall q, In q l -> is_prime q) -> Nat.divide p (nprod l) -> In p l). { clear - P. induction l as [|q l IH]; intros H D; [cbn in D; apply Nat.divide_1_r in D; pose proof (prime_ge p P); lia|]. cbn [nprod fold_right] in D. apply prime_euclid in D as [D|D]; [| |exact P]; [left; symmetry; apply prime_divides_prime; auto; apply H; now left|right; apply IH; [intros r Hr; apply H; now right|exact D]]. } apply G in D; [|intros q Hq; now apply HL]. apply dprimes_in in D. lia.
        - split; [exact P|]. destruct D as [D|D]; [apply D|]. rewrite Hc. now apply Nat.divide_mul_l. }
      destruct (Nat.eq_dec c 1) as [E1|N1].
      - left. split; [exact E1|]. apply Permutation_length, NoDup_Permutation; [apply prime_divisors_nodup|exact ND|]. intros p. rewrite HP. split; [intros (P & [D|D]); [exact D|]|intros D; split; [now apply HL|now left]]. rewrite E1 in D. apply Nat.divide_1_r in D. pose proof (prime_ge p P). lia.
      - right. assert (c <> 0) by (intros ->; cbn in Hc; lia). split; [lia|]. assert (Pc : is_prime c). { destruct (prime_dec' c) as [|NP]; [assumption|exfalso]. destruct (composite_factor c ltac:(lia) NP) as (p & P & D & S2). pose proof (Hc' p P D). nia. }
        change (S (length L)) with (length (c :: L)). apply Permutation_length, NoDup_Permutation; [apply prime_divisors_nodup| |].
        + constructor; [|exact ND]. intros I. apply dprimes_in in I. pose proof (Hc' c Pc (Nat.divide_refl c)). lia.
        + intros p. rewrite HP. split; [intros (P & [D|D]); [now right|left; symmetry; now apply prime_divides_prime]|intros [<-|D]; [split; [exact Pc|right; apply Nat.divide_refl]|split; [now apply HL|now left]]]. }
    clearbody N. revert Ec. generalize (length (prime_divisors x)) (length L). intros a b Ec. clear - Ec Hc Hp0 Hx.
    assert (Sg : ((-1) ^ Z.of_nat b = 1 \/ (-1) ^ Z.of_nat b = -1)%Z). { clear. induction b as [|b IH]; [now left|]. rewrite Nat2Z.inj_succ, Z.pow_succ_r by lia. lia. }
    assert (Ss : ((-1) ^ Z.of_nat (S b) = - (-1) ^ Z.of_nat b)%Z) by (rewrite Nat2Z.inj_succ, Z.pow_succ_r by lia; lia).
    unfold mfix. destruct Ec as [(-> & ->)|(Hc2 & ->)].
    + assert (x = N) as -> by lia. destruct Sg as [E|E]; rewrite E. * rewrite Z.mul_1_r, Z.eqb_refl. reflexivity. * destruct (Z.eqb_spec (Z.of_nat N * -1) (Z.of_nat N)); [lia|]. destruct (Z.eqb_spec (Z.of_nat N * -1) (- Z.of_nat N)); lia.
    + assert (N < x) by nia. rewrite Ss. destruct Sg as [E|E]; rewrite E; repeat match goal with |- context [(?u =? ?v)%Z] => destruct (Z.eqb_spec u v); try lia | |- context [(?u <? ?v)%Z] => destruct (Z.ltb_spec u v); try lia end.
  - rewrite B. unfold mfix. assert (M : mobius x = 0%Z). { destruct (existsb (fun r => primeb r && (x mod (r * r) =? 0)) (seq 0 k)) eqn:E. - apply existsb_exists in E as (r & Hr & E). apply andb_prop in E as (E1 & E2). apply primeb_spec in E1. pose proof (prime_ge r E1). apply mod_div in E2; [|nia]. apply (mobius_square x r); auto. lia. - exfalso. apply A. intros r Pr Hr D. assert (X : existsb (fun r => primeb r && (x mod (r * r) =? 0)) (seq 0 k) = true); [|congruence]. apply existsb_exists. exists r. split; [apply in_seq; lia|]. pose proof (prime_ge r Pr). apply primeb_spec in Pr. rewrite Pr. cbn [andb]. apply mod_div; [nia|exact D]. }
    rewrite M. destruct (Z.eqb_spec 0 (Z.of_nat x)); [lia|]. destruct (Z.eqb_spec 0 (- Z.of_nat x)); [lia|]. reflexivity.
Qed.
Lemma zero_stride d n x : 0 < d -> (0 <=? x) && (x <? n) && ((x - 0) mod d =? 0) = (x <? n) && (x mod d =? 0).
Proof. intros H. now rewrite Nat.sub_0_r. Qed.
Lemma moebius_run mu0 n : 1 <= n -> n <= length mu0 -> exists mu, moebius_mu mu0 n = Some mu /\ table n mobius mu0 mu.
Proof.
  intros H1 Hn. unfold moebius_mu. destruct (set_nth_some mu0 0 0%Z) as [m0 E0]; [lia|]. rewrite E0. cbn [obind]. pose proof (set_nth_length _ _ _ _ E0) as L0.
  destruct (fill_run (fun _ => 1%Z) (fun i nu => set_nth nu i 1%Z) 1 n m0) as (l1 & E1 & L1 & V1); [reflexivity|lia|]. rewrite E1. cbn [obind].
  assert (V1' : forall x, nth_error l1 x = if x =? 0 then Some 0%Z else if x <? n then Some 1%Z else nth_error mu0 x). { intros x. rewrite V1, (set_nth_get _ _ _ _ x E0), (Nat.eqb_sym 0 x). destruct (Nat.eqb_spec x 0) as [->|]; [reflexivity|]. destruct (Nat.leb_spec 1 x); [|lia]. reflexivity. }
  match goal with |- context [loopZ ?fu ?g ?st] => destruct (loopZ_spec g
    (fun '(i, mu) => 2 <= i /\ (i = 2 \/ (i - 1) * (i - 1) < n) /\ length mu = length mu0 /\ forall x, nth_error mu x = if x =? 0 then Some 0%Z else if x <? n then Some (mval x i) else nth_error mu0 x)
    (fun mu => length mu = length mu0 /\ exists k, n <= k * k /\ forall x, nth_error mu x = if x =? 0 then Some 0%Z else if x <? n then Some (mval x k) else nth_error mu0 x)
    (fun '(i, _) => Z.of_nat (n + 2 - i))) with (fuel := fu) (s := st) as (mu & Em & Lm & k & Hk & Vm) end.
  - intros [i mu] (H2 & Hb & L & V). destruct (Nat.leb_spec n (i * i)) as [Hi|Hi]; [eexists; split; [reflexivity|]; split; [exact L|]; exists i; split; [exact Hi|exact V]|].
    rewrite V. destruct (Nat.eqb_spec i 0); [lia|]. destruct (Nat.ltb_spec i n); [|nia]. cbn [obind].
    destruct (Z.eqb_spec (mval i i) 1) as [P|NP]; cbn [negb].
    + apply mval_one in P; [|lia]. destruct (stride_run (fun j mu => set_nth mu j 0%Z) (fun _ => 0%Z) 0 n (i * i) mu (const_body _)) as (m1 & Ea & La & Va); [nia|lia|]. rewrite Ea. cbn [obind].
      destruct (stride_run (fun j mu => modify mu j (fun v => v * - Z.of_nat i)%Z) (fun v => v * - Z.of_nat i)%Z 0 n i m1 (modify_body _)) as (m2 & Eb & Lb & Vb); [lia|lia|]. rewrite Eb. cbn [obind].
      eexists. split; [reflexivity|]. split; [|nia]. split; [lia|]. split; [right; replace (i + 1 - 1) with i by lia; lia|]. split; [lia|]. intros x. rewrite Vb, zero_stride, Va, zero_stride, V by nia. rewrite Nat.add_1_r, mval_S, (proj2 (primeb_spec i) P). unfold mstep. cbn zeta. destruct (Nat.eqb_spec x 0) as [->|Nx].
      * rewrite !Nat.mod_0_l by nia. destruct (0 <? n); reflexivity.
      * destruct (Nat.ltb_spec x n); cbn [andb]; [|reflexivity]. destruct (x mod (i * i) =? 0), (x mod i =? 0); reflexivity.
    + rewrite mval_one in NP by lia. eexists. split; [reflexivity|]. split; [|nia]. split; [lia|]. split; [right; replace (i + 1 - 1) with i by lia; lia|]. split; [exact L|]. intros x. rewrite Nat.add_1_r, mval_S, V. destruct (primeb i) eqn:Pb; [apply primeb_spec in Pb; contradiction|reflexivity].
  - intros [i mu] (_ & _ & _ & _). lia.
  - split; [lia|]. split; [now left|]. split; [lia|]. intros x. rewrite V1'. reflexivity.
  - lia.
  - rewrite Em. cbn [obind].
    destruct (for_range_spec (fun i mu => length mu = length mu0 /\ forall x, nth_error mu x = if x =? 0 then Some 0%Z else if x <? n then Some (if x <? i then mobius x else mval x k) else nth_error mu0 x) (fun i mu => modify mu i (mfix i)) 2 (Nat.max 2 n) mu) as (mr & Er & Lr & Vr); [lia| | |].
    + split; [exact Lm|]. intros x. rewrite Vm. destruct (Nat.eqb_spec x 0); [reflexivity|]. destruct (x <? n); [|reflexivity]. destruct (Nat.ltb_spec x 2); [|reflexivity]. assert (x = 1) as -> by lia. f_equal. destruct (mval_value 1 k) as [(_ & B)|(B & _)].
      * rewrite B. assert (dprimes 1 k = []) as ->; [|reflexivity]. destruct (dprimes 1 k) as [|q l] eqn:E; [reflexivity|exfalso]. assert (I : In q (dprimes 1 k)) by (rewrite E; now left). apply dprimes_in in I as (_ & I1 & I2). apply Nat.divide_1_r in I2. pose proof (prime_ge q I1). lia.
      * exfalso. apply B. intros r Pr _ D. apply Nat.divide_1_r in D. pose proof (prime_ge r Pr). nia.
    + intros i l Hi (L & V). unfold modify. rewrite V. destruct (Nat.eqb_spec i 0); [lia|]. destruct (Nat.ltb_spec i n); [|lia]. destruct (Nat.ltb_spec i i); [lia|]. cbn [obind]. rewrite mfix_correct by lia. destruct (set_nth_some l i (mobius i)) as [l' El]; [lia|]. rewrite El. exists l'. split; [reflexivity|]. split; [now rewrite (set_nth_length _ _ _ _ El)|]. intros x. rewrite (set_nth_get _ _ _ _ x El), V. destruct (Nat.eqb_spec i x) as [->|].
      * destruct (Nat.eqb_spec x 0); [lia|]. destruct (Nat.ltb_spec x n); [|lia]. destruct (Nat.ltb_spec x (S x)); [reflexivity|lia].
      * destruct (x =? 0); [reflexivity|]. destruct (x <? n); [|reflexivity]. destruct (Nat.ltb_spec x i), (Nat.ltb_spec x (S i)); try reflexivity; lia.
    + unfold mfix in Er. rewrite Er. exists mr. split; [reflexivity|]. split; [exact Lr|]. split; intros x Hx; rewrite Vr.
      * destruct (Nat.eqb_spec x 0) as [->|]; [reflexivity|]. destruct (Nat.ltb_spec x n); [|lia]. destruct (Nat.ltb_spec x (Nat.max 2 n)); [reflexivity|lia].
      * destruct (Nat.eqb_spec x 0); [lia|]. destruct (Nat.ltb_spec x n); [lia|reflexivity].
Qed.
