From Coq Require Import Znumtheory.
From Verif Require Import Lib BaseModel PrimesSpec PrimesProofs NumTheory2 NumTheory3 RootsModel RootsSpec TripleSpec TripleProofs SqrModel SqrSpec SqrProofs SqrProofs2 SqrProofs3.
Open Scope Z_scope.

(** the table *)
Definition table_ok (n : Z) (t : table) : Prop := forall k c d, find t k = Some (c, d) -> 1 <= c <= d /\ c * c + d * d = k /\ k <= n.
Lemma row_ok n a t : 1 <= a -> table_ok n t -> exists t', loopZ (Z.max 0 n + 2) (fun '(t, b) => if sqT a + sqT b <=? n then Some (inl ((sqT a + sqT b, (a, b)) :: t, b + 1)) else Some (inr t)) (t, a) = Some t' /\ table_ok n t' /\ (forall k, find t k <> None -> find t' k <> None) /\ forall b, a <= b -> a * a + b * b <= n -> find t' (a * a + b * b) <> None.
Proof.
  intros A T. apply (loopZ_spec (fun '(t, b) => if sqT a + sqT b <=? n then Some (inl ((sqT a + sqT b, (a, b)) :: t, b + 1)) else Some (inr t))
    (fun '(t', b) => a <= b /\ table_ok n t' /\ (forall k, find t k <> None -> find t' k <> None) /\ forall b', a <= b' < b -> a * a + b' * b' <= n -> find t' (a * a + b' * b') <> None)
    (fun t' => table_ok n t' /\ (forall k, find t k <> None -> find t' k <> None) /\ forall b, a <= b -> a * a + b * b <= n -> find t' (a * a + b * b) <> None)
    (fun '(_, b) => Z.max 0 (n + 1 + a - b))).
  - intros (t', b) (B & T' & K & V). unfold sqT in *. destruct (Z.leb_spec (a * a + b * b) n) as [L|L].
    + eexists. split; [reflexivity|]. cbv beta iota. split; [|nia]. split; [lia|]. split; [|split].
      * intros k c d. cbn [find]. destruct (Z.eqb_spec (a * a + b * b) k) as [<-|]; [intros E; injection E as <- <-; lia|apply T'].
      * intros k H. cbn [find]. destruct (a * a + b * b =? k); [discriminate|now apply K].
      * intros b' B' L'. cbn [find]. destruct (Z.eqb_spec (a * a + b * b) (a * a + b' * b')) as [|N]; [discriminate|]. apply V; [|exact L']. assert (b' <> b) by congruence. lia.
    + eexists. split; [reflexivity|]. cbv beta iota. split; [exact T'|]. split; [exact K|]. intros b' B' L'. apply V; [|exact L']. nia.
  - intros (t', b). cbv beta iota. lia.
  - split; [lia|]. split; [exact T|]. split; [auto|]. intros; lia.
  - cbv beta iota. lia.
Qed.
Lemma table_complete n : exists t, squares_r_prime_table n = Some t /\ table_ok n t /\ forall a b, 1 <= a <= b -> a * a + b * b <= n -> find t (a * a + b * b) <> None.
Proof.
  unfold squares_r_prime_table. apply (loopZ_spec _
    (fun '(t, a) => 1 <= a /\ table_ok n t /\ forall a' b', 1 <= a' <= b' -> a' < a -> a' * a' + b' * b' <= n -> find t (a' * a' + b' * b') <> None)
    (fun t => table_ok n t /\ forall a b, 1 <= a <= b -> a * a + b * b <= n -> find t (a * a + b * b) <> None)
    (fun '(_, a) => Z.max 0 (n + 1 - a))).
  - intros (t, a) (A & T & V). destruct (Z.leb_spec (sqT a * 2) n) as [L|L]; unfold sqT in L.
    + destruct (row_ok n a t A T) as (t' & E & T' & K & R). unfold table in *. rewrite E. cbn [obind]. eexists. split; [reflexivity|]. cbv beta iota. split; [|nia]. split; [lia|]. split; [exact T'|]. intros a' b' H1 H2 H3. destruct (Z.eq_dec a' a) as [->|N]; [now apply R|]. apply K, V; lia.
    + eexists. split; [reflexivity|]. cbv beta iota. split; [exact T|]. intros a' b' H1 H2. apply V; [exact H1| |exact H2]. nia.
  - intros (t, a). cbv beta iota. lia.
  - split; [lia|]. split; [intros k c d H; discriminate|]. intros; lia.
  - cbv beta iota. lia.
Qed.

(** counting *)
Definition reps (n k : Z) : Prop := exists l, NoDup l /\ (forall a b, In (a, b) l <-> a * a + b * b = n) /\ Z.of_nat (length l) = k.
Lemma same_length {A} (l l' : list A) : NoDup l -> NoDup l' -> (forall x, In x l <-> In x l') -> length l = length l'.
Proof. intros N N' H. apply Nat.le_antisymm; apply NoDup_incl_length; try assumption; intros x I; now apply H. Qed.
Lemma reps_unique n k k' : reps n k -> reps n k' -> k = k'.
Proof. intros (l & N & H & <-) (l' & N' & H' & <-). f_equal. apply same_length; try assumption. intros (a, b). rewrite H, H'. reflexivity. Qed.
Lemma partition_length {A} (f : A -> bool) l : (length (filter f l) + length (filter (fun x => negb (f x)) l) = length l)%nat.
Proof. induction l as [|x l IH]; [reflexivity|]. cbn [filter length]. destruct (f x); cbn [negb length]; lia. Qed.
Definition fwd (c d : Z) (x : Z * Z) : Z * Z := let '(e, f) := x in (e * c - f * d, e * d + f * c).
Lemma fwd_inj c d x y : 0 < c * c + d * d -> fwd c d x = fwd c d y -> x = y.
Proof.
  destruct x as [e f], y as [g h]. intros P E. unfold fwd in E. apply pair_equal_spec in E as (E1 & E2). f_equal; apply (Z.mul_reg_l _ _ (c * c + d * d)); try lia.
  - replace ((c * c + d * d) * e) with (c * (e * c - f * d) + d * (e * d + f * c)) by ring. rewrite E1, E2. ring.
  - replace ((c * c + d * d) * f) with (c * (e * d + f * c) - d * (e * c - f * d)) by ring. rewrite E1, E2. ring.
Qed.
(** the representations of p m: two images of those of m, meeting in p times those of m / p *)
Lemma reps_step p c d m k w : prime p -> p <> 2 -> c * c + d * d = p -> 0 < m -> reps m k ->
  (forall m', m = p * m' -> reps m' w) -> (~ (p | m) -> w = 0) -> reps (p * m) (2 * k - w).
Proof.
  intros PP N2 CD M (l & N & H & <-) HW HW0. pose proof (prime_ge_2 p PP) as P2. assert (NC : ~ (p | 2 * c)).
  { intros X. destruct (prime_mult p PP _ _ X) as [Y|Y]; [apply Z.divide_pos_le in Y; lia|]. assert (c <> 0) by (intros ->; assert (D : (d | p)) by (exists d; lia); destruct (Znumtheory.prime_divisors p PP d D) as [|[|[|]]]; subst; nia). assert (Z.abs c < p) by nia. apply (Zdivide_bounds p c) in Y; lia. }
  assert (ND : ~ (p | 2 * d)).
  { intros X. destruct (prime_mult p PP _ _ X) as [Y|Y]; [apply Z.divide_pos_le in Y; lia|]. assert (d <> 0) by (intros ->; assert (D : (c | p)) by (exists c; lia); destruct (Znumtheory.prime_divisors p PP c D) as [|[|[|]]]; subst; nia). assert (Z.abs d < p) by nia. apply (Zdivide_bounds p d) in Y; lia. }
  set (l1 := map (fwd c d) l). set (l2 := map (fwd c (- d)) l).
  assert (H1 : NoDup l1) by (apply FinFun.Injective_map_NoDup; [intros x y; apply fwd_inj; lia|exact N]). assert (H2 : NoDup l2) by (apply FinFun.Injective_map_NoDup; [intros x y; apply fwd_inj; lia|exact N]).
  set (inb := fun x : Z * Z => (fst x mod p =? 0) && (snd x mod p =? 0)).
  assert (BOTH : forall x, In x l2 -> inb x = true <-> In x l1).
  { intros (a, b) I. unfold inb. cbn [fst snd]. rewrite Bool.andb_true_iff, !Z.eqb_eq. apply in_map_iff in I as ((e & f) & E & I). unfold fwd in E. apply pair_equal_spec in E as (E1 & E2). split.
    - intros (A & B). apply Z.mod_divide in A as (a' & A), B as (b' & B); try lia. apply in_map_iff. exists (a' * c + b' * d, b' * c - a' * d). split; [unfold fwd; f_equal; [rewrite A, <- CD; ring|rewrite B, <- CD; ring]|]. apply H. apply H in I. apply (Z.mul_reg_l _ _ p); [lia|]. rewrite <- I. transitivity (a * a + b * b); [rewrite A, B, <- CD; ring|rewrite <- E1, <- E2, <- CD; ring].
    - intros I'. apply in_map_iff in I' as ((g & h) & E & I'). unfold fwd in E. apply pair_equal_spec in E as (E3 & E4).
      assert (AC : a * c + b * d = g * p) by (rewrite <- E3, <- E4, <- CD; ring). assert (AD : a * c - b * d = e * p) by (rewrite <- E1, <- E2, <- CD; ring). split; apply Z.mod_divide; try lia.
      + destruct (prime_mult p PP (2 * c) a) as [X|X]; [exists (g + e); lia|contradiction|exact X].
      + destruct (prime_mult p PP (2 * d) b) as [X|X]; [exists (g - e); lia|contradiction|exact X]. }
  set (l2' := filter (fun x => negb (inb x)) l2). set (l3 := filter inb l2).
  exists (l1 ++ l2'). split; [|split].
  - apply NoDup_app'; [exact H1|now apply NoDup_filter|]. intros x I1 I2. apply filter_In in I2 as (I2 & F). apply (BOTH x I2) in I1. rewrite I1 in F. discriminate.
  - intros a b. rewrite in_app_iff. split.
    + intros [I|I]; [|apply filter_In in I as (I & _)]; apply in_map_iff in I as ((e & f) & E & I); unfold fwd in E; apply pair_equal_spec in E as (<- & <-); apply H in I; rewrite <- I, <- CD; ring.
    + intros E. destruct (gauss_div p c d a b m PP CD E) as [(e & f & EF & -> & ->)|(e & f & EF & -> & ->)].
      * left. apply in_map_iff. exists (e, f). split; [reflexivity|now apply H].
      * set (x := (e * c + f * d, f * c - e * d)). assert (I2 : In x l2) by (apply in_map_iff; exists (e, f); split; [unfold fwd, x; f_equal; ring|now apply H]). destruct (inb x) eqn:Ex; [left; now apply BOTH|right; apply filter_In; split; [exact I2|now rewrite Ex]].
  - assert (L3 : Z.of_nat (length l3) = w).
    { destruct (Zdivide_dec p m) as [(m' & Em)|X].
      - destruct (HW m') as (l4 & N4 & H4 & L4); [lia|]. rewrite <- L4. f_equal. transitivity (length (map (fun '(a, b) => (p * a, p * b)) l4)); [|apply map_length]. apply same_length; [now apply NoDup_filter|apply FinFun.Injective_map_NoDup; [|exact N4]|].
        + intros (a, b) (a', b') E. apply pair_equal_spec in E as (E1 & E2). f_equal; nia.
        + intros (a, b). unfold l3. rewrite filter_In, in_map_iff. split.
          * intros (I & F). unfold inb in F. cbn [fst snd] in F. apply andb_prop in F as (A & B). apply Z.eqb_eq in A, B. apply Z.mod_divide in A as (a' & A), B as (b' & B); try lia. exists (a', b'). split; [f_equal; lia|]. apply H4. apply in_map_iff in I as ((e & f) & E & I). unfold fwd in E. apply pair_equal_spec in E as (E1 & E2). apply H in I. apply (Z.mul_reg_l _ _ (p * p)); [nia|]. transitivity (a * a + b * b); [rewrite A, B; ring|]. transitivity (p * m); [rewrite <- I, <- E1, <- E2, <- CD; ring|rewrite Em; ring].
          * intros ((a' & b') & E & I). apply pair_equal_spec in E as (<- & <-). apply H4 in I. split.
            -- apply in_map_iff. exists (a' * c - b' * d, b' * c + a' * d). split; [unfold fwd; f_equal; rewrite <- CD; ring|]. apply H. rewrite Em, <- I, <- CD. ring.
            -- unfold inb. cbn [fst snd]. rewrite !(Z.mul_comm p), !Z.mod_mul by lia. reflexivity.
      - rewrite (HW0 X). replace l3 with (@nil (Z * Z)); [reflexivity|]. symmetry. destruct l3 as [|(a, b) r] eqn:E3; [reflexivity|exfalso]. assert (I : In (a, b) l3) by (rewrite E3; now left). unfold l3 in I. apply filter_In in I as (I & F). unfold inb in F. cbn [fst snd] in F. apply andb_prop in F as (A & B). apply Z.eqb_eq in A, B. apply Z.mod_divide in A as (a' & A), B as (b' & B); try lia. apply in_map_iff in I as ((e & f) & E & I). unfold fwd in E. apply pair_equal_spec in E as (E1 & E2). apply H in I. apply X. exists (a' * a' + b' * b'). apply (Z.mul_reg_l _ _ p); [lia|]. rewrite <- I. transitivity (a * a + b * b); [rewrite <- E1, <- E2, <- CD; ring|rewrite A, B; ring]. }
    rewrite app_length. unfold l1. rewrite map_length. pose proof (partition_length inb l2) as PL. fold l3 l2' in PL. assert (length l2 = length l) by apply map_length. lia.
Qed.
Lemma reps_pow p c d m k : prime p -> p <> 2 -> c * c + d * d = p -> 0 < m -> ~ (p | m) -> reps m k -> forall n, reps (p ^ Z.of_nat n * m) ((Z.of_nat n + 1) * k).
Proof.
  intros PP N2 CD M ND R. pose proof (prime_ge_2 p PP) as P2.
  assert (W : forall n, reps (p ^ Z.of_nat n * m) ((Z.of_nat n + 1) * k) /\ reps (p ^ Z.of_nat (S n) * m) ((Z.of_nat (S n) + 1) * k)); [|intros n; apply W].
  induction n as [|n (IH1 & IH2)].
  - split; [change (Z.of_nat 0) with 0; rewrite Z.pow_0_r, !Z.mul_1_l; exact R|]. change (Z.of_nat 1) with 1. rewrite Z.pow_1_r. replace ((1 + 1) * k) with (2 * k - 0) by ring. apply (reps_step p c d m k 0); try assumption; [|reflexivity]. intros m' ->. exfalso. apply ND. exists m'. ring.
  - split; [exact IH2|]. rewrite (Nat2Z.inj_succ (S n)), Z.pow_succ_r, <- Z.mul_assoc by lia. replace ((Z.succ (Z.of_nat (S n)) + 1) * k) with (2 * ((Z.of_nat (S n) + 1) * k) - (Z.of_nat n + 1) * k) by lia. apply (reps_step p c d); try assumption.
    + apply Z.mul_pos_pos; [apply Z.pow_pos_nonneg; lia|exact M].
    + intros m' E. rewrite Nat2Z.inj_succ, Z.pow_succ_r, <- Z.mul_assoc in E by lia. apply Z.mul_reg_l in E; [|lia]. rewrite <- E. exact IH1.
    + intros X. exfalso. apply X. rewrite Nat2Z.inj_succ, Z.pow_succ_r by lia. exists (p ^ Z.of_nat n * m). ring.
Qed.
