From Coq Require Import Permutation.
From Verif Require Import Lib PrimesModel PrimesSpec PrimesProofs.
Open Scope nat_scope.

Lemma mod_div x q : 0 < q -> (x mod q =? 0) = true <-> Nat.divide q x.
Proof. intros H. rewrite Nat.eqb_eq. apply Nat.mod_divide. lia. Qed.
Lemma mod_div_false x q : 0 < q -> (x mod q =? 0) = false <-> ~ Nat.divide q x.
Proof. intros H. rewrite <- mod_div by exact H. now rewrite not_true_iff_false. Qed.
Lemma div_le q x : 0 < x -> Nat.divide q x -> q <= x.
Proof. intros H D. apply Nat.divide_pos_le; assumption. Qed.
Lemma self_stride q n x : 0 < q -> (q <=? x) && (x <? n) && ((x - q) mod q =? 0) = (0 <? x) && (x <? n) && (x mod q =? 0).
Proof.
  intros H. rewrite (stride_multiple 1) by lia. destruct (Nat.leb_spec q x), (Nat.ltb_spec 0 x); try reflexivity; try lia. cbn [andb].
  destruct (x mod q =? 0) eqn:E; [|now rewrite andb_false_r]. apply mod_div in E; [|exact H]. apply div_le in E; lia.
Qed.
Lemma prime_sieve_run {A} (F : nat -> A -> A) (body : nat -> nat -> list A -> option (list A)) ps rest n l :
  (forall q j l v, nth_error l j = Some v -> body q j l = set_nth l j (F q v)) -> (forall q, In q ps -> 0 < q) -> n <= length l ->
  exists l', for_range 0 (length ps) (fun i l => let* pi := nth_error (ps ++ rest) i in for_step pi n pi (body pi) l) l = Some l' /\ length l' = length l /\
    forall x, nth_error l' x = if (0 <? x) && (x <? n) then option_map (fun v => fold_left (fun v q => if x mod q =? 0 then F q v else v) ps v) (nth_error l x) else nth_error l x.
Proof.
  intros HB Hpos Hn.
  destruct (for_range_spec (fun i l' => length l' = length l /\ forall x, nth_error l' x = if (0 <? x) && (x <? n) then option_map (fun v => fold_left (fun v q => if x mod q =? 0 then F q v else v) (firstn i ps) v) (nth_error l x) else nth_error l x)
    (fun i l => let* pi := nth_error (ps ++ rest) i in for_step pi n pi (body pi) l) 0 (length ps) l) as (l' & E & L & V); [lia| | |].
  - split; [reflexivity|]. intros x. cbn [firstn fold_left]. destruct ((0 <? x) && (x <? n)); [|reflexivity]. destruct (nth_error l x); reflexivity.
  - intros i l1 Hi (L & V). destruct (nth_error_some ps i) as [q Eq]; [lia|]. rewrite nth_error_app1 by lia. rewrite Eq. cbn [obind]. assert (Hq : 0 < q) by (apply Hpos; eapply nth_error_In; eassumption).
    destruct (stride_run (body q) (F q) q n q l1 (HB q) Hq) as (l2 & E2 & L2 & V2); [lia|]. exists l2. split; [exact E2|]. split; [lia|]. intros x. rewrite V2, self_stride by exact Hq. rewrite V.
    assert (Ef : firstn (S i) ps = firstn i ps ++ [q]). { clear - Eq. revert i Eq. induction ps as [|y ps IH]; intros [|i] Eq; try discriminate; cbn in *; [now injection Eq as ->|]. now rewrite (IH i Eq). }
    rewrite Ef, ?fold_left_app. cbn [fold_left]. destruct ((0 <? x) && (x <? n)); cbn [andb]; [|reflexivity]. destruct (nth_error l x) as [v|]; cbn [option_map]; [|destruct (x mod q =? 0); reflexivity].
    rewrite fold_left_app. cbn [fold_left]. destruct (x mod q =? 0); reflexivity.
  - exists l'. split; [exact E|]. split; [exact L|]. intros x. rewrite V, firstn_all. reflexivity.
Qed.

(** fold over the primes below k *)
Lemma fold_snoc {A} (f : A -> nat -> A) k v : fold_left f (primes_below (S k)) v = if primeb k then f (fold_left f (primes_below k) v) k else fold_left f (primes_below k) v.
Proof. rewrite primes_below_S, fold_left_app. destruct (primeb k); reflexivity. Qed.

(** ** prime_nu *)
Lemma fold_count x ps v : fold_left (fun v q => if x mod q =? 0 then v + 1 else v) ps v = v + length (filter (fun q => x mod q =? 0) ps).
Proof. revert v. induction ps as [|q ps IH]; intros v; cbn [fold_left filter]; [cbn; lia|]. rewrite IH. destruct (x mod q =? 0); cbn [length]; lia. Qed.
Lemma prime_divisors_in n p : In p (prime_divisors n) <-> 0 < n /\ is_prime p /\ Nat.divide p n.
Proof.
  unfold prime_divisors, divisors_of. rewrite !filter_In, in_seq, primeb_spec. split.
  - intros ((H1 & H2) & H3). split; [lia|]. split; [exact H3|]. apply mod_div in H2; [exact H2|lia].
  - intros (H1 & H2 & H3). pose proof (prime_ge p H2). pose proof (div_le p n H1 H3). split; [|exact H2]. split; [lia|]. apply mod_div; [lia|exact H3].
Qed.
Lemma prime_divisors_nodup n : NoDup (prime_divisors n).
Proof. unfold prime_divisors, divisors_of. apply NoDup_filter, NoDup_filter, seq_NoDup. Qed.
Lemma count_prime_divisors n x : 0 < x -> x < n -> length (filter (fun q => x mod q =? 0) (primes_below n)) = length (prime_divisors x).
Proof.
  intros H0 Hx. apply Permutation_length. apply NoDup_Permutation; [apply NoDup_filter, primes_below_nodup|apply prime_divisors_nodup|]. intros p. rewrite filter_In, primes_below_in, prime_divisors_in. split.
  - intros ((H1 & H2) & H3). split; [exact H0|]. split; [exact H2|]. apply mod_div in H3; [exact H3|pose proof (prime_ge p H2); lia].
  - intros (_ & H2 & H3). pose proof (prime_ge p H2). pose proof (div_le p x H0 H3). split; [split; [lia|exact H2]|]. apply mod_div; [lia|exact H3].
Qed.
Lemma primes_pos n q : In q (primes_below n) -> 0 < q.
Proof. intros H. apply primes_below_in in H as (_ & H). pose proof (prime_ge q H). lia. Qed.
Lemma prime_nu_run nu0 n rest : n <= length nu0 -> exists nu, prime_nu nu0 n (primes_below n ++ rest) (length (primes_below n)) = Some nu /\ table n (fun i => length (prime_divisors i)) nu0 nu.
Proof.
  intros Hn. unfold prime_nu. destruct (fill0_run (fun _ => 0) (fun i nu => set_nth nu i 0) n nu0) as (l1 & E1 & L1 & V1); [reflexivity|lia|]. rewrite E1. cbn [obind].
  destruct (prime_sieve_run (fun _ v => v + 1) (fun pi j nu => modify nu j (fun v => v + 1)) (primes_below n) rest n l1) as (l2 & E2 & L2 & V2); [intros q; apply modify_body|apply primes_pos|lia|].
  exists l2. split; [exact E2|]. split; [lia|]. split; intros i Hi; rewrite V2, V1.
  - destruct (Nat.ltb_spec i n); [|lia]. rewrite andb_true_r. destruct (Nat.ltb_spec 0 i); cbn [option_map].
    + f_equal. rewrite fold_count, count_prime_divisors by lia. reflexivity.
    + assert (i = 0) as -> by lia. reflexivity.
  - destruct (Nat.ltb_spec i n); [lia|]. now rewrite andb_false_r.
Qed.

(** ** prime_pi *)
Lemma prime_pi_run pi0 n rest : 3 <= n -> n <= length pi0 -> exists pi, prime_pi pi0 n (primes_below n ++ 0 :: rest) = Some pi /\ table n (fun i => length (primes_below (i + 1))) pi0 pi.
Proof.
  intros H3 Hn. unfold prime_pi.
  match goal with |- context [for_range 0 n ?f ?s] => destruct (for_range_spec (fun i '(pi, l) => l = length (primes_below i) /\ length pi = length pi0 /\ (forall x, x < i -> nth_error pi x = Some (length (primes_below (x + 1)))) /\ (forall x, i <= x -> nth_error pi x = nth_error pi0 x)) f 0 n s) as ([pi l] & E & El & L & V1 & V2) end; [lia| | |].
  - repeat split; lia || auto.
  - intros i [pi l] Hi (-> & L & V1 & V2).
    assert (R : exists pl, nth_error (primes_below n ++ 0 :: rest) (length (primes_below i)) = Some pl /\ (i = pl <-> primeb i = true)).
    { destruct (primes_below_mono i n) as (t & Et); [lia|]. rewrite Et, <- app_assoc. rewrite nth_error_app2 by lia. rewrite Nat.sub_diag.
      assert (Ht : forall y, In y t -> i <= y < n /\ is_prime y). { intros y Hy. assert (X : In y (primes_below n)) by (rewrite Et; apply in_or_app; now right). apply primes_below_in in X as (X1 & X2). split; [|exact X2]. split; [|exact X1]. destruct (le_lt_dec i y); [assumption|exfalso]. pose proof (primes_below_nodup n) as ND. rewrite Et in ND. assert (In y (primes_below i)) by (apply primes_below_in; auto). clear - ND Hy H. induction (primes_below i) as [|z w IH]; [contradiction|]. cbn in ND. inversion ND; subst. destruct H as [->|H]; [apply H2, in_or_app; now right|now apply IH]. }
      assert (Hi' : primeb i = true -> exists t', t = i :: t'). { intros P. destruct (primes_below_mono (S i) n) as (t' & Et'); [lia|]. rewrite primes_below_S, P, <- app_assoc in Et'. rewrite Et' in Et. apply app_inv_head in Et. exists t'. now symmetry. }
      destruct t as [|y t]; cbn [app nth_error].
      - exists 0. split; [reflexivity|]. split; [intros ->; exfalso|intros P; destruct (Hi' P); discriminate]. assert (X : In 2 (primes_below n)) by (apply primes_below_in; split; [lia|apply primeb_spec; reflexivity]). rewrite Et in X. cbn in X. exact X.
      - exists y. split; [reflexivity|]. split; [intros ->; apply primeb_spec; now apply (Ht y (or_introl eq_refl))|]. intros P. destruct (Hi' P) as (t' & E'). now injection E'. }
    destruct R as (pl & Epl & Hpl). rewrite Epl. cbn [obind].
    assert (Enew : (if i =? pl then length (primes_below i) + 1 else length (primes_below i)) = length (primes_below (S i))).
    { rewrite primes_below_S, app_length. destruct (Nat.eqb_spec i pl) as [e|e]; [rewrite (proj1 Hpl e); cbn; lia|]. destruct (primeb i); [elim e; now apply Hpl|cbn; lia]. }
    rewrite Enew. destruct (set_nth_some pi i (length (primes_below (S i)))) as [pi' Es]; [lia|]. rewrite Es. cbn [obind]. eexists. split; [reflexivity|]. split; [reflexivity|]. split; [now rewrite (set_nth_length _ _ _ _ Es)|].
    split; intros x Hx; rewrite (set_nth_get _ _ _ _ x Es); destruct (Nat.eqb_spec i x) as [->|]; try lia; [now rewrite Nat.add_1_r|apply V1; lia|apply V2; lia].
  - rewrite E. cbn [obind]. exists pi. split; [reflexivity|]. split; [exact L|]. split; [exact V1|exact V2].
Qed.

(** ** divisor sums *)
Lemma divisors_filter n x : 0 < x -> x < n -> forall w : nat -> nat, list_sum (map w (filter (fun d => x mod d =? 0) (seq 1 (n - 1)))) = list_sum (map w (divisors_of x)).
Proof.
  intros H0 Hx w. unfold divisors_of. replace (n - 1) with (x + (n - 1 - x)) by lia. rewrite seq_app, filter_app.
  assert (E : filter (fun d => x mod d =? 0) (seq (1 + x) (n - 1 - x)) = []).
  { generalize (n - 1 - x). intros k. assert (G : forall k a, x < a -> filter (fun d => x mod d =? 0) (seq a k) = []). { clear - H0. induction k as [|k IH]; intros a Ha; [reflexivity|]. cbn [seq filter]. rewrite Nat.mod_small by lia. destruct (Nat.eqb_spec x 0); [lia|]. apply IH. lia. } apply G. lia. }
  rewrite E, app_nil_r. reflexivity.
Qed.
Lemma fold_sum (w : nat -> nat) x ps v : fold_left (fun v q => if x mod q =? 0 then v + w q else v) ps v = v + list_sum (map w (filter (fun q => x mod q =? 0) ps)).
Proof. revert v. induction ps as [|q ps IH]; intros v; cbn [fold_left filter]; [cbn; lia|]. rewrite IH. destruct (x mod q =? 0); cbn [map list_sum fold_right]; [unfold list_sum; cbn; lia|lia]. Qed.
Lemma sigma_run w ds0 n : n <= length ds0 -> exists ds, sigma_sieve w ds0 n = Some ds /\ length ds = length ds0 /\
  (forall i, 0 < i < n -> nth_error ds i = Some (list_sum (map w (divisors_of i)))) /\ (forall i, i = 0 \/ n <= i -> nth_error ds i = nth_error ds0 i).
Proof.
  intros Hn. unfold sigma_sieve. destruct (fill_run (fun _ => 0) (fun i nu => set_nth nu i 0) 1 n ds0) as (l1 & E1 & L1 & V1); [reflexivity|lia|]. rewrite E1. cbn [obind].
  destruct (for_range_spec (fun i l => length l = length ds0 /\ forall x, nth_error l x = if (0 <? x) && (x <? n) then Some (fold_left (fun v q => if x mod q =? 0 then v + w q else v) (seq 1 (i - 1)) 0) else nth_error ds0 x)
    (fun i ds => for_step i n i (fun j ds => modify ds j (fun v => v + w i)) ds) 1 (Nat.max 1 n) l1) as (l & E & L & V); [lia| | |].
  - split; [exact L1|]. intros x. rewrite V1. cbn [Nat.sub seq fold_left]. change (1 <=? x) with (0 <? x). reflexivity.
  - intros i l Hi (L & V). destruct (stride_run (fun j ds => modify ds j (fun v => v + w i)) (fun v => v + w i) i n i l (modify_body _)) as (l2 & E2 & L2 & V2); [lia|lia|]. exists l2. split; [exact E2|]. split; [lia|].
    intros x. rewrite V2, self_stride by lia. rewrite V. destruct ((0 <? x) && (x <? n)); cbn [andb]; [|reflexivity]. replace (S i - 1) with (S (i - 1)) by lia. rewrite seq_S, fold_left_app. cbn [fold_left]. replace (1 + (i - 1)) with i by lia. destruct (x mod i =? 0); reflexivity.
  - exists l. split; [exact E|]. split; [exact L|]. split; intros i Hi; rewrite V.
    + destruct (Nat.ltb_spec 0 i); [|lia]. destruct (Nat.ltb_spec i n); [|lia]. cbn [andb]. rewrite Nat.max_r by lia. rewrite fold_sum. cbn [Nat.add]. now rewrite divisors_filter by lia.
    + destruct (Nat.ltb_spec 0 i), (Nat.ltb_spec i n); cbn [andb]; try reflexivity. lia.
Qed.

(** ** biggest factor *)
Definition biggest_below (k x v : nat) : Prop := is_prime v /\ v < k /\ Nat.divide v x /\ forall r, is_prime r -> r < k -> Nat.divide r x -> r <= v.
Lemma fold_last x v k : (fold_left (fun v q => if x mod q =? 0 then q else v) (primes_below k) v = v /\ (forall r, is_prime r -> r < k -> ~ Nat.divide r x)) \/
  biggest_below k x (fold_left (fun v q => if x mod q =? 0 then q else v) (primes_below k) v).
Proof.
  induction k as [|k IH]; [left; split; [reflexivity|lia]|]. rewrite fold_snoc. destruct (primeb k) eqn:P.
  - apply primeb_spec in P. pose proof (prime_ge k P). destruct (x mod k =? 0) eqn:M.
    + apply mod_div in M; [|lia]. right. split; [exact P|]. split; [lia|]. split; [exact M|]. intros r _ Hr _. lia.
    + apply mod_div_false in M; [|lia]. destruct IH as [(E & H1)|(H1 & H2 & H3 & H4)].
      * left. split; [exact E|]. intros r Pr Hr. destruct (Nat.eq_dec r k) as [->|]; [exact M|]. apply H1; [exact Pr|lia].
      * right. split; [exact H1|]. split; [lia|]. split; [exact H3|]. intros r Pr Hr Dr. destruct (Nat.eq_dec r k) as [->|]; [contradiction|]. apply H4; auto. lia.
  - assert (NP : ~ is_prime k) by (rewrite <- primeb_spec, P; discriminate). destruct IH as [(E & H1)|(H1 & H2 & H3 & H4)].
    + left. split; [exact E|]. intros r Pr Hr. destruct (Nat.eq_dec r k) as [->|]; [contradiction|]. apply H1; [exact Pr|lia].
    + right. split; [exact H1|]. split; [lia|]. split; [exact H3|]. intros r Pr Hr Dr. destruct (Nat.eq_dec r k) as [->|]; [contradiction|]. apply H4; auto. lia.
Qed.
Lemma factor_run b0 n rest : 2 <= n -> n <= length b0 -> exists b, factor b0 n (primes_below n ++ rest) (length (primes_below n)) = Some b /\ length b = length b0 /\
  nth_error b 0 = Some 0 /\ nth_error b 1 = Some 1 /\ (forall x, 2 <= x < n -> exists v, nth_error b x = Some v /\ greatest_prime_factor x v) /\ (forall x, n <= x -> nth_error b x = nth_error b0 x).
Proof.
  intros H2 Hn. unfold factor. destruct (set_nth_some b0 0 0) as [b1 E1]; [lia|]. rewrite E1. cbn [obind]. pose proof (set_nth_length _ _ _ _ E1) as L1. destruct (set_nth_some b1 1 1) as [b2 E2]; [lia|]. rewrite E2. cbn [obind]. pose proof (set_nth_length _ _ _ _ E2) as L2.
  assert (V : forall x, nth_error b2 x = if x =? 1 then Some 1 else if x =? 0 then Some 0 else nth_error b0 x) by (intros x; rewrite (set_nth_get _ _ _ _ x E2), (set_nth_get _ _ _ _ x E1), (Nat.eqb_sym x 1), (Nat.eqb_sym x 0); reflexivity).
  destruct (prime_sieve_run (fun q _ => q) (fun pi j nu => set_nth nu j pi) (primes_below n) rest n b2) as (b & E & L & W); [intros q; apply const_body|apply primes_pos|lia|].
  exists b. split; [exact E|]. split; [lia|]. split; [rewrite W, V; reflexivity|]. split; [|split].
  - rewrite W, V. destruct (Nat.ltb_spec 0 1); [|lia]. destruct (Nat.ltb_spec 1 n); [|lia]. cbn [andb]. change (1 =? 1) with true. cbn [option_map]. f_equal. destruct (fold_last 1 1 n) as [(X & _)|(X1 & X2 & X3 & X4)]; [exact X|]. apply Nat.divide_1_r in X3. pose proof (prime_ge _ X1). lia.
  - intros x Hx. rewrite W, V. destruct (Nat.ltb_spec 0 x); [|lia]. destruct (Nat.ltb_spec x n); [|lia]. destruct (Nat.eqb_spec x 1); [lia|]. destruct (Nat.eqb_spec x 0); [lia|]. destruct (nth_error_some b0 x) as [v Ev]; [lia|]. rewrite Ev. cbn [andb option_map]. eexists. split; [reflexivity|].
    destruct (fold_last x v n) as [(X & Y)|(X1 & X2 & X3 & X4)].
    + exfalso. destruct (least_factor x) as (p & P1 & P2 & _); [lia|]. pose proof (div_le p x ltac:(lia) P2). apply (Y p); auto. lia.
    + split; [exact X1|]. split; [exact X3|]. intros r Pr Dr. apply X4; auto. pose proof (div_le r x ltac:(lia) Dr). lia.
  - intros x Hx. rewrite W, V. destruct (Nat.ltb_spec x n); [lia|]. rewrite andb_false_r. destruct (Nat.eqb_spec x 1); [lia|]. destruct (Nat.eqb_spec x 0); [lia|]. reflexivity.
Qed.

(** ** smallest factor *)
Lemma spf_pass_run n w i l : 2 <= i < n -> n <= length l -> exists v l', nth_error l i = Some v /\ spf_pass n w i l = Some l' /\ length l' = length l /\
  forall x, nth_error l' x = if (v =? 0) && (i * i <=? x) && (x <? n) && (x mod i =? 0) then Some (w i) else nth_error l x.
Proof.
  intros Hi Hn. unfold spf_pass. destruct (nth_error_some l i) as [v Ev]; [lia|]. rewrite Ev. cbn [obind]. exists v. destruct (Nat.eqb_spec v 0) as [->|Nv]; cbn [negb orb].
  - destruct (Nat.ltb_spec (n / i) i) as [H|H].
    + exists l. split; [reflexivity|]. split; [reflexivity|]. split; [reflexivity|]. intros x. cbn [andb]. assert (n < i * i) by (pose proof (Nat.mul_succ_div_gt n i ltac:(lia)); nia). destruct (Nat.leb_spec (i * i) x), (Nat.ltb_spec x n); cbn [andb]; try reflexivity. lia.
    + destruct (stride_run (fun j q => set_nth q j (w i)) (fun _ => w i) (i * i) n i l (const_body _)) as (l' & E & L & V); [lia|lia|]. exists l'. split; [reflexivity|]. split; [exact E|]. split; [exact L|]. intros x. rewrite V, (stride_multiple i) by lia. cbn [andb].
      destruct ((i * i <=? x) && (x <? n) && (x mod i =? 0)) eqn:M; [|reflexivity]. apply andb_prop in M as (M & _). apply andb_prop in M as (_ & M). apply Nat.ltb_lt in M. destruct (nth_error_some l x) as [y Ey]; [lia|]. now rewrite Ey.
  - exists l. repeat split.
Qed.
Lemma smallest_run s0 n : 1 <= n -> n <= length s0 -> exists s, smallest_factor s0 n = Some s /\ length s = length s0 /\
  (forall x, x < n -> exists v, nth_error s x = Some v /\ ((2 <= x /\ ~ is_prime x -> least_prime_factor x v) /\ (x < 2 \/ is_prime x -> v = 0))) /\ (forall x, n <= x -> nth_error s x = nth_error s0 x).
Proof.
  intros H1 Hn. unfold smallest_factor. destruct (fill0_run (fun _ => 0) (fun i nu => set_nth nu i 0) n s0) as (l1 & E1 & L1 & V1); [reflexivity|lia|]. rewrite E1. cbn [obind].
  (* first pass: composites get 1 *)
  destruct (for_range_spec (fun i l => length l = length s0 /\ (forall x, n <= x -> nth_error l x = nth_error s0 x) /\ (forall x, x < n -> exists v, nth_error l x = Some v /\ (v = 0 <-> (x < 2 \/ unstruck i x))))
    (spf_pass n (fun _ => 1)) 2 (Nat.max 2 n) l1) as (l2 & E2 & L2 & O2 & V2); [lia| | |].
  { split; [exact L1|]. split; intros x Hx; rewrite V1; [destruct (Nat.ltb_spec x n); [lia|reflexivity]|]. destruct (Nat.ltb_spec x n); [|lia]. exists 0. split; [reflexivity|]. split; [|reflexivity]. intros _. destruct (le_lt_dec 2 x); [right|now left]. split; [assumption|]. intros r Pr Hr. pose proof (prime_ge r Pr). lia. }
  { intros i l Hi (L & O & V). destruct (spf_pass_run n (fun _ => 1) i l) as (v & l' & Ev & El & Ll & Vl); [lia|lia|]. exists l'. split; [exact El|]. split; [lia|]. split.
    - intros x Hx. rewrite Vl. destruct (Nat.ltb_spec x n); [lia|]. rewrite andb_false_r. cbn [andb]. now apply O.
    - intros x Hx. rewrite Vl. destruct (Nat.ltb_spec x n); [|lia]. rewrite andb_true_r. destruct (V x Hx) as (u & Eu & Hu). destruct (V i ltac:(lia)) as (u' & Eu' & Hu'). rewrite Ev in Eu'. injection Eu' as <-. rewrite unstruck_prime in Hu'.
      destruct ((v =? 0) && (i * i <=? x) && (x mod i =? 0)) eqn:M.
      + exists 1. split; [reflexivity|]. split; [discriminate|]. apply andb_prop in M as (M & M3). apply andb_prop in M as (M1 & M2). apply Nat.eqb_eq in M1. apply Nat.leb_le in M2. apply mod_div in M3; [|lia]. intros [X|(X & Y)]; [nia|]. exfalso. apply (Y i); auto. destruct (proj1 Hu' M1); [lia|assumption].
      + exists u. split; [exact Eu|]. rewrite Hu. unfold unstruck. split; (intros [X|(X & Y)]; [now left|right]; split; [exact X|]; intros r Pr Hr); [|intros; apply Y; auto; lia]. destruct (Nat.eq_dec r i) as [->|]; [|apply Y; auto; lia]. intros Hs Hd. assert (v = 0) as -> by (apply Hu'; now right). apply Nat.leb_le in Hs. apply mod_div in Hd; [|lia]. rewrite Hs, Hd in M. discriminate. }
  rewrite E2. cbn [obind]. destruct (Nat.eqb_spec n 0); [lia|].
  assert (V2' : forall x, x < n -> exists v, nth_error l2 x = Some v /\ (v = 0 <-> (x < 2 \/ is_prime x))).
  { intros x Hx. destruct (V2 x Hx) as (v & Ev & Hv). exists v. split; [exact Ev|]. rewrite Hv, <- unstruck_prime. unfold unstruck. split; (intros [X|(X & Y)]; [now left|right]; split; [exact X|]; intros r Pr Hr Hs); apply (Y r Pr); auto; pose proof (prime_ge r Pr); nia. }
  (* second pass: the least prime at least i with i * i <= x *)
  destruct (for_down_spec (fun i l => length l = length s0 /\ (forall x, n <= x -> nth_error l x = nth_error s0 x) /\ (forall x, x < n -> exists v, nth_error l x = Some v /\ ((x < 2 \/ is_prime x) <-> v = 0) /\
      ((forall r, is_prime r -> i <= r -> r * r <= x -> ~ Nat.divide r x) \/ (is_prime v /\ Nat.divide v x /\ i <= v /\ forall r, is_prime r -> i <= r -> Nat.divide r x -> v <= r))))
    (spf_pass n (fun i => i)) 2 (Nat.max 2 n) l2) as (s & E & L & O & V); [lia| | |].
  { split; [exact L2|]. split; [exact O2|]. intros x Hx. destruct (V2' x Hx) as (v & Ev & Hv). exists v. split; [exact Ev|]. split; [symmetry; exact Hv|]. left. intros r Pr Hr Hs. pose proof (prime_ge r Pr). nia. }
  { intros i l Hi (L & O & V). destruct (spf_pass_run n (fun i => i) i l) as (v & l' & Ev & El & Ll & Vl); [lia|lia|]. exists l'. split; [exact El|]. split; [lia|]. split.
    - intros x Hx. rewrite Vl. destruct (Nat.ltb_spec x n); [lia|]. rewrite andb_false_r. cbn [andb]. now apply O.
    - intros x Hx. rewrite Vl. destruct (Nat.ltb_spec x n); [|lia]. rewrite andb_true_r. destruct (V x Hx) as (u & Eu & Hu & Hx'). destruct (V i ltac:(lia)) as (u' & Eu' & Hu' & _). rewrite Ev in Eu'. injection Eu' as <-.
      destruct ((v =? 0) && (i * i <=? x) && (x mod i =? 0)) eqn:M.
      + exists i. split; [reflexivity|]. apply andb_prop in M as (M & M3). apply andb_prop in M as (M1 & M2). apply Nat.eqb_eq in M1. apply Nat.leb_le in M2. apply mod_div in M3; [|lia]. assert (Pi : is_prime i) by (destruct (proj2 Hu' M1); [lia|assumption]).
        split; [split; [|lia]; intros [X|X]; [nia|]; apply prime_divides_prime in M3; auto; subst; nia|]. right. split; [exact Pi|]. split; [exact M3|]. split; [lia|]. intros r _ Hr _. exact Hr.
      + exists u. split; [exact Eu|]. split; [exact Hu|]. destruct Hx' as [Hx'|(A1 & A2 & A3 & A4)].
        * left. intros r Pr Hr Hs. destruct (Nat.eq_dec r i) as [->|]; [|apply Hx'; auto; lia]. intros Hd. assert (v = 0) as -> by (apply Hu'; now right). apply Nat.leb_le in Hs. apply mod_div in Hd; [|lia]. rewrite Hs, Hd in M. discriminate.
        * right. split; [exact A1|]. split; [exact A2|]. split; [lia|]. intros r Pr Hr Hd. destruct (Nat.eq_dec r i) as [->|]; [|apply A4; auto; lia]. exfalso.
          assert (v = 0) as -> by (apply Hu'; now right). assert (Di := Hd). apply mod_div in Hd; [|lia]. rewrite Hd in M. cbn [Nat.eqb andb] in M. rewrite andb_true_r in M. apply Nat.leb_gt in M.
          (* x has the prime factors i and u > i, so i * i < x *) destruct Di as [k Hk]. assert (Huk : Nat.divide u k). { rewrite Hk in A2. apply prime_euclid in A2 as [A2|A2]; [exact A2| |exact A1]. apply prime_divides_prime in A2; auto. lia. } assert (0 < k) by (destruct k; [|lia]; pose proof (prime_ge u A1); assert (x = 0) by lia; assert (u = 0) by (apply Hu; left; lia); lia). apply div_le in Huk; [|lia]. nia. }
  rewrite E. exists s. split; [reflexivity|]. split; [exact L|]. split; [|exact O]. intros x Hx. destruct (V x Hx) as (v & Ev & Hv & [H|(A1 & A2 & A3 & A4)]); exists v; (split; [exact Ev|]); (split; [|apply Hv]).
  - intros (X & Y). exfalso. destruct (composite_factor x X Y) as (p & Pp & Dp & Sp). apply (H p); auto. now apply prime_ge.
  - intros _. split; [exact A1|]. split; [exact A2|]. intros r Pr Dr. apply A4; auto. now apply prime_ge.
Qed.
