From Verif Require Import Lib PrimesModel PrimesSpec.
Open Scope nat_scope.

(** ** primes *)
Lemma primeb_spec p : primeb p = true <-> is_prime p.
Proof.
  unfold primeb, is_prime. rewrite andb_true_iff, Nat.leb_le, forallb_forall. split.
  - intros (H2 & H). split; [exact H2|]. intros d Hd. assert (Hd0 : d <> 0) by (intros ->; destruct Hd as [k Hk]; lia). assert (d <= p) by (apply Nat.divide_pos_le; [lia|exact Hd]).
    destruct (Nat.eq_dec d 1) as [|N1]; [now left|]. destruct (Nat.eq_dec d p) as [|N2]; [now right|]. specialize (H d). rewrite in_seq in H. specialize (H ltac:(lia)). apply negb_true_iff, Nat.eqb_neq in H. elim H. apply Nat.mod_divide; [exact Hd0|exact Hd].
  - intros (H2 & H). split; [exact H2|]. intros d Hd. apply in_seq in Hd. apply negb_true_iff, Nat.eqb_neq. intros E. apply Nat.mod_divide in E; [|lia]. apply H in E. lia.
Qed.
Lemma prime_ge p : is_prime p -> 2 <= p. Proof. now intros []. Qed.
Lemma prime_dec' p : {is_prime p} + {~ is_prime p}.
Proof. destruct (primeb p) eqn:E; [left; now apply primeb_spec|right; rewrite <- primeb_spec; congruence]. Qed.
Lemma least_factor n : 2 <= n -> exists p, is_prime p /\ Nat.divide p n /\ (forall d, 2 <= d -> Nat.divide d n -> p <= d).
Proof.
  intros Hn. assert (G : forall k, 2 <= k -> (exists d, 2 <= d /\ d < k /\ Nat.divide d n) -> exists p, 2 <= p /\ Nat.divide p n /\ (forall d, 2 <= d -> Nat.divide d n -> p <= d)).
  { induction k as [|k IH]; [lia|]. intros Hk (d & H1 & H2 & H3). destruct (Nat.eq_dec k 1) as [->|Hk1]; [lia|].
    destruct (Nat.eq_dec d k) as [->|]; [|apply IH; [lia|exists d; repeat split; auto; lia]].
    assert (Dec : (exists d, 2 <= d /\ d < k /\ Nat.divide d n) \/ forall d, 2 <= d -> Nat.divide d n -> k <= d).
    { destruct (existsb (fun d => n mod d =? 0) (seq 2 (k - 2))) eqn:E.
      - left. apply existsb_exists in E as (x & Hx & Ex). apply in_seq in Hx. apply Nat.eqb_eq in Ex. exists x. repeat split; try lia. apply Nat.mod_divide; lia.
      - right. intros x Hx Dx. destruct (le_lt_dec k x); [assumption|exfalso]. assert (T : existsb (fun d => n mod d =? 0) (seq 2 (k - 2)) = true); [|congruence]. apply existsb_exists. exists x. split; [apply in_seq; lia|]. apply Nat.eqb_eq, Nat.mod_divide; [lia|exact Dx]. }
    destruct Dec as [D|D]; [apply IH; [lia|exact D]|]. exists k. auto. }
  destruct (G (S n)) as (p & P1 & P2 & P3); [lia|exists n; repeat split; try lia; apply Nat.divide_refl|].
  exists p. split; [|auto]. split; [exact P1|]. intros d Hd. destruct (Nat.eq_dec d 1) as [|N]; [now left|right]. assert (d <> 0) by (intros ->; destruct Hd; lia). assert (d <= p) by (apply Nat.divide_pos_le; [lia|exact Hd]).
  specialize (P3 d ltac:(lia) (Nat.divide_trans _ _ _ Hd P2)). lia.
Qed.
Lemma composite_factor n : 2 <= n -> ~ is_prime n -> exists p, is_prime p /\ Nat.divide p n /\ p * p <= n.
Proof.
  intros Hn Np. destruct (least_factor n Hn) as (p & Pp & [k Hk] & Least). exists p. split; [exact Pp|]. split; [now exists k|]. pose proof (prime_ge p Pp) as P2.
  assert (Hk2 : 2 <= k). { destruct k as [|[|k]]; [lia| |lia]. elim Np. assert (n = p) as -> by lia. exact Pp. }
  assert (p <= k) by (apply Least; [exact Hk2|exists p; lia]). nia.
Qed.
Lemma prime_bezout p n : is_prime p -> ~ Nat.divide p n -> Nat.gcd p n = 1.
Proof. intros (_ & P) N. destruct (P (Nat.gcd p n) (Nat.gcd_divide_l p n)) as [E|E]; [exact E|]. elim N. rewrite <- E. apply Nat.gcd_divide_r. Qed.
Lemma prime_euclid p a b : is_prime p -> Nat.divide p (a * b) -> Nat.divide p a \/ Nat.divide p b.
Proof.
  intros P D. destruct (Nat.eq_dec (a mod p) 0) as [E|E].
  - left. apply Nat.mod_divide; [pose proof (prime_ge p P); lia|exact E].
  - right. apply Nat.gauss with a; [exact D|]. apply prime_bezout; [exact P|]. intros X. apply E, Nat.mod_divide; [pose proof (prime_ge p P); lia|exact X].
Qed.
Lemma prime_divides_prime p q : is_prime p -> is_prime q -> Nat.divide p q -> p = q.
Proof. intros P (Q1 & Q2) D. destruct (Q2 p D) as [->|]; [pose proof (prime_ge _ P); lia|assumption]. Qed.
Lemma prime_divides_pow p q e : is_prime p -> is_prime q -> Nat.divide p (q ^ e) -> p = q.
Proof.
  intros P Q. induction e as [|e IH]; cbn; intros D.
  - apply Nat.divide_1_r in D. pose proof (prime_ge p P). lia.
  - apply prime_euclid in D as [D|D]; [now apply prime_divides_prime|now apply IH|exact P].
Qed.
Lemma primes_below_in n p : In p (primes_below n) <-> p < n /\ is_prime p.
Proof. unfold primes_below. rewrite filter_In, in_seq, primeb_spec. intuition lia. Qed.
Lemma primes_below_S n : primes_below (S n) = primes_below n ++ (if primeb n then [n] else []).
Proof. unfold primes_below. rewrite seq_S, filter_app. cbn [filter Nat.add]. destruct (primeb n); reflexivity. Qed.
Lemma primes_below_nodup n : NoDup (primes_below n).
Proof. apply NoDup_filter, seq_NoDup. Qed.
Lemma primes_below_le n : length (primes_below n) <= n - 2.
Proof.
  induction n as [|n IH]; [cbn; lia|]. rewrite primes_below_S, app_length. destruct (primeb n) eqn:E; cbn [length]; [|lia]. apply primeb_spec, prime_ge in E. lia.
Qed.
Lemma primes_below_mono a b : a <= b -> exists l, primes_below b = primes_below a ++ l.
Proof. induction 1 as [|b H (l & IH)]; [exists []; now rewrite app_nil_r|]. rewrite primes_below_S, IH. eexists. rewrite <- app_assoc. reflexivity. Qed.

(** ** stride loops *)
Lemma stride_count a n d k : 0 < d -> (k < (n - a + (d - 1)) / d <-> a + k * d < n).
Proof.
  intros Hd. split; intros H.
  - destruct (le_lt_dec n (a + k * d)) as [X|]; [exfalso|assumption]. assert ((n - a + (d - 1)) / d < k + 1); [|lia]. apply Nat.div_lt_upper_bound; [lia|]. nia.
  - apply Nat.div_le_lower_bound; [lia|]. nia.
Qed.
Lemma stride_mem a n d x : 0 < d -> ((a <=? x) && (x <? n) && ((x - a) mod d =? 0) = true <-> exists k, x = a + k * d /\ x < n).
Proof.
  intros Hd. rewrite !andb_true_iff, Nat.leb_le, Nat.ltb_lt, Nat.eqb_eq. split.
  - intros ((H1 & H2) & H3). apply Nat.mod_divide in H3 as [k Hk]; [|lia]. exists k. split; [lia|exact H2].
  - intros (k & -> & H). split; [split; [lia|exact H]|]. replace (a + k * d - a) with (k * d) by lia. apply Nat.mod_mul. lia.
Qed.
Lemma stride_run {A} (body : nat -> list A -> option (list A)) (f : A -> A) a n d l :
  (forall j l v, nth_error l j = Some v -> body j l = set_nth l j (f v)) -> 0 < d -> n <= length l ->
  exists l', for_step a n d body l = Some l' /\ length l' = length l /\
    forall x, nth_error l' x = if (a <=? x) && (x <? n) && ((x - a) mod d =? 0) then option_map f (nth_error l x) else nth_error l x.
Proof.
  intros HB Hd Hn. unfold for_step. destruct (Nat.eqb_spec d 0); [lia|].
  destruct (for_range_spec (fun k l' => length l' = length l /\ forall x, nth_error l' x = if (a <=? x) && (x <? n) && ((x - a) mod d =? 0) && (x <? a + k * d) then option_map f (nth_error l x) else nth_error l x)
    (fun k => body (a + k * d)) 0 ((n - a + (d - 1)) / d) l) as (l' & E & L & V); [lia| | |].
  - split; [reflexivity|]. intros x. destruct (a <=? x) eqn:E1; [|reflexivity]. apply Nat.leb_le in E1. destruct (Nat.ltb_spec x (a + 0 * d)); [lia|]. now rewrite andb_false_r.
  - intros k l1 Hk (L & V). assert (Hx : a + k * d < n) by (apply stride_count; lia).
    assert (Ev : nth_error l1 (a + k * d) = nth_error l (a + k * d)). { rewrite V. destruct (Nat.ltb_spec (a + k * d) (a + k * d)); [lia|]. now rewrite andb_false_r. }
    destruct (nth_error_some l (a + k * d)) as [v Ev0]; [lia|]. rewrite Ev0 in Ev. rewrite (HB _ _ _ Ev). destruct (set_nth_some l1 (a + k * d) (f v)) as [l2 E2]; [lia|]. rewrite E2. exists l2. split; [reflexivity|]. split; [now rewrite (set_nth_length _ _ _ _ E2)|].
    intros x. rewrite (set_nth_get _ _ _ _ x E2), V. destruct (Nat.eqb_spec (a + k * d) x) as [<-|N].
    + rewrite Ev0. assert (M : (a <=? a + k * d) && (a + k * d <? n) && ((a + k * d - a) mod d =? 0) = true) by (apply stride_mem; [lia|exists k; auto]). rewrite M. cbn [andb]. destruct (Nat.ltb_spec (a + k * d) (a + S k * d)); [reflexivity|lia].
    + destruct ((a <=? x) && (x <? n) && ((x - a) mod d =? 0)) eqn:M; [|reflexivity]. cbn [andb]. apply stride_mem in M as (k' & -> & _); [|lia].
      destruct (Nat.ltb_spec (a + k' * d) (a + k * d)), (Nat.ltb_spec (a + k' * d) (a + S k * d)); try reflexivity; exfalso; (destruct (lt_eq_lt_dec k' k) as [[X|X]|X]; [nia|subst; lia|nia]).
  - exists l'. split; [exact E|]. split; [exact L|]. intros x. rewrite V. destruct ((a <=? x) && (x <? n) && ((x - a) mod d =? 0)) eqn:M; [|reflexivity]. cbn [andb]. apply stride_mem in M as (k & -> & Hx); [|lia].
    destruct (Nat.ltb_spec (a + k * d) (a + (n - a + (d - 1)) / d * d)); [reflexivity|]. assert (k < (n - a + (d - 1)) / d) by (apply stride_count; lia). nia.
Qed.
Lemma stride_multiple q a n d x : 0 < d -> a = q * d -> (a <=? x) && (x <? n) && ((x - a) mod d =? 0) = (a <=? x) && (x <? n) && (x mod d =? 0).
Proof.
  intros Hd ->. destruct (Nat.leb_spec (q * d) x); [|reflexivity]. cbn [andb]. f_equal. rewrite <- (Nat.mod_add (x - q * d) q d) by lia. f_equal. f_equal. lia.
Qed.
Lemma modify_body {A} (f : A -> A) : forall j (l : list A) v, nth_error l j = Some v -> modify l j f = set_nth l j (f v).
Proof. intros j l v E. unfold modify. now rewrite E. Qed.
Lemma const_body {A} (c : A) : forall j (l : list A) v, nth_error l j = Some v -> set_nth l j c = set_nth l j ((fun _ => c) v).
Proof. reflexivity. Qed.
(** for (i = a; i < n; i++) l[i] = f(i) *)
Lemma fill_run {A} (f : nat -> A) (body : nat -> list A -> option (list A)) a n l : (forall i l, body i l = set_nth l i (f i)) -> n <= length l -> exists l', for_range a (Nat.max a n) body l = Some l' /\ length l' = length l /\ forall x, nth_error l' x = if (a <=? x) && (x <? n) then Some (f x) else nth_error l x.
Proof.
  intros HB Hn. destruct (for_range_spec (fun i l' => length l' = length l /\ forall x, nth_error l' x = if (a <=? x) && (x <? i) then Some (f x) else nth_error l x) body a (Nat.max a n) l) as (l' & E & L & V); [lia| | |].
  - split; [reflexivity|]. intros x. destruct (Nat.leb_spec a x); [|reflexivity]. destruct (Nat.ltb_spec x a); [lia|reflexivity].
  - intros i l1 Hi (L & V). rewrite HB. destruct (set_nth_some l1 i (f i)) as [l2 E2]; [lia|]. exists l2. split; [exact E2|]. split; [now rewrite (set_nth_length _ _ _ _ E2)|]. intros x. rewrite (set_nth_get _ _ _ _ x E2), V.
    destruct (Nat.eqb_spec i x) as [->|N]; [destruct (Nat.leb_spec a x); [|lia]; destruct (Nat.ltb_spec x (S x)); [reflexivity|lia]|]. destruct (Nat.leb_spec a x); [|reflexivity]. cbn [andb]. destruct (Nat.ltb_spec x i), (Nat.ltb_spec x (S i)); try reflexivity; lia.
  - exists l'. split; [exact E|]. split; [exact L|]. intros x. rewrite V. destruct (Nat.leb_spec a x); [|reflexivity]. cbn [andb]. destruct (Nat.ltb_spec x (Nat.max a n)), (Nat.ltb_spec x n); try reflexivity; lia.
Qed.
Lemma fill0_run {A} (f : nat -> A) (body : nat -> list A -> option (list A)) n l : (forall i l, body i l = set_nth l i (f i)) -> n <= length l -> exists l', for_range 0 n body l = Some l' /\ length l' = length l /\ forall x, nth_error l' x = if x <? n then Some (f x) else nth_error l x.
Proof. intros HB Hn. destruct (fill_run f body 0 n l HB Hn) as (l' & E & L & V). exists l'. split; [exact E|]. split; [exact L|]. intros x. now rewrite V. Qed.

(** ** the sieve *)
Definition unstruck (i x : nat) : Prop := 2 <= x /\ forall r, is_prime r -> r < i -> r * r <= x -> ~ Nat.divide r x.
Lemma unstruck_prime i : unstruck i i <-> is_prime i.
Proof.
  split.
  - intros (H2 & H). destruct (prime_dec' i) as [|N]; [assumption|]. destruct (composite_factor i H2 N) as (p & Pp & Dp & Sq). elim (H p Pp); [|exact Sq|exact Dp]. pose proof (prime_ge p Pp). nia.
  - intros P. split; [now apply prime_ge|]. intros r Pr Hr _ D. apply prime_divides_prime in D; [lia|exact Pr|exact P].
Qed.
Lemma nth_app_mid {A} (a : list A) x b : nth_error (a ++ x :: b) (length a) = Some x.
Proof. rewrite nth_error_app2 by lia. now rewrite Nat.sub_diag. Qed.
Definition p_holds (p0 : option (list nat)) (p : option (list nat)) (ps : list nat) : Prop :=
  match p0, p with None, None => True | Some l0, Some l => exists rest, l = ps ++ rest /\ rest = skipn (length ps) l0 /\ length l = length l0 | _, _ => False end.
Lemma set_nth_app {A} (a : list A) y b x : set_nth (a ++ y :: b) (length a) x = Some (a ++ x :: b).
Proof. induction a as [|z a IH]; cbn; [reflexivity|]. now rewrite IH. Qed.
Lemma p_put_run p0 p ps x : p_holds p0 p ps -> (match p0 with Some l0 => length ps < length l0 | None => True end) -> exists p', p_put p (length ps) x = Some p' /\ p_holds p0 p' (ps ++ [x]).
Proof.
  unfold p_holds, p_put. destruct p0 as [l0|], p as [l|]; try contradiction; [|intros _ _; now exists None]. intros (rest & -> & Er & L) H. rewrite app_length in L. destruct rest as [|y rest].
  - rewrite <- L in H. cbn in H. lia.
  - rewrite set_nth_app. cbn [obind]. eexists. split; [reflexivity|]. exists rest. rewrite <- app_assoc. split; [reflexivity|]. rewrite !app_length. cbn [length] in *. split; [|lia].
    clear - Er. revert l0 Er. induction ps as [|z ps IH]; intros l0 Er; destruct l0 as [|w l0]; cbn in *; try discriminate; [now injection Er|now apply IH].
Qed.
Lemma primes_run p0 q0 n : n <= length q0 -> (match p0 with Some l0 => length (primes_below n) < length l0 | None => True end) ->
  exists p q, primes p0 q0 n = Some (p, q, length (primes_below n)) /\ p_holds p0 p (primes_below n ++ [0]) /\ table n primeb q0 q.
Proof.
  intros Hq Hp. unfold primes.
  assert (Init : exists q1, q_init q0 n = Some q1 /\ length q1 = length q0 /\ forall x, nth_error q1 x = if x <? n then Some (2 <=? x) else nth_error q0 x).
  { unfold q_init. assert (S0 : exists qa, (if 0 <? n then set_nth q0 0 false else Some q0) = Some qa /\ length qa = length q0 /\ forall x, nth_error qa x = if (x <? n) && (x <? 1) then Some false else nth_error q0 x).
    { destruct (Nat.ltb_spec 0 n) as [H|H].
      - destruct (set_nth_some q0 0 false) as [qa E]; [lia|]. exists qa. split; [exact E|]. split; [now apply (set_nth_length _ _ _ _ E)|]. intros x. rewrite (set_nth_get _ _ _ _ x E). destruct (Nat.eqb_spec 0 x) as [<-|N]; [destruct (Nat.ltb_spec 0 n); [reflexivity|lia]|]. destruct (Nat.ltb_spec x 1); [lia|]. now rewrite andb_false_r.
      - exists q0. split; [reflexivity|]. split; [reflexivity|]. intros x. destruct (Nat.ltb_spec x n); [lia|reflexivity]. }
    destruct S0 as (qa & -> & La & Va). cbn [obind].
    assert (S1 : exists qb, (if 1 <? n then set_nth qa 1 false else Some qa) = Some qb /\ length qb = length q0 /\ forall x, nth_error qb x = if (x <? n) && (x <? 2) then Some false else nth_error q0 x).
    { destruct (Nat.ltb_spec 1 n) as [H|H].
      - destruct (set_nth_some qa 1 false) as [qb E]; [lia|]. exists qb. split; [exact E|]. split; [now rewrite (set_nth_length _ _ _ _ E)|]. intros x. rewrite (set_nth_get _ _ _ _ x E), Va. destruct (Nat.eqb_spec 1 x) as [<-|N]; [destruct (Nat.ltb_spec 1 n); [reflexivity|lia]|]. destruct (Nat.ltb_spec x 1), (Nat.ltb_spec x 2); try lia; reflexivity.
      - exists qa. split; [reflexivity|]. split; [exact La|]. intros x. rewrite Va. destruct (Nat.ltb_spec x n); [|reflexivity]. destruct (Nat.ltb_spec x 1), (Nat.ltb_spec x 2); try lia; reflexivity. }
    destruct S1 as (qb & -> & Lb & Vb). cbn [obind]. destruct (fill_run (fun _ => true) (fun i q => set_nth q i true) 2 n qb) as (q1 & E & L & V); [reflexivity|lia|]. exists q1. split; [exact E|]. split; [lia|]. intros x. rewrite V, Vb.
    destruct (Nat.leb_spec 2 x); cbn [andb].
    - destruct (Nat.ltb_spec x n); [reflexivity|]. reflexivity.
    - destruct (Nat.ltb_spec x n); [|reflexivity]. destruct (Nat.ltb_spec x 2); [reflexivity|lia]. }
  destruct Init as (q1 & -> & L1 & V1). cbn [obind].
  match goal with |- context [for_range 2 _ ?f ?s] => destruct (for_range_spec (fun i '(p, q, m) => m = length (primes_below i) /\ p_holds p0 p (primes_below i) /\ length q = length q0 /\
     (forall x, n <= x -> nth_error q x = nth_error q0 x) /\ (forall x, x < n -> exists b, nth_error q x = Some b /\ (b = true <-> unstruck i x))) f 2 (Nat.max 2 n) s) as ([[p q] m] & E & Em & Ph & Lq & Vo & Vi) end; [lia| | |].
  - split; [reflexivity|]. split; [|split; [exact L1|split]].
    + unfold p_holds. destruct p0 as [l0|]; [exists l0; repeat split|exact I].
    + intros x Hx. rewrite V1. destruct (Nat.ltb_spec x n); [lia|reflexivity].
    + intros x Hx. exists (2 <=? x). rewrite V1. destruct (Nat.ltb_spec x n); [|lia]. split; [reflexivity|]. rewrite Nat.leb_le. split; [intros H2; split; [exact H2|]|now intros []]. intros r Pr Hr. pose proof (prime_ge r Pr). lia.
  - intros i [[p q] m] Hi (Em & Ph & Lq & Vo & Vi). subst m. destruct (Vi i) as (b & Eb & Hb); [lia|]. rewrite Eb. cbn [obind]. rewrite unstruck_prime in Hb. rewrite primes_below_S. destruct b; cbn [negb].
    + assert (Pi : is_prime i) by now apply Hb. assert (Epb : primeb i = true) by now apply primeb_spec. rewrite Epb.
      destruct (p_put_run p0 p (primes_below i) i Ph) as (p' & Ep & Ph').
      { destruct p0 as [l0|]; [|exact I]. destruct (primes_below_mono (S i) n) as (l & El); [lia|]. rewrite El, primes_below_S, Epb, !app_length in Hp. cbn [length] in Hp. lia. }
      rewrite Ep. cbn [obind]. destruct (Nat.ltb_spec (n / i) i) as [Hbig|Hsmall].
      * eexists. split; [reflexivity|]. split; [rewrite app_length; reflexivity|]. split; [exact Ph'|]. split; [exact Lq|]. split; [exact Vo|]. intros x Hx. destruct (Vi x Hx) as (b & E1 & H1). exists b. split; [exact E1|]. rewrite H1. unfold unstruck. split; intros (U1 & U2); (split; [exact U1|]); intros r Pr Hr; [|apply U2; auto; lia].
        destruct (Nat.eq_dec r i) as [->|]; [|apply U2; auto; lia]. assert (n < i * i) by (pose proof (Nat.mul_succ_div_gt n i ltac:(lia)); nia). lia.
      * destruct (stride_run (fun j q => set_nth q j false) (fun _ => false) (i * i) n i q (const_body false)) as (q' & Eq & Lq' & Vq'); [lia|lia|]. rewrite Eq. cbn [obind]. eexists. split; [reflexivity|]. split; [rewrite app_length; reflexivity|]. split; [exact Ph'|]. split; [lia|].
        assert (St : forall x, (i * i <=? x) && (x <? n) && ((x - i * i) mod i =? 0) = (i * i <=? x) && (x <? n) && (x mod i =? 0)) by (intros x; apply (stride_multiple i); lia). split.
        -- intros x Hx. rewrite Vq', St. destruct (Nat.ltb_spec x n); [lia|]. rewrite andb_false_r. cbn [andb]. now apply Vo.
        -- intros x Hx. rewrite Vq', St. destruct (Nat.ltb_spec x n); [|lia]. rewrite andb_true_r. destruct (Vi x Hx) as (b & E1 & H1). rewrite E1. cbn [option_map].
           destruct ((i * i <=? x) && (x mod i =? 0)) eqn:M.
           ++ exists false. split; [reflexivity|]. split; [discriminate|]. intros (U1 & U2). apply andb_prop in M as (M1 & M2). apply Nat.leb_le in M1. apply Nat.eqb_eq, Nat.mod_divide in M2; [|lia]. elim (U2 i Pi); auto.
           ++ exists b. split; [reflexivity|]. rewrite H1. unfold unstruck. split; intros (U1 & U2); (split; [exact U1|]); intros r Pr Hr; [|apply U2; auto; lia]. destruct (Nat.eq_dec r i) as [->|]; [|apply U2; auto; lia]. intros Hs Hd. apply Nat.mod_divide in Hd; [|lia]. apply Nat.leb_le in Hs. apply Nat.eqb_eq in Hd. rewrite Hs, Hd in M. discriminate.
    + assert (Npi : ~ is_prime i) by (intros P; apply Hb in P; discriminate). assert (Epb : primeb i = false) by (destruct (primeb i) eqn:X; [apply primeb_spec in X; contradiction|reflexivity]). rewrite Epb, app_nil_r.
      eexists. split; [reflexivity|]. split; [reflexivity|]. split; [exact Ph|]. split; [exact Lq|]. split; [exact Vo|]. intros x Hx. destruct (Vi x Hx) as (b & E1 & H1). exists b. split; [exact E1|]. rewrite H1. unfold unstruck. split; intros (U1 & U2); (split; [exact U1|]); intros r Pr Hr; [|apply U2; auto; lia]. destruct (Nat.eq_dec r i) as [->|]; [contradiction|apply U2; auto; lia].
  - rewrite E. cbn [obind].
    assert (En : primes_below (Nat.max 2 n) = primes_below n). { destruct (le_lt_dec 2 n); [now rewrite Nat.max_r by lia|]. rewrite Nat.max_l by lia. destruct n as [|[|n]]; [reflexivity|reflexivity|lia]. }
    rewrite En in *. subst m. destruct (p_put_run p0 p (primes_below n) 0 Ph Hp) as (p' & Ep & Ph'). rewrite Ep. cbn [obind]. exists p', q. split; [reflexivity|]. split; [exact Ph'|]. split; [exact Lq|]. split; [|exact Vo].
    intros x Hx. destruct (Vi x Hx) as (b & E1 & H1). rewrite E1. f_equal. apply eq_true_iff_eq. rewrite H1, primeb_spec, <- unstruck_prime. unfold unstruck. split; intros (U1 & U2); (split; [exact U1|]); intros r Pr Hr Hs Hd.
    + apply (U2 r Pr); [lia|exact Hs|exact Hd].
    + apply (U2 r Pr); [|exact Hs|exact Hd]. pose proof (prime_ge r Pr). nia.
Qed.
