(** Proofs about BaseModel. *)
From Verif Require Import Lib BaseModel.
From Coq Require Import Znumtheory ZifyBool.
Local Open Scope Z_scope.

Lemma cdiv_some a b : b <> 0 -> cdiv a b = Some (Z.quot a b).
Proof. intros H. unfold cdiv. destruct (Z.eqb_spec b 0); [contradiction|reflexivity]. Qed.
Lemma cmod_some a b : b <> 0 -> cmod a b = Some (Z.rem a b).
Proof. intros H. unfold cmod. destruct (Z.eqb_spec b 0); [contradiction|reflexivity]. Qed.

(* ---------------------------------------------------------------- powT *)

Section Pow.
  Context {T : Type} (mul : T -> T -> T) (e1 : T).
  Hypothesis mul_assoc : forall x y z, mul x (mul y z) = mul (mul x y) z.
  Hypothesis mul_1_l : forall x, mul e1 x = x.
  Hypothesis mul_1_r : forall x, mul x e1 = x.

  (** product of [n] copies of x *)
  Fixpoint npow (x : T) (n : nat) : T :=
    match n with O => e1 | S n' => mul x (npow x n') end.

  Lemma npow_add x n m : npow x (n + m) = mul (npow x n) (npow x m).
  Proof.
    induction n as [|n IH]; cbn [npow Nat.add]; [now rewrite mul_1_l|].
    now rewrite IH, mul_assoc.
  Qed.
  Lemma npow_sq x n : npow (mul x x) n = npow x (n + n).
  Proof.
    induction n as [|n IH]; [reflexivity|].
    replace (S n + S n)%nat with (S (S (n + n))) by lia.
    cbn [npow]. rewrite IH. now rewrite mul_assoc.
  Qed.

  Lemma powT_npow x y : 0 <= y -> powT mul e1 x y = Some (npow x (Z.to_nat y)).
  Proof.
    intros Hy.
    destruct (loopZ_spec (powT_step mul)
      (fun '(r, z, k) => 0 <= k /\ mul r (npow z (Z.to_nat k)) = npow x (Z.to_nat y))
      (fun r => r = npow x (Z.to_nat y))
      (fun '(_, _, k) => k)) with (fuel := Z.abs y + 1) (s := (e1, x, y)) as (r & E & Hr).
    - intros [[r z] k] [Hk HI]. cbn [powT_step].
      destruct (Z.ltb_spec 0 k) as [Hp|Hp].
      + eexists. split; [reflexivity|]. cbv beta iota.
        pose proof (Z.quot_pos k 2 ltac:(lia) ltac:(lia)).
        pose proof (Z.quot_rem' k 2) as QR.
        pose proof (Z.rem_bound_pos k 2 ltac:(lia) ltac:(lia)) as RB.
        split; [|lia]. split; [lia|].
        rewrite npow_sq. rewrite <- HI.
        destruct (Z.eqb_spec (Z.rem k 2) 0) as [R0|R0].
        * do 2 f_equal. lia.
        * rewrite <- mul_assoc. f_equal.
          replace (Z.to_nat k) with (S (Z.to_nat (k ÷ 2) + Z.to_nat (k ÷ 2)))%nat by lia.
          reflexivity.
      + eexists. split; [reflexivity|]. cbv beta iota.
        replace k with 0 in HI by lia. cbn in HI. now rewrite mul_1_r in HI.
    - intros [[r z] k] [Hk _]. exact Hk.
    - split; [exact Hy|]. now rewrite mul_1_l.
    - lia.
    - unfold powT. rewrite E. now rewrite Hr.
  Qed.
End Pow.

(** negative exponents: the loop body never runs *)
Lemma powT_neg {T} (mul : T -> T -> T) e1 x y : y <= 0 -> powT mul e1 x y = Some e1.
Proof.
  intros Hy. unfold powT.
  destruct (loopZ_spec (powT_step mul) (fun s => s = (e1, x, y)) (fun r => r = e1) (fun _ => 0))
    with (fuel := Z.abs y + 1) (s := (e1, x, y)) as (r & E & Hr).
  - intros s ->. cbn [powT_step]. destruct (Z.ltb_spec 0 y); [lia|]. eexists; split; reflexivity.
  - intros; lia.
  - reflexivity.
  - lia.
  - now rewrite E, Hr.
Qed.

(* ----------------------------------------------------------------- gcd *)

Lemma gcd_rem a b : a <> 0 -> Z.gcd (Z.rem b a) a = Z.gcd a b.
Proof.
  intros Ha. apply Z.gcd_rem. exact Ha.
Qed.

Lemma gcd_run a b : exists g, gcd a b = Some g /\ Z.abs g = Z.gcd a b /\
   (0 <= a -> 0 <= b -> 0 <= g).
Proof.
  unfold gcd.
  destruct (loopZ_spec gcd_step
      (fun '(x, y) => Z.gcd x y = Z.gcd a b /\ (0 <= a -> 0 <= b -> 0 <= x /\ 0 <= y))
      (fun g => Z.abs g = Z.gcd a b /\ (0 <= a -> 0 <= b -> 0 <= g))
      (fun '(x, y) => Z.abs x)) with (fuel := Z.abs a + 1) (s := (a, b)) as (r & E & Hr).
  - intros [x y] [HI HS]. cbn [gcd_step]. destruct (Z.eqb_spec x 0) as [->|Hx].
    + eexists. split; [reflexivity|]. cbv beta iota. split; [|tauto].
      rewrite Z.gcd_0_l in HI. exact HI.
    + rewrite cmod_some by exact Hx. cbn [obind]. eexists. split; [reflexivity|]. cbv beta iota.
      split; [split|].
      * now rewrite gcd_rem.
      * intros P Q. destruct (HS P Q). split; [|lia]. apply Z.rem_nonneg; lia.
      * apply Z.rem_bound_abs. exact Hx.
  - intros [x y] _. lia.
  - split; [reflexivity|auto].
  - lia.
  - rewrite E. exists r. destruct Hr. auto.
Qed.

Lemma gcd_nonneg a b : 0 <= a -> 0 <= b -> gcd a b = Some (Z.gcd a b).
Proof.
  intros Ha Hb. destruct (gcd_run a b) as (g & E & Hg & Hs).
  rewrite E. f_equal. specialize (Hs Ha Hb). lia.
Qed.

(* -------------------------------------------------------------- gcd_ex *)

Lemma gcd_ex_run a b : exists g x y s, gcd_ex a b = Some (g, x, y, s) /\
   Z.abs g = Z.gcd a b /\ a * x + b * y = g /\ 0 <= s.
Proof.
  unfold gcd_ex.
  destruct (loopZ_spec gcd_ex_step
      (fun '(g, h, xo, xn, yo, yn, i) =>
          Z.gcd g h = Z.gcd a b /\ a * xn + b * yn = g /\ a * xo + b * yo = h /\ 0 <= i)
      (fun '(g, x, y, s) => Z.abs g = Z.gcd a b /\ a * x + b * y = g /\ 0 <= s)
      (fun '(g, h, xo, xn, yo, yn, i) => Z.abs h))
     with (fuel := Z.abs b + 1) (s := (a, b, 0, 1, 1, 0, 0)) as (r & E & Hr).
  - intros [[[[[[g h] xo] xn] yo] yn] i] (HG & H1 & H2 & Hi). cbn [gcd_ex_step].
    destruct (Z.eqb_spec h 0) as [->|Hh].
    + eexists. split; [reflexivity|]. cbv beta iota. repeat split; auto.
      rewrite Z.gcd_0_r in HG. exact HG.
    + rewrite cdiv_some by exact Hh. cbn [obind]. eexists. split; [reflexivity|]. cbv beta iota.
      pose proof (Z.quot_rem' g h) as QR.
      assert (R : g - g ÷ h * h = Z.rem g h) by lia.
      split; [repeat split|].
      * rewrite R. rewrite Z.gcd_comm, gcd_rem by exact Hh. now rewrite Z.gcd_comm.
      * exact H2.
      * rewrite <- H1, <- H2. ring.
      * lia.
      * rewrite R. apply Z.rem_bound_abs. exact Hh.
  - intros [[[[[[g h] xo] xn] yo] yn] i] _. lia.
  - repeat split; lia.
  - lia.
  - destruct r as [[[g x] y] s]. rewrite E. exists g, x, y, s. tauto.
Qed.

(** Sign and size of the cofactors for non-negative operands: [sg] is (-1)^s. *)
Definition psign (i : Z) : Z := if Z.even i then 1 else -1.
Lemma psign_succ i : psign (i + 1) = - psign i.
Proof. unfold psign. rewrite Z.even_add. cbn. destruct (Z.even i); reflexivity. Qed.

Lemma gcd_ex_nonneg a b : 0 <= a -> 0 <= b ->
  exists x y s, gcd_ex a b = Some (Z.gcd a b, x, y, s) /\ 0 <= s /\
    a * x + b * y = Z.gcd a b /\
    0 <= psign s * x /\ psign s * y <= 0 /\
    (0 < b -> Z.abs x * Z.gcd a b <= b) /\ (0 < a -> Z.abs y * Z.gcd a b <= a).
Proof.
  intros Ha Hb. unfold gcd_ex.
  destruct (loopZ_spec gcd_ex_step
      (fun '(g, h, xo, xn, yo, yn, i) =>
          Z.gcd g h = Z.gcd a b /\ a * xn + b * yn = g /\ a * xo + b * yo = h /\ 0 <= i /\
          0 <= g /\ 0 <= h /\
          (exists u v w z, 0 <= u /\ 0 <= v /\ 0 <= w /\ 0 <= z /\
             xn = psign i * u /\ xo = - psign i * v /\ yn = - psign i * w /\ yo = psign i * z /\
             g * v + h * u = b /\ g * z + h * w = a /\
             (i = 0 -> h = b /\ w = 0 /\ z = 1 /\ u = 1 /\ v = 0) /\ (i <> 0 -> h < g) /\
             (i = 1 -> w = 1) /\
             (i <> 0 -> u <= v) /\ (2 <= i -> w <= z)))
      (fun '(g, x, y, s) => g = Z.gcd a b /\ a * x + b * y = g /\ 0 <= s /\
          0 <= psign s * x /\ psign s * y <= 0 /\
          (0 < b -> Z.abs x * g <= b) /\ (0 < a -> Z.abs y * g <= a))
      (fun '(g, h, xo, xn, yo, yn, i) => Z.abs h))
     with (fuel := Z.abs b + 1) (s := (a, b, 0, 1, 1, 0, 0)) as (r & E & Hr).
  - intros [[[[[[g h] xo] xn] yo] yn] i]
      (HG & H1 & H2 & Hi & Pg & Ph & u & v & w & z & Pu & Pv & Pw & Pz & Exn & Exo & Eyn & Eyo & Hv & Hz & I0 & Ig & I1 & Iu & Iw).
    cbn [gcd_ex_step].
    assert (PS : psign i * psign i = 1) by (unfold psign; destruct (Z.even i); reflexivity).
    destruct (Z.eqb_spec h 0) as [->|Hh].
    + eexists. split; [reflexivity|]. cbv beta iota.
      assert (G : g = Z.gcd a b) by (rewrite Z.gcd_0_r in HG; lia).
      repeat split; auto.
      * rewrite Exn. replace (psign i * (psign i * u)) with (psign i * psign i * u) by ring. rewrite PS. lia.
      * rewrite Eyn. replace (psign i * (- psign i * w)) with (- (psign i * psign i * w)) by ring. rewrite PS. lia.
      * intros Pb. assert (i <> 0) by (intros ->; lia).
        assert (Z.abs xn = u) by (rewrite Exn; unfold psign in *; destruct (Z.even i); lia).
        specialize (Iu H). rewrite H0. clear -Hv Iu Pg. nia.
      * intros Pa.
        assert (Ab : Z.abs yn = w) by (rewrite Eyn; unfold psign in *; destruct (Z.even i); lia).
        rewrite Ab. clear Ab.
        destruct (Z.eq_dec i 0) as [->|N0]; [destruct (I0 eq_refl) as (_ & -> & _); lia|].
        destruct (Z.eq_dec i 1) as [->|N1].
        -- specialize (I1 eq_refl). subst w. assert (z <> 0) by (intros ->; lia). clear -Hz H Pg Pz. nia.
        -- specialize (Iw ltac:(lia)). clear -Hz Pg Iw. nia.
    + rewrite cdiv_some by exact Hh. cbn [obind]. eexists. split; [reflexivity|]. cbv beta iota.
      pose proof (Z.quot_rem' g h) as QR.
      assert (R : g - g ÷ h * h = Z.rem g h) by lia.
      pose proof (Z.quot_pos g h ltac:(lia) ltac:(lia)) as Pq.
      pose proof (Z.rem_bound_pos g h ltac:(lia) ltac:(lia)) as RB.
      set (q := g ÷ h) in *.
      split; [repeat split|].
      * rewrite R. rewrite Z.gcd_comm, gcd_rem by exact Hh. now rewrite Z.gcd_comm.
      * exact H2.
      * rewrite <- H1, <- H2. ring.
      * lia.
      * lia.
      * lia.
      * exists v, (u + q * v), z, (w + q * z). rewrite psign_succ.
        assert (Q1 : i <> 0 -> 1 <= q).
        { intros N. specialize (Ig N). apply Z.quot_le_lower_bound; lia. }
        pose proof (Z.mul_nonneg_nonneg q v Pq Pv).
        pose proof (Z.mul_nonneg_nonneg q z Pq Pz).
        split; [lia|]. split; [lia|]. split; [lia|]. split; [lia|].
        split; [rewrite Exo; ring|]. split; [rewrite Exn, Exo; ring|].
        split; [rewrite Eyo; ring|]. split; [rewrite Eyn, Eyo; ring|].
        split; [rewrite <- Hv; ring|]. split; [rewrite <- Hz; ring|].
        split; [lia|]. split; [lia|].
        split; [intros EN; assert (i = 0) by lia; lia|].
        split.
        -- intros _. destruct (Z.eq_dec i 0) as [N|N]; [lia|].
           specialize (Q1 N). pose proof (Z.mul_le_mono_nonneg_r 1 q v Pv Q1). lia.
        -- intros L2. assert (N : i <> 0) by lia. specialize (Q1 N).
           pose proof (Z.mul_le_mono_nonneg_r 1 q z Pz Q1). lia.
      * rewrite R. apply Z.rem_bound_abs. exact Hh.
  - intros [[[[[[g h] xo] xn] yo] yn] i] _. lia.
  - repeat split; try lia. exists 1, 0, 0, 1. cbn. repeat split; lia.
  - lia.
  - destruct r as [[[g x] y] s]. rewrite E. destruct Hr as (-> & ? & ? & ? & ? & ?). exists x, y, s. auto 10.
Qed.

(* ------------------------------------------------------- lcm, gcd_max *)

Lemma lcm_run a b : 0 <= a -> 0 <= b -> a <> 0 \/ b <> 0 -> lcm a b = Some (Z.lcm a b).
Proof.
  intros Ha Hb H. unfold lcm. rewrite gcd_nonneg by assumption. cbn [obind].
  assert (G : Z.gcd a b <> 0).
  { intros E. apply Z.gcd_eq_0 in E. lia. }
  pose proof (Z.gcd_nonneg a b) as Gp.
  rewrite cdiv_some by exact G. cbn [obind]. f_equal.
  unfold Z.lcm. rewrite Z.quot_div_nonneg by lia.
  rewrite Z.abs_eq; [reflexivity|].
  apply Z.mul_nonneg_nonneg; [exact Ha|]. apply Z.div_pos; lia.
Qed.

(** every prime divisor of g divides a *)
Definition kernel_divides (g a : Z) : Prop := forall p, prime p -> (p | g) -> (p | a).

Lemma gcd_max_run a b : 0 <= a -> 0 < b ->
  exists g, gcd_max a b = Some g /\ 0 < g /\ (g | b) /\ kernel_divides g a /\ Z.gcd a (b / g) = 1.
Proof.
  intros Ha Hb. unfold gcd_max. destruct (Z.eqb_spec b 0) as [E|_]; [lia|].
  destruct (loopZ_spec (gcd_max_step a b)
     (fun '(go, g) => 0 < g /\ (g | b) /\ kernel_divides g a /\
         (go = g -> Z.gcd (go * a) b = g) /\ 0 <= go < g + 1)
     (fun g => 0 < g /\ (g | b) /\ kernel_divides g a /\ Z.gcd (g * a) b = g)
     (fun '(go, g) => b - go)) with (fuel := Z.abs b + 2) (s := (0, 1)) as (r & E & Hr).
  - intros [go g] (Pg & Dg & Kg & Eg & Bg). cbn [gcd_max_step].
    destruct (Z.eqb_spec go g) as [->|N].
    + eexists. split; [reflexivity|]. cbv beta iota. auto.
    + rewrite gcd_nonneg by nia. cbn [obind]. eexists. split; [reflexivity|]. cbv beta iota.
      pose proof (Z.gcd_divide_l (g * a) b) as D1. pose proof (Z.gcd_divide_r (g * a) b) as D2.
      pose proof (Z.gcd_nonneg (g * a) b) as Np.
      assert (P' : 0 < Z.gcd (g * a) b).
      { destruct (Z.eq_dec (Z.gcd (g * a) b) 0) as [E0|]; [|lia]. apply Z.gcd_eq_0 in E0. lia. }
      assert (GD : (g | Z.gcd (g * a) b)).
      { apply Z.gcd_greatest; [apply Z.divide_factor_l|exact Dg]. }
      pose proof (Z.divide_pos_le g (Z.gcd (g * a) b) P' GD).
      repeat split; try lia; try assumption.
      * intros p Hp Hd. apply (Z.divide_trans _ _ _ Hd) in D1.
        apply prime_mult in D1; [|exact Hp]. destruct D1 as [D1|D1]; [apply Kg; assumption|exact D1].
  - intros [go g] (Pg & Dg & Kg & Eg & Bg). pose proof (Z.divide_pos_le g b Hb Dg). lia.
  - repeat split; try lia.
    + apply Z.divide_1_l.
    + intros p Hp Hd. destruct Hp. apply Z.divide_1_r_nonneg in Hd; lia.
  - lia.
  - rewrite E. destruct Hr as (Pg & Dg & Kg & Eg). exists r. repeat split; auto.
    destruct Dg as [k Hk]. subst b. rewrite Z.div_mul by lia.
    rewrite (Z.mul_comm k r) in Eg. rewrite Z.gcd_mul_mono_l_nonneg in Eg by lia. nia.
Qed.

Lemma coprime_by_primes d c : 0 < d ->
  (forall p, prime p -> (p | d) -> (p | c) -> False) -> Z.gcd d c = 1.
Proof.
  intros Hd H. pose proof (Z.gcd_nonneg d c).
  destruct (Z.eq_dec (Z.gcd d c) 0) as [E|E]; [apply Z.gcd_eq_0 in E; lia|].
  destruct (Z.eq_dec (Z.gcd d c) 1) as [E1|E1]; [exact E1|].
  exfalso.
  (* a number > 1 has a prime divisor *)
  assert (PD : forall n, 1 < n -> exists p, prime p /\ (p | n)).
  { intros n Hn. assert (Hn0 : 0 <= n) by lia. revert Hn. pattern n. apply Z_lt_induction; [|exact Hn0].
    clear n Hn0. intros n IH Hn. destruct (prime_dec n) as [P|NP].
    - exists n. split; [exact P|apply Z.divide_refl].
    - destruct (not_prime_divide n Hn NP) as (m & Hm & Dm).
      destruct (IH m ltac:(lia) ltac:(lia)) as (p & Pp & Dp).
      exists p. split; [exact Pp|]. eapply Z.divide_trans; eassumption. }
  destruct (PD (Z.gcd d c) ltac:(lia)) as (p & Pp & Dp).
  apply (H p Pp).
  - eapply Z.divide_trans; [exact Dp|apply Z.gcd_divide_l].
  - eapply Z.divide_trans; [exact Dp|apply Z.gcd_divide_r].
Qed.

Lemma gcd_max_greatest a b g d : 0 < b -> 0 < g -> (g | b) -> Z.gcd a (b / g) = 1 ->
  0 < d -> (d | b) -> kernel_divides d a -> (d | g).
Proof.
  intros Hb Hg Dg Hc Hd Dd Kd. destruct Dg as [k ->]. rewrite Z.div_mul in Hc by lia.
  apply (Z.gauss d k g).
  - exact Dd.
  - apply coprime_by_primes; [exact Hd|]. intros p Pp D1 D2.
    apply Kd in D1; [|exact Pp].
    assert (X : (p | Z.gcd a k)) by (apply Z.gcd_greatest; assumption).
    rewrite Hc in X. destruct Pp. apply Z.divide_1_r_nonneg in X; lia.
Qed.

(* -------------------------------------------------------------- sqrtT *)

Lemma absT_abs x : absT x = Z.abs x.
Proof. unfold absT. destruct (Z.ltb_spec x 0); lia. Qed.
Lemma minT_min x y : minT x y = Z.min x y.
Proof. unfold minT. destruct (Z.ltb_spec x y); lia. Qed.
Lemma maxT_max x y : maxT x y = Z.max x y.
Proof. unfold maxT. destruct (Z.ltb_spec x y); lia. Qed.

Lemma dec64_pos mi : 1 < mi < 2 ^ 64 -> dec64 mi = mi - 1.
Proof. intros H. unfold dec64. apply Z.mod_small. lia. Qed.

Lemma sqrt_bounds x q : 0 <= q -> q * q <= x < (q + 1) * (q + 1) -> Z.sqrt x = q.
Proof. intros Hq H. apply Z.sqrt_unique. lia. Qed.

(** iterations are at most 3 + log2 x; [mi] = 0 stands for the wrapped counter 2^64 *)
Lemma sqrtT_pos_run x mi : 0 <= x ->
  (mi = 0 \/ Z.log2 x + 6 <= mi < 2 ^ 64) -> Z.log2 x + 6 <= 2 ^ 64 ->
  sqrtT_pos x 1 mi = Some (Z.sqrt x).
Proof.
  intros Hx Hmi Hl. pose proof (Z.log2_nonneg x) as Lx. unfold sqrtT_pos.
  destruct (Z.eqb_spec x 0) as [->|N0]; [reflexivity|].
  destruct (Z.eqb_spec x 1) as [->|N1]; [reflexivity|].
  set (s := Z.sqrt x).
  assert (Hs : 1 <= s) by (apply (Z.sqrt_le_mono 1 x); lia).
  assert (Bs : s * s <= x < (s + 1) * (s + 1)).
  { pose proof (Z.sqrt_spec x Hx). fold s in H. replace (s + 1) with (Z.succ s) by lia. exact H. }
  assert (Q2 : forall q, 1 <= q -> 0 <= Z.quot x q /\ Z.quot x q * q <= x < (Z.quot x q + 1) * q).
  { intros q Hq. rewrite Z.quot_div_nonneg by lia.
    pose proof (Z.div_mod x q ltac:(lia)). pose proof (Z.mod_pos_bound x q ltac:(lia)).
    pose proof (Z.div_pos x q Hx ltac:(lia)). nia. }
  assert (Hi : s <= x ÷ 2).
  { destruct (Q2 2 ltac:(lia)) as (A & B).
    destruct (Z.le_gt_cases x 3) as [L|L].
    - assert (s = 1) by nia. assert (x = 2 \/ x = 3) as [->| ->] by lia; cbn; lia.
    - nia. }
  destruct (Q2 (x ÷ 2) ltac:(lia)) as (A & B).
  rewrite cdiv_some by lia. cbn [obind].
  assert (Hq0 : x ÷ 2 <= x) by (destruct (Q2 2 ltac:(lia)); lia).
  set (q0 := x ÷ 2) in *.
  set (ctr := fun m => if m =? 0 then 2 ^ 64 else m).
  set (ms := fun q1 q2 => if Z.abs (q1 - q2) <=? 1 then 0 else if q1 =? s then 2 else 3 + Z.log2 (q1 - s)).
  destruct (loopZ_spec (sqrtT_step x 1)
     (fun '(q1, q2, m) => s <= q1 /\ q2 = x ÷ q1 /\ 0 <= m < 2 ^ 64 /\ ms q1 q2 + 1 < ctr m)
     (fun r => r = s)
     (fun '(q1, q2, m) => ms q1 q2)) with (fuel := 2 ^ 64 + 1) (s := (q0, x ÷ q0, mi)) as (r & E & Hr).
  - intros [[q1 q2] m] (I1 & I2 & I3 & I4). cbn [sqrtT_step].
    rewrite absT_abs. destruct (Q2 q1 ltac:(lia)) as (A1 & B1). rewrite <- I2 in A1, B1.
    unfold ms in I4.
    destruct (Z.ltb_spec 1 (Z.abs (q1 - q2))) as [L|L].
    + destruct (Z.leb_spec (Z.abs (q1 - q2)) 1) as [L'|_]; [lia|].
      assert (Hdec : dec64 m = ctr m - 1 /\ 0 < dec64 m).
      { unfold ctr in *. destruct (Z.eqb_spec m 0) as [->|Nm].
        - split; reflexivity.
        - assert (1 < m).
          { destruct (Z.eqb_spec q1 s); [lia|]. pose proof (Z.log2_nonneg (q1 - s)). lia. }
          rewrite dec64_pos by lia. lia. }
      destruct Hdec as [Hd1 Hd2]. destruct (Z.ltb_spec 0 (dec64 m)) as [_|Z]; [|lia].
      rewrite (Z.quot_div_nonneg (q1 + q2) 2) by lia.
      pose proof (Z.div_mod (q1 + q2) 2 ltac:(lia)) as DM.
      pose proof (Z.mod_pos_bound (q1 + q2) 2 ltac:(lia)) as MB.
      set (q1' := (q1 + q2) / 2) in *.
      assert (AMGM : s <= q1').
      { (* (q1 + q2 + 1)^2 > 4 x *)
        destruct (Z.le_gt_cases s q1') as [|C]; [assumption|exfalso].
        assert (q1 + q2 + 1 <= 2 * s) by lia.
        assert (4 * x < (q1 + q2 + 1) * (q1 + q2 + 1)) by nia. nia. }
      rewrite cdiv_some by lia. cbn [obind]. eexists. split; [reflexivity|]. cbv beta iota.
      destruct (Q2 q1' ltac:(lia)) as (A2 & B2). set (q2' := x ÷ q1') in *.
      assert (MS : ms q1' q2' < ms q1 q2).
      { unfold ms at 2. destruct (Z.leb_spec (Z.abs (q1 - q2)) 1) as [|_]; [lia|].
        destruct (Z.eqb_spec q1 s) as [Eq|Nq].
        - (* q1 = s: q2 <= s + 2 so q1' = s + 1, q2' = s *)
          subst q1. assert (q2 <= s + 2) by nia. assert (s <= q2) by nia.
          assert (q1' = s + 1) by lia. assert (q2 = s + 2) by lia.
          assert (q2' = s) by nia. unfold ms.
          destruct (Z.leb_spec (Z.abs (q1' - q2')) 1); lia.
        - assert (q2 <= s) by nia.
          pose proof (Z.log2_nonneg (q1 - s)).
          unfold ms. destruct (Z.leb_spec (Z.abs (q1' - q2')) 1); [lia|].
          destruct (Z.eqb_spec q1' s); [lia|].
          assert (D : 2 * (q1' - s) <= q1 - s) by lia.
          pose proof (Z.log2_double (q1' - s) ltac:(lia)).
          pose proof (Z.log2_le_mono _ _ D). lia. }
      split; [|exact MS].
      split; [exact AMGM|]. split; [reflexivity|].
      unfold ms at 2 in MS. destruct (Z.leb_spec (Z.abs (q1 - q2)) 1) as [|_]; [lia|].
      split.
      * rewrite Hd1. unfold ctr in *. destruct (Z.eqb_spec m 0); lia.
      * unfold ctr at 1. destruct (Z.eqb_spec (dec64 m) 0); [lia|]. lia.
    + eexists. split; [reflexivity|]. cbv beta iota. rewrite minT_min.
      destruct (Z.eq_dec q1 s) as [->|Nq].
      * assert (s <= q2) by nia. lia.
      * assert (q2 <= s) by nia. assert (q2 = q1 - 1) by lia. lia.
  - intros [[q1 q2] m] _. unfold ms. pose proof (Z.log2_nonneg (q1 - s)).
    destruct (Z.leb_spec (Z.abs (q1 - q2)) 1); [lia|]. destruct (Z.eqb_spec q1 s); lia.
  - assert (ms q0 (x ÷ q0) + 1 < ctr mi).
    { assert (LB : ms q0 (x ÷ q0) <= 3 + Z.log2 x).
      { unfold ms. pose proof (Z.log2_nonneg x).
        destruct (Z.leb_spec (Z.abs (q0 - x ÷ q0)) 1); [lia|]. destruct (Z.eqb_spec q0 s); [lia|].
        assert (HL : q0 - s <= x) by lia. pose proof (Z.log2_le_mono _ _ HL). lia. }
      unfold ctr. destruct (Z.eqb_spec mi 0); lia. }
    repeat split; try assumption; try lia.
  - assert (LB : ms q0 (x ÷ q0) <= 3 + Z.log2 x).
    { unfold ms. pose proof (Z.log2_nonneg x).
      destruct (Z.leb_spec (Z.abs (q0 - x ÷ q0)) 1); [lia|]. destruct (Z.eqb_spec q0 s); [lia|].
      assert (HL : q0 - s <= x) by lia. pose proof (Z.log2_le_mono _ _ HL). lia. }
    lia.
  - rewrite E. now rewrite Hr.
Qed.

Lemma sqrtT_run x : Z.log2 (Z.abs x) + 6 <= 2 ^ 64 ->
  sqrtT x 1 0 = Some (Z.sgn x * Z.sqrt (Z.abs x)).
Proof.
  intros H. unfold sqrtT. destruct (Z.ltb_spec x 0) as [L|L].
  - rewrite Z.abs_neq in H by lia. rewrite sqrtT_pos_run by lia. cbn [obind].
    rewrite Z.abs_neq, Z.sgn_neg by lia. f_equal; lia.
  - rewrite Z.abs_eq in H by lia. rewrite sqrtT_pos_run by lia.
    rewrite Z.abs_eq by lia. destruct (Z.eq_dec x 0) as [->|]; [reflexivity|].
    rewrite Z.sgn_pos by lia. f_equal. lia.
Qed.

(* -------------------------------------------------------------- cbrtT *)

Lemma amgm3 r v : 0 <= r -> 0 <= v -> 27 * (r * r * v) <= (2 * r + v) * (2 * r + v) * (2 * r + v).
Proof.
  intros Hr Hv.
  (* (2r+v)^3 - 27 r^2 v = (v - r)^2 (v + 8 r) *)
  replace ((2 * r + v) * (2 * r + v) * (2 * r + v))
    with (27 * (r * r * v) + (v - r) * (v - r) * (v + 8 * r)) by ring.
  assert (0 <= (v - r) * (v - r) * (v + 8 * r)).
  { apply Z.mul_nonneg_nonneg; [apply Z.square_nonneg|lia]. }
  lia.
Qed.

(** the floor of the cube root is unique *)
Lemma cube_lt a b : 0 <= a -> 0 <= b -> a * a * a < b * b * b -> a < b.
Proof.
  intros Ha Hb H. destruct (Z.lt_ge_cases a b) as [|G]; [assumption|exfalso].
  assert (b * b <= a * a) by nia. nia.
Qed.
Lemma cube_le a b : 0 <= a <= b -> a * a * a <= b * b * b.
Proof. intros H. assert (a * a <= b * b) by nia. nia. Qed.

Lemma cbrt_exists x : 0 <= x -> exists c, 0 <= c /\ c * c * c <= x < (c + 1) * (c + 1) * (c + 1).
Proof.
  intros Hx. pattern x. apply natlike_ind; [exists 0; lia| |exact Hx].
  clear x Hx. intros x Hx (c & Hc & H).
  destruct (Z.eq_dec (Z.succ x) ((c + 1) * (c + 1) * (c + 1))) as [E|E].
  - exists (c + 1). split; [lia|]. split; [lia|]. nia.
  - exists c. lia.
Qed.

Lemma sq_23 u w : 0 <= u -> 3 * u <= 2 * w -> 2 * (u * u) <= w * w.
Proof. nia. Qed.

Lemma cb_aux c x v : 2 <= c -> (c + 3) * (c * c) <= x -> x < (v + 1) * ((c + 1) * (c + 1)) -> c <= v.
Proof.
  intros H1 H2 H3. destruct (Z.le_gt_cases c v) as [|G]; [assumption|exfalso].
  assert ((v + 1) * ((c + 1) * (c + 1)) <= c * ((c + 1) * (c + 1))).
  { apply Z.mul_le_mono_nonneg_r; nia. }
  nia.
Qed.

Lemma cbrtT_pos_run x c : 0 <= x -> 0 <= c -> c * c * c <= x < (c + 1) * (c + 1) * (c + 1) ->
  Z.log2 x + 6 <= 2 ^ 64 ->
  cbrtT_pos x 1 0 = Some c.
Proof.
  intros Hx Hc Bc Hl. unfold cbrtT_pos.
  destruct (Z.eqb_spec x 0) as [->|N0]; [f_equal; nia|].
  destruct (Z.eqb_spec x 1) as [->|N1]; [f_equal; nia|].
  pose proof (Z.log2_nonneg x) as Lx.
  rewrite sqrtT_run by (rewrite Z.abs_eq by lia; lia).
  rewrite Z.abs_eq, Z.sgn_pos, Z.mul_1_l by lia. cbn [obind].
  set (s := Z.sqrt x).
  assert (Hs : 1 <= s) by (apply (Z.sqrt_le_mono 1 x); lia).
  assert (Bs : s * s <= x < (s + 1) * (s + 1)).
  { pose proof (Z.sqrt_spec x Hx). fold s in H. replace (s + 1) with (Z.succ s) by lia. exact H. }
  assert (C1 : 1 <= c) by (destruct (Z.eq_dec c 0) as [->|]; lia).
  assert (Hi : c <= s).
  { destruct (Z.le_gt_cases c s) as [|G]; [assumption|exfalso].
    assert ((s + 1) * (s + 1) <= c * c) by nia. nia. }
  assert (Q2 : forall q, 1 <= q -> 0 <= Z.quot x (sqT q) /\ Z.quot x (sqT q) * (q * q) <= x < (Z.quot x (sqT q) + 1) * (q * q)).
  { intros q Hq. unfold sqT. rewrite Z.quot_div_nonneg by nia.
    pose proof (Z.div_mod x (q * q) ltac:(nia)). pose proof (Z.mod_pos_bound x (q * q) ltac:(nia)).
    pose proof (Z.div_pos x (q * q) Hx ltac:(nia)). nia. }
  rewrite cdiv_some by (unfold sqT; nia). cbn [obind].
  set (ctr := fun m => if m =? 0 then 2 ^ 64 else m).
  set (ms := fun r0 r1 r2 => if (r1 =? r0) || (Z.abs (r1 - r2) <=? 1) then 0 else if r1 =? c then 2
             else 3 + Z.log2 ((r1 - c) * (r1 - c))).
  assert (R2lo : forall q v, 1 <= q -> v * (q * q) <= x < (v + 1) * (q * q) -> c + 1 <= q -> v <= c).
  { intros q v Hq Hv Hcq. destruct (Z.le_gt_cases v c) as [|G]; [assumption|exfalso].
    assert ((c + 1) * (c + 1) <= q * q) by nia.
    assert ((c + 1) * ((c + 1) * (c + 1)) <= v * (q * q)) by nia. lia. }
  assert (R2hi : forall v, v * (c * c) <= x < (v + 1) * (c * c) -> c <= v).
  { intros v Hv. destruct (Z.le_gt_cases c v) as [|G]; [assumption|exfalso].
    assert ((v + 1) * (c * c) <= c * (c * c)) by nia. lia. }
  assert (LB0 : ms 0 s (x ÷ sqT s) <= 3 + Z.log2 x).
  { unfold ms. destruct ((s =? 0) || _); [lia|]. destruct (Z.eqb_spec s c); [lia|].
    assert (HL : (s - c) * (s - c) <= x) by nia. pose proof (Z.log2_le_mono _ _ HL). lia. }
  destruct (loopZ_spec (cbrtT_step x 1)
     (fun '(r0, r1, r2, m) => c <= r1 /\ r2 = x ÷ (sqT r1) /\ 0 <= m < 2 ^ 64 /\ (r1 = r0 -> r1 = c) /\ (c = 1 -> r1 = s) /\ ms r0 r1 r2 + 1 < ctr m)
     (fun r => r = c)
     (fun '(r0, r1, r2, m) => ms r0 r1 r2))
     with (fuel := 2 ^ 64 + 1) (s := (0, s, x ÷ (sqT s), 0)) as (r & E & Hr).
  - intros [[[r0 r1] r2] m] (I1 & I2 & I3 & I0 & Ic & I4). cbn [cbrtT_step].
    rewrite absT_abs. destruct (Q2 r1 ltac:(lia)) as (A1 & B1). rewrite <- I2 in A1, B1.
    destruct (negb (r1 =? r0) && (1 <? Z.abs (r1 - r2))) eqn:T.
    + assert (Nr : r1 <> r0) by lia. assert (Nd : 1 < Z.abs (r1 - r2)) by lia.
      assert (M1 : ms r0 r1 r2 = if r1 =? c then 2 else 3 + Z.log2 ((r1 - c) * (r1 - c))).
      { unfold ms. destruct ((r1 =? r0) || (Z.abs (r1 - r2) <=? 1)) eqn:T'; [lia|reflexivity]. }
      assert (M2 : 2 <= ms r0 r1 r2).
      { rewrite M1. pose proof (Z.log2_nonneg ((r1 - c) * (r1 - c))). destruct (r1 =? c); lia. }
      assert (Hdec : dec64 m = ctr m - 1 /\ 0 < dec64 m).
      { unfold ctr in *. destruct (Z.eqb_spec m 0) as [->|Nm].
        - split; reflexivity.
        - rewrite dec64_pos by lia. lia. }
      destruct Hdec as [Hd1 Hd2]. destruct (Z.ltb_spec 0 (dec64 m)) as [_|Z]; [|lia].
      rewrite (Z.quot_div_nonneg (r1 + r1 + r2) 3) by lia.
      pose proof (Z.div_mod (r1 + r1 + r2) 3 ltac:(lia)) as DM.
      pose proof (Z.mod_pos_bound (r1 + r1 + r2) 3 ltac:(lia)) as MB.
      set (r1' := (r1 + r1 + r2) / 3) in *.
      assert (AMGM : c <= r1').
      { assert (c < r1' + 1); [|lia].
        assert (S3 : 2 * r1 + (r2 + 1) <= 3 * (r1' + 1)) by lia.
        pose proof (amgm3 r1 (r2 + 1) ltac:(lia) ltac:(lia)) as AM.
        pose proof (cube_le (2 * r1 + (r2 + 1)) (3 * (r1' + 1)) ltac:(lia)) as CL.
        apply cube_lt; [lia|lia|]. lia. }
      assert (NZ : sqT r1' <> 0) by (unfold sqT; nia).
      rewrite cdiv_some by exact NZ. cbn [obind]. eexists. split; [reflexivity|]. cbv beta iota.
      destruct (Q2 r1' ltac:(lia)) as (A2 & B2). set (r2' := x ÷ sqT r1') in *.
      assert (EQ : r1' = r1 -> r1' = c).
      { intros EE. destruct (Z.eq_dec r1 c) as [|Nc]; [lia|].
        pose proof (R2lo r1 r2 ltac:(lia) B1 ltac:(lia)). lia. }
      assert (IC : c = 1 -> r1' = s).
      { intros EE. specialize (Ic EE). subst c.
        destruct (Z.le_gt_cases x 3) as [X3|X3].
        - assert (s = 1) by nia. subst r1. rewrite H in *. nia.
        - assert (s = 2) by nia. subst r1. rewrite H in *. nia. }
      assert (MS : ms r1 r1' r2' < ms r0 r1 r2).
      { rewrite M1. destruct (Z.eqb_spec r1 c) as [Eq|Nq].
        - subst r1. pose proof (R2hi r2 B1).
          (* r2 < c + 6 in general; next is either r1' = c, or r1' = c + 1 with r2' = c *)
          unfold ms. destruct ((r1' =? c) || (Z.abs (r1' - r2') <=? 1)) eqn:T2; [lia|].
          exfalso.
          assert (R1b : c + 1 <= r1') by lia.
          pose proof (R2lo r1' r2' ltac:(lia) B2 R1b) as R2c.
          assert (C2 : 2 <= c) by (destruct (Z.eq_dec c 1) as [E1|]; [specialize (IC E1); lia|lia]).
          assert (R2u : r2 <= c + 4).
          { destruct (Z.le_gt_cases r2 (c + 4)) as [|G]; [assumption|exfalso].
            assert ((c + 5) * (c * c) <= r2 * (c * c)) by nia. nia. }
          assert (R1e : r1' = c + 1) by lia.
          assert (R2l : c + 3 <= r2) by lia.
          assert (X3 : (c + 3) * (c * c) <= x) by (clear -R2l B1; nia).
          rewrite R1e in B2.
          pose proof (cb_aux c x r2' C2 X3 (proj2 B2)).
          lia.
        - assert (r2 <= c) by (apply (R2lo r1); lia).
          pose proof (Z.log2_nonneg ((r1 - c) * (r1 - c))).
          unfold ms. destruct ((r1' =? r1) || (Z.abs (r1' - r2') <=? 1)); [lia|].
          destruct (Z.eqb_spec r1' c); [lia|].
          assert (D3 : 3 * (r1' - c) <= 2 * (r1 - c)) by lia.
          assert (D : 2 * ((r1' - c) * (r1' - c)) <= (r1 - c) * (r1 - c)) by (apply sq_23; lia).
          pose proof (Z.log2_double ((r1' - c) * (r1' - c)) ltac:(apply Z.mul_pos_pos; lia)).
          pose proof (Z.log2_le_mono _ _ D). lia. }
      split; [|exact MS].
      split; [exact AMGM|]. split; [reflexivity|]. split; [|split; [exact EQ|split; [exact IC|]]].
      * rewrite Hd1. unfold ctr in *. destruct (Z.eqb_spec m 0); lia.
      * unfold ctr at 1. destruct (Z.eqb_spec (dec64 m) 0); [lia|]. lia.
    + eexists. split; [reflexivity|]. cbv beta iota. rewrite minT_min.
      destruct (Z.eq_dec r1 c) as [->|Nq].
      * pose proof (R2hi r2 B1). lia.
      * assert (r2 <= c) by (apply (R2lo r1); lia). assert (r1 <> r0) by lia. lia.
  - intros [[[r0 r1] r2] m] _. unfold ms. pose proof (Z.log2_nonneg ((r1 - c) * (r1 - c))).
    destruct ((r1 =? r0) || (Z.abs (r1 - r2) <=? 1)); [lia|]. destruct (Z.eqb_spec r1 c); lia.
  - assert (LB : ms 0 s (x ÷ sqT s) + 1 < ctr 0) by (change (ctr 0) with (2 ^ 64); lia).
    repeat split; try assumption; try lia.
  - lia.
  - rewrite E. now rewrite Hr.
Qed.

Lemma cbrtT_run x : Z.log2 (Z.abs x) + 6 <= 2 ^ 64 ->
  exists c, 0 <= c /\ c * c * c <= Z.abs x < (c + 1) * (c + 1) * (c + 1) /\
    cbrtT x 1 0 = Some (Z.sgn x * c).
Proof.
  intros H. destruct (cbrt_exists (Z.abs x) ltac:(lia)) as (c & Hc & Bc).
  exists c. split; [exact Hc|]. split; [exact Bc|].
  unfold cbrtT. destruct (Z.ltb_spec x 0) as [L|L].
  - rewrite Z.abs_neq in H, Bc by lia. rewrite (cbrtT_pos_run (- x) c) by (assumption || lia).
    cbn [obind]. rewrite Z.sgn_neg by lia. f_equal; lia.
  - rewrite Z.abs_eq in H, Bc by lia. rewrite (cbrtT_pos_run x c) by (assumption || lia).
    destruct (Z.eq_dec x 0) as [->|].
    + f_equal. nia.
    + rewrite Z.sgn_pos by lia. f_equal; lia.
Qed.

(* ----------------------------------------------- isqrt / icbrt family *)

Section IRoot.
  Variable pw : Z -> option Z.
  Variable P : Z -> Z.
  Variable B : Z.
  Hypothesis HB : B < 2 ^ 31.
  Hypothesis pw_ok : forall q, 0 <= q <= B -> pw q = Some (P q).
  Hypothesis mono : forall a b, 0 <= a < b -> P a < P b.

  Let mono_le a b : 0 <= a <= b -> P a <= P b.
  Proof. intros H. destruct (Z.eq_dec a b) as [->|]; [lia|]. pose proof (mono a b). lia. Qed.

  Lemma int32_ok q : -1 <= q < 2 ^ 31 -> int32 q = Some q.
  Proof. intros H. unfold int32. destruct ((- 2 ^ 31 <=? q) && (q <? 2 ^ 31)) eqn:E; [reflexivity|lia]. Qed.

  Lemma dec_gt_run x r est : 0 <= r <= est -> est <= B -> P r <= x -> (forall q, r < q <= B -> x < P q) ->
    loopZ (2 ^ 33) (dec_while_gt pw x) est = Some r.
  Proof.
    intros Hr He Hx Hq.
    destruct (loopZ_spec (dec_while_gt pw x) (fun q => r <= q <= B) (fun q => q = r) (fun q => q - r))
      with (fuel := 2 ^ 33) (s := est) as (t & E & Ht).
    - intros q I. unfold dec_while_gt. rewrite pw_ok by lia. cbn [obind].
      destruct (Z.ltb_spec x (P q)) as [L|L].
      + assert (r <> q) by (intros ->; lia). rewrite int32_ok by lia. cbn [obind].
        eexists. split; [reflexivity|]. cbv beta iota. lia.
      + eexists. split; [reflexivity|]. cbv beta iota.
        destruct (Z.eq_dec q r) as [|N]; [assumption|]. specialize (Hq q ltac:(lia)). lia.
    - intros; lia.
    - lia.
    - lia.
    - now rewrite E, Ht.
  Qed.

  Lemma inc_le_run x r q0 : 0 <= q0 <= r -> r < B -> P r <= x < P (r + 1) ->
    loopZ (2 ^ 33) (inc_while_le pw x) q0 = Some r.
  Proof.
    intros Hr He Hx.
    destruct (loopZ_spec (inc_while_le pw x) (fun q => 0 <= q <= r) (fun q => q = r) (fun q => r - q))
      with (fuel := 2 ^ 33) (s := q0) as (t & E & Ht).
    - intros q I. unfold inc_while_le. rewrite int32_ok by lia. cbn [obind].
      rewrite pw_ok by lia. cbn [obind]. destruct (Z.leb_spec (P (q + 1)) x) as [L|L].
      + eexists. split; [reflexivity|]. cbv beta iota.
        assert (q <> r) by (intros ->; lia). lia.
      + eexists. split; [reflexivity|]. cbv beta iota.
        destruct (Z.eq_dec q r) as [|N]; [assumption|]. pose proof (mono_le (q + 1) r). lia.
    - intros; lia.
    - lia.
    - lia.
    - now rewrite E, Ht.
  Qed.

  Lemma iroot_floor_run est x r : 0 <= est <= B -> 0 <= r < B -> P r <= x < P (r + 1) ->
    iroot_floor pw est x = Some r.
  Proof.
    intros He Hr Hx. unfold iroot_floor.
    destruct (Z.le_gt_cases r est) as [L|L].
    - rewrite (dec_gt_run x r est); [|lia|lia|lia|].
      + cbn [obind]. apply inc_le_run; lia.
      + intros q Hq. pose proof (mono_le (r + 1) q). lia.
    - destruct (loopZ_spec (dec_while_gt pw x) (fun q => q = est) (fun q => q = est) (fun q => 0))
        with (fuel := 2 ^ 33) (s := est) as (t & E & Ht).
      + intros q ->. unfold dec_while_gt. rewrite pw_ok by lia. cbn [obind].
        destruct (Z.ltb_spec x (P est)) as [G|G].
        * pose proof (mono est r). lia.
        * eexists; split; reflexivity.
      + intros; lia.
      + reflexivity.
      + lia.
      + rewrite E, Ht. cbn [obind]. apply inc_le_run; lia.
  Qed.

  Lemma inc_lt_run x r q0 : 0 <= q0 <= B -> 0 <= r <= B -> x <= P r -> (forall q, 0 <= q < r -> P q < x) ->
    loopZ (2 ^ 33) (inc_while_lt pw x) q0 = Some (Z.max q0 r).
  Proof.
    intros Hq0 Hr Hx Hlt.
    destruct (loopZ_spec (inc_while_lt pw x) (fun q => q0 <= q <= Z.max q0 r)
        (fun q => q = Z.max q0 r) (fun q => Z.max q0 r - q))
      with (fuel := 2 ^ 33) (s := q0) as (t & E & Ht).
    - intros q I. unfold inc_while_lt. rewrite pw_ok by lia. cbn [obind].
      destruct (Z.ltb_spec (P q) x) as [L|L].
      + assert (q < r).
        { destruct (Z.lt_ge_cases q r) as [|G]; [assumption|]. pose proof (mono_le r q). lia. }
        rewrite int32_ok by lia. cbn [obind]. eexists. split; [reflexivity|]. cbv beta iota. lia.
      + eexists. split; [reflexivity|]. cbv beta iota.
        destruct (Z.lt_ge_cases q r) as [G|G]; [|lia]. specialize (Hlt q ltac:(lia)). lia.
    - intros; lia.
    - lia.
    - lia.
    - now rewrite E, Ht.
  Qed.

  Lemma dec_ge_run stop0 x r q0 : (stop0 = true \/ exists v, pw (-1) = Some v /\ v < 0) ->
    0 <= x -> 0 <= r <= q0 -> q0 <= B -> x <= P r -> (forall q, 0 <= q < r -> P q < x) ->
    loopZ (2 ^ 33) (dec_while_ge pw stop0 x) q0 = Some r.
  Proof.
    intros Hst Hx0 Hr HqB Hx Hlt.
    destruct (loopZ_spec (dec_while_ge pw stop0 x) (fun q => r <= q <= B) (fun q => q = r) (fun q => q - r))
      with (fuel := 2 ^ 33) (s := q0) as (t & E & Ht).
    - intros q I. unfold dec_while_ge.
      destruct (stop0 && (q <=? 0)) eqn:S0.
      + eexists. split; [reflexivity|]. cbv beta iota. lia.
      + rewrite int32_ok by lia. cbn [obind].
        destruct (Z.eq_dec q 0) as [->|Nq].
        * destruct Hst as [->|(v & Ev & Hv)]; [discriminate|].
          change (0 - 1) with (-1). rewrite Ev. cbn [obind].
          destruct (Z.leb_spec x v); [lia|]. eexists. split; [reflexivity|]. cbv beta iota. lia.
        * rewrite pw_ok by lia. cbn [obind]. destruct (Z.leb_spec x (P (q - 1))) as [L|L].
          -- eexists. split; [reflexivity|]. cbv beta iota.
             destruct (Z.eq_dec q r) as [->|]; [|lia]. specialize (Hlt (r - 1) ltac:(lia)). lia.
          -- eexists. split; [reflexivity|]. cbv beta iota.
             destruct (Z.eq_dec q r) as [|N]; [assumption|]. pose proof (mono_le r (q - 1)). lia.
    - intros; lia.
    - lia.
    - lia.
    - now rewrite E, Ht.
  Qed.

  Lemma iroot_ceil_run stop0 est x r : (stop0 = true \/ exists v, pw (-1) = Some v /\ v < 0) ->
    0 <= x -> 0 <= est <= B -> 0 <= r <= B -> x <= P r -> (forall q, 0 <= q < r -> P q < x) ->
    iroot_ceil pw stop0 est x = Some r.
  Proof.
    intros Hst Hx He Hr Hx1 Hlt. unfold iroot_ceil.
    rewrite (inc_lt_run x r est) by assumption. cbn [obind].
    apply dec_ge_run; try assumption; lia.
  Qed.
End IRoot.

Definition Bsq : Z := 2 ^ 31 - 1.
Definition Bcb : Z := 2 ^ 21 - 1.

Lemma int64_ok x : - 2 ^ 63 <= x < 2 ^ 63 -> int64 x = Some x.
Proof. intros H. unfold int64. destruct ((- 2 ^ 63 <=? x) && (x <? 2 ^ 63)) eqn:E; [reflexivity|lia]. Qed.

Lemma isq_ok q : 0 <= q <= Bsq -> isq q = Some (q * q).
Proof. unfold Bsq. intros H. apply int64_ok. nia. Qed.
Lemma icb_ok q : 0 <= q <= Bcb -> icb q = Some (q * q * q).
Proof.
  unfold Bcb. intros H. unfold icb. rewrite int64_ok by nia. cbn [obind]. apply int64_ok.
  pose proof (cube_le q (2 ^ 21 - 1) ltac:(lia)). pose proof (cube_le 0 q ltac:(lia)). lia.
Qed.
Lemma sq_mono a b : 0 <= a < b -> a * a < b * b.
Proof. nia. Qed.
Lemma cb_mono a b : 0 <= a < b -> a * a * a < b * b * b.
Proof. intros H. assert (a * a < b * b) by nia. nia. Qed.

Lemma isqrt_run est x r : (forall n, 0 <= est n <= Bsq) -> 0 <= r < Bsq ->
  r * r <= Z.abs x < (r + 1) * (r + 1) -> isqrt est x = Some (Z.sgn x * r).
Proof.
  intros He Hr Hx. unfold isqrt. destruct (Z.ltb_spec x 0) as [L|L].
  - rewrite Z.abs_neq in Hx by lia. rewrite int64_ok by (unfold Bsq in Hr; nia). cbn [obind].
    rewrite (iroot_floor_run isq (fun q => q * q) Bsq eq_refl isq_ok sq_mono _ _ r (He _) Hr Hx).
    cbn [obind]. rewrite Z.sgn_neg by lia. f_equal; lia.
  - rewrite Z.abs_eq in Hx by lia.
    rewrite (iroot_floor_run isq (fun q => q * q) Bsq eq_refl isq_ok sq_mono _ _ r (He _) Hr Hx).
    destruct (Z.eq_dec x 0) as [->|]; [f_equal; nia|]. rewrite Z.sgn_pos by lia. f_equal; lia.
Qed.

Lemma icbrt_run est x r : (forall n, 0 <= est n <= Bcb) -> 0 <= r < Bcb ->
  r * r * r <= Z.abs x < (r + 1) * (r + 1) * (r + 1) -> icbrt est x = Some (Z.sgn x * r).
Proof.
  intros He Hr Hx. unfold icbrt.
  assert (HB : Z.abs x < 2 ^ 63).
  { unfold Bcb in Hr. pose proof (cube_le (r + 1) (2 ^ 21 - 1) ltac:(lia)). lia. }
  destruct (Z.ltb_spec x 0) as [L|L].
  - rewrite Z.abs_neq in Hx by lia. rewrite int64_ok by lia. cbn [obind].
    rewrite (iroot_floor_run icb (fun q => q * q * q) Bcb eq_refl icb_ok cb_mono _ _ r (He _) Hr Hx).
    cbn [obind]. rewrite Z.sgn_neg by lia. f_equal; lia.
  - rewrite Z.abs_eq in Hx by lia.
    rewrite (iroot_floor_run icb (fun q => q * q * q) Bcb eq_refl icb_ok cb_mono _ _ r (He _) Hr Hx).
    destruct (Z.eq_dec x 0) as [->|]; [f_equal; nia|]. rewrite Z.sgn_pos by lia. f_equal; lia.
Qed.

Lemma isqrtc_run est x r : (forall n, 0 <= est n <= Bsq) -> 0 <= r <= Bsq ->
  Z.abs x <= r * r -> (forall q, 0 <= q < r -> q * q < Z.abs x) -> isqrtc est x = Some (Z.sgn x * r).
Proof.
  intros He Hr Hx Hq. unfold isqrtc. destruct (Z.ltb_spec x 0) as [L|L].
  - rewrite Z.abs_neq in Hx, Hq by lia. rewrite int64_ok by (unfold Bsq in Hr; nia). cbn [obind].
    rewrite (iroot_ceil_run isq (fun q => q * q) Bsq eq_refl isq_ok sq_mono true (est (- x)) (- x) r
       (or_introl eq_refl) ltac:(lia) (He _) Hr Hx Hq).
    cbn [obind]. rewrite Z.sgn_neg by lia. f_equal; lia.
  - rewrite Z.abs_eq in Hx, Hq by lia.
    rewrite (iroot_ceil_run isq (fun q => q * q) Bsq eq_refl isq_ok sq_mono true (est x) x r
       (or_introl eq_refl) L (He _) Hr Hx Hq).
    destruct (Z.eq_dec x 0) as [->|].
    + f_equal. destruct (Z.eq_dec r 0) as [|N]; [lia|]. specialize (Hq 0 ltac:(lia)). lia.
    + rewrite Z.sgn_pos by lia. f_equal; lia.
Qed.

Lemma icbrtc_run est x r : (forall n, 0 <= est n <= Bcb) -> 0 <= r <= Bcb ->
  Z.abs x <= r * r * r -> (forall q, 0 <= q < r -> q * q * q < Z.abs x) -> icbrtc est x = Some (Z.sgn x * r).
Proof.
  intros He Hr Hx Hq. unfold icbrtc.
  assert (HB : Z.abs x < 2 ^ 63).
  { unfold Bcb in Hr. pose proof (cube_le r (2 ^ 21 - 1) ltac:(lia)). lia. }
  assert (HS : false = true \/ (exists v, icb (-1) = Some v /\ v < 0)).
  { right. exists (-1). split; [reflexivity|lia]. }
  destruct (Z.ltb_spec x 0) as [L|L].
  - rewrite Z.abs_neq in Hx, Hq by lia. rewrite int64_ok by lia. cbn [obind].
    rewrite (iroot_ceil_run icb (fun q => q * q * q) Bcb eq_refl icb_ok cb_mono false (est (- x)) (- x) r
       HS ltac:(lia) (He _) Hr Hx Hq).
    cbn [obind]. rewrite Z.sgn_neg by lia. f_equal; lia.
  - rewrite Z.abs_eq in Hx, Hq by lia.
    rewrite (iroot_ceil_run icb (fun q => q * q * q) Bcb eq_refl icb_ok cb_mono false (est x) x r
       HS L (He _) Hr Hx Hq).
    destruct (Z.eq_dec x 0) as [->|].
    + f_equal. destruct (Z.eq_dec r 0) as [|N]; [lia|]. specialize (Hq 0 ltac:(lia)). lia.
    + rewrite Z.sgn_pos by lia. f_equal; lia.
Qed.

(* -------------------------------------------------- rounded divisions *)

Lemma quot_pos_spec a b : 0 <= a -> 0 < b -> a ÷ b * b <= a < (a ÷ b + 1) * b.
Proof.
  intros Ha Hb. rewrite Z.quot_div_nonneg by lia.
  pose proof (Z.div_mod a b ltac:(lia)). pose proof (Z.mod_pos_bound a b Hb). nia.
Qed.
Lemma quot_neg_spec a b : a <= 0 -> 0 < b -> (a ÷ b - 1) * b < a <= a ÷ b * b.
Proof.
  intros Ha Hb. pose proof (quot_pos_spec (- a) b ltac:(lia) Hb) as H.
  rewrite Z.quot_opp_l in H by lia. nia.
Qed.

Lemma div_floor_run a b : b <> 0 -> div_floor a b = Some (a / b).
Proof.
  intros Hb. unfold div_floor.
  assert (G : forall a b, 0 < b -> (if a <? 0 then let* t := cdiv (a + 1) b in Some (t - 1) else cdiv a b) = Some (a / b)).
  { clear. intros a b Hb. destruct (Z.ltb_spec a 0) as [L|L].
    - rewrite cdiv_some by lia. cbn [obind]. f_equal.
      pose proof (quot_neg_spec (a + 1) b ltac:(lia) Hb).
      apply (Z.div_unique_pos a b ((a + 1) ÷ b - 1) (a - b * ((a + 1) ÷ b - 1))); nia.
    - rewrite cdiv_some by lia. f_equal. apply Z.quot_div_nonneg; lia. }
  destruct (Z.ltb_spec b 0) as [L|L].
  - rewrite G by lia. f_equal. now apply Z.div_opp_opp.
  - apply G. lia.
Qed.

Lemma div_ceil_run a b : b <> 0 -> div_ceil a b = Some (- ((- a) / b)).
Proof.
  intros Hb. unfold div_ceil.
  assert (G : forall a b, 0 < b -> (if 0 <? a then let* t := cdiv (a - 1) b in Some (t + 1) else cdiv a b) = Some (- ((- a) / b))).
  { clear. intros a b Hb. destruct (Z.ltb_spec 0 a) as [L|L].
    - rewrite cdiv_some by lia. cbn [obind]. f_equal.
      pose proof (quot_pos_spec (a - 1) b ltac:(lia) Hb).
      assert (E : - (((a - 1) ÷ b) + 1) = - a / b); [|lia].
      apply (Z.div_unique_pos (- a) b _ (- a - b * (- (((a - 1) ÷ b) + 1)))); nia.
    - rewrite cdiv_some by lia. f_equal.
      pose proof (quot_neg_spec a b ltac:(lia) Hb).
      assert (E : - (a ÷ b) = - a / b); [|lia].
      apply (Z.div_unique_pos (- a) b _ (- a - b * (- (a ÷ b)))); nia. }
  destruct (Z.ltb_spec b 0) as [L|L].
  - rewrite G by lia. do 2 f_equal.
    rewrite <- (Z.div_opp_opp (- a) b) by lia. reflexivity.
  - apply G. lia.
Qed.

(** nearest integer, ties away from zero *)
Definition nearest_away (a b q : Z) : Prop :=
  2 * Z.abs (a - q * b) <= Z.abs b /\
  (2 * Z.abs (a - q * b) = Z.abs b -> Z.abs a < Z.abs (q * b)).

Lemma div_round_run a b : b <> 0 -> exists q, div_round a b = Some q /\ nearest_away a b q.
Proof.
  intros Hb. unfold div_round.
  assert (G : forall a b, 0 < b -> exists q, (if 0 <? a then cdiv (a + Z.quot b 2) b else cdiv (a - Z.quot b 2) b) = Some q
              /\ nearest_away a b q).
  { clear. intros a b Hb.
    pose proof (quot_pos_spec b 2 ltac:(lia) ltac:(lia)).
    destruct (Z.ltb_spec 0 a) as [L|L].
    - rewrite cdiv_some by lia. eexists. split; [reflexivity|].
      pose proof (quot_pos_spec (a + b ÷ 2) b ltac:(lia) Hb). unfold nearest_away.
      set (q := (a + b ÷ 2) ÷ b) in *. clearbody q. set (h := b ÷ 2) in *. clearbody h. split; nia.
    - rewrite cdiv_some by lia. eexists. split; [reflexivity|].
      pose proof (quot_neg_spec (a - b ÷ 2) b ltac:(lia) Hb). unfold nearest_away.
      set (q := (a - b ÷ 2) ÷ b) in *. clearbody q. set (h := b ÷ 2) in *. clearbody h. split; nia. }
  destruct (Z.ltb_spec b 0) as [L|L].
  - destruct (G (- a) (- b) ltac:(lia)) as (q & E & H). exists q. split; [exact E|].
    unfold nearest_away in *.
    replace (- a - q * - b) with (- (a - q * b)) in H by ring.
    replace (q * - b) with (- (q * b)) in H by ring.
    rewrite !Z.abs_opp in H. exact H.
  - apply G. lia.
Qed.

Lemma multiple_run a b : 0 < a -> exists m, multiple a b = Some m /\ (a | m) /\ b <= m < b + a.
Proof.
  intros Ha. unfold multiple. rewrite div_ceil_run by lia. cbn [obind].
  eexists. split; [reflexivity|]. split; [apply Z.divide_factor_r|].
  pose proof (Z.div_mod (- b) a ltac:(lia)). pose proof (Z.mod_pos_bound (- b) a Ha). nia.
Qed.
