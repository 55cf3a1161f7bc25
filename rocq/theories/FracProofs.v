From Coq Require Import QArith Qfield Znumtheory.
From Verif Require Import Lib BaseModel BaseProofs ModuloModel ModPowModel ModPowProofs FracModel FracSpec.
Local Open Scope Z_scope.

(* ------------------------------------------------------------------ fraction *)
Lemma frac_reduce_spec p q : q <> 0 -> exists f, frac_reduce (p, q) = Some f /\ lowest_terms f /\ fst f * q = p * snd f.
Proof.
  intros Hq. unfold frac_reduce. destruct (gcd_run p q) as (g0 & -> & Hg & _). cbn [obind]. rewrite absT_abs, Hg. clear g0 Hg.
  set (g := Z.gcd p q). assert (Pg : 0 < g).
  { pose proof (Z.gcd_nonneg p q). destruct (Z.eq_dec g 0) as [E|E]; [apply Z.gcd_eq_0_r in E; lia|unfold g in *; lia]. }
  destruct (Z.gcd_divide_l p q) as [p' Ep]. destruct (Z.gcd_divide_r p q) as [q' Eq]. fold g in Ep, Eq.
  assert (G1 : Z.gcd p' q' = 1).
  { assert (H : Z.gcd p q = g * Z.gcd p' q') by (rewrite Ep, Eq, Z.gcd_mul_mono_r_nonneg by lia; ring). fold g in H. nia. }
  assert (E : (if g =? 1 then Some (p, q) else let* p0 := cdiv p g in let* q0 := cdiv q g in Some (p0, q0)) = Some (p', q')).
  { destruct (Z.eqb_spec g 1) as [E|E].
    - do 2 f_equal; nia.
    - rewrite !cdiv_some by lia. cbn [obind]. rewrite Ep, Eq, !Z.quot_mul by lia. reflexivity. }
  rewrite E. cbn [obind]. clear E. assert (Q0 : q' <> 0) by nia.
  destruct (Z.ltb_spec q' 0).
  - eexists. split; [reflexivity|]. unfold lowest_terms. cbn [fst snd]. split; [split; [lia|]|].
    + now rewrite Z.gcd_opp_l, Z.gcd_opp_r.
    + rewrite Ep, Eq. ring.
  - eexists. split; [reflexivity|]. unfold lowest_terms. cbn [fst snd]. split; [split; [lia|exact G1]|].
    rewrite Ep, Eq. ring.
Qed.
(** a zero denominator: the sign of the numerator over zero *)
Lemma frac_reduce_inf p : p <> 0 -> frac_reduce (p, 0) = Some (Z.sgn p, 0).
Proof.
  intros Hp. unfold frac_reduce. destruct (gcd_run p 0) as (g0 & -> & Hg & _). cbn [obind]. rewrite absT_abs, Hg, Z.gcd_0_r. clear g0 Hg.
  assert (E : (if Z.abs p =? 1 then Some (p, 0) else let* p0 := cdiv p (Z.abs p) in let* q0 := cdiv 0 (Z.abs p) in Some (p0, q0)) = Some (Z.sgn p, 0)).
  { destruct (Z.eqb_spec (Z.abs p) 1).
    - do 2 f_equal; lia.
    - rewrite !cdiv_some by lia. cbn [obind]. rewrite Z.quot_0_l by lia. do 2 f_equal.
      destruct p as [|p|p]; [lia| |]; cbn [Z.abs Z.sgn].
      + now rewrite Z.quot_same by lia.
      + change (Z.neg p) with (- Z.pos p). rewrite Z.quot_opp_l by lia. now rewrite Z.quot_same by lia. }
  rewrite E. cbn [obind]. reflexivity.
Qed.
Lemma frac_reduce_00 : frac_reduce (0, 0) = None. Proof. reflexivity. Qed.

Lemma to_pos_id q : 0 < q -> Zpos (Z.to_pos q) = q. Proof. apply Z2Pos.id. Qed.
Lemma value_eq_iff x y : lowest_terms x -> lowest_terms y -> (Qeq (frac_value x) (frac_value y) <-> x = y).
Proof.
  destruct x as [p q], y as [r s]. intros [Hq G] [Hs G']. cbn [fst snd] in *. unfold Qeq, frac_value. cbn [Qnum Qden fst snd].
  rewrite !to_pos_id by lia. split; [|now intros [= -> ->]].
  intros E.
  assert (D1 : (q | s)).
  { apply Z.gauss with p; [|now rewrite Z.gcd_comm]. exists r. lia. }
  assert (D2 : (s | q)).
  { apply Z.gauss with r; [|now rewrite Z.gcd_comm]. exists p. lia. }
  assert (q = s) by (apply Z.divide_antisym_nonneg; auto; lia). subst s. f_equal. nia.
Qed.
Lemma value_lowest p q f : 0 < q -> lowest_terms f -> fst f * q = p * snd f -> Qeq (frac_value f) (Qmake p (Z.to_pos q)).
Proof.
  intros Hq [Hf _] E. unfold Qeq, frac_value. cbn [Qnum Qden]. rewrite !to_pos_id by lia. exact E.
Qed.
Lemma qmake_mul p q : 0 < q -> (Qmake p (Z.to_pos q) == inject_Z p / inject_Z q)%Q.
Proof. intros H. rewrite Qmake_Qdiv. rewrite to_pos_id by lia. reflexivity. Qed.
Lemma inj_nz q : q <> 0 -> ~ (inject_Z q == 0)%Q.
Proof. intros H E. unfold Qeq, inject_Z in E. cbn in E. lia. Qed.
Lemma value_gen p q f : lowest_terms f -> fst f * q = p * snd f -> q <> 0 -> (frac_value f == inject_Z p / inject_Z q)%Q.
Proof.
  intros [Hf _] E Hq. unfold frac_value. rewrite qmake_mul by lia.
  assert (EQ : (inject_Z (fst f) * inject_Z q == inject_Z p * inject_Z (snd f))%Q) by (rewrite <- !inject_Z_mult, E; reflexivity).
  assert (Z1 := inj_nz q Hq). assert (Z2 := inj_nz (snd f) ltac:(lia)).
  transitivity ((inject_Z (fst f) * inject_Z q) / (inject_Z (snd f) * inject_Z q))%Q; [field; tauto|].
  rewrite EQ. field. tauto.
Qed.

Lemma frac_ops x y : lowest_terms x -> lowest_terms y ->
  (exists r, frac_add x y = Some r /\ lowest_terms r /\ (frac_value r == frac_value x + frac_value y)%Q) /\
  (exists r, frac_sub x y = Some r /\ lowest_terms r /\ (frac_value r == frac_value x - frac_value y)%Q) /\
  (exists r, frac_mul x y = Some r /\ lowest_terms r /\ (frac_value r == frac_value x * frac_value y)%Q) /\
  (exists r, frac_neg x = Some r /\ lowest_terms r /\ (frac_value r == - frac_value x)%Q) /\
  (fst y <> 0 -> exists r, frac_div x y = Some r /\ lowest_terms r /\ (frac_value r == frac_value x / frac_value y)%Q) /\
  (fst y <> 0 -> exists r, frac_reciprocal y = Some r /\ lowest_terms r /\ (frac_value r == / frac_value y)%Q).
Proof.
  destruct x as [p q], y as [r s]. intros [Hq G] [Hs G']. cbn [fst snd] in *.
  unfold frac_add, frac_sub, frac_mul, frac_neg, frac_div, frac_reciprocal, mkfrac. cbn [fst snd].
  assert (V : forall p q, 0 < q -> (frac_value (p, q) == inject_Z p / inject_Z q)%Q) by (intros; apply qmake_mul; auto).
  pose proof (V p q Hq) as Vx. pose proof (V r s Hs) as Vy. pose proof (inj_nz q ltac:(lia)) as Zq. pose proof (inj_nz s ltac:(lia)) as Zs.
  repeat split.
  - destruct (frac_reduce_spec (p * s + r * q) (q * s)) as (f & E & L & X); [nia|]. exists f. split; [exact E|]. split; [exact L|].
    rewrite (value_gen _ _ f L X) by nia. rewrite ?Vx, ?Vy. rewrite inject_Z_plus, !inject_Z_mult. field. tauto.
  - destruct (frac_reduce_spec (p * s - r * q) (q * s)) as (f & E & L & X); [nia|]. exists f. split; [exact E|]. split; [exact L|].
    rewrite (value_gen _ _ f L X) by nia. rewrite ?Vx, ?Vy. unfold Z.sub. rewrite inject_Z_plus, inject_Z_opp, !inject_Z_mult. field. tauto.
  - destruct (frac_reduce_spec (p * r) (q * s)) as (f & E & L & X); [nia|]. exists f. split; [exact E|]. split; [exact L|].
    rewrite (value_gen _ _ f L X) by nia. rewrite ?Vx, ?Vy. rewrite !inject_Z_mult. field. tauto.
  - destruct (frac_reduce_spec (- p) q) as (f & E & L & X); [lia|]. exists f. split; [exact E|]. split; [exact L|].
    rewrite (value_gen _ _ f L X) by lia. rewrite ?Vx, ?Vy. rewrite inject_Z_opp. field. tauto.
  - intros Hr. pose proof (inj_nz r Hr) as Zr.
    destruct (frac_reduce_spec (p * s) (q * r)) as (f & E & L & X); [nia|]. exists f. split; [exact E|]. split; [exact L|].
    rewrite (value_gen _ _ f L X) by nia. rewrite ?Vx, ?Vy. rewrite !inject_Z_mult. field. tauto.
  - intros Hr. pose proof (inj_nz r Hr) as Zr.
    destruct (frac_reduce_spec s r) as (f & E & L & X); [lia|]. exists f. split; [exact E|]. split; [exact L|].
    rewrite (value_gen _ _ f L X) by lia. rewrite ?Vx, ?Vy. field. tauto.
Qed.

Lemma frac_cmp_spec x y : 0 < snd x -> 0 < snd y ->
  (frac_ltb x y = true <-> (frac_value x < frac_value y)%Q) /\ (frac_leb x y = true <-> (frac_value x <= frac_value y)%Q) /\
  (frac_gtb x y = true <-> (frac_value y < frac_value x)%Q) /\ (frac_geb x y = true <-> (frac_value y <= frac_value x)%Q).
Proof.
  destruct x as [p q], y as [r s]. cbn [fst snd]. intros Hq Hs.
  unfold frac_ltb, frac_leb, frac_gtb, frac_geb, frac_cmp, Qlt, Qle, frac_value. cbn [Qnum Qden fst snd].
  rewrite !to_pos_id by lia. rewrite !Z.ltb_lt, !Z.leb_le. lia.
Qed.
Lemma frac_eqb_spec x y : (frac_eqb x y = true <-> x = y) /\ frac_neb x y = negb (frac_eqb x y).
Proof.
  destruct x as [p q], y as [r s]. unfold frac_eqb, frac_neb. cbn [fst snd].
  destruct (Z.eqb_spec p r), (Z.eqb_spec q s); cbn; split; try reflexivity; split; intros H; try discriminate; try congruence.
Qed.

(* ------------------------------------------------------------------ Farey *)
Lemma between p q r s a b n : r * q - p * s = 1 -> 0 < q -> 0 < s -> 0 < b <= n -> n < q + s ->
  p * b < a * q -> a * s < r * b -> False.
Proof.
  intros D Hq Hs Hb Hn H1 H2.
  assert (E : b = q * (b * r - a * s) + s * (a * q - p * b)) by (transitivity (b * (r * q - p * s)); [rewrite D|]; ring).
  nia.
Qed.
Lemma det_coprime a b c d : a * b - c * d = 1 -> Z.gcd a c = 1 /\ Z.gcd a d = 1 /\ Z.gcd b c = 1 /\ Z.gcd b d = 1.
Proof.
  intros D. assert (H : forall x y, (exists u v, x * u + y * v = 1) -> Z.gcd x y = 1).
  { intros x y (u & v & E). apply Z.bezout_1_gcd. exists u, v. lia. }
  repeat split; apply H; [exists b, (- d)|exists b, (- c)|exists a, (- d)|exists a, (- c)]; lia.
Qed.
Lemma farey_adj n p q r s : r * q - p * s = 1 -> 0 < q <= n -> 0 < s <= n -> n < q + s -> farey_next n (p, q) (r, s).
Proof.
  intros D Hq Hs Hn. destruct (det_coprime r q p s D) as (_ & G1 & G2 & _).
  assert (G3 : Z.gcd p q = 1) by now rewrite Z.gcd_comm.
  split; [|split; [|split]].
  - split; [split|]; cbn [fst snd]; lia.
  - split; [split|]; cbn [fst snd]; lia.
  - unfold frac_lt. cbn [fst snd]. lia.
  - intros [a b] ((Hb & _) & Hbn) (H1 & H2). unfold frac_lt in *. cbn [fst snd] in *.
    apply (between p q r s a b n); lia.
Qed.
(** the candidate computed by farey_neighbour *)
Lemma right_candidate n p q u v : p * v - u * q = 1 -> 0 < q <= n -> 0 <= n + v ->
  let k := Z.quot (n + v) q in farey_next n (p, q) (k * p - u, k * q - v).
Proof.
  intros D Hq Hv k. unfold k. rewrite Z.quot_div_nonneg by lia.
  pose proof (Z.mul_div_le (n + v) q ltac:(lia)). pose proof (Z.mul_succ_div_gt (n + v) q ltac:(lia)).
  apply farey_adj; lia.
Qed.
Lemma left_candidate n p q u v : u * q - p * v = 1 -> 0 < q <= n -> 0 <= n + v ->
  let k := Z.quot (n + v) q in farey_next n (k * p - u, k * q - v) (p, q).
Proof.
  intros D Hq Hv k. unfold k. rewrite Z.quot_div_nonneg by lia.
  pose proof (Z.mul_div_le (n + v) q ltac:(lia)). pose proof (Z.mul_succ_div_gt (n + v) q ltac:(lia)).
  apply farey_adj; lia.
Qed.
Lemma in_farey_eq n x y : in_farey n x -> in_farey n y -> fst x * snd y = fst y * snd x -> x = y.
Proof.
  intros [Hx _] [Hy _] E. apply value_eq_iff; auto. destruct Hx, Hy. unfold Qeq, frac_value. cbn [Qnum Qden]. now rewrite !to_pos_id by lia.
Qed.
Lemma bezout1 p q : Z.gcd p q = 1 -> exists u v, p * v - u * q = 1.
Proof. intros H. destruct (Z.gcd_bezout p q 1 H) as (x & y & E). exists (- y), x. lia. Qed.
Lemma farey_next_det n x y : farey_next n x y -> fst y * snd x - fst x * snd y = 1.
Proof.
  destruct x as [p' q'], y as [p q]. intros (Hx & Hy & L & N).
  destruct (bezout1 p q) as (u & v & D); [apply Hy|].
  assert (Hq : 0 < q <= n) by (destruct Hy as [[? _] ?]; cbn [fst snd] in *; lia).
  (* the true predecessor of y *)
  assert (C : exists r s, p * s - r * q = 1 /\ 0 < s <= n /\ n < s + q).
  { exists (u + p * ((n - v) / q)), (v + q * ((n - v) / q)).
    pose proof (Z.mul_div_le (n - v) q ltac:(lia)). pose proof (Z.mul_succ_div_gt (n - v) q ltac:(lia)). split; [|lia]. rewrite <- D. ring. }
  destruct C as (r & s & D2 & Hs & Hn).
  assert (A : farey_next n (r, s) (p, q)) by (apply farey_adj; lia).
  destruct A as (I & _ & L2 & N2).
  assert (E : (p', q') = (r, s)).
  { apply (in_farey_eq n); auto. destruct (Ztrichotomy (fst (p', q') * snd (r, s)) (fst (r, s) * snd (p', q'))) as [H|[H|H]]; [|exact H|].
    - exfalso. apply (N (r, s) I). split; [exact H|exact L2].
    - exfalso. apply (N2 (p', q') Hx). split; [unfold frac_lt; lia|exact L]. }
  injection E as -> ->. cbn [fst snd]. lia.
Qed.

Lemma mkfrac_id p q : lowest_terms (p, q) -> mkfrac p q = Some (p, q).
Proof.
  intros L. destruct (frac_reduce_spec p q) as (f & E & L' & X); [destruct L; cbn in *; lia|].
  unfold mkfrac. rewrite E. f_equal. apply value_eq_iff; auto. destruct L, L'. unfold Qeq, frac_value. cbn [Qnum Qden fst snd]. now rewrite !to_pos_id.
Qed.

Lemma farey_right n l f : farey_next n l f -> exists r, farey_neighbour n l f = Some r /\ farey_next n f r.
Proof.
  intros A. pose proof (farey_next_det n l f A) as D. destruct l as [u v], f as [p q]. destruct A as (((Hv & _) & _) & ((Hq & _) & Hqn) & _).
  cbn [fst snd] in *.
  pose proof (right_candidate n p q u v ltac:(lia) ltac:(lia) ltac:(lia)) as C. cbv zeta in C.
  eexists. split; [|exact C]. unfold farey_neighbour. cbn [fst snd]. destruct (Z.eqb_spec v 0); [lia|]. cbn [obind].
  rewrite cdiv_some by lia. cbn [obind]. apply mkfrac_id. apply C.
Qed.
Lemma farey_left n f r : farey_next n f r -> exists l, farey_neighbour n r f = Some l /\ farey_next n l f.
Proof.
  intros A. pose proof (farey_next_det n f r A) as D. destruct r as [u v], f as [p q]. destruct A as (((Hq & _) & Hqn) & ((Hv & _) & _) & _).
  cbn [fst snd] in *.
  pose proof (left_candidate n p q u v ltac:(lia) ltac:(lia) ltac:(lia)) as C. cbv zeta in C.
  eexists. split; [|exact C]. unfold farey_neighbour. cbn [fst snd]. destruct (Z.eqb_spec v 0); [lia|]. cbn [obind].
  rewrite cdiv_some by lia. cbn [obind]. apply mkfrac_id. apply C.
Qed.
Lemma farey_inf n f s : in_farey n f -> 0 <= fst f ->
  (s < 0 -> exists r, farey_neighbour n (s, 0) f = Some r /\ farey_next n f r) /\
  (0 <= s -> exists l, farey_neighbour n (s, 0) f = Some l /\ farey_next n l f).
Proof.
  destruct f as [p q]. intros ((Hq & G) & Hqn) Hp. cbn [fst snd] in *.
  unfold farey_neighbour. cbn [fst snd]. change (0 =? 0) with true. cbv iota.
  destruct (gcd_ex_nonneg q p ltac:(lia) Hp) as (x & y & t & E & _ & B & _ & _ & _ & Hy). rewrite E. cbn [obind].
  rewrite Z.gcd_comm, G in B, Hy. specialize (Hy Hq).
  split; intros Hs.
  - destruct (Z.ltb_spec s 0); [|lia]. cbn [obind]. rewrite cdiv_some by lia. cbn [obind].
    pose proof (right_candidate n p q (- x) y ltac:(lia) ltac:(lia) ltac:(lia)) as C. cbv zeta in C.
    eexists. split; [|exact C]. apply mkfrac_id. apply C.
  - destruct (Z.ltb_spec s 0); [lia|]. cbn [obind]. rewrite cdiv_some by lia. cbn [obind].
    pose proof (left_candidate n p q x (- y) ltac:(lia) ltac:(lia) ltac:(lia)) as C. cbv zeta in C.
    eexists. split; [|exact C]. apply mkfrac_id. apply C.
Qed.

(* ------------------------------------------------------------------ expansions *)
Definition rem_at (b p q : Z) (i : nat) : Z := (p * b ^ Z.of_nat i) mod q.
Lemma rem_at_S b p q i : 0 < q -> rem_at b p q (S i) = (b * rem_at b p q i) mod q.
Proof.
  intros Hq. unfold rem_at. rewrite Nat2Z.inj_succ, Z.pow_succ_r by lia.
  rewrite Z.mul_mod_idemp_r by lia. f_equal. ring.
Qed.
Lemma rem_at_add b p q i j : 0 < q -> rem_at b p q (i + j) = (b ^ Z.of_nat j * rem_at b p q i) mod q.
Proof.
  intros Hq. unfold rem_at. rewrite Nat2Z.inj_add, Z.pow_add_r by lia. rewrite Z.mul_mod_idemp_r by lia. f_equal. ring.
Qed.
Lemma digit_rem b p q i : 2 <= b -> 0 < q -> b * rem_at b p q i / q = digit_at b p q i.
Proof.
  intros Hb Hq. unfold digit_at, rem_at. set (x := p * b ^ Z.of_nat i).
  replace (p * b ^ (Z.of_nat i + 1)) with (b * x) by (unfold x; rewrite Z.pow_add_r, Z.pow_1_r by lia; ring).
  clearbody x. pose proof (Z.div_mod x q ltac:(lia)) as D. pose proof (Z.mod_pos_bound x q Hq).
  set (r := x mod q) in *. set (d := x / q) in *. rewrite D.
  replace (b * (q * d + r)) with (b * r + (b * d) * q) by ring. rewrite Z.div_add by lia.
  replace (b * r / q + b * d) with (b * r / q + d * b) by ring. rewrite Z.mod_add by lia. symmetry. apply Z.mod_small.
  split; [apply Z.div_pos; nia|]. apply Z.div_lt_upper_bound; nia.
Qed.
Lemma digit_periodic b p q i j t : 2 <= b -> 0 < q -> rem_at b p q (i + t) = rem_at b p q i -> (i <= j)%nat ->
  digit_at b p q (j + t) = digit_at b p q j.
Proof.
  intros Hb Hq E Hj. rewrite <- !digit_rem by lia. do 2 f_equal.
  replace (j + t)%nat with ((i + t) + (j - i))%nat by lia. replace j with (i + (j - i))%nat at 2 by lia.
  rewrite (rem_at_add b p q (i + t) (j - i)), (rem_at_add b p q i (j - i)) by lia. now rewrite E.
Qed.

Lemma map_find_some m k i : map_find m k = Some i -> In (k, i) m.
Proof.
  unfold map_find. destruct (find _ m) as [[x v]|] eqn:E; [|discriminate]. intros [= <-].
  apply find_some in E. destruct E as [I E]. apply Z.eqb_eq in E. now subst.
Qed.
Lemma map_find_none m k : map_find m k = None -> forall i, ~ In (k, i) m.
Proof.
  unfold map_find. destruct (find _ m) as [[x v]|] eqn:E; [discriminate|]. intros _ i I.
  apply (find_none _ _ E) in I. now rewrite Z.eqb_refl in I.
Qed.

(** pigeonhole for remainders *)
Lemma rems_bound (l : list Z) q : NoDup l -> Forall (fun r => 0 < r < q) l -> (0 < q) -> Z.of_nat (length l) < q.
Proof.
  intros ND F Hq.
  assert (L : (length l <= length (map Z.of_nat (seq 1 (Z.to_nat (q - 1)))))%nat).
  { apply NoDup_incl_length; [exact ND|]. intros r Hr. rewrite Forall_forall in F. specialize (F r Hr).
    apply in_map_iff. exists (Z.to_nat r). split; [lia|]. apply in_seq. lia. }
  rewrite map_length, seq_length in L. lia.
Qed.

Lemma repeating_decimal_run b p q : 2 <= b -> 0 < p < q -> exists ds t, repeating_decimal b p q = Some (ds, t) /\
  (forall i, (i < length ds)%nat -> nth_error ds i = Some (digit_at b p q i)) /\ (0 < length ds)%nat /\
  ((t = 0%nat /\ rem_at b p q (length ds) = 0 /\ (forall i, (i < length ds)%nat -> rem_at b p q i <> 0)) \/
   ((0 < t <= length ds)%nat /\ rem_at b p q (length ds) = rem_at b p q (length ds - t) /\
    (forall i, (i <= length ds)%nat -> rem_at b p q i <> 0) /\
    (forall i j, (i < j < length ds)%nat -> rem_at b p q i <> rem_at b p q j))).
Proof.
  intros Hb Hp. unfold repeating_decimal.
  destruct (loopZ_spec (repeating_decimal_step b q)
    (fun '(r, ds, pos, ps) => pos = length ds /\ r = rem_at b p q pos /\
       (forall i, (i < pos)%nat -> nth_error ds i = Some (digit_at b p q i)) /\
       (forall k i, In (k, i) ps <-> (i < pos)%nat /\ k = rem_at b p q i) /\
       (forall i, (i <= pos)%nat -> 0 < rem_at b p q i < q) /\
       (forall i j, (i < j < pos)%nat -> rem_at b p q i <> rem_at b p q j))
    (fun '(ds, t) => (forall i, (i < length ds)%nat -> nth_error ds i = Some (digit_at b p q i)) /\ (0 < length ds)%nat /\
      ((t = 0%nat /\ rem_at b p q (length ds) = 0 /\ (forall i, (i < length ds)%nat -> rem_at b p q i <> 0)) \/
       ((0 < t <= length ds)%nat /\ rem_at b p q (length ds) = rem_at b p q (length ds - t) /\
        (forall i, (i <= length ds)%nat -> rem_at b p q i <> 0) /\
        (forall i j, (i < j < length ds)%nat -> rem_at b p q i <> rem_at b p q j))))
    (fun '(r, ds, pos, ps) => q - 1 - Z.of_nat pos)) with (fuel := q + 1) (s := (p, [] : list Z, O, [] : list (Z * nat))) as ([ds t] & E & HP).
  - intros [[[r ds] pos] ps] (Hpos & Hr & Hd & Hps & Hb1 & Hnd). cbn [repeating_decimal_step].
    destruct (map_find ps r) as [i|] eqn:F.
    + apply map_find_some in F. apply Hps in F. destruct F as [Hi Er].
      eexists. split; [reflexivity|]. cbn beta iota. subst pos. split; [exact Hd|]. split; [lia|]. right.
      split; [lia|]. replace (length ds - (length ds - i))%nat with i by lia. split; [congruence|].
      split; [|exact Hnd]. intros j Hj. specialize (Hb1 j Hj). lia.
    + pose proof (map_find_none _ _ F) as NF.
      assert (B0 := Hb1 pos (le_n _)). rewrite <- Hr in B0.
      rewrite cdiv_some by lia. cbn [obind]. rewrite Z.quot_div_nonneg by nia.
      assert (Dg : b * r / q = digit_at b p q pos) by (rewrite Hr; apply digit_rem; lia).
      assert (Rm : b * r - b * r / q * q = rem_at b p q (S pos)).
      { rewrite rem_at_S by lia. rewrite <- Hr. rewrite Z.mod_eq by lia. ring. }
      rewrite Rm. 
      assert (Hd' : forall i, (i < S pos)%nat -> nth_error (ds ++ [b * r / q]) i = Some (digit_at b p q i)).
      { intros i Hi. destruct (Nat.eq_dec i pos) as [->|N].
        - rewrite nth_error_app2 by lia. rewrite Hpos, Nat.sub_diag. cbn. rewrite Dg. now subst pos.
        - rewrite nth_error_app1 by lia. apply Hd. lia. }
      assert (Hnd' : forall i j, (i < j < S pos)%nat -> rem_at b p q i <> rem_at b p q j).
      { intros i j Hij E. destruct (Nat.eq_dec j pos) as [->|N].
        - apply (NF i). apply Hps. split; [lia|]. congruence.
        - apply (Hnd i j); [lia|exact E]. }
      assert (Len : length (ds ++ [b * r / q]) = S pos) by (rewrite app_length; cbn; lia).
      destruct (Z.eqb_spec (rem_at b p q (S pos)) 0) as [E0|E0].
      * eexists. split; [reflexivity|]. cbn beta iota. rewrite Len. split; [exact Hd'|]. split; [lia|]. left.
        split; [reflexivity|]. split; [exact E0|]. intros i Hi. specialize (Hb1 i ltac:(lia)). lia.
      * eexists. split; [reflexivity|]. cbn beta iota.
        assert (B1 : forall i, (i <= S pos)%nat -> 0 < rem_at b p q i < q).
        { intros i Hi. destruct (Nat.eq_dec i (S pos)) as [->|N]; [|apply Hb1; lia].
          assert (0 <= rem_at b p q (S pos) < q) by (apply Z.mod_pos_bound; lia). lia. }
        split.
        -- rewrite Len. split; [reflexivity|]. split; [reflexivity|]. split; [exact Hd'|]. split; [|split; [exact B1|exact Hnd']].
           intros k i. cbn [In]. split.
           ++ intros [[= <- <-]|I]; [split; [lia|exact Hr]|]. apply Hps in I. destruct I. split; [lia|auto].
           ++ intros [Hi ->]. destruct (Nat.eq_dec i pos) as [->|N]; [left; now rewrite Hr|right]. apply Hps. split; [lia|reflexivity].
        -- lia.
  - intros [[[r ds] pos] ps] (Hpos & Hr & Hd & Hps & Hb1 & Hnd).
    assert (Z.of_nat (length (map (rem_at b p q) (seq 0 pos))) < q).
    { apply rems_bound; [| |lia].
      - clear -Hnd. 
        assert (G : forall n s, (s + n <= pos)%nat -> NoDup (map (rem_at b p q) (seq s n))).
        { induction n as [|n IH]; intros s Hs; cbn [seq map]; [constructor|]. constructor; [|apply IH; lia].
          intros I. apply in_map_iff in I. destruct I as (j & E & I). apply in_seq in I. apply (Hnd s j); [lia|auto]. }
        apply G. lia.
      - apply Forall_forall. intros x Hx. apply in_map_iff in Hx. destruct Hx as (i & <- & I). apply in_seq in I. apply Hb1. lia. }
    rewrite map_length, seq_length in H. lia.
  - assert (R0 : rem_at b p q 0 = p) by (unfold rem_at; rewrite Z.pow_0_r, Z.mul_1_r; apply Z.mod_small; lia).
    split; [reflexivity|]. split; [now rewrite R0|]. split; [intros; lia|]. split; [|split; [|intros; lia]].
    + intros k i. split; [intros []|lia].
    + intros i Hi. replace i with O by lia. rewrite R0. lia.
  - lia.
  - exists ds, t. auto.
Qed.

Lemma rational_digit_spec n b p q : 2 <= b -> 0 <= p -> 0 < q -> (0 <= n) ->
  rational_digit n b p q = Some (b * rem_at b p q (Z.to_nat n) / q, rem_at b p q (Z.to_nat n)).
Proof.
  intros Hb Hp Hq Hn. unfold rational_digit. rewrite modulo_power_spec by lia. cbn [obind]. rewrite modT_spec by lia. cbn [obind].
  rewrite mmul_ok by (try lia; apply Z.mod_pos_bound; lia). cbn [obind].
  assert (E : (b ^ n) mod q * (p mod q) mod q = rem_at b p q (Z.to_nat n)).
  { unfold rem_at. rewrite Z2Nat.id by lia. rewrite <- Z.mul_mod by lia. f_equal. ring. }
  rewrite E. rewrite cdiv_some by lia. cbn [obind]. 
  pose proof (Z.mod_pos_bound (p * b ^ Z.of_nat (Z.to_nat n)) q Hq). fold (rem_at b p q (Z.to_nat n)) in H.
  rewrite Z.quot_div_nonneg by nia. now rewrite (Z.mul_comm b).
Qed.
Lemma rational_digits_spec n len b p q : 2 <= b -> 0 <= p -> 0 < q -> 0 <= n ->
  rational_digits n len b p q = Some (map (fun i => digit_at b p q (Z.to_nat n + i)) (seq 0 len)).
Proof.
  intros Hb Hp Hq Hn. destruct len as [|len]; [reflexivity|]. cbn [rational_digits].
  rewrite rational_digit_spec by lia. cbn [obind]. rewrite digit_rem by lia.
  assert (G : forall len ds i, rational_digits_loop len b (rem_at b p q i) q ds =
     Some (ds ++ map (fun j => digit_at b p q j) (seq (S i) len))).
  { clear len. induction len as [|len IH]; intros ds i; cbn [rational_digits_loop seq map]; [now rewrite app_nil_r|].
    pose proof (Z.mod_pos_bound (p * b ^ Z.of_nat i) q Hq) as B. fold (rem_at b p q i) in B.
    rewrite rational_digit_spec by lia. cbn [obind].
    assert (E : rem_at b (rem_at b p q i) q (Z.to_nat 1) = rem_at b p q (S i)).
    { rewrite rem_at_S by lia. unfold rem_at at 1. change (Z.of_nat (Z.to_nat 1)) with 1. rewrite Z.pow_1_r. f_equal. ring. }
    rewrite E, digit_rem by lia. rewrite IH. now rewrite <- app_assoc. }
  rewrite G. cbn [seq map app]. rewrite Nat.add_0_r. do 2 f_equal.
  assert (S : forall s l, seq (S s) l = map (fun i => (s + S i)%nat) (seq 0 l)).
  { clear. intros s l. revert s. induction l as [|l IH]; intros s; [reflexivity|]. cbn [seq map].
    f_equal; [lia|]. rewrite IH, <- (seq_shift l 0), map_map. apply map_ext. intros. lia. }
  rewrite !S, !map_map. apply map_ext. intros. f_equal.
Qed.

(* ------------------------------------------------------------------ continued fractions *)
Inductive CF : Z -> Z -> list Z -> Prop :=
| CF0 p : CF p 0 []
| CFS p q w : q <> 0 -> CF q (Z.rem p q) w -> CF p q (Z.quot p q :: w).

Lemma continued_fraction_CF p q : exists va, continued_fraction p q = Some va /\ CF p q va.
Proof.
  unfold continued_fraction.
  destruct (loopZ_spec continued_fraction_step (fun '(p', q', va) => forall w, CF p' q' w -> CF p q (va ++ w)) (fun va => CF p q va)
    (fun '(p', q', va) => Z.abs q')) with (fuel := Z.abs q + 1) (s := (p, q, [] : list Z)) as (va & E & H).
  - intros [[p' q'] va] I. cbn [continued_fraction_step]. destruct (Z.eqb_spec q' 0) as [->|N].
    + eexists. split; [reflexivity|]. cbn beta iota. specialize (I [] (CF0 p')). now rewrite app_nil_r in I.
    + rewrite cdiv_some, cmod_some by lia. cbn [obind]. eexists. split; [reflexivity|]. cbn beta iota. split.
      * intros w Hw. rewrite <- app_assoc. apply I. now constructor.
      * pose proof (Z.rem_bound_abs p' q' N). lia.
  - intros [[p' q'] va] _. lia.
  - intros w Hw. exact Hw.
  - lia.
  - eauto.
Qed.

Lemma cf_value_pos w : Forall (fun x => 1 <= x) w -> w <> [] -> (0 < cf_value w)%Q.
Proof.
  induction w as [|a w IH]; [easy|]. intros F _. inversion F as [|? ? Ha Fw]; subst.
  assert (P : (0 < inject_Z a)%Q) by (unfold Qlt; cbn; lia).
  destruct w as [|a' w]; [exact P|]. cbn [cf_value]. change (0 < inject_Z a + / cf_value (a' :: w))%Q.
  assert (P' : (0 < / cf_value (a' :: w))%Q) by (apply Qinv_lt_0_compat, IH; auto; discriminate).
  rewrite <- (Qplus_0_l 0). apply Qplus_lt_le_compat; [exact P|now apply Qlt_le_weak].
Qed.

Lemma CF_props p q va : CF p q va -> 0 <= p -> 0 < q ->
  (cf_value va == inject_Z p / inject_Z q)%Q /\
  (exists a r, va = a :: r /\ a = p / q /\ Forall (fun x => 1 <= x) r /\ (r <> [] -> 2 <= last r 0) /\ (r = [] -> p = a * q)).
Proof.
  induction 1 as [p|p q w Nq Hw IH]; intros Hp Hq; [lia|].
  rewrite Z.quot_div_nonneg, Z.rem_mod_nonneg in * by lia. pose proof (Z.mod_pos_bound p q Hq) as B.
  pose proof (Z.div_mod p q ltac:(lia)) as D. pose proof (Z.div_pos p q Hp Hq) as DP.
  destruct (Z.eq_dec (p mod q) 0) as [E|E].
  - rewrite E in Hw. inversion Hw; subst; [|lia]. split.
    + cbn [cf_value]. rewrite E, Z.add_0_r in D.
      assert (EQ : (inject_Z p == inject_Z q * inject_Z (p / q))%Q) by (rewrite <- inject_Z_mult, <- D; reflexivity).
      rewrite EQ. field. apply inj_nz. lia.
    + exists (p / q), []. repeat split; auto; try easy. lia.
  - destruct IH as (V & a & r & Ew & Ea & Fr & Hl & Hn); [lia|lia|].
    assert (A1 : 1 <= a) by (rewrite Ea; apply Z.div_le_lower_bound; lia). split.
    + subst w. cbn [cf_value]. change (inject_Z (p / q) + / cf_value (a :: r) == inject_Z p / inject_Z q)%Q.
      assert (EQ : (inject_Z p == inject_Z q * inject_Z (p / q) + inject_Z (p mod q))%Q) by (rewrite <- inject_Z_mult, <- inject_Z_plus, <- D; reflexivity).
      rewrite V, EQ. field. split; apply inj_nz; lia.
    + exists (p / q), w. repeat split; auto.
      * subst w. constructor; auto.
      * intros _. subst w. destruct r as [|b r]; [|cbn [last] in *; apply Hl; discriminate].
        cbn [last]. specialize (Hn eq_refl). nia.
      * subst w. discriminate.
Qed.

(** the pairs produced, without the accumulator *)
Fixpoint segs (semi : Z) (va : list Z) (p2 p1 q2 q1 : Z) : list (Z * Z) :=
  match va with
  | [] => []
  | a :: va =>
      let k := Z.min semi (Z.quot a 2) in
      map (fun j => ((a - k + Z.of_nat j) * p1 + p2, (a - k + Z.of_nat j) * q1 + q2)) (seq 0 (Z.to_nat (k + 1))) ++
      segs semi va p1 (a * p1 + p2) q1 (a * q1 + q2)
  end.
Lemma inner_spec n a p1 p2 q1 q2 pq vpq :
  convergents_inner n a p1 p2 q1 q2 pq vpq =
  (match n with O => pq | S m => ((a + Z.of_nat m) * p1 + p2, (a + Z.of_nat m) * q1 + q2) end,
   vpq ++ map (fun j => ((a + Z.of_nat j) * p1 + p2, (a + Z.of_nat j) * q1 + q2)) (seq 0 n)).
Proof.
  revert a pq vpq. induction n as [|n IH]; intros a pq vpq; cbn [convergents_inner]; [now rewrite app_nil_r|].
  rewrite IH. f_equal.
  - destruct n as [|n]; [now rewrite Z.add_0_r|]. rewrite Nat2Z.inj_succ. f_equal; ring.
  - rewrite <- app_assoc. f_equal. cbn [app seq map]. rewrite Z.add_0_r. f_equal.
    rewrite <- (seq_shift n 0), map_map. apply map_ext. intros j. rewrite Nat2Z.inj_succ. f_equal; ring.
Qed.
Lemma convergents_segs semi va : 0 <= semi -> Forall (fun a => 0 <= a) va -> forall p2 p1 p q2 q1 q vpq,
  convergents_loop semi va p2 p1 p q2 q1 q vpq = vpq ++ segs semi va p2 p1 q2 q1.
Proof.
  intros Hs F. induction F as [|a va Ha F IH]; intros p2 p1 p q2 q1 q vpq; cbn [convergents_loop segs]; [now rewrite app_nil_r|].
  cbv zeta. set (k := Z.min semi (Z.quot a 2)). assert (K : 0 <= k) by (unfold k; pose proof (Z.quot_pos a 2); lia).
  rewrite inner_spec. replace (a - (a - k) + 1) with (k + 1) by lia.
  replace (Z.to_nat (k + 1)) with (S (Z.to_nat k)) by lia.
  replace (a - k + Z.of_nat (Z.to_nat k)) with a by lia.
  rewrite IH. now rewrite <- app_assoc.
Qed.

Fixpoint conv (va : list Z) (p2 p1 q2 q1 : Z) : list (Z * Z) :=
  match va with [] => [] | a :: va => (a * p1 + p2, a * q1 + q2) :: conv va p1 (a * p1 + p2) q1 (a * q1 + q2) end.
Lemma segs_conv va : Forall (fun a => 0 <= a) va -> forall p2 p1 q2 q1, segs 0 va p2 p1 q2 q1 = conv va p2 p1 q2 q1.
Proof.
  induction 1 as [|a va Ha F IH]; intros; cbn [segs conv]; [reflexivity|]. cbv zeta.
  rewrite Z.min_l by (apply Z.quot_pos; lia). change (Z.to_nat (0 + 1)) with 1%nat. cbn [seq map app].
  change (Z.of_nat 0) with 0. replace (a - 0 + 0) with a by lia. now rewrite IH.
Qed.
Lemma conv_length va : forall p2 p1 q2 q1, length (conv va p2 p1 q2 q1) = length va.
Proof. induction va as [|a va IH]; intros; cbn [conv length]; [reflexivity|]. now rewrite IH. Qed.
Lemma conv_nth va : Forall (fun x => 1 <= x) va -> forall p2 p1 q2 q1 i, 0 <= q2 -> 0 <= q1 -> 0 < q2 + q1 -> (i < length va)%nat ->
  exists P Q, nth_error (conv va p2 p1 q2 q1) i = Some (P, Q) /\ 0 < Q /\
   let x := cf_value (firstn (S i) va) in
   (inject_Z P / inject_Z Q == (x * inject_Z p1 + inject_Z p2) / (x * inject_Z q1 + inject_Z q2))%Q.
Proof.
  induction 1 as [|a va Ha F IH]; intros p2 p1 q2 q1 i H2 H1 H3 Hi; cbn [length] in Hi; [lia|].
  assert (Pos : forall x, (0 < x)%Q -> ~ (x * inject_Z q1 + inject_Z q2 == 0)%Q).
  { intros x Hx E.
    assert (L : (0 < x * inject_Z q1 + inject_Z q2)%Q); [|rewrite E in L; now apply Qlt_irrefl in L].
    assert (Q2 : (0 <= inject_Z q2)%Q) by (unfold Qle; cbn; lia).
    assert (Q1 : (0 <= inject_Z q1)%Q) by (unfold Qle; cbn; lia).
    assert (M : (0 <= x * inject_Z q1)%Q) by (apply Qmult_le_0_compat; auto using Qlt_le_weak).
    destruct (Z.eq_dec q1 0) as [->|N].
    - assert (Q2' : (0 < inject_Z q2)%Q) by (unfold Qlt; cbn; lia). change (inject_Z 0) with 0%Q.
      assert (R : (x * 0 + inject_Z q2 == inject_Z q2)%Q) by ring. now rewrite R.
    - assert (Q1' : (0 < inject_Z q1)%Q) by (unfold Qlt; cbn; lia).
      assert (M' : (0 < x * inject_Z q1)%Q) by (rewrite <- (Qmult_0_l (inject_Z q1)); now apply Qmult_lt_compat_r).
      rewrite <- (Qplus_0_l 0). apply Qplus_lt_le_compat; auto. }
  destruct i as [|i].
  - exists (a * p1 + p2), (a * q1 + q2). split; [reflexivity|]. split; [nia|].
    cbn [firstn cf_value]. cbv zeta. rewrite !inject_Z_plus, !inject_Z_mult. reflexivity.
  - cbn [conv nth_error]. destruct (IH p1 (a * p1 + p2) q1 (a * q1 + q2) i) as (P & Q & E & HQ & V); [lia|nia|nia|lia|].
    exists P, Q. split; [exact E|]. split; [exact HQ|]. cbv zeta in *. rewrite V. clear V E.
    replace (firstn (S (S i)) (a :: va)) with (a :: firstn (S i) va) by reflexivity.
    assert (NE : firstn (S i) va <> []) by (destruct va; [cbn in Hi; lia|discriminate]).
    assert (Fi : Forall (fun x => 1 <= x) (firstn (S i) va)).
    { apply Forall_forall. intros x Hx. rewrite Forall_forall in F. apply F. rewrite <- (firstn_skipn (S i) va). apply in_or_app. now left. }
    pose proof (cf_value_pos _ Fi NE) as Px.
    assert (CV : cf_value (a :: firstn (S i) va) = (inject_Z a + / cf_value (firstn (S i) va))%Q) by (destruct (firstn (S i) va); [easy|reflexivity]).
    rewrite CV. set (x := cf_value (firstn (S i) va)) in *. clearbody x. clear CV.
    assert (Nx : ~ (x == 0)%Q) by (intros E; rewrite E in Px; now apply Qlt_irrefl in Px).
    assert (Px' : (0 < inject_Z a + / x)%Q).
    { rewrite <- (Qplus_0_l 0). apply Qplus_lt_le_compat; [unfold Qlt; cbn; lia|]. apply Qlt_le_weak. now apply Qinv_lt_0_compat. }
    pose proof (Pos _ Px') as Nz. rewrite !inject_Z_plus, !inject_Z_mult. 
    assert (Nz2 : ~ (x * (inject_Z a * inject_Z q1 + inject_Z q2) + inject_Z q1 == 0)%Q).
    { intros E. apply Nz. rewrite <- (Qmult_1_l (_ + _)). rewrite <- (Qmult_inv_r x Nx) at 1.
      transitivity (/ x * (x * (inject_Z a * inject_Z q1 + inject_Z q2) + inject_Z q1))%Q; [field; exact Nx|]. rewrite E. ring. }
    field. repeat split; auto. intros E. apply Nz2. rewrite <- E. ring.
Qed.
Lemma alt_S i : alt (S i) = - alt i.
Proof. unfold alt. rewrite Nat.even_succ, <- Nat.negb_even. now destruct (Nat.even i). Qed.
Lemma conv_det va : forall p2 p1 q2 q1 i P Q P' Q', nth_error (conv va p2 p1 q2 q1) i = Some (P, Q) -> nth_error (conv va p2 p1 q2 q1) (S i) = Some (P', Q') ->
  P' * Q - P * Q' = alt i * (p1 * q2 - p2 * q1).
Proof.
  induction va as [|a va IH]; intros p2 p1 q2 q1 i P Q P' Q' H1 H2; [destruct i; discriminate|].
  cbn [conv nth_error] in *. destruct i as [|i].
  - injection H1 as <- <-. destruct va as [|b va]; [discriminate|]. cbn [conv nth_error] in H2. injection H2 as <- <-. change (alt 0) with 1. ring.
  - rewrite (IH _ _ _ _ _ _ _ _ _ H1 H2). rewrite alt_S. ring.
Qed.
Lemma segs_in semi va : 0 <= semi -> Forall (fun x => 1 <= x) va -> forall p2 p1 q2 q1, Z.abs (p1 * q2 - p2 * q1) = 1 ->
  0 <= q2 -> 0 <= q1 -> 0 < q1 + q2 ->
  forall P Q, In (P, Q) (segs semi va p2 p1 q2 q1) -> Z.gcd P Q = 1 /\ 0 < Q.
Proof.
  intros Hs F. induction F as [|a va Ha F IH]; intros p2 p1 q2 q1 D H2 H1 H3 P Q I; [destruct I|].
  cbn [segs] in I. cbv zeta in I. apply in_app_or in I. destruct I as [I|I].
  - apply in_map_iff in I. destruct I as (j & [= <- <-] & Hj). apply in_seq in Hj.
    set (k := Z.min semi (Z.quot a 2)) in *.
    assert (K : k <= a - k) by (unfold k; rewrite Z.quot_div_nonneg by lia; pose proof (Z.mul_div_le a 2 ltac:(lia)); lia).
    assert (K1 : k < a) by (unfold k; rewrite Z.quot_div_nonneg by lia; pose proof (Z.div_lt a 2); lia).
    set (b := a - k + Z.of_nat j). split; [|unfold b; nia].
    apply Z.bezout_1_gcd.
    exists (q1 * (- (p1 * q2 - p2 * q1))), (p1 * (p1 * q2 - p2 * q1)).
    transitivity ((p1 * q2 - p2 * q1) * (p1 * q2 - p2 * q1)); [ring|]. nia.
  - apply (IH p1 (a * p1 + p2) q1 (a * q1 + q2)) in I; auto; nia.
Qed.
Lemma conv_incl semi va : 0 <= semi -> Forall (fun a => 0 <= a) va -> forall p2 p1 q2 q1, incl (conv va p2 p1 q2 q1) (segs semi va p2 p1 q2 q1).
Proof.
  intros Hs F. induction F as [|a va Ha F IH]; intros p2 p1 q2 q1 x; [easy|]. cbn [conv segs In]. cbv zeta.
  set (k := Z.min semi (Z.quot a 2)). assert (K : 0 <= k) by (unfold k; pose proof (Z.quot_pos a 2); lia).
  intros [<-|I]; apply in_or_app; [left|right; now apply IH].
  apply in_map_iff. exists (Z.to_nat k). split; [rewrite Z2Nat.id by lia; f_equal; ring|]. apply in_seq. lia.
Qed.
Lemma last_app_ne {A} (l l' : list A) d : l' <> [] -> last (l ++ l') d = last l' d.
Proof.
  intros H. induction l as [|x l IH]; [reflexivity|]. cbn [app last]. destruct (l ++ l') eqn:E; [|exact IH].
  apply app_eq_nil in E. now destruct E.
Qed.
Lemma segs_nil semi va p2 p1 q2 q1 : 0 <= semi -> Forall (fun a => 0 <= a) va -> va <> [] -> segs semi va p2 p1 q2 q1 <> [].
Proof.
  intros Hs F N E. destruct va as [|a va]; [easy|]. pose proof (conv_incl semi (a :: va) Hs F p2 p1 q2 q1 (a * p1 + p2, a * q1 + q2)) as I.
  rewrite E in I. apply I. now left.
Qed.
Lemma segs_last semi va : 0 <= semi -> Forall (fun a => 0 <= a) va -> forall p2 p1 q2 q1 d, last (segs semi va p2 p1 q2 q1) d = last (conv va p2 p1 q2 q1) d.
Proof.
  intros Hs F. induction F as [|a va Ha F IH]; intros p2 p1 q2 q1 d; [reflexivity|]. cbn [conv segs]. cbv zeta.
  set (k := Z.min semi (Z.quot a 2)). assert (K : 0 <= k) by (unfold k; pose proof (Z.quot_pos a 2); lia).
  destruct va as [|b va].
  - cbn [segs conv]. rewrite app_nil_r. replace (Z.to_nat (k + 1)) with (Z.to_nat k + 1)%nat by lia.
    rewrite seq_app, map_app. rewrite last_app_ne by discriminate. cbn [seq map last]. rewrite Nat.add_0_l, Z2Nat.id by lia. f_equal; ring.
  - rewrite last_app_ne by (apply segs_nil; auto; discriminate). rewrite IH. cbn [conv last]. reflexivity.
Qed.
Lemma last_nth_error {A} (l : list A) d : l <> [] -> nth_error l (length l - 1) = Some (last l d).
Proof.
  induction l as [|x l IH]; [easy|]. intros _. destruct l as [|y l]; [reflexivity|].
  replace (length (x :: y :: l) - 1)%nat with (S (length (y :: l) - 1)) by (cbn [length]; lia). cbn [nth_error].
  rewrite IH by discriminate. reflexivity.
Qed.

(** every proper convergent is the value of the prefix *)
Lemma convergents_value a r i : 0 <= a -> Forall (fun x => 1 <= x) r -> (i <= length r)%nat ->
  exists P Q, nth_error (conv (a :: r) 0 1 1 0) i = Some (P, Q) /\ 0 < Q /\ (frac_value (P, Q) == cf_value (firstn (S i) (a :: r)))%Q.
Proof.
  intros Ha F Hi. cbn [conv]. replace (a * 1 + 0) with a by ring. replace (a * 0 + 1) with 1 by ring.
  destruct i as [|i].
  - exists a, 1. split; [reflexivity|]. split; [lia|]. reflexivity.
  - destruct (conv_nth r F 1 a 0 1 i) as (P & Q & E & HQ & V); [lia|lia|lia|lia|].
    exists P, Q. split; [exact E|]. split; [exact HQ|]. unfold frac_value. cbn [fst snd]. rewrite qmake_mul by lia. rewrite V.
    replace (firstn (S (S i)) (a :: r)) with (a :: firstn (S i) r) by reflexivity.
    assert (NE : firstn (S i) r <> []) by (destruct r; [cbn in Hi; lia|discriminate]).
    assert (Fi : Forall (fun x => 1 <= x) (firstn (S i) r)).
    { apply Forall_forall. intros x Hx. rewrite Forall_forall in F. apply F. rewrite <- (firstn_skipn (S i) r). apply in_or_app. now left. }
    pose proof (cf_value_pos _ Fi NE) as Px.
    assert (CV : cf_value (a :: firstn (S i) r) = (inject_Z a + / cf_value (firstn (S i) r))%Q) by (destruct (firstn (S i) r); [easy|reflexivity]).
    rewrite CV. set (x := cf_value (firstn (S i) r)) in *. clearbody x. clear CV.
    assert (Nx : ~ (x == 0)%Q) by (intros X; rewrite X in Px; now apply Qlt_irrefl in Px).
    change (inject_Z 0) with 0%Q. change (inject_Z 1) with 1%Q. field. repeat split; auto.
Qed.
Lemma conv_last a r d : 0 <= a -> Forall (fun x => 1 <= x) r -> let f := last (conv (a :: r) 0 1 1 0) d in
  lowest_terms f /\ (frac_value f == cf_value (a :: r))%Q.
Proof.
  intros Ha F. cbv zeta. destruct (convergents_value a r (length r) Ha F (le_n _)) as (P & Q & E & HQ & V).
  pose proof (last_nth_error (conv (a :: r) 0 1 1 0) d ltac:(discriminate)) as L. rewrite conv_length in L.
  replace (length (a :: r) - 1)%nat with (length r) in L by (cbn [length]; lia). assert (L' : last (conv (a :: r) 0 1 1 0) d = (P, Q)) by congruence. rewrite L'.
  change (S (length r)) with (length (a :: r)) in V. rewrite firstn_all in V.
  split; [|exact V]. split; [exact HQ|]. cbn [fst snd].
  cbn [conv] in E. replace (a * 1 + 0) with a in E by ring. replace (a * 0 + 1) with 1 in E by ring.
  destruct (length r) as [|n] eqn:Er; cbn [nth_error] in E; [injection E as <- <-; apply Z.gcd_1_r|].
  apply nth_error_In in E. pose proof (conv_incl 0 r ltac:(lia)) as I.
  assert (F0 : Forall (fun a => 0 <= a) r) by (eapply Forall_impl; [|exact F]; cbv beta; intros; lia).
  apply (I F0) in E. apply (segs_in 0 r ltac:(lia) F) in E; try lia. 
Qed.
