From Verif Require Import Lib BaseModel BaseProofs PrimesModel PrimesSpec PrimesProofs PrimesProofs2 PrimesProofs3 NumTheory SegModel SegSpec SegProofs.
Open Scope nat_scope.

(** ** segmented_phi *)
Definition view2 (s : list nat * list nat) (x : nat) : option nat * option nat := (nth_error (fst s) x, nth_error (snd s) x).
Lemma strip_run p v t : 2 <= p -> 0 < t -> exists k t', strip p v t = Some (v * p ^ k, t') /\ t = p ^ k * t' /\ ~ Nat.divide p t'.
Proof.
  intros Hp Ht. unfold strip. match goal with |- context [loopZ ?fu ?g ?st] => destruct (loopZ_spec g
    (fun '(w, u) => 0 < u /\ exists k, w = v * p ^ k /\ t = p ^ k * u) (fun '(w, u) => exists k, w = v * p ^ k /\ t = p ^ k * u /\ ~ Nat.divide p u) (fun '(_, u) => Z.of_nat u)) with (fuel := fu) (s := st) as ([w u] & Em & k & -> & E1 & E2) end.
  - intros [w u] (Hu & k & -> & E). destruct (Nat.eqb_spec p 0); [lia|]. destruct (u mod p =? 0) eqn:M; eexists; (split; [reflexivity|]); cbv beta iota.
    + apply mod_div in M as [c Hc]; [|lia]. subst u. rewrite Nat.div_mul by lia. split; [|nia]. split; [nia|]. exists (k + 1). rewrite Nat.pow_add_r, Nat.pow_1_r, E. split; lia.
    + exists k. split; [reflexivity|]. split; [exact E|]. apply mod_div_false in M; [exact M|lia].
  - intros [w u] _. lia.
  - split; [exact Ht|]. exists 0. cbn. lia.
  - lia.
  - exists k, u. auto.
Qed.
(** what is known of the entries for y after the primes in ps have been taken out *)
Definition phi_known (ps : list nat) (y : nat) (w : option nat * option nat) : Prop :=
  exists s t, w = (Some (totient s), Some t) /\ y = s * t /\ 0 < y /\ (forall r, In r ps -> ~ Nat.divide r t) /\ (forall r, is_prime r -> Nat.divide r s -> In r ps).
Lemma phi_known_step ps r y w : is_prime r -> ~ In r ps -> phi_known ps y w -> Nat.divide r y ->
  exists v t, w = (Some v, Some t) /\ 0 < t / r /\ forall k t', t / r = r ^ k * t' -> ~ Nat.divide r t' -> phi_known (ps ++ [r]) y (Some (v * (r - 1) * r ^ k), Some t').
Proof.
  intros Pr Ni (s & t & -> & Ey & Hy & H1 & H2) D. pose proof (prime_ge r Pr). exists (totient s), t. split; [reflexivity|].
  assert (Ns : ~ Nat.divide r s) by (intros X; apply Ni, H2; auto). rewrite Ey in D. apply prime_euclid in D as [D|[c Dc]]; [contradiction| |exact Pr]. subst t. rewrite Nat.div_mul by lia. split; [nia|].
  intros k t' E Nt. exists (r ^ S k * s), t'. assert (0 < s) by nia. rewrite totient_step by (assumption || lia). split; [replace (r ^ k * (r - 1) * totient s) with (totient s * (r - 1) * r ^ k) by lia; reflexivity|]. split; [rewrite Ey, E; cbn [Nat.pow]; lia|]. split; [exact Hy|]. split.
  - intros q I D. apply in_app_iff in I as [I|[<-|[]]]; [|contradiction]. apply (H1 q I). rewrite E. apply Nat.divide_mul_l, Nat.divide_mul_r. exact D.
  - intros q Pq D. apply in_or_app. apply prime_euclid in D as [D|D]; [right; left| |exact Pq].
    + clear - D Pq Pr. assert (G : forall n, Nat.divide q (r ^ n) -> q = r). { induction n as [|n IH]; cbn [Nat.pow]; intros X; [apply Nat.divide_1_r in X; pose proof (prime_ge q Pq); lia|]. apply prime_euclid in X as [X|X]; [now apply prime_divides_prime|now apply IH|exact Pq]. } symmetry. now apply (G (S k)).
    + left. now apply H2.
Qed.
Lemma phi_known_skip ps r y w : 0 < r -> phi_known ps y w -> ~ Nat.divide r y -> phi_known (ps ++ [r]) y w.
Proof.
  intros Hr (s & t & -> & Ey & Hy & H1 & H2) D. exists s, t. split; [reflexivity|]. split; [exact Ey|]. split; [exact Hy|]. split.
  - intros q I X. apply in_app_iff in I as [I|[<-|[]]]; [now apply (H1 q I)|]. apply D. rewrite Ey. now apply Nat.divide_mul_r.
  - intros q Pq X. apply in_or_app. left. now apply H2.
Qed.
Lemma phi_known_end L y w : y < L * L -> phi_known (primes_below L) y w -> exists v t, w = (Some v, Some t) /\ totient y = (if 1 <? t then v * (t - 1) else v).
Proof.
  intros HL (s & t & -> & Ey & Hy & H1 & H2). exists (totient s), t. split; [reflexivity|]. assert (0 < t) by nia. destruct (Nat.ltb_spec 1 t) as [Ht|Ht].
  - assert (Pt : is_prime t). { destruct (prime_dec' t) as [|NP]; [assumption|exfalso]. destruct (composite_factor t ltac:(lia) NP) as (q & Pq & D & Q). apply (H1 q); [|exact D]. apply primes_below_in. assert (Hty : t <= y) by (assert (0 < s) by (destruct s; [cbn in Ey; lia|lia]); clear - Ey H0; nia). split; [|exact Pq]. clear - Q Hty HL. destruct (le_lt_dec L q); [exfalso; nia|assumption]. }
    assert (Ns : ~ Nat.divide t s). { intros D. apply (H1 t); [|apply Nat.divide_refl]. now apply H2. }
    assert (0 < s) by nia. rewrite Ey. replace (s * t) with (t ^ 1 * s) by (cbn [Nat.pow]; lia). rewrite totient_step by assumption. cbn [Nat.pow]. lia.
  - assert (t = 1) as -> by lia. rewrite Ey, Nat.mul_1_r. reflexivity.
Qed.
Lemma NoDup_next (l : list nat) i r : NoDup l -> nth_error l i = Some r -> ~ In r (firstn i l).
Proof. intros ND E I. rewrite <- (firstn_skipn i l) in ND. assert (Hs : exists t, skipn i l = r :: t). { clear - E. revert i E. induction l as [|a l IH]; intros [|i] E; try discriminate; [injection E as ->; eexists; reflexivity|]. now apply IH. } destruct Hs as (t & Hs). rewrite Hs in ND. apply NoDup_remove_2 in ND. apply ND, in_or_app. now left. Qed.
Lemma segmented_phi_run phi tmp b e p m : sieving_primes p m e -> e - b <= length phi -> e - b <= length tmp -> (b = 0 -> 1 <= e) ->
  exists phi' tmp', segmented_phi phi tmp b e p m = Some (phi', tmp') /\ segment b e totient phi phi' /\ length tmp' = length tmp /\ forall i, e - b <= i -> nth_error tmp' i = nth_error tmp i.
Proof.
  intros (L & Hm & HP & HL) Hl Hl' H2. assert (Lm : length (primes_below L) = m) by (rewrite <- HP, firstn_length; lia). unfold segmented_phi.
  destruct (first_view b 0 0 phi b) as (q1 & E1 & L1 & V1); [lia|lia|]. rewrite E1. cbn [obind].
  set (b1 := if b =? 0 then b + 1 else b) in *. assert (Hb1 : b1 = Nat.max b 1) by (unfold b1; destruct (Nat.eqb_spec b 0); lia). clearbody b1.
  destruct (range_view view2 (fun j _ w => w = (Some 1, Some j)) (fun x '(phi, tmp) => let* phi := put b phi x 1 in let* tmp := put b tmp x x in Some (phi, tmp)) b b1 e (q1, tmp)) as (s2 & E2 & V2); [lia| |].
  { intros j [f1 t1] A1 A2 Ev. unfold view2 in Ev. cbn [fst snd] in Ev. injection Ev as Ev1 Ev2. destruct (nth_error q1 (j - b)) as [w|] eqn:Ew; [|apply nth_error_None in Ew; lia]. destruct (nth_error tmp (j - b)) as [u|] eqn:Eu; [|apply nth_error_None in Eu; lia].
    destruct (put_view b f1 j 1 w) as (f2 & B1 & B2 & B3); [lia|exact Ev1|]. destruct (put_view b t1 j j u) as (t2 & C1 & C2 & C3); [lia|exact Ev2|]. rewrite B1. cbn [obind]. rewrite C1. cbn [obind]. eexists. split; [reflexivity|]. unfold view2. cbn [fst snd]. split; [now rewrite B2, C2|]. intros x Hx. now rewrite B3, C3. }
  destruct s2 as [f2 t2]. rewrite E2. cbn [obind].
  match goal with |- context [for_range 0 m ?bd _] => destruct (for_range_spec (fun i s => forall x, if (b1 <=? b + x) && (b + x <? e) then phi_known (firstn i (primes_below L)) (b + x) (view2 s x) else view2 s x = view2 (q1, tmp) x) bd 0 m (f2, t2)) as ([f3 t3] & E3 & V3) end.
  - lia.
  - intros x. specialize (V2 x). destruct (_ && _) eqn:B; [|exact V2]. apply andb_prop in B as (B1 & B2). apply Nat.leb_le in B1. rewrite V2. exists 1, (b + x). split; [reflexivity|]. split; [lia|]. split; [lia|]. split; [intros r []|]. intros r Pr D. apply Nat.divide_1_r in D. pose proof (prime_ge r Pr). lia.
  - intros i s1 Hi V. destruct (nth_error (primes_below L) i) as [r|] eqn:Er; [|apply nth_error_None in Er; lia]. assert (Er' : nth_error p i = Some r) by (rewrite <- Er, <- HP; symmetry; apply firstn_nth; lia). rewrite Er'. cbn [obind].
    assert (Pr : is_prime r) by (apply nth_error_In in Er; now apply primes_below_in in Er). pose proof (prime_ge r Pr) as Hr2. rewrite (firstn_S _ _ _ Er). pose proof (NoDup_next _ _ _ (primes_below_nodup L) Er) as Ni.
    destruct (multiple_nat_run r b1) as (s & Es & Ds & Bs); [lia|]. rewrite Es. cbn [obind].
    destruct (step_view view2 (fun j _ w => phi_known (firstn i (primes_below L) ++ [r]) j w) (phi_body b r) b s e r s1) as (s2 & E & W); [lia|lia| |].
    + intros j [f t] A1 A2 A3 Ev. assert (Hj : r * (j / r) = j /\ Nat.divide r j). { destruct Ds as [c ->]. assert (X : (j - c * r) mod r =? 0 = true) by now apply Nat.eqb_eq. apply mod_div in X as [d Hd]; [|lia]. assert (j = (d + c) * r) by lia. split; [|now exists (d + c)]. subst j. rewrite Nat.div_mul by lia. lia. } destruct Hj as (_ & Dj).
      pose proof (V (j - b)) as Vj. replace (b + (j - b)) with j in Vj by lia. destruct (Nat.leb_spec b1 j); [|lia]. destruct (Nat.ltb_spec j e); [|lia]. cbn [andb] in Vj. rewrite <- Ev in Vj.
      destruct (phi_known_step _ r j _ Pr Ni Vj Dj) as (v & t0 & Ew & Ht & Hnext). unfold view2 in Ew. cbn [fst snd] in Ew. injection Ew as Ew1 Ew2. unfold phi_body. rewrite Ew1. cbn [obind]. rewrite Ew2. cbn [obind]. destruct (Nat.eqb_spec r 0); [lia|].
      destruct (strip_run r (v * (r - 1)) (t0 / r) Hr2 Ht) as (k & t' & Est & Et & Nt). rewrite Est. cbn [obind].
      destruct (put_view b f j (v * (r - 1) * r ^ k) v) as (f' & B1 & B2 & B3); [lia|exact Ew1|]. destruct (put_view b t j t' t0) as (t1 & C1 & C2 & C3); [lia|exact Ew2|]. rewrite B1. cbn [obind]. rewrite C1. cbn [obind]. eexists. split; [reflexivity|]. unfold view2. cbn [fst snd]. split; [rewrite B2, C2; now apply Hnext|]. intros x Hx. now rewrite B3, C3.
    + exists s2. split; [exact E|]. intros x. specialize (V x). specialize (W x). rewrite (from_multiple b1 r s e) in W by (exact Ds || lia). destruct ((b1 <=? b + x) && (b + x <? e)); cbn [andb] in W; [|now rewrite W]. destruct ((b + x) mod r =? 0) eqn:M; [exact W|]. rewrite W. apply phi_known_skip; [lia|exact V|]. apply mod_div_false in M; [exact M|lia].
  - rewrite E3. cbn [obind]. rewrite firstn_all2 in V3 by lia.
    destruct (range_view (@nth_error nat) (fun j _ w => w = Some (totient j)) (fun x phi => let* t := nth_error t3 (x - b) in if 1 <? t then upd b phi x (fun v => v * (t - 1)) else Some phi) b b1 e f3) as (f4 & E4 & V4); [lia| |].
    + intros j s1 A1 A2 Ev. pose proof (V3 (j - b)) as Vj. replace (b + (j - b)) with j in Vj by lia. destruct (Nat.leb_spec b1 j); [|lia]. destruct (Nat.ltb_spec j e); [|lia]. cbn [andb] in Vj.
      destruct (phi_known_end L j _ ltac:(lia) Vj) as (v & t & Ew & Et). unfold view2 in Ew. cbn [fst snd] in Ew. injection Ew as Ew1 Ew2. rewrite Ew2. cbn [obind]. rewrite Ew1 in Ev. destruct (1 <? t).
      * rewrite (upd_put _ _ _ _ v Ev). destruct (put_view b s1 j (v * (t - 1)) v) as (f' & B1 & B2 & B3); [lia|exact Ev|]. exists f'. split; [exact B1|]. split; [now rewrite B2, Et|exact B3].
      * exists s1. split; [reflexivity|]. split; [now rewrite Ev, Et|]. reflexivity.
    + rewrite E4. cbn [obind]. exists f4, t3. split; [reflexivity|]. 
      assert (V : forall x, b + x < e -> nth_error f4 x = Some (totient (b + x))). { intros x Hx. specialize (V4 x). specialize (V3 x). destruct (Nat.ltb_spec (b + x) e); [|lia]. destruct (Nat.leb_spec b1 (b + x)); cbn [andb] in *; [exact V4|]. unfold view2 in V3. cbn [fst snd] in V3. injection V3 as V3 _. rewrite V4, V3, V1. assert (Z : b + x = 0) by lia. rewrite Z. destruct (Nat.eqb_spec b 0); [|lia]. subst b. reflexivity. }
      assert (W : forall x, e <= b + x -> nth_error f4 x = nth_error phi x). { intros x Hx. specialize (V4 x). specialize (V3 x). destruct (Nat.ltb_spec (b + x) e); [lia|]. rewrite andb_false_r in *. unfold view2 in V3. cbn [fst snd] in V3. injection V3 as V3 _. rewrite V4, V3, V1. destruct (Nat.eqb_spec b 0), (Nat.eqb_spec (b + x) b); cbn [andb]; try reflexivity; lia. }
      assert (T : forall x, e <= b + x -> nth_error t3 x = nth_error tmp x). { intros x Hx. specialize (V3 x). destruct (Nat.ltb_spec (b + x) e); [lia|]. rewrite andb_false_r in *. unfold view2 in V3. cbn [fst snd] in V3. now injection V3 as _ V3. }
      split; [split; [|split]|split].
      * apply view_length. intros x. destruct (le_lt_dec e (b + x)); [now rewrite W|]. rewrite V by lia. split; [|discriminate]. intros X. apply nth_error_None in X. lia.
      * intros x Hx. rewrite V by lia. do 2 f_equal. lia.
      * intros i Hi. apply W. lia.
      * apply view_length. intros x. destruct (le_lt_dec e (b + x)); [now rewrite T|]. specialize (V3 x). destruct (Nat.ltb_spec (b + x) e); [|lia]. destruct (Nat.leb_spec b1 (b + x)); cbn [andb] in V3.
        -- destruct V3 as (s & t & Ew & _). unfold view2 in Ew. cbn [fst snd] in Ew. injection Ew as _ Ew. rewrite Ew. split; [|discriminate]. intros X. apply nth_error_None in X. lia.
        -- unfold view2 in V3. cbn [fst snd] in V3. injection V3 as _ V3. now rewrite V3.
      * intros i Hi. apply T. lia.
Qed.

(** ** segmented_mu *)
Definition mv (ps : list nat) (y : nat) : Z := fold_left (mstep y) ps 1%Z.
Lemma mv_snoc ps r y : mv (ps ++ [r]) y = mstep y (mv ps y) r.
Proof. unfold mv. now rewrite fold_left_app. Qed.
Definition mcorr (x : nat) (v : Z) : Z :=
  let v := if (v <? 0)%Z && negb (v =? - Z.of_nat x)%Z then Z.of_nat x else v in
  if (0 <? v)%Z && negb (v =? Z.of_nat x)%Z then (- Z.of_nat x)%Z else v.
Definition mnorm (v : Z) : Z := let v := if (v <? 0)%Z then (-1)%Z else v in if (0 <? v)%Z then 1%Z else v.
Lemma mcorr_mfix x v : 0 < x -> mnorm (mcorr x v) = mfix x v.
Proof.
  intros H. unfold mnorm, mcorr, mfix. cbv zeta.
  repeat (match goal with |- context [(?u =? ?w)%Z] => lazymatch u with context [if _ then _ else _] => fail | _ => destruct (Z.eqb_spec u w) end | |- context [(?u <? ?w)%Z] => lazymatch u with context [if _ then _ else _] => fail | _ => lazymatch w with context [if _ then _ else _] => fail | _ => destruct (Z.ltb_spec u w) end end end; cbn [andb negb]; try lia).
Qed.
Lemma mv_mobius L y : 1 <= y -> y < L * L -> mfix y (mv (primes_below L) y) = mobius y.
Proof.
  intros H1 HL. destruct (Nat.eq_dec y 1) as [->|]; [|apply mfix_correct; lia]. replace (mv (primes_below L) 1) with 1%Z; [reflexivity|]. unfold mv. assert (G : forall ps, (forall r, In r ps -> 2 <= r) -> fold_left (mstep 1) ps 1%Z = 1%Z).
  { induction ps as [|r ps IH]; intros H; [reflexivity|]. cbn [fold_left]. pose proof (H r (or_introl eq_refl)). unfold mstep at 2. rewrite (Nat.mod_small 1 (r * r)) by nia. rewrite (Nat.mod_small 1 r) by lia. cbn [Nat.eqb]. apply IH. intros q Hq. apply H. now right. }
  symmetry. apply G. intros r I. apply primes_below_in in I as (_ & P). now apply prime_ge.
Qed.
Lemma upd_view {A} o (l0 : list A) f j s1 : o <= j -> j - o < length l0 -> nth_error s1 (j - o) = nth_error l0 (j - o) -> exists s', upd o s1 j f = Some s' /\ nth_error s' (j - o) = option_map f (nth_error s1 (j - o)) /\ forall x, o + x <> j -> nth_error s' x = nth_error s1 x.
Proof.
  intros Ho Hj Ev. destruct (nth_error l0 (j - o)) as [w|] eqn:Ew; [|apply nth_error_None in Ew; lia]. rewrite (upd_put _ _ _ _ w Ev). destruct (put_view o s1 j (f w) w Ho Ev) as (f' & B1 & B2 & B3). exists f'. split; [exact B1|]. split; [now rewrite B2, Ev|exact B3].
Qed.
Lemma segmented_mu_run mu b e p m : sieving_primes p m e -> e - b <= length mu -> (b = 0 -> 1 <= e) -> exists mu', segmented_mu mu b e p m = Some mu' /\ segment b e mobius mu mu'.
Proof.
  intros (L & Hm & HP & HL) Hl H2. assert (Lm : length (primes_below L) = m) by (rewrite <- HP, firstn_length; lia). unfold segmented_mu.
  destruct (first_view b 0 0%Z mu b) as (q1 & E1 & L1 & V1); [lia|lia|]. rewrite E1. cbn [obind].
  set (b1 := if b =? 0 then b + 1 else b) in *. assert (Hb1 : b1 = Nat.max b 1) by (unfold b1; destruct (Nat.eqb_spec b 0); lia). clearbody b1.
  destruct (range_view (@nth_error Z) (fun _ _ w => w = Some 1%Z) (fun x mu => put b mu x 1%Z) b b1 e q1) as (q2 & E2 & V2); [lia| |].
  { intros j s1 A1 A2 Ev. destruct (nth_error q1 (j - b)) as [w|] eqn:Ew; [|apply nth_error_None in Ew; lia]. destruct (put_view b s1 j 1%Z w) as (l' & B1 & B2 & B3); [lia|exact Ev|]. exists l'. auto. }
  rewrite E2. cbn [obind].
  assert (LEN : forall l (F : nat -> Z), (forall x, nth_error l x = if (b1 <=? b + x) && (b + x <? e) then Some (F (b + x)) else nth_error q1 x) -> length l = length q1). { intros l F V. apply view_length. intros x. rewrite V. destruct (_ && _) eqn:B; [|reflexivity]. apply andb_prop in B as (_ & B). apply Nat.ltb_lt in B. split; [|discriminate]. intros X. apply nth_error_None in X. lia. }
  match goal with |- context [for_range 0 m ?bd _] => destruct (for_range_spec (fun i s => forall x, nth_error s x = if (b1 <=? b + x) && (b + x <? e) then Some (mv (firstn i (primes_below L)) (b + x)) else nth_error q1 x) bd 0 m q2) as (q3 & E3 & V3) end.
  - lia.
  - intros x. specialize (V2 x). destruct (_ && _); exact V2.
  - intros i s1 Hi V. destruct (nth_error (primes_below L) i) as [r|] eqn:Er; [|apply nth_error_None in Er; lia]. assert (Er' : nth_error p i = Some r) by (rewrite <- Er, <- HP; symmetry; apply firstn_nth; lia). rewrite Er'. cbn [obind].
    assert (Pr : is_prime r) by (apply nth_error_In in Er; now apply primes_below_in in Er). pose proof (prime_ge r Pr) as Hr2. rewrite (firstn_S _ _ _ Er). pose proof (LEN _ _ V) as Ls.
    destruct (multiple_nat_run r b1) as (s & Es & Ds & Bs); [lia|]. rewrite Es. cbn [obind].
    destruct (step_view (@nth_error Z) (fun _ v w => w = option_map (fun v => v * - Z.of_nat r)%Z v) (fun x mu => upd b mu x (fun v => v * - Z.of_nat r)%Z) b s e r s1) as (s2 & E & W); [lia|lia|intros j t A1 A2 A3 Ev; apply (upd_view b s1); lia || exact Ev|].
    rewrite E. cbn [obind]. assert (W' : forall x, nth_error s2 x = if (b1 <=? b + x) && (b + x <? e) then Some (if (b + x) mod r =? 0 then (mv (firstn i (primes_below L)) (b + x) * - Z.of_nat r)%Z else mv (firstn i (primes_below L)) (b + x)) else nth_error q1 x). { intros x. specialize (W x). rewrite (from_multiple b1 r s e) in W by (exact Ds || lia). rewrite V in W. destruct ((b1 <=? b + x) && (b + x <? e)); cbn [andb] in W; [|exact W]. destruct ((b + x) mod r =? 0); exact W. }
    assert (L2 : length s2 = length q1). { apply (LEN s2 (fun y => if y mod r =? 0 then (mv (firstn i (primes_below L)) y * - Z.of_nat r)%Z else mv (firstn i (primes_below L)) y)). exact W'. }
    assert (R2 : 0 < r * r) by nia. destruct (multiple_nat_run (r * r) b1 R2) as (s' & Es' & Ds' & Bs'). rewrite Es'. cbn [obind].
    destruct (step_view (@nth_error Z) (fun _ _ w => w = Some 0%Z) (fun x mu => put b mu x 0%Z) b s' e (r * r) s2) as (s3 & E' & W2); [lia|exact R2| |].
    { intros j t A1 A2 _ Ev. destruct (nth_error s2 (j - b)) as [w|] eqn:Ew; [|apply nth_error_None in Ew; lia]. destruct (put_view b t j 0%Z w) as (l' & B1 & B2 & B3); [lia|exact Ev|]. exists l'. auto. }
    exists s3. split; [exact E'|]. intros x. specialize (W2 x). rewrite (from_multiple b1 (r * r) s' e) in W2 by (exact Ds' || lia). rewrite W' in W2. rewrite mv_snoc. unfold mstep. cbv zeta. destruct ((b1 <=? b + x) && (b + x <? e)); cbn [andb] in W2; [|exact W2]. destruct ((b + x) mod (r * r) =? 0); rewrite W2; destruct ((b + x) mod r =? 0); reflexivity.
  - rewrite E3. cbn [obind]. rewrite firstn_all2 in V3 by lia. pose proof (LEN _ _ V3) as L3.
    destruct (range_view (@nth_error Z) (fun j v w => w = option_map (mcorr j) v) (fun x mu => upd b mu x (mcorr x)) b b1 e q3) as (q4 & E4 & V4); [lia|intros j t A1 A2 Ev; apply (upd_view b q3); lia || exact Ev|].
    unfold mcorr in E4 at 1. cbv zeta in E4. cbv zeta. rewrite E4. cbn [obind].
    assert (V4' : forall x, nth_error q4 x = if (b1 <=? b + x) && (b + x <? e) then Some (mcorr (b + x) (mv (primes_below L) (b + x))) else nth_error q1 x). { intros x. specialize (V4 x). rewrite V3 in V4. destruct (_ && _); exact V4. }
    pose proof (LEN q4 (fun y => mcorr y (mv (primes_below L) y)) V4') as L4.
    destruct (range_view (@nth_error Z) (fun j v w => w = option_map mnorm v) (fun x mu => upd b mu x mnorm) b b1 e q4) as (q5 & E5 & V5); [lia|intros j t A1 A2 Ev; apply (upd_view b q4); lia || exact Ev|].
    unfold mnorm in E5 at 1. cbv zeta in E5. rewrite E5. exists q5. split; [reflexivity|].
    assert (V : forall x, b + x < e -> nth_error q5 x = Some (mobius (b + x))). { intros x Hx. specialize (V5 x). rewrite V4' in V5. destruct (Nat.ltb_spec (b + x) e); [|lia]. destruct (Nat.leb_spec b1 (b + x)); cbn [andb option_map] in V5; rewrite V5. - rewrite mcorr_mfix by lia. f_equal. apply mv_mobius; lia. - rewrite V1. assert (Z : b + x = 0) by lia. rewrite Z. destruct (Nat.eqb_spec b 0); [|lia]. subst b. reflexivity. }
    assert (W : forall x, e <= b + x -> nth_error q5 x = nth_error mu x). { intros x Hx. specialize (V5 x). rewrite V4' in V5. destruct (Nat.ltb_spec (b + x) e); [lia|]. rewrite andb_false_r in *. rewrite V5, V1. destruct (Nat.eqb_spec b 0), (Nat.eqb_spec (b + x) b); cbn [andb]; try reflexivity; lia. }
    split; [|split].
    + apply view_length. intros x. destruct (le_lt_dec e (b + x)); [now rewrite W|]. rewrite V by lia. split; [|discriminate]. intros X. apply nth_error_None in X. lia.
    + intros x Hx. rewrite V by lia. do 2 f_equal. lia.
    + intros i Hi. apply W. lia.
Qed.
