From Coq Require Import Ring Ring_theory.
From Verif Require Import Lib BaseModel BaseProofs RangesModel RingSpec RingProofs.
Local Open Scope nat_scope.

Section RangesProofs.
  Context {T : Type} (zero id : T) (add mul sub div : T -> T -> T) (neg : T -> T) (eqb : T -> T -> bool) (cast : Z -> T).
  Hypothesis Rth : ring_theory zero id add mul sub neg (@eq T).
  Add Ring Tr : Rth.
  Local Notation rnat := (rnat zero id add). Local Notation rfact := (rfact zero id add mul). Local Notation rpow := (rpow id mul).
  Local Notation rsum := (rsum zero add).

  Lemma range_loop_spec n step : forall v i, i < n -> nth_error (range_loop add n v step) i = Some (add v (mul (rnat i) step)).
  Proof using Rth.
    induction n as [|n IH]; intros v i Hi; [lia|]. cbn [range_loop]. destruct i as [|i]; cbn [nth_error].
    - f_equal. cbn [RingSpec.rnat]. ring.
    - rewrite IH by lia. f_equal. cbn [RingSpec.rnat]. ring.
  Qed.
  Lemma range_loop_length n step : forall v, length (range_loop add n v step) = n.
  Proof. induction n as [|n IH]; intros v; cbn [range_loop length]; auto. Qed.
  Lemma powers_loop_spec n base : forall v i, i < n -> nth_error (powers_loop mul n v base) i = Some (mul v (rpow base i)).
  Proof using Rth.
    induction n as [|n IH]; intros v i Hi; [lia|]. cbn [powers_loop]. destruct i as [|i]; cbn [nth_error].
    - f_equal. cbn [RingSpec.rpow]. ring.
    - rewrite IH by lia. f_equal. cbn [RingSpec.rpow]. ring.
  Qed.
  Lemma powers_loop_length n base : forall v, length (powers_loop mul n v base) = n.
  Proof. induction n as [|n IH]; intros v; cbn [powers_loop length]; auto. Qed.
  Lemma rfact_S n : rfact (S n) = mul (rfact n) (rnat (S n)). Proof. reflexivity. Qed.
  Lemma factorials_loop_spec n : forall k i, i < n -> nth_error (factorials_loop id add mul n (rfact k) (rnat (S k))) i = Some (rfact (k + i)).
  Proof using Rth.
    induction n as [|n IH]; intros k i Hi; [lia|]. cbn [factorials_loop]. destruct i as [|i]; cbn [nth_error].
    - now rewrite Nat.add_0_r.
    - change (add (rnat (S k)) id) with (rnat (S (S k))). rewrite <- rfact_S, IH by lia. f_equal. f_equal. lia.
  Qed.
  Lemma factorials_loop_length n : forall v i, length (factorials_loop id add mul n v i) = n.
  Proof. induction n as [|n IH]; intros v i; cbn [factorials_loop length]; auto. Qed.

  Lemma inv_up_spec : forall fuel k n, n <= fuel + k -> 
    inv_factorials_up id add mul fuel k n (rnat k) (rfact k) = (rnat (Nat.max k (n - 1)), rfact (Nat.max k (n - 1))).
  Proof.
    induction fuel as [|fuel IH]; intros k n Hf; cbn [inv_factorials_up]; [now replace (Nat.max k (n - 1)) with k by lia|].
    destruct (Nat.ltb_spec (S k) n) as [L|L]; [|now replace (Nat.max k (n - 1)) with k by lia].
    change (add (rnat k) id) with (rnat (S k)). rewrite <- rfact_S, IH by lia. now replace (Nat.max (S k) (n - 1)) with (Nat.max k (n - 1)) by lia.
  Qed.
  Lemma inv_down_spec : forall n m c acc, c = n + m -> 
    (* ifact * (n-1+..)! = 1 *)
    forall ifact, (0 < n -> mul ifact (rfact (n - 1)) = id) -> m = length acc ->
    (forall i, i < m -> exists x, nth_error acc i = Some x /\ mul x (rfact (n + i)) = id) ->
    length (inv_factorials_down id mul sub n ifact (rnat (n - 1)) acc) = c /\
    forall i, i < c -> exists x, nth_error (inv_factorials_down id mul sub n ifact (rnat (n - 1)) acc) i = Some x /\ mul x (rfact i) = id.
  Proof using Rth.
    induction n as [|n IH]; intros m c acc -> ifact Hf Hm Ha; cbn [inv_factorials_down].
    - split; [lia|]. exact Ha.
    - destruct n as [|n].
      + cbn [inv_factorials_down]. split; [cbn [length]; lia|]. intros [|i] Hi; cbn [nth_error]; [exists ifact; split; [reflexivity|apply Hf; lia]|].
        destruct (Ha i ltac:(lia)) as (x & E & X). exists x. split; [exact E|exact X].
      + replace (sub (rnat (S (S n) - 1)) id) with (rnat (S n - 1)).
        * apply (IH (S m)); [lia| |cbn [length]; lia|].
          -- intros _. replace (S (S n) - 1) with (S n) in * by lia. specialize (Hf ltac:(lia)). rewrite rfact_S in Hf.
             replace (S n - 1) with n by lia. etransitivity; [|exact Hf]; ring.
          -- intros [|i] Hi; cbn [nth_error].
             ++ exists ifact. split; [reflexivity|]. specialize (Hf ltac:(lia)). now replace (S n + 0) with (S (S n) - 1) by lia.
             ++ destruct (Ha i ltac:(lia)) as (x & E & X). exists x. split; [exact E|]. now replace (S n + S i) with (S (S n) + i) by lia.
        * replace (S (S n) - 1) with (S n) by lia. replace (S n - 1) with n by lia. rewrite rnat_S. ring.
  Qed.
  Lemma inv_factorials_spec n k : (forall j, cast (Z.of_nat j) = rnat j) -> (Nat.max 1 k < n \/ (n = 1 /\ k <= 1)) ->
    mul (div id (rfact (n - 1))) (rfact (n - 1)) = id ->
    length (inv_factorials id add mul sub div cast n (rfact k) k) = n /\
    forall i, i < n -> exists x, nth_error (inv_factorials id add mul sub div cast n (rfact k) k) i = Some x /\ mul x (rfact i) = id.
  Proof using Rth.
    intros Hc Hn Hd. unfold inv_factorials. cbv zeta.
    set (k' := if k =? 0 then 1 else k). assert (Hk' : 1 <= k' /\ (k' < n \/ (n = 1 /\ k' = 1)) /\ rfact k' = rfact k).
    { unfold k'. destruct (Nat.eqb_spec k 0) as [->|N]; [|split; [lia|split; [lia|reflexivity]]]. split; [lia|]. split; [lia|].
      unfold RingSpec.rfact. cbn. ring. }
    destruct Hk' as (H1 & H2 & H3). rewrite Hc, <- H3, inv_up_spec by lia. clearbody k'.
    destruct (Nat.eq_dec n 1) as [->|N1].
    - replace (Nat.max k' (1 - 1)) with 1 by lia. cbn [inv_factorials_down length]. split; [reflexivity|]. intros i Hi. assert (i = 0) by lia. subst i.
      exists (div id (rfact 1)). split; [reflexivity|]. etransitivity; [|exact Hd]. cbn [Nat.sub]. assert (E1 : rfact 1 = rfact 0) by (unfold RingSpec.rfact; cbn; ring). now rewrite E1.
    - replace (Nat.max k' (n - 1)) with (n - 1) by lia. apply (inv_down_spec n 0 n []); auto; try lia; intros; lia.
  Qed.

  Lemma inverses_loop_spec v : forall k, (forall i x, nth_error v i = Some x -> mul x (rfact (S (k + i))) = id) ->
    length (inverses_loop id add mul v (rfact k) (rnat (S k))) = length v /\
    forall i, i < length v -> exists x, nth_error (inverses_loop id add mul v (rfact k) (rnat (S k))) i = Some x /\ mul x (rnat (S (k + i))) = id.
  Proof using Rth.
    induction v as [|y v IH]; intros k Hv; cbn [inverses_loop length]; [split; [reflexivity|intros; lia]|].
    change (add (rnat (S k)) id) with (rnat (S (S k))). rewrite <- rfact_S.
    destruct (IH (S k)) as [L1 L2]. { intros i x E. replace (S k + i) with (k + S i) by lia. now apply Hv. }
    split; [lia|]. intros [|i] Hi; cbn [nth_error].
    - exists (mul y (rfact k)). split; [reflexivity|]. specialize (Hv 0 y eq_refl). rewrite Nat.add_0_r in *. rewrite rfact_S in Hv. etransitivity; [|exact Hv]; ring.
    - destruct (L2 i ltac:(lia)) as (x & E & X). exists x. split; [exact E|]. now replace (k + S i) with (S k + i) by lia.
  Qed.
  Lemma inverses_spec n : (forall j, cast (Z.of_nat j) = rnat j) -> 0 < n -> mul (div id (rfact (n - 1))) (rfact (n - 1)) = id ->
    exists v, inverses zero id add mul sub div cast n = Some v /\ length v = n /\ nth_error v 0 = Some zero /\
      forall i, 0 < i < n -> exists x, nth_error v i = Some x /\ mul x (rnat i) = id.
  Proof using Rth.
    intros Hc Hn Hd. unfold inverses. destruct (inv_factorials_spec n 1 Hc ltac:(lia) Hd) as [L H].
    replace (rfact 1) with id in * by (unfold RingSpec.rfact; cbn; ring).
    destruct (inv_factorials id add mul sub div cast n id 1) as [|y v] eqn:E; [cbn in L; lia|]. cbn [inverses_from_ifact]. eexists. split; [reflexivity|].
    cbn [length] in *. assert (id = rfact 0) by reflexivity. assert (id = rnat 1) by (cbn; ring).
    destruct (inverses_loop_spec v 0) as [L1 L2].
    { intros i x Ex. destruct (H (S i)) as (x' & E' & X); [pose proof (nth_error_some v i); assert (i < length v) by (apply nth_error_Some; congruence); lia|].
      cbn [nth_error] in E'. rewrite Ex in E'. injection E' as <-. exact X. }
    rewrite <- H0 in L1, L2. rewrite <- H1 in L1, L2. split; [lia|]. split; [reflexivity|]. intros [|i] Hi; [lia|]. cbn [nth_error]. apply L2. lia.
  Qed.

  (** invert_field *)
  Lemma cumulative_length v : forall p, length (cumulative mul p v) = length v.
  Proof. induction v as [|x v IH]; intros p; cbn [cumulative length]; auto. Qed.
  Lemma last_d (q d d' : T) l : last (q :: l) d = last (q :: l) d'.
  Proof. revert q. induction l as [|a l IHl]; intros; [reflexivity|]. cbn [last] in *. apply IHl. Qed.
  Lemma cumulative_snoc v : forall p x, cumulative mul p (v ++ [x]) = cumulative mul p v ++ [mul x (last (p :: cumulative mul p v) p)].
  Proof.
    induction v as [|y v IH]; intros p x; [reflexivity|]. cbn [app cumulative]. rewrite IH. cbn [app]. f_equal. f_equal. f_equal.
    change (last (p :: mul y p :: cumulative mul (mul y p) v) p) with (last (mul y p :: cumulative mul (mul y p) v) p).
    f_equal. apply last_d.
  Qed.
  (** [p] inverts the product of everything still to be visited *)
  Lemma invert_field_loop_spec x : forall r p acc, mul p (last (x :: cumulative mul x r) zero) = id ->
    exists w, invert_field_loop mul (rev (x :: r)) (rev (removelast (x :: cumulative mul x r))) p acc = Some (w ++ acc) /\
      Forall2 (fun a b => mul b a = id) (x :: r) w.
  Proof using Rth.
    intros r. induction r as [|y r IH] using rev_ind; intros p acc Hp.
    - cbn in *. exists [p]. split; [reflexivity|]. repeat constructor. exact Hp.
    - rewrite cumulative_snoc in *. set (q := last (x :: cumulative mul x r) x) in *.
      rewrite app_comm_cons, last_last in Hp. rewrite (app_comm_cons _ [mul y q] x), removelast_last.
      rewrite (app_comm_cons r [y] x), rev_unit.
      destruct (exists_last (l := x :: cumulative mul x r)) as (vp & z & Ez); [discriminate|].
      assert (Eq : q = z) by (unfold q; rewrite Ez; apply last_last).
      rewrite Ez, rev_unit.
      destruct (IH (mul p y) (mul p z :: acc)) as (w & E & F).
      { rewrite (last_d _ zero x). fold q. etransitivity; [|exact Hp]; ring. }
      rewrite Ez, removelast_last in E.
      assert (HE : invert_field_loop mul (y :: rev (x :: r)) (z :: rev vp) p acc = invert_field_loop mul (rev (x :: r)) (rev vp) (mul p y) (mul p z :: acc)).
      { cbn [rev invert_field_loop]. destruct (rev r ++ [x]); reflexivity. }
      rewrite HE, E. exists (w ++ [mul p z]). split; [now rewrite <- app_assoc|].
      change (x :: r ++ [y]) with ((x :: r) ++ [y]). apply Forall2_app; [exact F|]. repeat constructor. rewrite Eq in Hp. etransitivity; [|exact Hp]; ring.
  Qed.

  Lemma alternate_spec v : forall i x, nth_error v i = Some x -> nth_error (alternate neg v) i = Some (if Nat.even i then x else neg x).
  Proof.
    unfold alternate.
    assert (G : forall v i x, nth_error v i = Some x -> nth_error (alternate_loop neg 1 v) i = Some (if Nat.even i then x else neg x) /\
                                                      nth_error (alternate_loop neg (-1) v) i = Some (if Nat.even i then neg x else x)).
    { induction v0 as [|y w IH]; intros [|i] x E; try discriminate; cbn [nth_error alternate_loop] in *.
      - injection E as ->. split; reflexivity.
      - destruct (IH i x E) as [A B]. rewrite Nat.even_succ, <- Nat.negb_even. change (- (1))%Z with (-1)%Z. change (- -1)%Z with 1%Z. rewrite A, B.
        destruct (Nat.even i); split; reflexivity. }
    intros i x E. now apply G.
  Qed.
  Lemma accumulate_loop_spec v : forall p i, i < length v -> nth_error (accumulate_loop add p v) i = Some (add p (rsum (S i) (fun j => nth j v zero))).
  Proof using Rth.
    induction v as [|x v IH]; intros p i Hi; cbn [length] in Hi; [lia|]. cbn [accumulate_loop]. destruct i as [|i]; cbn [nth_error].
    - f_equal. cbn. ring.
    - rewrite IH by lia. f_equal. rewrite (rsum_S_l _ _ _ _ _ _ Rth (S i)). cbn [nth]. ring.
  Qed.
  Lemma accumulate_loop_length v : forall p, length (accumulate_loop add p v) = length v.
  Proof. induction v as [|x v IH]; intros p; cbn [accumulate_loop length]; auto. Qed.
  Lemma accumulate_spec v i : i < length v -> nth_error (accumulate add v) i = Some (rsum (S i) (fun j => nth j v zero)).
  Proof using Rth.
    destruct v as [|x v]; cbn [length]; [lia|]. intros Hi. cbn [accumulate]. destruct i as [|i]; cbn [nth_error].
    - f_equal. cbn. ring.
    - rewrite accumulate_loop_spec by lia. f_equal. rewrite (rsum_S_l _ _ _ _ _ _ Rth (S i)). reflexivity.
  Qed.
  Lemma differentiate_loop_spec : forall it v, it < length v \/ (it = 0) -> exists w, differentiate_loop sub it v = Some w /\ length w = length v /\
    (forall i, it < i -> nth_error w i = nth_error v i) /\ nth_error w 0 = nth_error v 0 /\
    (forall i, 0 < i <= it -> exists x y, nth_error v i = Some x /\ nth_error v (i - 1) = Some y /\ nth_error w i = Some (sub x y)).
  Proof.
    induction it as [|it IH]; intros v Hv; cbn [differentiate_loop].
    - exists v. split; [reflexivity|]. repeat split; auto. intros; lia.
    - assert (Hv' : S it < length v) by lia. unfold differentiate_step.
      destruct (nth_error_some v (S it) Hv') as (x & Ex). destruct (nth_error_some v it ltac:(lia)) as (y & Ey).
      rewrite Ex. cbn [obind]. replace (S it - 1) with it by lia. rewrite Ey. cbn [obind].
      destruct (set_nth_some v (S it) (sub x y) Hv') as (v1 & E1). rewrite E1. cbn [obind].
      pose proof (set_nth_length _ _ _ _ E1) as L1. destruct (IH v1 ltac:(lia)) as (w & Ew & Lw & W1 & W0 & W2).
      assert (G : forall i, nth_error v1 i = if S it =? i then Some (sub x y) else nth_error v i).
      { intros i. exact (set_nth_get _ _ _ _ i E1). }
      exists w. split; [exact Ew|]. split; [lia|]. split; [|split].
      + intros i Hi. rewrite W1, G by lia. destruct (Nat.eqb_spec (S it) i); [lia|reflexivity].
      + rewrite W0, G. reflexivity.
      + intros i Hi. destruct (Nat.eq_dec i (S it)) as [->|N].
        * exists x, y. split; [exact Ex|]. replace (S it - 1) with it by lia. split; [exact Ey|]. rewrite W1, G by lia. now rewrite Nat.eqb_refl.
        * destruct (W2 i ltac:(lia)) as (a & b & A & B & C). exists a, b. rewrite G in A, B.
          destruct (Nat.eqb_spec (S it) i); [lia|]. destruct (Nat.eqb_spec (S it) (i - 1)); [lia|]. auto.
  Qed.

  Lemma factorial_spec n : (forall j, cast (Z.of_nat j) = rnat j) -> factorial id mul cast (Z.of_nat n) = rfact n.
  Proof using Rth.
    intros Hc. unfold factorial. replace (Z.to_nat (Z.of_nat n - 1)) with (n - 1) by lia. destruct n as [|n]; [reflexivity|]. replace (S n - 1) with n by lia.
    induction n as [|n IH].
    - cbn. unfold RingSpec.rfact. cbn. ring.
    - rewrite seq_S, fold_left_app, IH. cbn [fold_left]. rewrite Hc. reflexivity.
  Qed.
End RangesProofs.
