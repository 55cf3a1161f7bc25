From Verif Require Import Lib BaseModel BaseProofs PellModel.
Open Scope Z_scope.

Lemma least (p : nat -> bool) : forall n, p n = true -> exists m, (m <= n)%nat /\ p m = true /\ forall k, (k < m)%nat -> p k = false.
Proof.
  induction n as [n IH] using (well_founded_induction lt_wf). intros H.
  destruct (existsb p (seq 0 n)) eqn:E.
  - apply existsb_exists in E as (k & I & Hk). apply in_seq in I. destruct (IH k ltac:(lia) Hk) as (m & L & Hm & M). exists m. split; [lia|auto].
  - exists n. split; [lia|]. split; [exact H|]. intros k L. destruct (p k) eqn:K; [|reflexivity]. exfalso. assert (T : existsb p (seq 0 n) = true) by (apply existsb_exists; exists k; split; [apply in_seq; lia|exact K]). congruence.
Qed.

Section Gen.
  Variables (D s P0 Q0 : Z).
  (** the sequences of the expansion *)
  Definition aof (x : Z * Z) : Z := let '(P, Q) := x in (P + (if Q <? 0 then s + 1 else s)) / Q.
  Definition next (x : Z * Z) : Z * Z := let '(P, Q) := x in let P' := aof x * Q - P in (P', Z.quot (D - P' * P') Q).
  Fixpoint pq (n : nat) : Z * Z := match n with O => (P0, Q0) | S n => next (pq n) end.
  Definition Pn n := fst (pq n).
  Definition Qn n := snd (pq n).
  Definition an n := aof (pq n).
  (** the last two terms before step n *)
  Fixpoint cv (x : Z * Z) (n : nat) : Z * Z := match n with O => x | S n => let '(x2, x1) := cv x n in (x1, an n * x1 + x2) end.
  Definition An n := snd (cv (0, 1) n).
  Definition Bn n := snd (cv (1, 0) n).
  Definition Gn n := snd (cv (- P0, Q0) n).
  Definition trace (n : nat) : vectors :=
    V (map Pn (seq 0 (S n))) (map Qn (seq 0 (S n))) (map an (seq 0 n)) (map (fun k => An (S k)) (seq 0 n)) (map (fun k => Bn (S k)) (seq 0 n)) (map (fun k => Gn (S k)) (seq 0 n)).
  Lemma cv_fst x n : fst (cv x (S n)) = snd (cv x n).
  Proof. cbn [cv]. now destruct (cv x n). Qed.
  Lemma cv_snd x n : snd (cv x (S n)) = an n * snd (cv x n) + fst (cv x n).
  Proof. cbn [cv]. now destruct (cv x n). Qed.
  Lemma nth_map_seq (f : nat -> Z) n k : (k < n)%nat -> nth_error (map f (seq 0 n)) k = Some (f k).
  Proof. intros H. rewrite nth_error_map. rewrite (nth_error_nth' _ O) by (rewrite seq_length; lia). rewrite seq_nth by lia. reflexivity. Qed.
  Lemma map_seq_S (f : nat -> Z) n : map f (seq 0 n) ++ [f n] = map f (seq 0 (S n)).
  Proof. rewrite seq_S, map_app. reflexivity. Qed.
  Lemma trace_S n : V (vP (trace n) ++ [Pn (S n)]) (vQ (trace n) ++ [Qn (S n)]) (va (trace n) ++ [an n]) (vA (trace n) ++ [An (S n)]) (vB (trace n) ++ [Bn (S n)]) (vG (trace n) ++ [Gn (S n)]) = trace (S n).
  Proof. unfold trace. cbn [vP vQ va vA vB vG]. rewrite (map_seq_S Pn (S n)), (map_seq_S Qn (S n)), (map_seq_S an n), (map_seq_S (fun k => An (S k))), (map_seq_S (fun k => Bn (S k))), (map_seq_S (fun k => Gn (S k))). reflexivity. Qed.

  (** the state of the loop before round n *)
  Definition lstate (n i0 : nat) := (n, i0, Pn n, Qn n, cv (0, 1) n, cv (1, 0) n, cv (- P0, Q0) n, trace n).
  Definition i0_next (n i0 : nat) : nat := if (i0 =? 0)%nat && reducedb D (Pn n) (Qn n) then n else i0.
  Definition stop (n i0 : nat) : bool := negb (i0 =? 0)%nat && (i0 <? n)%nat && ((Pn n =? Pn i0) && (Qn n =? Qn i0)).
  Lemma body_run n i0 : Qn n <> 0 -> (i0 <= n)%nat -> PQa_body D s (lstate n i0) =
    let j := i0_next (S n) i0 in if stop (S n) j then Some (inr ((S n - j)%nat, trace (S n))) else Some (inl (lstate (S n) j)).
  Proof.
    intros HQ Hi. unfold PQa_body, lstate. destruct (cv (0, 1) n) as [A2 A1] eqn:EA, (cv (1, 0) n) as [B2 B1] eqn:EB, (cv (- P0, Q0) n) as [G2 G1] eqn:EG.
    assert (N1 : nth_error (vP (trace n)) n = Some (Pn n)) by (apply nth_map_seq; lia). assert (N2 : nth_error (vQ (trace n)) n = Some (Qn n)) by (apply nth_map_seq; lia). rewrite N1, N2. cbn [obind]. rewrite div_floor_run by exact HQ. cbn [obind].
    assert (Ea : (Pn n + (if Qn n <? 0 then s + 1 else s)) / Qn n = an n) by (unfold an, aof, Pn, Qn; destruct (pq n); reflexivity). rewrite Ea. replace (n + 1)%nat with (S n) by lia.
    assert (EP : an n * Qn n - Pn n = Pn (S n)) by (unfold Pn at 2, Qn, an; cbn [pq]; unfold next, Pn; destruct (pq n); reflexivity). rewrite EP.
    assert (EQ : cdiv (D - Pn (S n) * Pn (S n)) (Qn n) = Some (Qn (S n))). { unfold cdiv. destruct (Z.eqb_spec (Qn n) 0); [contradiction|]. f_equal. rewrite <- EP. unfold an, Pn, Qn. cbn [pq]. unfold next. destruct (pq n) as [p q]. reflexivity. } rewrite EQ. cbn [obind].
    assert (FA : an n * A1 + A2 = An (S n)) by (unfold An; rewrite cv_snd, EA; reflexivity). assert (FB : an n * B1 + B2 = Bn (S n)) by (unfold Bn; rewrite cv_snd, EB; reflexivity). assert (FG : an n * G1 + G2 = Gn (S n)) by (unfold Gn; rewrite cv_snd, EG; reflexivity). rewrite FA, FB, FG, trace_S.
    fold (i0_next (S n) i0). set (j := i0_next (S n) i0). assert (Hj : (j <= S n)%nat) by (unfold j, i0_next; destruct (_ && _); lia). cbv zeta. unfold stop.
    assert (L : lstate (S n) j = (S n, j, Pn (S n), Qn (S n), (A1, An (S n)), (B1, Bn (S n)), (G1, Gn (S n)), trace (S n))). { unfold lstate, An, Bn, Gn. pose proof (cv_fst (0, 1) n) as X1. pose proof (cv_fst (1, 0) n) as X2. pose proof (cv_fst (- P0, Q0) n) as X3. rewrite EA in X1. rewrite EB in X2. rewrite EG in X3. destruct (cv (0, 1) (S n)), (cv (1, 0) (S n)), (cv (- P0, Q0) (S n)). cbn [fst snd] in *. congruence. }
    unfold lstate in L. rewrite L. destruct (negb (j =? 0)%nat && (j <? S n)%nat) eqn:C; cbn [andb]; [|reflexivity].
    assert (M1 : nth_error (vP (trace (S n))) (S n) = Some (Pn (S n))) by (apply nth_map_seq; lia). assert (M2 : nth_error (vQ (trace (S n))) (S n) = Some (Qn (S n))) by (apply nth_map_seq; lia). assert (M3 : nth_error (vP (trace (S n))) j = Some (Pn j)) by (apply nth_map_seq; lia). assert (M4 : nth_error (vQ (trace (S n))) j = Some (Qn j)) by (apply nth_map_seq; lia). rewrite M1, M2, M3, M4. cbn [obind]. destruct (_ && _); reflexivity.
  Qed.
  (** r is the first reduced state after the start, l the length of the period *)
  Hypothesis Q_nz : forall n, Qn n <> 0.
  Variables (r l : nat).
  Hypothesis r_pos : (1 <= r)%nat.
  Hypothesis r_red : reducedb D (Pn r) (Qn r) = true.
  Hypothesis r_least : forall n, (1 <= n < r)%nat -> reducedb D (Pn n) (Qn n) = false.
  Hypothesis l_pos : (1 <= l)%nat.
  Hypothesis l_per : pq (r + l) = pq r.
  Hypothesis l_least : forall n, (1 <= n < l)%nat -> pq (r + n) <> pq r.
  Lemma per n : pq (r + l + n) = pq (r + n).
  Proof using l_per. clear - l_per. induction n as [|n IH]; [now rewrite !Nat.add_0_r|]. rewrite !Nat.add_succ_r. cbn [pq]. now rewrite IH. Qed.
  Lemma per_mul k n : pq (r + k * l + n) = pq (r + n).
  Proof using l_per. clear - l_per. induction k as [|k IH]; [now rewrite Nat.add_0_r|]. replace (r + S k * l + n)%nat with (r + l + (k * l + n))%nat by lia. rewrite per. rewrite <- IH. f_equal. lia. Qed.
  Lemma pq_eqb i j : (Pn i =? Pn j) && (Qn i =? Qn j) = true <-> pq i = pq j.
  Proof. rewrite andb_true_iff, !Z.eqb_eq. unfold Pn, Qn. destruct (pq i), (pq j). cbn [fst snd]. split; [intros (-> & ->); reflexivity|intros [= -> ->]; auto]. Qed.

  Lemma first_call qr : qr D = s -> Z.of_nat (r + l) < 4 * (D + Z.abs P0 + Z.abs Q0) + 16 -> pell_PQa qr D (start P0 Q0) = Some (l, trace (r + l)).
  Proof.
    intros Hs Hf. unfold pell_PQa. rewrite Hs. cbn [start va vP vQ vA vB vG length nth_error obind last2 Nat.leb].
    change (0%nat, 0%nat, P0, Q0, (0, 1), (1, 0), (- P0, Q0), start P0 Q0) with (lstate 0 0).
    destruct (loopZ_spec (PQa_body D s) (fun st => exists n, (n < r + l)%nat /\ st = lstate n (if (n <? r)%nat then O else r)) (fun res => res = (l, trace (r + l))) (fun '(i, _, _, _, _, _, _, _) => Z.of_nat (r + l - i))) with (fuel := 4 * (D + Z.abs P0 + Z.abs Q0) + 16) (s := lstate 0 0) as (res & E & ->); [| | | |exact E].
    - intros st (n & Hn & ->). rewrite body_run; [|apply Q_nz|destruct (Nat.ltb_spec n r); lia]. cbv zeta.
      assert (J : i0_next (S n) (if (n <? r)%nat then O else r) = if (S n <? r)%nat then O else r).
      { unfold i0_next. destruct (Nat.ltb_spec n r) as [L|L]; cbn [Nat.eqb andb].
        - destruct (Nat.ltb_spec (S n) r) as [L'|L']; [rewrite r_least by lia; reflexivity|]. replace (S n) with r by lia. rewrite r_red. reflexivity.
        - destruct (Nat.ltb_spec (S n) r); [lia|]. destruct (Nat.eqb_spec r 0); [lia|reflexivity]. }
      rewrite J. destruct (stop (S n) (if (S n <? r)%nat then 0%nat else r)) eqn:C; eexists; (split; [reflexivity|]).
      + unfold stop in C. destruct (Nat.ltb_spec (S n) r) as [L|L]; [discriminate|]. apply andb_prop in C as (C1 & C2). apply andb_prop in C1 as (_ & C1). apply Nat.ltb_lt in C1. apply pq_eqb in C2. assert (S n = (r + l)%nat). { destruct (Nat.eq_dec (S n) (r + l)); [assumption|]. exfalso. apply (l_least (S n - r)); [lia|]. rewrite <- C2. f_equal. lia. } rewrite H. f_equal. lia.
      + assert (NE : S n <> (r + l)%nat). { intros E. unfold stop in C. rewrite E in C. destruct (Nat.ltb_spec (r + l) r); [lia|]. destruct (Nat.eqb_spec r 0); [lia|]. destruct (Nat.ltb_spec r (r + l)); [|lia]. cbn [negb andb] in C. assert (T : (Pn (r + l) =? Pn r) && (Qn (r + l) =? Qn r) = true) by (apply pq_eqb; exact l_per). congruence. }
        split; [exists (S n); split; [lia|reflexivity]|]. unfold lstate. lia.
    - intros st (n & Hn & ->). unfold lstate. lia.
    - exists O. split; [lia|]. destruct (Nat.ltb_spec 0 r); [reflexivity|lia].
    - unfold lstate. lia.
  Qed.
  Lemma second_call qr k : qr D = s -> (1 <= k)%nat -> Z.of_nat l < 4 * D + 16 -> pell_PQa qr D (trace (r + k * l)) = Some (l, trace (r + (k + 1) * l)).
  Proof.
    intros Hs Hk Hf. set (e := (r + k * l)%nat). assert (He : (2 <= e)%nat) by (unfold e; nia). unfold pell_PQa. rewrite Hs.
    assert (L : length (va (trace e)) = e) by (unfold trace; cbn [va]; rewrite map_length, seq_length; reflexivity). rewrite L.
    assert (N1 : nth_error (vP (trace e)) e = Some (Pn e)) by (apply nth_map_seq; lia). assert (N2 : nth_error (vQ (trace e)) e = Some (Qn e)) by (apply nth_map_seq; lia). rewrite N1, N2. cbn [obind].
    assert (L2 : forall x d2 d1, last2 (map (fun k => snd (cv x (S k))) (seq 0 e)) e d2 d1 = Some (cv x e)).
    { intros x d2 d1. unfold last2. destruct (Nat.leb_spec 2 e); [|lia]. rewrite !nth_map_seq by lia. cbn [obind]. f_equal. replace (S (e - 1)) with e by lia. replace (S (e - 2)) with (e - 1)%nat by lia. rewrite <- cv_fst. replace (S (e - 1)) with e by lia. now destruct (cv x e). }
    unfold trace at 1 2 3. cbn [vA vB vG]. unfold An, Bn, Gn. rewrite !L2. cbn [obind].
    change (e, e, Pn e, Qn e, cv (0, 1) e, cv (1, 0) e, cv (- P0, Q0) e, trace e) with (lstate e e).
    destruct (loopZ_spec (PQa_body D s) (fun st => exists n, (n < l)%nat /\ st = lstate (e + n) e) (fun res => res = (l, trace (e + l))) (fun '(i, _, _, _, _, _, _, _) => Z.of_nat (e + l - i))) with (fuel := 4 * (D + Z.abs (Pn e) + Z.abs (Qn e)) + 16) (s := lstate e e) as (res & E & ->); [| | | |rewrite E; f_equal; f_equal; unfold e; f_equal; lia].
    - intros st (n & Hn & ->). rewrite body_run; [|apply Q_nz|lia]. cbv zeta.
      assert (J : i0_next (S (e + n)) e = e). { unfold i0_next. destruct (Nat.eqb_spec e 0); [lia|reflexivity]. } rewrite J.
      assert (PE : pq (S (e + n)) = pq (r + S n) /\ pq e = pq r). { split; [rewrite <- (per_mul k (S n)); f_equal; unfold e; lia|]. pose proof (per_mul k 0) as X. rewrite !Nat.add_0_r in X. exact X. } destruct PE as (PE1 & PE2).
      destruct (stop (S (e + n)) e) eqn:C; eexists; (split; [reflexivity|]).
      + unfold stop in C. apply andb_prop in C as (_ & C2). apply pq_eqb in C2. rewrite PE1, PE2 in C2. assert (S n = l) by (destruct (Nat.eq_dec (S n) l); [assumption|]; exfalso; apply (l_least (S n)); [lia|exact C2]). rewrite <- Nat.add_succ_r, H. f_equal. lia.
      + assert (NE : S n <> l). { intros E. unfold stop in C. destruct (Nat.eqb_spec e 0); [lia|]. destruct (Nat.ltb_spec e (S (e + n))); [|lia]. cbn [negb andb] in C. assert (T : (Pn (S (e + n)) =? Pn e) && (Qn (S (e + n)) =? Qn e) = true) by (apply pq_eqb; rewrite PE1, PE2, E; exact l_per). congruence. }
        split; [exists (S n); split; [lia|]; rewrite Nat.add_succ_r; reflexivity|]. unfold lstate. lia.
    - intros st (n & Hn & ->). unfold lstate. lia.
    - exists O. split; [lia|]. now rewrite Nat.add_0_r.
    - unfold lstate. lia.
  Qed.
End Gen.
