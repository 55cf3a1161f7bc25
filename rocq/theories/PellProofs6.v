From Coq Require Import Sorted.
From Verif Require Import Lib BaseModel BaseProofs TripleSpec PellModel PellSpec PellProofs PellProofs2 PellProofs3 PellProofs4 PellProofs5.
Open Scope Z_scope.

Section Lists.
  Variable root : Z -> Z.
  Hypothesis RT : square_root root.
  Variable D : Z.
  Hypothesis ND : nonsquare D.
  Let s := root D.
  Let Hs : 1 <= s := proj1 (root_facts root D RT ND).
  Let HD : s * s < D < (s + 1) * (s + 1) := proj2 (root_facts root D RT ND).

  (** all solutions for N = 1 and N = -1 within limits *)
  Lemma pow_props N b : N = 1 \/ N = -1 -> least_solution D N b -> forall k, (1 <= k)%nat -> positive (qpow D b k).
  Proof. intros HN (P & S & _) k Hk. induction k as [|k IH]; [lia|]. destruct (Nat.eq_dec k 0) as [->|]; [now rewrite qpow_1|]. cbn [qpow]. apply positive_mul; [apply ND|exact P|apply IH; lia]. Qed.
  Lemma pow_less N b : N = 1 \/ N = -1 -> least_solution D N b -> forall j k, (1 <= j < k)%nat -> smaller (qpow D b j) (qpow D b k).
  Proof. intros HN L j k H. replace k with (j + (k - j))%nat by lia. rewrite qpow_add. apply positive_mul; [apply ND|apply (pow_props N b HN L); lia|apply (pow_props N b HN L); lia]. Qed.
  Definition ex (N : Z) (k : nat) : nat := if N =? -1 then (2 * k + 1)%nat else (k + 1)%nat.
  Lemma map_seq_sorted (f : nat -> Z * Z) : (forall j k, (j < k)%nat -> smaller (f j) (f k)) -> forall n a, StronglySorted smaller (map f (seq a n)).
  Proof. intros H. induction n as [|n IH]; intros a; cbn [seq map]; constructor; [apply IH|]. apply Forall_forall. intros x I. apply in_map_iff in I as (k & <- & I). apply in_seq in I. apply H. lia. Qed.
  Lemma pell1_list_ok fuel N x_max y_max count : N = 1 \/ N = -1 -> (0 < x_max < fuel \/ 0 < y_max < fuel \/ 0 < count < fuel) -> exists vs, pell1_list root fuel D N x_max y_max count = Some vs /\
    StronglySorted smaller vs /\ (forall t, In t vs -> positive t /\ solution D N t /\ (0 < x_max -> fst t <= x_max) /\ (0 < y_max -> snd t <= y_max)) /\ (0 < count -> Z.of_nat (length vs) <= count) /\
    forall t, positive t -> solution D N t -> (0 < x_max -> fst t <= x_max) -> (0 < y_max -> snd t <= y_max) -> In t vs \/ (0 < count /\ Z.of_nat (length vs) = count /\ forall u, In u vs -> smaller u t).
  Proof.
    intros HN HF. unfold pell1_list. destruct (pell1_sound root RT D ND N HN) as [(l & x & y & E & L1 & LS & ALL)|(E & -> & NO)].
    2:{ rewrite E. cbn [obind]. exists []. split; [reflexivity|]. split; [constructor|]. split; [intros t []|]. split; [cbn; lia|]. intros [a b] _ S. exfalso. apply (NO a b S). }
    rewrite E. cbn [obind]. destruct (Nat.eqb_spec l 0); [lia|]. set (b := (x, y)) in *. set (f := fun k => qpow D b (ex N k)).
    assert (F1 : forall k, pmul D (f k) (if N =? -1 then pmul D b b else b) = f (S k)). { intros k. unfold f, ex. rewrite pmul_qmul. destruct (N =? -1). - rewrite pmul_qmul. replace (2 * S k + 1)%nat with (2 * k + 1 + 2)%nat by lia. rewrite (qpow_add D b (2 * k + 1) 2). f_equal. cbn [qpow]. now rewrite qmul_1. - replace (S k + 1)%nat with (k + 1 + 1)%nat by lia. rewrite (qpow_add D b (k + 1) 1). f_equal. now rewrite qpow_1. }
    assert (F0 : f 0%nat = b) by (unfold f, ex; destruct (N =? -1); apply qpow_1). assert (FL : forall j k, (j < k)%nat -> smaller (f j) (f k)) by (intros j k H; apply (pow_less N b HN LS); unfold ex; destruct (N =? -1); lia).
    assert (FA : forall t, (positive t /\ solution D N t) <-> exists k, t = f k). { intros t. rewrite ALL. unfold f, ex, admissible. split. - intros (k & (K1 & K2) & ->). destruct (Z.eqb_spec N (-1)) as [EN|]; [exists (k / 2)%nat|exists (k - 1)%nat; f_equal; lia]. specialize (K2 EN). pose proof (Nat.div_mod_eq k 2). f_equal. lia. - intros (k & ->). destruct (Z.eqb_spec N (-1)) as [EN|]; [exists (2 * k + 1)%nat|exists (k + 1)%nat]; (split; [|reflexivity]); (split; [lia|]); [|lia]. intros _. replace (2 * k + 1)%nat with (1 + k * 2)%nat by lia. rewrite Nat.mod_add by lia. reflexivity. }
    assert (FG : forall k, Z.of_nat k + 1 <= fst (f k) /\ Z.of_nat k + 1 <= snd (f k)). { induction k as [|k IH]; [rewrite F0; destruct LS as ((A & B) & _); lia|]. pose proof (FL k (S k) ltac:(lia)) as (A & B). lia. }
    cbv zeta.
    match goal with |- exists vs, ?e = Some vs /\ _ => assert (R : exists vs, e = Some vs /\ exists k, vs = map f (seq 0 k) /\ (forall j, (j < k)%nat -> (0 < x_max -> fst (f j) <= x_max) /\ (0 < y_max -> snd (f j) <= y_max)) /\ (0 < count -> Z.of_nat k <= count) /\ ((0 < x_max /\ x_max < fst (f k)) \/ (0 < y_max /\ y_max < snd (f k)) \/ (0 < count /\ count = Z.of_nat k))) end.
    { eapply loopZ_spec with (Inv := fun '(t, vs) => exists k, t = f k /\ vs = map f (seq 0 k) /\ (forall j, (j < k)%nat -> (0 < x_max -> fst (f j) <= x_max) /\ (0 < y_max -> snd (f j) <= y_max)) /\ (0 < count -> Z.of_nat k <= count) /\ Z.of_nat k <= fuel - 1) (m := fun '(_, vs) => fuel - 1 - Z.of_nat (length vs)).
      - intros [t vs] (k & -> & -> & H1 & H2 & H3). rewrite map_length, seq_length. pose proof (FG k) as (G1 & G2). destruct (Z.ltb_spec 0 x_max); [destruct (Z.ltb_spec x_max (fst (f k)))|]; cbn [andb].
        + eexists. split; [reflexivity|]. exists k. repeat split; try assumption; try apply H1; try assumption. left. lia.
        + destruct (Z.ltb_spec 0 y_max); [destruct (Z.ltb_spec y_max (snd (f k)))|]; cbn [andb].
          * eexists. split; [reflexivity|]. exists k. repeat split; try assumption; try apply H1; try assumption. right; left. lia.
          * destruct (Z.ltb_spec 0 count); [destruct (Z.leb_spec count (Z.of_nat k))|]; cbn [andb].
            -- eexists. split; [reflexivity|]. exists k. repeat split; try assumption; try apply H1; try assumption. right; right. lia.
            -- eexists. split; [reflexivity|]. split; [|rewrite app_length, map_length, seq_length; cbn [length]; lia]. exists (S k). rewrite F1, seq_S, map_app. cbn [map Nat.add]. split; [reflexivity|]. split; [reflexivity|]. split; [|split; lia]. intros j Hj. destruct (Nat.eq_dec j k) as [->|]; [lia|apply H1; lia].
            -- eexists. split; [reflexivity|]. split; [|rewrite app_length, map_length, seq_length; cbn [length]; lia]. exists (S k). rewrite F1, seq_S, map_app. cbn [map Nat.add]. split; [reflexivity|]. split; [reflexivity|]. split; [|split; lia]. intros j Hj. destruct (Nat.eq_dec j k) as [->|]; [lia|apply H1; lia].
          * destruct (Z.ltb_spec 0 count); [destruct (Z.leb_spec count (Z.of_nat k))|]; cbn [andb].
            -- eexists. split; [reflexivity|]. exists k. repeat split; try assumption; try apply H1; try assumption. right; right. lia.
            -- eexists. split; [reflexivity|]. split; [|rewrite app_length, map_length, seq_length; cbn [length]; lia]. exists (S k). rewrite F1, seq_S, map_app. cbn [map Nat.add]. split; [reflexivity|]. split; [reflexivity|]. split; [|split; lia]. intros j Hj. destruct (Nat.eq_dec j k) as [->|]; [lia|apply H1; lia].
            -- eexists. split; [reflexivity|]. split; [|rewrite app_length, map_length, seq_length; cbn [length]; lia]. exists (S k). rewrite F1, seq_S, map_app. cbn [map Nat.add]. split; [reflexivity|]. split; [reflexivity|]. split; [|split; lia]. intros j Hj. destruct (Nat.eq_dec j k) as [->|]; [lia|apply H1; lia].
        + destruct (Z.ltb_spec 0 y_max); [destruct (Z.ltb_spec y_max (snd (f k)))|]; cbn [andb].
          * eexists. split; [reflexivity|]. exists k. repeat split; try assumption; try apply H1; try assumption. right; left. lia.
          * destruct (Z.ltb_spec 0 count); [destruct (Z.leb_spec count (Z.of_nat k))|]; cbn [andb].
            -- eexists. split; [reflexivity|]. exists k. repeat split; try assumption; try apply H1; try assumption. right; right. lia.
            -- eexists. split; [reflexivity|]. split; [|rewrite app_length, map_length, seq_length; cbn [length]; lia]. exists (S k). rewrite F1, seq_S, map_app. cbn [map Nat.add]. split; [reflexivity|]. split; [reflexivity|]. split; [|split; lia]. intros j Hj. destruct (Nat.eq_dec j k) as [->|]; [lia|apply H1; lia].
            -- eexists. split; [reflexivity|]. split; [|rewrite app_length, map_length, seq_length; cbn [length]; lia]. exists (S k). rewrite F1, seq_S, map_app. cbn [map Nat.add]. split; [reflexivity|]. split; [reflexivity|]. split; [|split; lia]. intros j Hj. destruct (Nat.eq_dec j k) as [->|]; [lia|apply H1; lia].
          * destruct (Z.ltb_spec 0 count); [destruct (Z.leb_spec count (Z.of_nat k))|lia]; cbn [andb].
            -- eexists. split; [reflexivity|]. exists k. repeat split; try assumption; try apply H1; try assumption. right; right. lia.
            -- eexists. split; [reflexivity|]. split; [|rewrite app_length, map_length, seq_length; cbn [length]; lia]. exists (S k). rewrite F1, seq_S, map_app. cbn [map Nat.add]. split; [reflexivity|]. split; [reflexivity|]. split; [|split; lia]. intros j Hj. destruct (Nat.eq_dec j k) as [->|]; [lia|apply H1; lia].
      - intros [t vs] (k & -> & -> & _ & _ & H). rewrite map_length, seq_length. lia.
      - exists 0%nat. split; [now rewrite F0|]. split; [reflexivity|]. split; [lia|]. split; [lia|]. destruct HF as [|[|]]; lia.
      - cbn [length]. lia. }
    destruct R as (vs & R & k & -> & R1 & R2 & R3). exists (map f (seq 0 k)). split; [exact R|]. split; [now apply map_seq_sorted|]. split.
    - intros t I. apply in_map_iff in I as (j & <- & I). apply in_seq in I. destruct (proj2 (FA (f j)) ltac:(now exists j)) as (P & S). split; [exact P|]. split; [exact S|]. apply R1. lia.
    - rewrite map_length, seq_length. split; [exact R2|]. intros t P S X Y. destruct (proj1 (FA t) (conj P S)) as (j & ->). destruct (Nat.lt_ge_cases j k) as [L|L]; [left; apply in_map, in_seq; lia|right].
      assert (M : fst (f k) <= fst (f j) /\ snd (f k) <= snd (f j)). { destruct (Nat.eq_dec k j) as [->|]; [lia|]. pose proof (FL k j ltac:(lia)) as (A & B). lia. } destruct R3 as [R3|[R3|R3]]; [lia|lia|]. split; [lia|]. split; [lia|]. intros u I. apply in_map_iff in I as (i & <- & I). apply in_seq in I. apply FL. lia.
  Qed.
End Lists.
