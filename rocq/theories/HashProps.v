(** C48: polynomial and cumulative hashes (algorithm/hash/polynomial_hash.h). *)
From Verif Require Import Lib HashModel HashSpec HashProofs.
Local Open Scope Z_scope.

(** what a client can do with a cumulative_hash; [Grow n] is another object enlarging the shared tables *)
Inductive hop := Assign (xs : list Z) | Push (x : Z) | Pop | Grow (n : nat) | Get (b e : nat).
(** the reference: the sequence itself; a Get yields the selected slice. assign is only used on an empty object *)
Definition spec_step (s : list Z) (o : hop) : option (list Z * option (list Z)) :=
  match o with
  | Assign xs => match s with [] => Some (xs, None) | _ => None end
  | Push x => Some (s ++ [x], None)
  | Pop => match s with [] => None | _ => Some (removelast s, None) end
  | Grow _ => Some (s, None)
  | Get b e => if (b <=? e)%nat && (e <=? length s)%nat then Some (s, Some (slice s b e)) else None
  end.
Definition op_chars (o : hop) : Prop := match o with Assign xs => chars xs | Push x => 0 <= x < 2 ^ 31 | _ => True end.
Section Run.
  Context {S H : Type} (hzero : H) (ensure : S -> nat -> option S) (addi : S -> H -> Z -> nat -> option (S * H)) (sub_shr : S -> H -> H -> nat -> option (S * H)).
  Definition hash_step (st : S * list H) (o : hop) : option ((S * list H) * option H) :=
    let '(s, vh) := st in
    match o with
    | Assign xs => let* st := assign hzero ensure addi s vh xs in Some (st, None)
    | Push x => let* st := cpush hzero addi s vh x in Some (st, None)
    | Pop => let* vh := cpop vh in Some ((s, vh), None)
    | Grow n => let* s := ensure s n in Some ((s, vh), None)
    | Get b e => let* '(s, h) := cget hzero sub_shr s vh b e in Some ((s, vh), Some h)
    end.
End Run.
Fixpoint run {St Out} (step : St -> hop -> option (St * Out)) (s : St) (os : list hop) : option (St * list Out) :=
  match os with [] => Some (s, []) | o :: os => let* '(s, x) := step s o in let* '(s, xs) := run step s os in Some (s, x :: xs) end.

Section Generic.
  Context {S H : Type} (hzero : H) (ensure : S -> nat -> option S) (addi : S -> H -> Z -> nat -> option (S * H)) (sub_shr : S -> H -> H -> nat -> option (S * H)).
  Variables (ok : S -> Prop) (Hs : list Z -> H).
  Hypothesis H0 : Hs [] = hzero.
  Hypothesis Hens : forall s n, ok s -> exists s', ensure s n = Some s' /\ ok s'.
  Hypothesis Hadd : forall s p x, ok s -> 0 <= x < 2 ^ 31 -> exists s', addi s (Hs p) x (length p) = Some (s', Hs (p ++ [x])) /\ ok s'.
  Hypothesis Hsub : forall s p q, ok s -> exists s', sub_shr s (Hs (p ++ q)) (Hs p) (length p) = Some (s', Hs q) /\ ok s'.
  Lemma run_ok : forall os s vh p p' outs, ok s -> prefixes Hs vh p -> Forall op_chars os -> run spec_step p os = Some (p', outs) ->
    exists s' vh', run (hash_step hzero ensure addi sub_shr) (s, vh) os = Some ((s', vh'), map (option_map Hs) outs) /\ ok s' /\ length vh' = length p'.
  Proof.
    induction os as [|o os IH]; intros s vh p p' outs Os Hv Hc E.
    - cbn in E. injection E as <- <-. exists s, vh. split; [reflexivity|]. split; [exact Os|]. apply Hv.
    - pose proof (Forall_inv Hc) as Hc1. pose proof (Forall_inv_tail Hc) as Hc2. cbn [run] in *. destruct (spec_step p o) as [[p1 x]|] eqn:Eo; [|discriminate]. cbn [obind] in E. destruct (run spec_step p1 os) as [[p2 xs]|] eqn:Er; [|discriminate]. cbn [obind] in E. injection E as <- <-.
      assert (Q : exists s1 vh1, hash_step hzero ensure addi sub_shr (s, vh) o = Some ((s1, vh1), option_map Hs x) /\ ok s1 /\ prefixes Hs vh1 p1).
      { destruct o as [xs0|y| |n|b e]; cbn [spec_step hash_step op_chars] in *.
        - destruct p; [|discriminate]. injection Eo as <- <-. unfold assign. destruct (Hens s (length xs0) Os) as (s1 & E1 & O1). rewrite E1. cbn [obind]. rewrite <- H0.
          assert (vh = []) as -> by (destruct Hv as (L & _); destruct vh; [reflexivity|discriminate]).
          destruct (assign_ok addi ok Hs Hadd xs0 s1 [] [] O1 Hc1 (prefixes_nil Hs)) as (s2 & vh2 & E2 & O2 & P2). cbn [length app] in *. rewrite E2. cbn [obind]. exists s2, vh2. auto.
        - injection Eo as <- <-. destruct (push_ok hzero addi ok Hs H0 Hadd s vh p y Os Hc1 Hv) as (s1 & vh1 & E1 & O1 & P1). rewrite E1. cbn [obind]. exists s1, vh1. auto.
        - destruct p as [|p0 pr] eqn:Ep; [discriminate|]. rewrite <- Ep in *. injection Eo as <- <-. destruct (@exists_last _ p) as (q & z & Eq); [rewrite Ep; discriminate|]. rewrite Eq in Hv. destruct (pop_ok Hs vh q z Hv) as (vh1 & E1 & P1). rewrite E1. cbn [obind].
          exists s, vh1. rewrite Eq, removelast_last. auto.
        - injection Eo as <- <-. destruct (Hens s n Os) as (s1 & E1 & O1). rewrite E1. cbn [obind]. exists s1, vh. auto.
        - destruct ((b <=? e)%nat && (e <=? length p)%nat) eqn:G; [|discriminate]. injection Eo as <- <-. apply andb_prop in G. destruct G as (G1 & G2). apply Nat.leb_le in G1, G2.
          destruct (get_ok hzero sub_shr ok Hs H0 Hsub s vh p b e Os Hv (conj G1 G2)) as (s1 & E1 & O1). rewrite E1. cbn [obind]. exists s1, vh. auto. }
      destruct Q as (s1 & vh1 & E1 & O1 & P1). rewrite E1. cbn [obind]. destruct (IH s1 vh1 p1 p2 xs O1 P1 Hc2 Er) as (s2 & vh2 & E2 & O2 & L2). rewrite E2. cbn [obind]. exists s2, vh2. auto.
  Qed.
End Generic.

(** polynomial_hash1: every history of a cumulative_hash, with arbitrary valid shared tables at the start *)
Theorem C48_cumulative1 : forall M B BI t os s outs, params M B BI -> tables M B BI t -> Forall op_chars os -> run spec_step [] os = Some (s, outs) ->
  exists st, run (hash_step 0 (ensure_1 M B BI) (addp_1 M B BI) (sub_shr_1 M B BI)) (t, []) os = Some (st, map (option_map (fun q => hval B q mod M)) outs) /\ length (snd st) = length s.
Proof.
  intros M B BI t os s outs HP Ht Hc E.
  destruct (run_ok 0 (ensure_1 M B BI) (addp_1 M B BI) (sub_shr_1 M B BI) (tables M B BI) (H1 M B)) with (os := os) (s := t) (vh := @nil Z) (p := @nil Z) (p' := s) (outs := outs) as (t' & vh' & E' & _ & L'); try assumption.
  - reflexivity.
  - intros s0 n Hs. destruct (ensure_1_ok M B BI s0 n HP Hs) as (t' & E1 & T1 & _). exists t'. auto.
  - intros s0 p x. apply addp_1_ok. exact HP.
  - intros s0 p q. apply sub_shr_1_ok. exact HP.
  - apply prefixes_nil.
  - exists (t', vh'). split; [exact E'|exact L'].
Qed.
Print Assumptions C48_cumulative1.

(** polynomial_hash<K>: the same for K moduli; the result is the list of the K residues *)
Theorem C48_cumulativeK : forall ps t os s outs, okps ps -> oktabs ps t -> Forall op_chars os -> run spec_step [] os = Some (s, outs) ->
  exists st, run (hash_step (zero_k ps) (ensure_k ps) (fun t h x pos => addp_k ps t h (repeat x (length ps)) pos) (sub_shr_k ps)) (t, []) os =
    Some (st, map (option_map (fun q => map (fun '(m, b, _) => hval b q mod m) ps)) outs) /\ length (snd st) = length s.
Proof.
  intros ps t os s outs HP Ht Hc E.
  destruct (run_ok (zero_k ps) (ensure_k ps) (fun t h x pos => addp_k ps t h (repeat x (length ps)) pos) (sub_shr_k ps) (oktabs ps) (Hk ps)) with (os := os) (s := t) (vh := @nil (list Z)) (p := @nil Z) (p' := s) (outs := outs) as (t' & vh' & E' & _ & L'); try assumption.
  - unfold Hk, zero_k, K. clear. induction ps as [|[[m b] bi] ps IH]; [reflexivity|]. cbn [map length repeat]. apply f_equal2; [destruct m; reflexivity|exact IH].
  - intros s0 n Hs. destruct (ensure_k_ok ps HP s0 n Hs) as (t' & E1 & T1 & _). exists t'. auto.
  - intros s0 p x. apply addp_k_ok. exact HP.
  - intros s0 p q. apply sub_shr_k_ok. exact HP.
  - apply prefixes_nil.
  - exists (t', vh'). split; [exact E'|exact L'].
Qed.
Print Assumptions C48_cumulativeK.

(** operators act as arithmetic modulo M; shifting by B^c is undone by the opposite shift *)
Theorem C48_operators : forall M B BI t h r c, params M B BI -> tables M B BI t -> 0 <= h < M -> 0 <= r < M ->
  mul_1 M h r = Some ((h * r) mod M) /\ add_1 M h r = Some ((h + r) mod M) /\ sub_1 M h r = Some ((h - r) mod M) /\
  (exists t', shl_1 M B BI t h c = Some (t', (h * B ^ Z.of_nat c) mod M) /\ tables M B BI t' /\ exists t'', shr_1 M B BI t' ((h * B ^ Z.of_nat c) mod M) c = Some (t'', h)) /\
  (exists t', shr_1 M B BI t h c = Some (t', (h * BI ^ Z.of_nat c) mod M) /\ tables M B BI t' /\ exists t'', shl_1 M B BI t' ((h * BI ^ Z.of_nat c) mod M) c = Some (t'', h)).
Proof.
  intros M B BI t h r c HP Ht Hh Hr. assert (HM : 2 <= M <= 2 ^ 30) by apply HP. assert (Hb : forall x, 0 <= x < M -> 0 <= x < 2 ^ 31) by (intros; lia).
  assert (SL : forall t x, tables M B BI t -> 0 <= x < M -> exists t', shl_1 M B BI t x c = Some (t', (x * B ^ Z.of_nat c) mod M) /\ tables M B BI t').
  { intros t0 x T0 Hx. unfold shl_1. destruct (ensure_1_ok M B BI t0 (c + 1) HP T0) as (t' & E & T' & L'). rewrite E. cbn [obind]. rewrite (proj1 T') by lia. cbn [obind]. rewrite hmul_ok; [|auto|apply (pow_bound M B BI HP)|exact HM]. cbn [obind].
    exists t'. split; [|exact T']. rewrite Z.mul_mod_idemp_r by lia. reflexivity. }
  assert (SR : forall t x, tables M B BI t -> 0 <= x < M -> exists t', shr_1 M B BI t x c = Some (t', (x * BI ^ Z.of_nat c) mod M) /\ tables M B BI t').
  { intros t0 x T0 Hx. unfold shr_1. destruct (ensure_1_ok M B BI t0 (c + 1) HP T0) as (t' & E & T' & L'). rewrite E. cbn [obind]. rewrite (proj1 (proj2 T')) by (rewrite (proj2 (proj2 T')); lia). cbn [obind]. rewrite hmul_ok; [|auto|apply (pow_bound M B BI HP)|exact HM]. cbn [obind].
    exists t'. split; [|exact T']. rewrite Z.mul_mod_idemp_r by lia. reflexivity. }
  pose proof (pow_inv M B BI c HP) as I.
  assert (I1 : ((h * B ^ Z.of_nat c) mod M * BI ^ Z.of_nat c) mod M = h). { rewrite Z.mul_mod_idemp_l by lia. rewrite <- Z.mul_assoc, <- Z.mul_mod_idemp_r, I, Z.mul_1_r by lia. apply Z.mod_small. lia. }
  assert (I2 : ((h * BI ^ Z.of_nat c) mod M * B ^ Z.of_nat c) mod M = h). { rewrite Z.mul_mod_idemp_l by lia. rewrite <- Z.mul_assoc, (Z.mul_comm (BI ^ _)), <- Z.mul_mod_idemp_r, I, Z.mul_1_r by lia. apply Z.mod_small. lia. }
  split; [apply hmul_ok; auto|]. split; [apply hadd2_ok; auto|]. split; [apply hsub2_ok; auto|]. split.
  - destruct (SL t h Ht Hh) as (t' & E & T'). exists t'. split; [exact E|]. split; [exact T'|]. destruct (SR t' ((h * B ^ Z.of_nat c) mod M) T') as (t'' & E' & _); [apply Z.mod_pos_bound; lia|]. rewrite I1 in E'. exists t''. exact E'.
  - destruct (SR t h Ht Hh) as (t' & E & T'). exists t'. split; [exact E|]. split; [exact T'|]. destruct (SL t' ((h * BI ^ Z.of_nat c) mod M) T') as (t'' & E' & _); [apply Z.mod_pos_bound; lia|]. rewrite I2 in E'. exists t''. exact E'.
Qed.
Print Assumptions C48_operators.

(** == and < on K-component hashes: equality of all components and a strict total order *)
Theorem C48_compare : forall h r q : list Z, length r = length h -> length q = length h ->
  (eq_k h r = true <-> h = r) /\ lt_k h h = false /\ (lt_k h r = true -> lt_k r q = true -> lt_k h q = true) /\ (eq_k h r = false -> lt_k h r = negb (lt_k r h)).
Proof.
  induction h as [|x h IH]; intros [|y r] [|z q] L1 L2; try discriminate; cbn [eq_k lt_k]; [repeat split; discriminate|]. cbn in L1, L2. destruct (IH r q) as (I1 & I2 & I3 & I4); [lia|lia|].
  split; [|split; [|split]].
  - destruct (Z.eqb_spec x y) as [->|N]; [rewrite I1; split; congruence|]. split; [discriminate|congruence].
  - rewrite Z.eqb_refl. exact I2.
  - destruct (Z.eqb_spec x y) as [->|N].
    + destruct (Z.eqb_spec y z) as [->|]; [exact I3|auto].
    + intros A. apply Z.ltb_lt in A. destruct (Z.eqb_spec y z) as [->|]; intros B.
      * destruct (Z.eqb_spec x z); [congruence|]. apply Z.ltb_lt. exact A.
      * apply Z.ltb_lt in B. destruct (Z.eqb_spec x z); [lia|]. apply Z.ltb_lt. lia.
  - rewrite (Z.eqb_sym y x). destruct (Z.eqb_spec x y); [exact I4|]. intros _. destruct (Z.ltb_spec x y), (Z.ltb_spec y x); try reflexivity; lia.
Qed.
Print Assumptions C48_compare.
(** < compares the first component that differs *)
Theorem C48_less : forall h r : list Z, length r = length h ->
  (lt_k h r = true <-> exists k x y, nth_error h k = Some x /\ nth_error r k = Some y /\ x < y /\ firstn k h = firstn k r).
Proof.
  induction h as [|a h IH]; intros [|b r] L; try discriminate; cbn [lt_k].
  - split; [discriminate|]. intros (k & x & y & E & _). destruct k; discriminate.
  - cbn in L. destruct (Z.eqb_spec a b) as [->|N].
    + rewrite (IH r) by lia. split; intros (k & x & y & E1 & E2 & H & F).
      * exists (S k), x, y. split; [exact E1|]. split; [exact E2|]. split; [exact H|]. cbn. now rewrite F.
      * destruct k as [|k]; [cbn in E1, E2; injection E1 as <-; injection E2 as <-; lia|]. exists k, x, y. cbn in F. injection F as F. repeat split; assumption.
    + rewrite Z.ltb_lt. split.
      * intros H. exists 0%nat, a, b. repeat split; auto.
      * intros (k & x & y & E1 & E2 & H & F). destruct k as [|k]; [cbn in E1, E2; injection E1 as <-; injection E2 as <-; lia|]. cbn in F. injection F as F1 F2. contradiction.
Qed.
Print Assumptions C48_less.

(** outside the proved range: a legal int32 modulus above 2^30 overflows, negative characters give different hashes
    for equal substrings, and assign on a non-empty object appends instead of replacing *)
Theorem C48_overflow_refuted : let M := 2 ^ 31 - 1 in (3 * 1431655765) mod M = 1 /\ sub_1 M 1 0 = None /\ sub_shr_1 M 3 1431655765 ([1], [1]) 1 0 0 = None.
Proof. vm_compute. auto. Qed.
Theorem C48_negative_refuted : params 7 3 5 /\
  option_map snd (run (hash_step 0 (ensure_1 7 3 5) (addp_1 7 3 5) (sub_shr_1 7 3 5)) (([], []), []) [Push (-1); Push (-1); Get 0 1; Get 1 2]) = Some [None; None; Some (-1); Some 6].
Proof. split; [repeat split; cbn; lia|vm_compute; reflexivity]. Qed.
Theorem C48_assign_refuted :
  option_map snd (run (hash_step 0 (ensure_1 7 3 5) (addp_1 7 3 5) (sub_shr_1 7 3 5)) (([], []), []) [Assign [1; 2]; Assign [3]; Get 0 1]) = Some [None; None; Some 1].
Proof. vm_compute. reflexivity. Qed.
Print Assumptions C48_negative_refuted.

Example C48_case : params 1000003 31 193549 /\ params 7 3 5 /\ tables 7 3 5 ([1; 3; 2], [1; 5; 4]) /\ okps [(7, 3, 5); (11, 2, 6)] /\ oktabs [(7, 3, 5); (11, 2, 6)] [([], []); ([], [])] /\
  run spec_step [] [Assign [4; 1; 4; 1]; Push 4; Get 0 2; Get 2 4; Pop; Grow 10; Get 1 4] = Some ([4; 1; 4; 1], [None; None; Some [4; 1]; Some [4; 1]; None; None; Some [1; 4; 1]]) /\
  option_map snd (run (hash_step 0 (ensure_1 7 3 5) (addp_1 7 3 5) (sub_shr_1 7 3 5)) (([1; 3; 2], [1; 5; 4]), []) [Assign [4; 1; 4; 1]; Push 4; Get 0 2; Get 2 4; Pop; Grow 10; Get 1 4]) = Some [None; None; Some 0; Some 0; None; None; Some 1].
Proof.
  assert (P7 : params 7 3 5) by (repeat split; cbn; lia). assert (P11 : params 11 2 6) by (repeat split; cbn; lia).
  split; [repeat split; cbn; lia|]. split; [exact P7|]. split; [split; [|split; [|reflexivity]]; intros [|[|[|i]]] Hi; cbn in Hi; try reflexivity; lia|].
  split; [split; [discriminate|]; intros m b bi [H|[H|[]]]; injection H as <- <- <-; assumption|].
  split; [|split; [reflexivity|vm_compute; reflexivity]].
  split; [reflexivity|]. exists 0%nat. intros [|[|k]] m b bi Hk; cbn in Hk.
  - injection Hk as <- <- <-. exists ([], []). split; [reflexivity|]. split; [|reflexivity]. split; [|split; [|reflexivity]]; intros i Hi; cbn in Hi; lia.
  - injection Hk as <- <- <-. exists ([], []). split; [reflexivity|]. split; [|reflexivity]. split; [|split; [|reflexivity]]; intros i Hi; cbn in Hi; lia.
  - destruct k; discriminate.
Qed.
