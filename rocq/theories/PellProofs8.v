From Verif Require Import Lib BaseModel BaseProofs PrimesSpec DivisorsModel DivisorsProofs DivisorsProps TripleSpec PellModel PellSpec PellProofs PellProofs2 PellProofs3 PellProofs4 PellProofs5.
Open Scope Z_scope.

Section General.
  Variable root : Z -> Z.
  Hypothesis RT : square_root root.
  Variable D : Z.
  Hypothesis ND : nonsquare D.
  Let s := root D.
  Let Hs : 1 <= s := proj1 (root_facts root D RT ND).
  Let HD : s * s < D < (s + 1) * (s + 1) := proj2 (root_facts root D RT ND).
  Lemma under x : under_root D x <-> x <= s.
  Proof.
    unfold under_root. split.
    - intros [H|H]; [lia|]. apply (PellProofs2.below D s Hs HD) in H. lia.
    - intros H. destruct (Z_lt_le_dec x 0); [now left|right]. apply (PellProofs2.below D s Hs HD). lia.
  Qed.
  Section Start.
    Variables P0 Q0 : Z.
    Hypothesis G0 : good D (P0, Q0).
    Notation pq := (pq D s P0 Q0).
    Notation Pn := (Pn D s P0 Q0).
    Notation Qn := (Qn D s P0 Q0).
    Notation an := (an D s P0 Q0).
    Notation cv := (cv D s P0 Q0).
    Notation trace := (trace D s P0 Q0).
    Lemma calls : exists r l, (1 <= r)%nat /\ (1 <= l)%nat /\ red s (pq r) /\ pq (r + l) = pq r /\ (forall n, (1 <= n < l)%nat -> pq (r + n) <> pq r) /\
      pell_PQa root D (start P0 Q0) = Some (l, trace (r + l)) /\ forall k, (1 <= k)%nat -> pell_PQa root D (trace (r + k * l)) = Some (l, trace (r + (k + 1) * l)).
    Proof.
      destruct (first_red D s Hs HD P0 Q0 G0) as (r & l & R1 & R2 & R3 & L1 & L2 & L3 & B1 & B2). exists r, l. destruct (fuel_ok D s HD P0 Q0 r l B1 B2) as (F1 & F2). assert (NZ : forall n, PellProofs.Qn D s P0 Q0 n <> 0) by (intros n; now apply Qn_nz). split; [exact R1|]. split; [exact L1|]. split; [apply (reducedb_ok D s Hs HD) in R2; unfold PellProofs.Pn, PellProofs.Qn in R2; rewrite <- surjective_pairing in R2; exact R2|]. split; [exact L2|]. split; [exact L3|]. split.
      - apply first_call; auto.
      - intros k Hk. apply second_call; auto.
    Qed.
    Lemma expansion_ok : expansion D Pn Qn an.
    Proof.
      intros i. pose proof (step D s Hs HD P0 Q0 G0 i) as (E1 & E2). pose proof (Qn_nz D s Hs HD P0 Q0 G0 i) as NZ. split; [exact NZ|]. split; [|split; [exact E1|exact E2]]. unfold integer_part. rewrite !under. destruct (Z_lt_le_dec 0 (Qn i)) as [L|L].
      - left. pose proof (aof_pos s (Pn i) (Qn i) L) as A. unfold PellProofs.an. unfold PellProofs.Pn, PellProofs.Qn in *. rewrite <- surjective_pairing in A. split; [exact L|]. lia.
      - right. pose proof (aof_neg s (Pn i) (Qn i) ltac:(lia)) as A. unfold PellProofs.an. unfold PellProofs.Pn, PellProofs.Qn in *. rewrite <- surjective_pairing in A. split; [lia|]. lia.
    Qed.
    Lemma recurrence_ok x2 x1 : recurrence an x2 x1 (fun i => snd (cv (x2, x1) (S i))).
    Proof. unfold recurrence. split; [|split]; [rewrite cv_eq; reflexivity|rewrite (cv_eq D s P0 Q0 _ 1), (cv_eq D s P0 Q0 _ 0); cbn [fst snd]; reflexivity|]. intros i. rewrite (cv_eq D s P0 Q0 _ (S (S i))), (cv_eq D s P0 Q0 _ (S i)). cbn [fst snd]. reflexivity. Qed.
    Lemma any_period r l i l' : red s (pq r) -> (1 <= l)%nat -> pq (r + l) = pq r -> (forall n, (1 <= n < l)%nat -> pq (r + n) <> pq r) -> (1 <= l')%nat -> pq (i + l') = pq i -> (l <= l')%nat.
    Proof.
      intros R L1 L2 L3 L' E. destruct (Nat.le_gt_cases l l') as [|G]; [assumption|exfalso]. apply (L3 l' ltac:(lia)). apply (back D s Hs HD P0 Q0 G0 r l' i R). replace (r + l' + i)%nat with (i + l' + r)%nat by lia. replace (r + i)%nat with (i + r)%nat by lia. clear - E. induction r as [|r IH]; [now rewrite !Nat.add_0_r|]. rewrite !Nat.add_succ_r. cbn [PellProofs.pq]. now rewrite IH.
    Qed.
    Lemma value n : solution D (sg n * Qn n * Q0) (snd (cv (- P0, Q0) n), snd (cv (1, 0) n)).
    Proof. pose proof (idents D s Hs HD P0 Q0 G0 n) as I. unfold solution. destruct (cv (- P0, Q0) n), (cv (1, 0) n). cbn [fst snd]. apply I. Qed.
    Lemma per_after r l : pq (r + l) = pq r -> forall i, (r <= i)%nat -> pq (i + l) = pq i.
    Proof. intros E i H. replace i with (r + (i - r))%nat by lia. replace (r + (i - r) + l)%nat with (r + l + (i - r))%nat by lia. now apply per. Qed.
  End Start.

  Lemma find_unit_ok Q : (1 <= length Q)%nat -> exists i, find_unit Q = Some i /\ (1 <= i)%nat.
  Proof.
    intros HQ. unfold find_unit. apply loopZ_spec with (Post := fun i => (1 <= i)%nat) (Inv := fun i => (1 <= i <= length Q)%nat) (m := fun i => Z.of_nat (length Q) - Z.of_nat i).
    - intros i Hi. destruct (Nat.ltb_spec i (length Q)) as [L|L]; [|exists (inr i); split; [reflexivity|cbv beta iota; lia]]. destruct (nth_error Q i) as [q|] eqn:E; [|apply nth_error_None in E; lia]. cbn [obind]. destruct (_ && _); eexists; (split; [reflexivity|]); cbv beta iota; lia.
    - intros i Hi. lia.
    - lia.
    - lia.
  Qed.
  Lemma pell_mz_ok m z : m <> 0 -> (m | z * z - D) -> exists r, pell_mz root D m z = Some r /\ match r with Some (l, x, y) => (1 <= l)%nat /\ solution D m (x, y) | None => True end.
  Proof.
    intros Hm Hz. unfold pell_mz. set (mm := Z.abs m). set (ms := if m <? 0 then -1 else 1). set (zh := if z <=? Z.quot mm 2 then z else z - mm). assert (EM : m = ms * mm) by (unfold ms, mm; destruct (Z.ltb_spec m 0); lia).
    assert (G : good D (zh, mm)). { split; [lia|]. assert (Dm : (mm | z * z - D)) by (apply Z.divide_abs_l; exact Hz). destruct Dm as [c Hc]. unfold zh. destruct (_ <=? _); [exists (- c); lia|exists (- c + 2 * z - mm); lia]. }
    destruct (calls zh mm G) as (r & l & R1 & L1 & _ & _ & _ & C1 & C2). rewrite C1. cbn [obind]. set (T := fun n => trace D s zh mm n) in *. assert (LQ : forall n, length (vQ (T n)) = S n) by (intros n; unfold T, trace; cbn [vQ]; now rewrite map_length, seq_length).
    fold (T (r + l)%nat). destruct (find_unit_ok (vQ (T (r + l)%nat))) as (i & Fi & I1); [rewrite LQ; lia|]. rewrite Fi. cbn [obind]. rewrite LQ. destruct (Nat.leb_spec (S (r + l)) i) as [|Hi]; [eexists; split; [reflexivity|exact Logic.I]|].
    assert (QT : forall n k, (k <= n)%nat -> nth_error (vQ (T n)) k = Some (Qn D s zh mm k)) by (intros n k Hk; unfold T, trace; cbn [vQ]; now rewrite nth_map_seq by lia).
    assert (FIN : forall n k, (1 <= k <= n)%nat -> exists r0, (let* q := nth_error (vQ (T n)) k in if negb (q =? (if (k mod 2 =? 1)%nat then - ms else ms)) then Some None else let* x0 := nth_error (vG (T n)) (k - 1) in let* y0 := nth_error (vB (T n)) (k - 1) in Some (Some (l, x0, y0))) = Some r0 /\ match r0 with Some (l, x, y) => (1 <= l)%nat /\ solution D m (x, y) | None => True end).
    { intros n k Hk. rewrite QT by lia. cbn [obind]. destruct (Z.eqb_spec (Qn D s zh mm k) (if (k mod 2 =? 1)%nat then - ms else ms)) as [E|]; [|eexists; split; [reflexivity|exact Logic.I]]. cbn [negb]. unfold T, trace. cbn [vG vB]. rewrite !nth_map_seq by lia. cbn [obind]. eexists. split; [reflexivity|]. split; [exact L1|]. replace (S (k - 1)) with k by lia. pose proof (value zh mm G k) as V. rewrite E in V. unfold Gn, Bn. replace m with (sg k * (if (k mod 2 =? 1)%nat then - ms else ms) * mm); [exact V|]. rewrite sg_odd. destruct (_ =? _)%nat; lia. }
    rewrite QT by lia. cbn [obind]. destruct (negb _).
    - replace (r + l)%nat with (r + 1 * l)%nat by lia. unfold T at 1. rewrite C2 by lia. cbn [obind]. apply (FIN (r + 2 * l)%nat (i + l)%nat). lia.
    - cbn [obind]. apply (FIN (r + l)%nat i). lia.
  Qed.
  Lemma fN2_ok n fN : factorisation n fN -> let fN2 := flat_map (fun '(p, e) => if (2 <=? e)%nat then [(p, e / 2)%nat] else []) fN in factorisation (product fN2) fN2 /\ Nat.divide (product fN2 * product fN2) n.
  Proof.
    revert n. induction fN as [|[p e] fN IH]; intros n F; cbv zeta; [destruct F as (<- & _); split; [split; [reflexivity|split; [constructor|intros p e []]]|now exists 1%nat]|].
    assert (F' : factorisation (product fN) fN) by (destruct F as (_ & F2 & F3); split; [reflexivity|]; split; [now inversion F2|intros; apply F3; now right]). specialize (IH _ F'). cbv zeta in IH. destruct F as (F1 & F2 & F3). cbn [product fold_right] in F1. fold (product fN) in F1. set (g := flat_map _ fN) in *. destruct IH as ((_ & I1 & I2) & I3).
    assert (Gi : forall q d, In (q, d) g -> In q (map fst fN)). { intros q d I. apply in_flat_map in I as ([q' d'] & J & I). destruct (2 <=? d')%nat; [|destruct I]. destruct I as [I|[]]. apply pair_equal_spec in I as (-> & _). apply in_map_iff. now exists (q, d'). }
    cbn [flat_map]. fold g. destruct (Nat.leb_spec 2 e) as [L|L]; cbn [app].
    - split; [split; [reflexivity|split]|].
      + cbn [map fst]. constructor; [|exact I1]. intros I. apply in_map_iff in I as ([q d] & Eq & I). cbn in Eq. subst q. apply Gi in I. inversion F2; contradiction.
      + intros q d [I|I]; [|now apply I2]. apply pair_equal_spec in I as (<- & <-). split; [apply (F3 p e); now left|]. apply (Nat.div_le_lower_bound e 2 1); lia.
      + cbn [product fold_right]. fold (product g). rewrite <- F1. destruct I3 as [c Hc]. exists (p ^ (e mod 2) * c)%nat. rewrite Hc. pose proof (Nat.div_mod_eq e 2) as DM. set (h := (e / 2)%nat) in *. set (w := (e mod 2)%nat) in *. rewrite DM. replace (2 * h + w)%nat with (h + h + w)%nat by lia. rewrite !Nat.pow_add_r. ring.
    - split; [split; [reflexivity|split; [exact I1|exact I2]]|]. rewrite <- F1. destruct I3 as [c Hc]. exists (p ^ e * c)%nat. rewrite Hc. ring.
  Qed.
  Lemma fold_opt {A B} (f : option A -> B -> option A) (P : A -> Prop) l : (forall x b, In b l -> P x -> exists y, f (Some x) b = Some y /\ P y) -> forall x, P x -> exists y, fold_left f l (Some x) = Some y /\ P y.
  Proof. induction l as [|b l IH]; intros H x Px; cbn [fold_left]; [now exists x|]. destruct (H x b (or_introl eq_refl) Px) as (y & -> & Py). apply IH; [|exact Py]. intros; apply H; [now right|assumption]. Qed.
  Lemma pell_ok N fN : N <> 0 -> factorisation (Z.to_nat (Z.abs N)) fN -> exists vs, pell root D N fN = Some vs /\ Forall (solution D N) vs.
  Proof.
    intros HN F. unfold pell. destruct (fN2_ok _ _ F) as (F2 & [c Hc]). set (fN2 := flat_map _ fN) in *. destruct (C22_divisors (product fN2) fN2 0 [] F2) as (vf & E & _ & Hv). rewrite E. cbn [obind app]. apply fold_opt; [|constructor]. intros vs0 f If Hvs. cbn [obind]. apply Hv in If as ((k & Hk) & _).
    assert (FF : Z.abs N = Z.of_nat (c * (k * k)) * (Z.of_nat f * Z.of_nat f)) by (rewrite <- !Nat2Z.inj_mul; rewrite <- (Z2Nat.id (Z.abs N)) by lia; f_equal; rewrite Hc, Hk; ring). set (q := Z.of_nat f) in *. assert (Dv : (q * q | N)) by (apply Z.divide_abs_r; rewrite FF; apply Z.divide_factor_r). destruct Dv as [m Em]. assert (Q0 : q * q <> 0) by (intros Z0; rewrite Z0 in Em; lia). unfold cdiv. change (sqT q) with (q * q). destruct (Z.eqb_spec (q * q) 0); [contradiction|]. cbn [obind]. replace (Z.quot N (q * q)) with m by (rewrite Em, Z.quot_mul by exact Q0; reflexivity).
    assert (M0 : m <> 0) by (intros ->; lia).
    destruct (for_range_spec (fun (_ : nat) vs => Forall (solution D N) vs) (fun z vs0 =>
        let z := Z.of_nat z in
        let* r := cmod (z * z - D) (Z.abs m) in
        if negb (r =? 0) then Some vs0 else
        let* s := pell_mz root D m z in
        match s with
        | Some (l, x0, y0) => if (l =? 0)%nat then Some vs0 else Some (vs0 ++ [(x0 * q, y0 * q)])
        | None => Some vs0
        end) 0 (Z.to_nat (Z.abs m)) vs0) as (y & R1 & R2); [lia|exact Hvs| |exists y; split; [exact R1|exact R2]].
    intros i vs1 Hi H1. cbv zeta. set (z := Z.of_nat i). unfold cmod. destruct (Z.eqb_spec (Z.abs m) 0); [lia|]. cbn [obind]. destruct (Z.eqb_spec (Z.rem (z * z - D) (Z.abs m)) 0) as [R|]; [|exists vs1; now split]. cbn [negb]. apply Z.rem_divide in R; [|lia]. apply (proj1 (Z.divide_abs_l _ _)) in R. destruct (pell_mz_ok m z M0 R) as (r & -> & Hr). cbn [obind]. destruct r as [[[l x] w]|]; [|exists vs1; now split]. destruct Hr as (_ & Hr). destruct (l =? 0)%nat; [exists vs1; now split|]. eexists. split; [reflexivity|]. apply Forall_app. split; [exact H1|]. constructor; [|constructor]. unfold solution in *. cbn [fst snd] in *. rewrite Em, <- Hr. ring.
  Qed.
  Lemma pass_ok N x_max y_max count s1 : solution D 1 s1 -> forall vs out acc, Forall (solution D N) vs -> Forall (solution D N) acc ->
    let good t := 0 <= fst t /\ 0 <= snd t /\ solution D N t /\ (0 < x_max -> fst t <= x_max) /\ (0 < y_max -> snd t <= y_max) in
    Forall good out -> (0 < count -> Z.of_nat (length out) <= count) ->
    let '(vs', out') := fold_left (fun '(vs, out) s =>
      let t := s in let s := pmul D s s1 in
      let s := if (fst s <=? 0) && (snd s <=? 0) then (- fst s, - snd s) else s in
      (vs ++ [s],
       if (fst t <? 0) || (snd t <? 0) then out else
       if (0 <? x_max) && (x_max <? fst t) then out else
       if (0 <? y_max) && (y_max <? snd t) then out else
       if (0 <? count) && (count <=? Z.of_nat (length out)) then out else out ++ [t])) vs (acc, out) in
    Forall (solution D N) vs' /\ Forall good out' /\ (0 < count -> Z.of_nat (length out') <= count).
  Proof.
    intros S1 vs. induction vs as [|t vs IH]; intros out acc HV HA gd HO HC; cbn [fold_left]; [now repeat split|]. inversion HV as [|? ? Ht HV']; subst. cbv zeta. rewrite pmul_qmul. assert (T : solution D N (qmul D t s1)) by (rewrite <- (Z.mul_1_r N); now apply solution_mul). apply IH; [exact HV'| | |].
    - apply Forall_app. split; [exact HA|]. constructor; [|constructor]. destruct (_ && _); [|exact T]. unfold solution in *. cbn [fst snd] in *. rewrite <- T. ring.
    - fold gd. destruct (Z.ltb_spec (fst t) 0); [exact HO|]. destruct (Z.ltb_spec (snd t) 0); [exact HO|]. cbn [orb]. destruct (Z.ltb_spec 0 x_max), (Z.ltb_spec x_max (fst t)); cbn [andb]; try exact HO; destruct (Z.ltb_spec 0 y_max), (Z.ltb_spec y_max (snd t)); cbn [andb]; try exact HO; destruct ((0 <? count) && _); try exact HO; apply Forall_app; (split; [exact HO|]); (constructor; [|constructor]); unfold gd; repeat split; try assumption; lia.
    - destruct (_ || _); [exact HC|]. destruct (_ && _); [exact HC|]. destruct (_ && _); [exact HC|]. destruct (Z.ltb_spec 0 count), (Z.leb_spec count (Z.of_nat (length out))); cbn [andb]; try exact HC; rewrite app_length; cbn [length]; lia.
  Qed.
  Lemma iterP_partial {A B} (f : A -> option (A + B)) (Inv : A -> Prop) (Post : B -> Prop) : (forall x r, Inv x -> f x = Some r -> match r with inl y => Inv y | inr b => Post b end) ->
    forall p x r, Inv x -> iterP p f x = Some r -> match r with inl y => Inv y | inr b => Post b end.
  Proof.
    intros H. induction p as [p IH|p IH|]; intros x r Hx E; cbn [iterP] in E; [| |now apply (H x)].
    - destruct (f x) as [[y|b]|] eqn:E1; [|inversion E; subst; now apply (H x (inr b))|discriminate]. apply (H x _ Hx) in E1. destruct (iterP p f y) as [[y'|b]|] eqn:E2; [|inversion E; subst; now apply (IH y (inr b))|discriminate]. apply (IH y _ E1) in E2. now apply (IH y').
    - destruct (iterP p f x) as [[y'|b]|] eqn:E2; [|inversion E; subst; now apply (IH x (inr b))|discriminate]. apply (IH x _ Hx) in E2. now apply (IH y').
  Qed.
  Lemma loopZ_partial {A B} (f : A -> option (A + B)) (Inv : A -> Prop) (Post : B -> Prop) : (forall x r, Inv x -> f x = Some r -> match r with inl y => Inv y | inr b => Post b end) -> forall fuel x b, Inv x -> loopZ fuel f x = Some b -> Post b.
  Proof.
    intros H fuel x b Hx E. destruct fuel as [|p|p]; cbn [loopZ] in E; try discriminate. destruct (iterP p f x) as [[y|b']|] eqn:E2; try discriminate. inversion E; subst. exact (iterP_partial f Inv Post H p x _ Hx E2).
  Qed.
  Lemma pell_list_ok fuel N fN x_max y_max count out : N <> 0 -> factorisation (Z.to_nat (Z.abs N)) fN -> pell_list root fuel D N fN x_max y_max count = Some out ->
    (forall t, In t out -> 0 <= fst t /\ 0 <= snd t /\ solution D N t /\ (0 < x_max -> fst t <= x_max) /\ (0 < y_max -> snd t <= y_max)) /\ (0 < count -> Z.of_nat (length out) <= count).
  Proof.
    intros HN F E. unfold pell_list in E. destruct (pell1_sound root RT D ND 1 ltac:(lia)) as [(l & x & y & E1 & L1 & LS & _)|(_ & X & _)]; [|lia]. rewrite E1 in E. cbn [obind] in E. destruct (Nat.eqb_spec l 0); [lia|]. destruct (pell_ok N fN HN F) as (vs & E2 & HV). rewrite E2 in E. cbn [obind] in E.
    set (good := fun t => 0 <= fst t /\ 0 <= snd t /\ solution D N t /\ (0 < x_max -> fst t <= x_max) /\ (0 < y_max -> snd t <= y_max)). enough (W : Forall good out /\ (0 < count -> Z.of_nat (length out) <= count)) by (destruct W as (W1 & W2); split; [now apply Forall_forall|exact W2]).
    revert E. apply (loopZ_partial _ (fun '(vs, out) => Forall (solution D N) vs /\ Forall good out /\ (0 < count -> Z.of_nat (length out) <= count)) (fun out => Forall good out /\ (0 < count -> Z.of_nat (length out) <= count))).
    - intros [ws o] r (I1 & I2 & I3) E. pose proof (pass_ok N x_max y_max count (x, y) (proj1 (proj2 LS)) ws o [] I1 (Forall_nil _) I2 I3) as P. unfold pell_pass in E. destruct (fold_left _ ws ([], o)) as [ws' o'] in E, P. destruct (_ =? _)%nat; inversion E; subst; [|exact P]. apply P.
    - split; [exact HV|]. split; [constructor|cbn; lia].
  Qed.
End General.
