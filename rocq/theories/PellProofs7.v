From Verif Require Import Lib BaseModel BaseProofs TripleSpec TripleProofs PellModel PellSpec PellProofs PellProofs2 PellProofs3 PellProofs4 PellProofs5.
Open Scope Z_scope.

Section Small.
  Variable root : Z -> Z.
  Hypothesis RT : square_root root.
  Variable D : Z.
  Hypothesis ND : nonsquare D.
  Let s := root D.
  Let Hs : 1 <= s := proj1 (root_facts root D RT ND).
  Let HD : s * s < D < (s + 1) * (s + 1) := proj2 (root_facts root D RT ND).
  Notation pq := (pq D s 0 1).
  Notation Qn := (Qn D s 0 1).
  Notation pp := (pp D s).
  Variable N : Z.
  Hypothesis HN : N <> 0.
  Hypothesis HN2 : N * N < D.
  Lemma N_small : Z.abs N <= s.
  Proof. destruct (Z_le_gt_dec (Z.abs N) s) as [|G]; [assumption|]. assert ((s + 1) * (s + 1) <= Z.abs N * Z.abs N) by (apply Z.mul_le_mono_nonneg; lia). rewrite Z.abs_square in *. lia. Qed.
  (** what round i adds *)
  Definition hit (i : nat) : list (Z * Z) :=
    if negb (Z.rem N (Qn (i + 1)) =? 0) then [] else
    let f2 := if (i mod 2 =? 0)%nat then - Z.quot N (Qn (i + 1)) else Z.quot N (Qn (i + 1)) in
    if f2 <? 0 then [] else if negb (sqT (root f2) =? f2) then [] else [(root f2 * fst (pp (i + 1)), root f2 * snd (pp (i + 1)))].
  Lemma hit_in i t : In t (hit i) <-> exists f, 1 <= f /\ t = (f * fst (pp (i + 1)), f * snd (pp (i + 1))) /\ N = f * f * (sg (i + 1) * Qn (i + 1)).
  Proof.
    pose proof (an_pos D s Hs HD (i + 1)) as (_ & A & _). set (q := Qn (i + 1)) in *. set (e := sg (i + 1)). assert (Ee : e = if (i mod 2 =? 0)%nat then -1 else 1). { unfold e. rewrite sg_odd. pose proof (Nat.div_mod_eq i 2). pose proof (Nat.mod_upper_bound i 2 ltac:(lia)). pose proof (Nat.div_mod_eq (i + 1) 2). pose proof (Nat.mod_upper_bound (i + 1) 2 ltac:(lia)). destruct (Nat.eqb_spec ((i + 1) mod 2) 1), (Nat.eqb_spec (i mod 2) 0); lia. }
    unfold hit. fold q. set (f2 := if (i mod 2 =? 0)%nat then _ else _). assert (Ef : Z.rem N q = 0 -> N = e * f2 * q). { intros R. pose proof (Z.quot_rem N q ltac:(lia)). unfold f2. rewrite Ee. destruct (_ =? _)%nat; lia. } split.
    - destruct (Z.eqb_spec (Z.rem N q) 0) as [R|]; [|intros []]. cbn [negb]. cbv zeta. destruct (Z.ltb_spec f2 0); [intros []|]. destruct (Z.eqb_spec (sqT (root f2)) f2) as [R2|]; [|intros []]. cbn [negb]. intros [<-|[]]. exists (root f2). specialize (Ef R). destruct (proj1 RT f2 ltac:(lia)) as (R3 & _). change (sqT (root f2)) with (root f2 * root f2) in R2. split; [assert (root f2 <> 0); [|lia]|split; [reflexivity|rewrite R2; lia]]. intros Z0. rewrite Z0 in R2. rewrite <- R2 in Ef. lia.
    - intros (f & F1 & -> & F2). assert (R : Z.rem N q = 0) by (rewrite F2, Z.mul_assoc; apply Z.rem_mul; lia). rewrite R. cbn [negb Z.eqb]. cbv zeta. assert (E2 : f2 = f * f). { assert (W : e * f2 * q = e * (f * f) * q) by (rewrite <- (Ef R), F2; ring). apply Z.mul_reg_r in W; [|lia]. apply Z.mul_reg_l in W; [exact W|]. rewrite Ee. destruct (_ =? _)%nat; lia. }
      assert (E3 : root f2 = f). { rewrite E2. assert (0 < f * f) by (apply Z.mul_pos_pos; lia). destruct (proj1 RT (f * f) ltac:(lia)) as (R1 & R2 & R3). assert (root (f * f) <= f) by (apply sq_le; lia). assert (f < root (f * f) + 1); [|lia]. destruct (Z_lt_le_dec f (root (f * f) + 1)); [assumption|]. assert ((root (f * f) + 1) * (root (f * f) + 1) <= f * f) by (apply Z.mul_le_mono_nonneg; lia). lia. }
      assert (0 < f * f) by (apply Z.mul_pos_pos; lia). destruct (Z.ltb_spec f2 0); [lia|]. rewrite E3. change (sqT f) with (f * f). destruct (Z.eqb_spec (f * f) f2); [|lia]. cbn [negb]. now left.
  Qed.
  Lemma flat_map_nodup {A} (g : nat -> list A) : (forall i, NoDup (g i)) -> (forall i j x, In x (g i) -> In x (g j) -> i = j) -> forall n a, NoDup (flat_map g (seq a n)).
  Proof. intros H1 H2 n a. apply NoDup_flat_map; [apply seq_NoDup|intros; apply H1|intros x y t _ _; apply H2]. Qed.
  Lemma pellS_run : exists L, (1 <= L)%nat /\ pq L = (s, 1) /\ sg L = 1 /\ least_solution D 1 (pp L) /\ pellS root D N = Some (flat_map hit (seq 0 L)).
  Proof.
    destruct (setup root RT D ND) as (l & L1 & L2 & L3 & C1 & C2). fold s in L2, L3, C1, C2. set (c := (l mod 2 =? 1)%nat). set (L := if c then (l * 2)%nat else l).
    assert (SG : sg L = 1). { unfold L. destruct c eqn:Ec; rewrite sg_odd; [rewrite Nat.mod_mul by lia; reflexivity|]. fold c. now rewrite Ec. }
    exists L. split; [unfold L; destruct c; lia|]. assert (PL : pq L = (s, 1)). { unfold L. destruct c; [|exact L2]. replace (l * 2)%nat with (l + l)%nat by lia. rewrite <- L2. apply (shift D s Hs HD l L1 L2 l). exact L1. }
    split; [exact PL|]. split; [exact SG|]. split.
    - assert (PPL : pp L = qpow D (pp l) (if c then 2 else 1)%nat). { rewrite <- (pp_pow D s Hs HD l L1 L2). unfold L. destruct c; f_equal; lia. }
      split; [apply pp_positive; [exact Hs|exact HD|unfold L; destruct c; lia]|]. split. + pose proof (pp_solution D s Hs HD L) as T. unfold PellProofs.Qn in T. rewrite PL, SG in T. exact T.
      + intros t P S. destruct (units root RT D ND l L1 L2 L3 t 1 ltac:(lia) P S) as (k & K1 & -> & K3). rewrite (sg_mul root D k l) in K3. fold c in K3. fold s. rewrite PPL. assert (LE : ((if c then 2 else 1) <= k)%nat) by (destruct c; [|lia]; destruct (Nat.eq_dec k 1) as [->|]; [cbn in K3; lia|lia]). destruct (Nat.eq_dec (if c then 2 else 1)%nat k) as [E|NE]; [rewrite E; lia|]. pose proof (pow_mono root RT D ND l L1 L2 L3 (if c then 2 else 1)%nat k ltac:(destruct c; lia)) as (W1 & W2). fold s in W1, W2. lia.
    - unfold pellS. rewrite C1. cbn [obind]. pose proof (qi root D l (1 + l) ltac:(lia)) as QL. fold s in QL. rewrite QL. cbn [obind]. rewrite (proj2 (L3 l L1)) by (apply Nat.mod_same; lia). change (negb (1 =? 1)) with false. rewrite orb_false_r. fold c.
      assert (B : exists n, (L <= n)%nat /\ (if c then let* '(_, v) := pell_PQa root D (trace D s 0 1 (1 + l)) in Some ((l * 2)%nat, v) else Some (l, trace D s 0 1 (1 + l))) = Some (L, trace D s 0 1 n)). { unfold L. destruct c; [rewrite C2; exists (1 + 2 * l)%nat; split; [lia|reflexivity]|exists (1 + l)%nat; split; [lia|reflexivity]]. }
      destruct B as (n & Bn & B). rewrite B. cbn [obind].
      destruct (for_range_spec (fun i c0 => c0 = flat_map hit (seq 0 i)) (fun i c0 =>
        let* q := nth_error (vQ (trace D s 0 1 n)) (i + 1) in
        let* r := cmod N q in
        if negb (r =? 0) then Some c0 else
        let* f2 := cdiv N q in
        let f2 := if (i mod 2 =? 0)%nat then - f2 else f2 in
        if f2 <? 0 then Some c0 else
        let f := root f2 in
        if negb (sqT f =? f2) then Some c0 else
        let* g := nth_error (vG (trace D s 0 1 n)) i in let* b := nth_error (vB (trace D s 0 1 n)) i in
        Some (c0 ++ [(f * g, f * b)])) 0 L []) as (r & R1 & R2); [lia|reflexivity| |].
      + intros i c0 Hi ->. pose proof (qi root D (i + 1) n ltac:(lia)) as Q1. pose proof (gb root D i n ltac:(lia)) as (G1 & G2). fold s in Q1, G1, G2. rewrite Q1, G1, G2. cbn [obind]. pose proof (an_pos D s Hs HD (i + 1)) as (_ & A & _). unfold cmod, cdiv. destruct (Z.eqb_spec (Qn (i + 1)) 0); [lia|]. cbn [obind]. rewrite seq_S, flat_map_app. cbn [flat_map Nat.add]. rewrite app_nil_r. generalize (flat_map hit (seq 0 i)). intros c0. unfold hit. replace (S i) with (i + 1)%nat by lia. cbv zeta. destruct (negb _); [rewrite app_nil_r; eexists; split; reflexivity|]. destruct (_ <? 0); [rewrite app_nil_r; eexists; split; reflexivity|]. destruct (negb _); [rewrite app_nil_r; eexists; split; reflexivity|]. eexists. split; reflexivity.
      + transitivity (Some r); [exact R1|congruence].
  Qed.
  Lemma pellS_ok : exists vs, pellS root D N = Some vs /\ NoDup vs /\ (forall t, In t vs -> positive t /\ solution D N t) /\
    forall x1, least_solution D 1 x1 -> forall t, positive t -> solution D N t -> exists u j, (In u vs /\ t = qmul D u (qpow D x1 j)) /\ forall u' j', In u' vs /\ t = qmul D u' (qpow D x1 j') -> u' = u /\ j' = j.
  Proof.
    destruct pellS_run as (L & L1 & PL & SG & LS & E). exists (flat_map hit (seq 0 L)). split; [exact E|]. split; [|split].
    - apply flat_map_nodup.
      + intros i. unfold hit. destruct (negb _); [constructor|]. destruct (_ <? 0); [constructor|]. destruct (negb _); [constructor|]. constructor; [intros []|constructor].
      + intros i j x I J. apply hit_in in I as (f & F1 & -> & _). apply hit_in in J as (g & G1 & E2 & _). apply (unique D s Hs HD) in E2; lia.
    - intros t I. apply in_flat_map in I as (i & _ & I). apply hit_in in I as (f & F1 & -> & F2). pose proof (pp_positive D s Hs HD (i + 1) ltac:(lia)) as (P1 & P2). split; [split; cbn [fst snd]; apply Z.mul_pos_pos; lia|]. pose proof (pp_solution D s Hs HD (i + 1)) as T. unfold solution in *. cbn [fst snd]. rewrite F2, <- T. ring.
    - intros x1 LX t P S. assert (EX : x1 = pp L). { destruct LX as (X1 & X2 & X3), LS as (Y1 & Y2 & Y3). pose proof (X3 _ Y1 Y2). pose proof (Y3 _ X1 X2). destruct x1, (pp L). cbn [fst snd] in *. f_equal; lia. } subst x1.
      assert (PW : forall f n j, qmul D (f * fst (pp n), f * snd (pp n)) (qpow D (pp L) j) = (f * fst (pp (j * L + n)), f * snd (pp (j * L + n)))). { intros f n j. rewrite <- (pp_pow D s Hs HD L L1 PL j). assert (W : pp (j * L + n) = qmul D (pp (j * L)) (pp n)). { destruct j as [|j]; [cbn [Nat.mul Nat.add]; rewrite qmul_comm; symmetry; apply qmul_1|]. apply shift; [exact Hs|exact HD|nia|]. clear - L1 PL Hs HD. induction j as [|j IH]; [rewrite Nat.mul_1_l; exact PL|]. replace (Datatypes.S (Datatypes.S j) * L)%nat with (L + Datatypes.S j * L)%nat by lia. rewrite <- IH. apply (shift D s Hs HD L L1 PL). nia. } rewrite W. unfold qmul. cbn [fst snd]. apply pair_equal_spec. split; ring. }
      assert (SP : forall j n, (1 <= n)%nat -> sg (j * L + n) = sg n /\ Qn (j * L + n) = Qn n). { clear - L1 PL SG Hs HD. induction j as [|j IH]; intros n Hn; [now split|]. destruct (IH n Hn) as (I1 & I2). replace (Datatypes.S j * L + n)%nat with (L + (j * L + n))%nat by lia. split. - rewrite <- I1. assert (A : forall a b, sg (a + b) = sg a * sg b) by (induction a as [|a IHa]; intros b; cbn [Nat.add sg]; [lia|rewrite IHa; ring]). rewrite A, SG. lia. - rewrite <- I2. unfold PellProofs.Qn. f_equal. apply (shift D s Hs HD L L1 PL). lia. }
      destruct (taken D s Hs HD N t N_small P S) as (n & f & Hn & Hf & -> & EN). pose proof (Nat.div_mod_eq (n - 1) L) as DM. pose proof (Nat.mod_upper_bound (n - 1) L ltac:(lia)) as MB. set (j := ((n - 1) / L)%nat) in *. set (i := ((n - 1) mod L)%nat) in *. assert (En : n = (j * L + (i + 1))%nat) by lia. exists (f * fst (pp (i + 1)), f * snd (pp (i + 1))), j. split.
      + split; [|rewrite PW, En; reflexivity]. apply in_flat_map. exists i. split; [apply in_seq; lia|]. apply hit_in. exists f. split; [exact Hf|]. split; [reflexivity|]. rewrite EN, En. destruct (SP j (i + 1)%nat ltac:(lia)) as (-> & ->). reflexivity.
      + intros u' j' (I & E'). apply in_flat_map in I as (i' & I1 & I). apply in_seq in I1. apply hit_in in I as (g & G1 & -> & _). rewrite PW in E'. apply (unique D s Hs HD) in E'; [|lia..]. destruct E' as (E1 & E2). subst g. assert (j' = j /\ i' = i) as (-> & ->); [|split; reflexivity]. rewrite En in E1. assert (W : (i' = (n - 1) mod L /\ j' = (n - 1) / L)%nat). { split; [apply (Nat.mod_unique _ _ j'); lia|apply (Nat.div_unique _ _ _ i'); lia]. } split; [apply W|apply W].
  Qed.
End Small.
