From Coq Require Import Znumtheory.
From Verif Require Import Lib BaseModel BaseProofs BaseProps ModuloModel PrimesSpec DivisorsModel DivisorsProps TripleModel TripleSpec TripleProofs TripleProofs2 TripleProofs3.
Open Scope Z_scope.

(** ** a grid of pairs *)
Section Grid.
  Variables (M : list Z) (N : Z -> list Z) (cond : Z -> Z -> bool) (T : Z -> Z -> Z * Z * Z) (pair : Z -> Z -> Prop).
  Definition grid : list (Z * Z * Z) := flat_map (fun m => flat_map (fun n => if cond m n then [T m n] else []) (N m)) M.
  Lemma grid_in t : In t grid <-> exists m n, In m M /\ In n (N m) /\ cond m n = true /\ t = T m n.
  Proof.
    unfold grid. rewrite in_flat_map. split.
    - intros (m & Im & J). apply in_flat_map in J as (n & Jn & K). destruct (cond m n) eqn:C; [|contradiction]. destruct K as [<-|[]]. exists m, n. auto.
    - intros (m & n & Im & Jn & C & ->). exists m. split; [exact Im|]. apply in_flat_map. exists n. split; [exact Jn|]. rewrite C. now left.
  Qed.
  Lemma grid_nodup : NoDup M -> (forall m, NoDup (N m)) -> (forall m n, In m M -> In n (N m) -> cond m n = true -> pair m n) -> (forall m n m' n', pair m n -> pair m' n' -> T m n = T m' n' -> m = m' /\ n = n') -> NoDup grid.
  Proof.
    intros NM NN PP INJ. apply NoDup_flat_map; [exact NM| |].
    - intros m Im. apply NoDup_flat_map; [apply NN| |].
      + intros n _. destruct (cond m n); [constructor; [intros []|constructor]|constructor].
      + intros n n' t I1 I2 J1 J2. destruct (cond m n) eqn:C; [|contradiction]. destruct (cond m n') eqn:C'; [|contradiction]. destruct J1 as [<-|[]], J2 as [E|[]]. symmetry in E. now apply INJ in E; [|apply PP..].
    - intros m m' t I1 I2 J1 J2. apply in_flat_map in J1 as (n & In1 & J1), J2 as (n' & In2 & J2). destruct (cond m n) eqn:C; [|contradiction]. destruct (cond m' n') eqn:C'; [|contradiction]. destruct J1 as [<-|[]], J2 as [E|[]]. symmetry in E. now apply INJ in E; [|apply PP..].
  Qed.
End Grid.
Lemma one_divides_range lo hi x : In x (zrange lo hi 1) <-> lo <= x <= hi.
Proof. rewrite zrange_in by lia. split; [tauto|]. intros H. split; [exact H|apply Z.divide_1_l]. Qed.
Lemma k_max_run (only : bool) c_max c : 0 < c -> (if only then Some 1 else cdiv c_max c) = Some (if only then 1 else Z.quot c_max c).
Proof. intros H. destruct only; [reflexivity|]. unfold cdiv. destruct (Z.eqb_spec c 0); [lia|reflexivity]. Qed.

Section Root.
  Variable root : Z -> Z.
  Hypothesis HR : square_root root.

  Definition cond120 (c_max m n : Z) : bool := negb (Z.rem (m - n) 3 =? 0) && (Z.gcd m n =? 1) && negb (c_max <? m * m + m * n + n * n).
  Lemma cond120_ok c_max m n : 1 <= n < m -> (cond120 c_max m n = true <-> eis120_pair m n /\ m * m + m * n + n * n <= c_max).
  Proof.
    intros H. unfold cond120, eis120_pair. rewrite !andb_true_iff, !negb_true_iff, Z.eqb_eq, Z.eqb_neq, Z.ltb_ge. rewrite Z.rem_divide by lia. tauto.
  Qed.
  Theorem eisenstein120_run c_max only : exists l, eisenstein_triples120 root c_max only = Some l /\ lists_exactly (wanted triangle120 c_max only) l.
  Proof.
    set (base := grid (zrange 1 (root c_max) 1) (fun m => zrange 1 (m - 1) 1) (cond120 c_max) eis120). exists (with_multiples c_max only base). split.
    - unfold eisenstein_triples120, with_multiples, base, grid. rewrite flat_map_flat_map. change (flat_map ?f ?l) with ([] ++ flat_map f l). apply zfor_app; [lia|]. intros m acc Hm _. rewrite flat_map_flat_map. apply zfor_app; [lia|].
      intros n acc' Hn _. unfold cond120. destruct (Z.rem (m - n) 3 =? 0); cbn [negb andb]; [cbn [flat_map]; now rewrite app_nil_r|]. rewrite gcd_ok by lia. cbn [obind]. destruct (Z.gcd m n =? 1); cbn [negb andb]; [|cbn [flat_map]; now rewrite app_nil_r].
      assert (Es : snd (eis120 m n) = m * m + m * n + n * n) by (unfold eis120, sortT; destruct (_ <? _); reflexivity). assert (0 < m * m + m * n + n * n) by (assert (0 < m * m) by (apply Z.mul_pos_pos; lia); assert (0 < m * n) by (apply Z.mul_pos_pos; lia); assert (0 < n * n) by (apply Z.mul_pos_pos; lia); lia).
      change (sqT m) with (m * m). change (sqT n) with (n * n). destruct (c_max <? m * m + m * n + n * n) eqn:C; cbn [negb]; [cbn [flat_map]; rewrite app_nil_r; destruct (m * n * 2 + n * n <? m * m - n * n); reflexivity|]. cbn [flat_map]. rewrite app_nil_r, Es. unfold eis120, sortT. destruct (m * n * 2 + n * n <? m * m - n * n); (rewrite k_max_run by assumption; cbn [obind]; apply visit_multiples_run).
    - apply multiples_exact; [apply scale_120|intros [[a b] c] (A & B & _); cbn; lia| |].
      + unfold base. apply grid_nodup with (pair := eis120_pair); [apply zrange_nodup; lia|intros; apply zrange_nodup; lia| |apply eis120_inj]. intros m n Im Jn C. apply one_divides_range in Im, Jn. apply cond120_ok in C; [tauto|lia].
      + intros t. unfold base. rewrite grid_in. split.
        * intros (m & n & Im & Jn & C & ->). apply one_divides_range in Im, Jn. apply cond120_ok in C as (Pr & B); [|lia]. destruct (eis120_sound m n Pr) as (S1 & S2 & S3). rewrite S3. auto.
        * intros (Q & P & B). destruct (eis120_complete t Q P) as (m & n & Pr & ->). destruct (eis120_sound m n Pr) as (_ & _ & S3). rewrite S3 in B. exists m, n. pose proof (proj1 Pr) as H. assert (0 < m * n) by (apply Z.mul_pos_pos; lia). assert (0 < n * n) by (apply Z.mul_pos_pos; lia). split; [apply one_divides_range; split; [lia|apply root_le; [exact HR|lia|lia]]|]. split; [apply one_divides_range; lia|]. split; [apply cond120_ok; auto|reflexivity].
  Qed.

  Definition cond60 (c_max m n : Z) : bool := (Z.gcd m n =? 1) && negb (c_max <? snd (eis60 m n)).
  Theorem eisenstein60_run c_max only : exists l, eisenstein_triples60 root c_max only = Some l /\ lists_exactly (wanted triangle60 c_max only) l.
  Proof.
    set (base := grid (zrange 1 (Z.min (root (c_max * 4)) (Z.quot (c_max * 3 + 1) 2)) 1) (fun m => zrange 1 (Z.quot m 2) 1) (cond60 c_max) eis60).
    assert (HN : forall m n, 1 <= m -> 1 <= n <= Z.quot m 2 <-> 1 <= m /\ 1 <= n /\ 2 * n <= m). { intros m n Hm. rewrite Z.quot_div_nonneg by lia. pose proof (Z.div_mod m 2 ltac:(lia)). pose proof (Z.mod_pos_bound m 2 ltac:(lia)). lia. }
    exists (with_multiples c_max only base). split.
    - unfold eisenstein_triples60, with_multiples, base, grid. rewrite flat_map_flat_map. change (cdiv (c_max * 3 + 1) 2) with (Some (Z.quot (c_max * 3 + 1) 2)). cbn [obind]. change (flat_map ?f ?l) with ([] ++ flat_map f l). apply zfor_app; [lia|]. intros m acc Hm _. rewrite flat_map_flat_map. change (cdiv m 2) with (Some (Z.quot m 2)). cbn [obind]. apply zfor_app; [lia|].
      intros n acc' Hn _. apply HN in Hn; [|lia]. unfold cond60. rewrite gcd_ok by lia. cbn [obind]. destruct (Z.eqb_spec (Z.gcd m n) 1) as [G|]; cbn [negb andb]; [|cbn [flat_map]; now rewrite app_nil_r].
      assert (Pr : eis60_pair m n) by (split; [lia|split; [lia|exact G]]). destruct (eis60_sound m n Pr) as (S1 & _). change (sqT m) with (m * m). change (sqT n) with (n * n).
      assert (L : m * n * 2 - n * n <= m * m - n * n) by (assert (0 <= m * (m - 2 * n)) by (apply Z.mul_nonneg_nonneg; lia); lia).
      assert (Sw : (if m * n * 2 - n * n <? m * m - n * n then (m * n * 2 - n * n, m * m - n * n) else (m * m - n * n, m * n * 2 - n * n)) = (m * n * 2 - n * n, m * m - n * n)). { destruct (Z.ltb_spec (m * n * 2 - n * n) (m * m - n * n)) as [|X]; [reflexivity|]. f_equal; lia. }
      rewrite Sw. fold (eis60 m n). change (if Z.rem (m + n) 3 =? 0 then (Z.quot (m * n * 2 - n * n) 3, Z.quot (m * m - m * n + n * n) 3, Z.quot (m * m - n * n) 3) else (m * n * 2 - n * n, m * m - m * n + n * n, m * m - n * n)) with (eis60 m n).
      destruct (eis60 m n) as [[a b] c]. cbn [snd]. destruct S1 as (S1 & S2 & _). destruct (c_max <? c) eqn:C; cbn [negb]; [cbn [flat_map]; now rewrite app_nil_r|]. rewrite k_max_run by lia. cbn [obind flat_map snd]. rewrite app_nil_r. apply visit_multiples_run.
    - apply multiples_exact; [apply scale_60|intros [[a b] c] (A & B & _); cbn; lia| |].
      + unfold base. apply grid_nodup with (pair := eis60_pair); [apply zrange_nodup; lia|intros; apply zrange_nodup; lia| |apply eis60_inj]. intros m n Im Jn C. apply one_divides_range in Im, Jn. apply HN in Jn; [|lia]. unfold cond60 in C. apply andb_prop in C as (C & _). apply Z.eqb_eq in C. split; [lia|split; [lia|exact C]].
      + intros t. unfold base. rewrite grid_in. unfold cond60. split.
        * intros (m & n & Im & Jn & C & ->). apply one_divides_range in Im, Jn. apply HN in Jn; [|lia]. apply andb_prop in C as (C & B). apply Z.eqb_eq in C. apply negb_true_iff, Z.ltb_ge in B. destruct (eis60_sound m n) as (S1 & S2); [split; [lia|split; [lia|exact C]]|]. auto.
        * intros (Q & P & B). destruct (eis60_complete t Q P) as (m & n & Pr & ->). exists m, n. pose proof Pr as (H1 & H2 & G). destruct (eis60_form m n Pr) as (a & b & c & k & F & Hk & E1 & E2 & E3 & _). rewrite F in *. cbn [snd] in *. assert (Bc : m * m - n * n <= 3 * c) by (destruct (eis60_sound m n Pr) as (S1 & _); rewrite F in S1; destruct S1 as (S1 & S2 & _); destruct Hk; subst k; lia).
          assert (Bm : m * m <= c * 4) by (assert (0 <= (m - 2 * n) * (m + 2 * n)) by (apply Z.mul_nonneg_nonneg; lia); lia).
          assert (Bq : 2 * m <= c * 3 + 1). { destruct (Z.eq_dec m (n + 1)) as [->|]; [assert (n = 1) by lia; subst n; lia|]. assert (0 <= (m - n - 2) * (m + n)) by (apply Z.mul_nonneg_nonneg; lia). lia. }
          split; [apply one_divides_range; split; [lia|apply Z.min_glb; [apply root_le; [exact HR|lia|lia]|]]|].
          -- rewrite Z.quot_div_nonneg by lia. apply Z.div_le_lower_bound; lia.
          -- split; [apply one_divides_range, HN; lia|]. split; [|reflexivity]. rewrite G. cbn [Z.eqb Pos.eqb andb]. apply negb_true_iff, Z.ltb_ge. exact B.
  Qed.
End Root.

(** ** one leg fixed *)
Lemma product_double f : product (map (fun '(p, e) => (p, e * 2)%nat) f) = (product f * product f)%nat.
Proof. unfold product. induction f as [|[p e] f IH]; [reflexivity|]. cbn [map fold_right]. rewrite IH. replace (e * 2)%nat with (e + e)%nat by lia. cbn [fst snd]. rewrite ?Nat.pow_add_r. lia. Qed.
Lemma factorisation_double n f : factorisation n f -> factorisation (n * n) (map (fun '(p, e) => (p, e * 2)%nat) f).
Proof.
  intros (E & ND & H). split; [rewrite product_double, E; reflexivity|]. split.
  - rewrite map_map. erewrite map_ext; [exact ND|]. now intros [p e].
  - intros p e I. apply in_map_iff in I as ([q d] & X & I). injection X as <- <-. destruct (H q d I). split; [assumption|lia].
Qed.
Definition leg_cell (leg : Z) (d : nat) : list (Z * Z * Z) :=
  let e := Z.quot (leg * leg) (Z.of_nat d) in if (e - Z.of_nat d <=? 0) || negb (Z.rem (e - Z.of_nat d) 2 =? 0) then [] else [(leg, Z.quot (e - Z.of_nat d) 2, Z.quot (e + Z.of_nat d) 2)].
Lemma leg_fold leg vd : (forall d, In d vd -> (0 < d)%nat) -> forall acc, fold_left (fun r d => let* vt := r in
    let d := Z.of_nat d in
    let* e := cdiv (sqT leg) d in
    let c2 := e + d in let b2 := e - d in
    if (b2 <=? 0) || negb (Z.rem b2 2 =? 0) then Some vt else
    Some (vt ++ [(leg, Z.quot b2 2, Z.quot c2 2)])) vd (Some acc) = Some (acc ++ flat_map (leg_cell leg) vd).
Proof.
  induction vd as [|d vd IH]; intros H acc; [cbn; now rewrite app_nil_r|]. cbn [fold_left flat_map obind]. assert (0 < d)%nat by (apply H; now left). unfold cdiv. destruct (Z.eqb_spec (Z.of_nat d) 0); [lia|]. cbn [obind]. unfold leg_cell at 1. change (sqT leg) with (leg * leg). destruct (_ || _).
  - cbn [app]. apply IH. intros x Hx. apply H. now right.
  - rewrite app_assoc. apply IH. intros x Hx. apply H. now right.
Qed.
Theorem fixed_leg_run leg f : (0 < leg)%nat -> factorisation leg f -> exists l, pythagorean_triples_fixed_leg (Z.of_nat leg) f = Some l /\
  lists_exactly (fun '(a, b, c) => a = Z.of_nat leg /\ 0 < b /\ 0 < c /\ a * a + b * b = c * c) l.
Proof.
  intros HL F. destruct (C22_divisors (leg * leg) _ 0 [] (factorisation_double leg f F)) as (vd & E & ND & HD). assert (HD' : forall d, In d vd <-> Nat.divide d (leg * leg)) by (intros d; rewrite HD; tauto). clear HD.
  exists (flat_map (leg_cell (Z.of_nat leg)) vd). split.
  - unfold pythagorean_triples_fixed_leg. rewrite E. cbn [obind app]. rewrite (leg_fold (Z.of_nat leg) vd); [reflexivity|]. intros d I. apply HD' in I as [q Hq]. destruct d; [nia|lia].
  - assert (Cell : forall d t, In d vd -> In t (leg_cell (Z.of_nat leg) d) -> exists b c, t = (Z.of_nat leg, b, c) /\ 0 < b /\ c - b = Z.of_nat d /\ Z.of_nat leg * Z.of_nat leg + b * b = c * c).
    { intros d t I J. apply HD' in I as [q Hq]. assert (0 < d)%nat by (destruct d; [nia|lia]). unfold leg_cell in J. assert (Q : Z.quot (Z.of_nat leg * Z.of_nat leg) (Z.of_nat d) = Z.of_nat q) by (replace (Z.of_nat leg * Z.of_nat leg) with (Z.of_nat q * Z.of_nat d) by lia; apply Z.quot_mul; lia). rewrite Q in J. destruct (Z.leb_spec (Z.of_nat q - Z.of_nat d) 0); [contradiction|]. destruct (Z.eqb_spec (Z.rem (Z.of_nat q - Z.of_nat d) 2) 0) as [R|]; [|contradiction]. cbn [orb negb] in J. destruct J as [<-|[]].
      apply Z.rem_divide in R as [b Hb]; [|lia]. exists b, (b + Z.of_nat d). rewrite Hb. rewrite Z.quot_mul by lia. replace (Z.of_nat q + Z.of_nat d) with ((b + Z.of_nat d) * 2) by lia. rewrite Z.quot_mul by lia. split; [reflexivity|]. split; [lia|]. split; [lia|]. replace (Z.of_nat leg * Z.of_nat leg) with (Z.of_nat q * Z.of_nat d) by lia. replace (Z.of_nat q) with (b * 2 + Z.of_nat d) by lia. lia. }
    split.
    + apply NoDup_flat_map; [exact ND| |].
      * intros d _. unfold leg_cell. destruct (_ || _); [constructor|constructor; [intros []|constructor]].
      * intros d d' t I I' J J'. destruct (Cell d t I J) as (b & c & E1 & _ & E2 & _), (Cell d' t I' J') as (b' & c' & E1' & _ & E2' & _). assert (b = b' /\ c = c') as (-> & ->) by (rewrite E1 in E1'; injection E1' as -> ->; auto). lia.
    + intros t. rewrite in_flat_map. split.
      * intros (d & I & J). destruct (Cell d t I J) as (b & c & -> & Hb & E1 & E2). repeat split; try lia.
      * destruct t as [[a b] c]. intros (-> & Hb & Hc & E2). assert (Hcb : b < c) by (apply sq_lt; [lia|lia|nia]). exists (Z.to_nat (c - b)). assert (Dv : Nat.divide (Z.to_nat (c - b)) (leg * leg)) by (exists (Z.to_nat (c + b)); nia). split; [apply HD'; exact Dv|]. unfold leg_cell. rewrite Z2Nat.id by lia.
        assert (Q : Z.quot (Z.of_nat leg * Z.of_nat leg) (c - b) = c + b) by (replace (Z.of_nat leg * Z.of_nat leg) with ((c + b) * (c - b)) by lia; apply Z.quot_mul; lia). rewrite Q. replace (c + b - (c - b)) with (b * 2) by lia. replace (c + b + (c - b)) with (c * 2) by lia. rewrite Z.rem_mul, !Z.quot_mul by lia. destruct (Z.leb_spec (b * 2) 0); [lia|]. now left.
Qed.
