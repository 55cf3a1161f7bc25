(** Interpolation in the group of units modulo p^e: a function whose n-th multiplicative difference is 1 is determined by n values. *)
From Coq Require Import Znumtheory Zpow_facts Permutation Setoid Morphisms.
From Verif Require Import Lib CombSpec CmppProofs CmppProofs2.
Open Scope Z_scope.

(** ** additive differences *)
Definition da (a : Z -> Z) (u : Z) : Z := a (u + 1) - a u.
Fixpoint dan (n : nat) (a : Z -> Z) : Z -> Z := match n with O => a | S n => dan n (da a) end.
Lemma dan_scale lo D n : forall f a u, (forall u, lo <= u -> f u = D * a u) -> lo <= u -> dan n f u = D * dan n a u.
Proof. induction n as [|n IH]; intros f a u H U; cbn [dan]; [now apply H|]. apply IH; [|exact U]. intros v V. unfold da. rewrite !H by lia. ring. Qed.
Lemma dan_ext n : forall f g u, (forall u, f u = g u) -> dan n f u = dan n g u.
Proof. induction n as [|n IH]; intros f g u H; cbn [dan]; [apply H|]. apply IH. intros v. unfold da. now rewrite !H. Qed.
Lemma dan_add n : forall f g u, dan n (fun u => f u + g u) u = dan n f u + dan n g u.
Proof. induction n as [|n IH]; intros f g u; cbn [dan]; [reflexivity|]. rewrite <- IH. apply dan_ext. intros v. unfold da. ring. Qed.
Lemma dan_zero n : forall f u, (forall u, f u = 0) -> dan n f u = 0.
Proof. induction n as [|n IH]; intros f u H; cbn [dan]; [apply H|]. apply IH. intros v. unfold da. rewrite !H. ring. Qed.
Lemma dan_more n k : forall f u, (forall u, dan n f u = 0) -> dan (n + k) f u = 0.
Proof. induction n as [|n IH]; intros f u H; cbn [dan Nat.add] in *; [now apply dan_zero|]. now apply IH. Qed.
Lemma dan_linear n : forall f c, (forall u, dan n f u = 0) -> forall u, dan (S n) (fun u => (u - c) * f u) u = 0.
Proof.
  induction n as [|n IH]; intros f c H u.
  - cbn [dan] in *. unfold da. rewrite !H. ring.
  - change (dan (S (S n)) (fun u => (u - c) * f u) u) with (dan (S n) (da (fun u => (u - c) * f u)) u). rewrite (dan_ext _ _ (fun u => f u + (u - (c - 1)) * da f u)) by (intros v; unfold da; ring). rewrite dan_add, H. rewrite (IH (da f) (c - 1)); [ring|]. intros v. apply (H v).
Qed.
Definition lp (cs : list Z) (u : Z) : Z := zprodl (map (fun c => u - c) cs).
Lemma lp_degree cs u : dan (S (length cs)) (lp cs) u = 0.
Proof.
  revert u. induction cs as [|c cs IH]; intros u; [cbn [length dan]; unfold da, lp; cbn; ring|]. cbn [length]. rewrite (dan_ext _ _ (fun u => (u - c) * lp cs u)) by (intros v; reflexivity). now apply dan_linear.
Qed.
Lemma lp_root cs u : In u cs -> lp cs u = 0.
Proof. unfold lp. induction cs as [|c cs IH]; intros I; [destruct I|]. cbn [map zprodl]. destruct I as [->|I]; [rewrite Z.sub_diag; ring|rewrite IH by exact I; ring]. Qed.
Lemma lp_nonroot cs u : ~ In u cs -> lp cs u <> 0.
Proof. unfold lp. induction cs as [|c cs IH]; intros I; cbn [map zprodl]; [discriminate|]. cbn in I. apply Z.neq_mul_0. split; [lia|]. apply IH. tauto. Qed.
Lemma interp_div D n : forall K lo, (forall u, lo <= u -> (D | dan n K u)) -> (forall i, lo <= i < lo + Z.of_nat n -> (D | K i)) -> forall u, lo <= u -> (D | K u).
Proof.
  induction n as [|n IH]; intros K lo H N u U; [now apply H|]. assert (D1 : forall v, lo <= v -> (D | da K v)). { apply IH; [exact H|]. intros i I. unfold da. apply Z.divide_sub_r; apply N; lia. }
  assert (K0 : (D | K lo)) by (apply N; lia). replace u with (lo + (u - lo)) by lia. assert (0 <= u - lo) by lia. revert H0. generalize (u - lo) as w. apply natlike_ind; [now rewrite Z.add_0_r|]. intros w W IHw. replace (K (lo + Z.succ w)) with (K (lo + w) + da K (lo + w)); [apply Z.divide_add_r; [exact IHw|apply D1; lia]|]. unfold da. rewrite <- Z.add_assoc. unfold Z.succ. ring.
Qed.
(** a polynomial with the roots cs is divisible by D where it is at n consecutive points *)
Lemma lp_divide cs D n lo : (length cs < n)%nat -> (forall i, lo <= i < lo + Z.of_nat n -> (D | lp cs i)) -> forall u, lo <= u -> (D | lp cs u).
Proof.
  intros L H. apply (interp_div D n); [|exact H]. intros u _. replace n with (S (length cs) + (n - S (length cs)))%nat by lia. rewrite dan_more; [apply Z.divide_0_r|]. intros v. apply lp_degree.
Qed.

(** ** multiplicative differences *)
Section Mult.
Variable p : Z.
Hypothesis PP : prime p.
Variable e : Z.
Hypothesis E1 : 1 <= e.
Let m := p ^ e.
Notation "a == b" := (cong m a b) (at level 70).
Notation inv := (inv p e).
Notation zp := (zp p e).
Notation unit := (unit p).
Lemma inv_mul x y : inv (x * y) = inv x * inv y. Proof. apply zp_mul. Qed.
Lemma inv_zp c a : unit c -> inv (zp c a) == zp c (- a).
Proof.
  intros U. apply (unit_cancel p PP e E1 _ _ (zp c a)); [now apply zp_unit|]. rewrite (Z.mul_comm (inv _)), (inv_r p PP e E1) by (now apply zp_unit). rewrite Z.mul_comm. symmetry. now apply zp_neg.
Qed.
Lemma inv_one : inv 1 = 1. Proof. now apply zp_one. Qed.

(** functions of u that are polynomials in p u, with inverses of units *)
Inductive Bf : (Z -> Z) -> Prop :=
| Bf_const c : Bf (fun _ => c)
| Bf_lin : Bf (fun u => p * u)
| Bf_add f g : Bf f -> Bf g -> Bf (fun u => f u + g u)
| Bf_mul f g : Bf f -> Bf g -> Bf (fun u => f u * g u)
| Bf_inv f : Bf f -> (forall u, unit (f u)) -> Bf (fun u => inv (f u)).
Lemma Bf_shift f : Bf f -> exists g, Bf g /\ forall u, g u = f (u + 1).
Proof.
  induction 1 as [c| |f g F (f' & F' & EF) G (g' & G' & EG)|f g F (f' & F' & EF) G (g' & G' & EG)|f F (f' & F' & EF) U].
  - exists (fun _ => c). split; [constructor|reflexivity].
  - exists (fun u => p * u + p). split; [apply Bf_add; constructor|intros; ring].
  - exists (fun u => f' u + g' u). split; [now apply Bf_add|]. intros u. now rewrite EF, EG.
  - exists (fun u => f' u * g' u). split; [now apply Bf_mul|]. intros u. now rewrite EF, EG.
  - exists (fun u => inv (f' u)). split; [apply Bf_inv; [exact F'|intros u; rewrite EF; apply U]|]. intros u. now rewrite EF.
Qed.
Lemma Bf_diff f : Bf f -> exists g, Bf g /\ forall u, f (u + 1) == f u + p * g u.
Proof.
  induction 1 as [c| |f g F (f' & F' & EF) G (g' & G' & EG)|f g F (f' & F' & EF) G (g' & G' & EG)|f F (f' & F' & EF) U].
  - exists (fun _ => 0). split; [constructor|]. intros u. rewrite Z.mul_0_r, Z.add_0_r. reflexivity.
  - exists (fun _ => 1). split; [constructor|]. intros u. replace (p * (u + 1)) with (p * u + p * 1) by ring. reflexivity.
  - exists (fun u => f' u + g' u). split; [now apply Bf_add|]. intros u. rewrite EF, EG. replace (f u + p * f' u + (g u + p * g' u)) with (f u + g u + p * (f' u + g' u)) by ring. reflexivity.
  - exists (fun u => f' u * g u + f u * g' u + p * (f' u * g' u)). split; [apply Bf_add; [apply Bf_add; now apply Bf_mul|apply (Bf_mul (fun _ => p)); [constructor|now apply Bf_mul]]|]. intros u. rewrite EF, EG. replace ((f u + p * f' u) * (g u + p * g' u)) with (f u * g u + p * (f' u * g u + f u * g' u + p * (f' u * g' u))) by ring. reflexivity.
  - destruct (Bf_shift f F) as (fs & FS & EFS). exists (fun u => -1 * (f' u * (inv (f u) * inv (fs u)))). split; [apply (Bf_mul (fun _ => -1)); [constructor|]; apply Bf_mul; [exact F'|]; apply Bf_mul; apply Bf_inv; auto; intros u; rewrite EFS; apply U|].
    intros u. rewrite EFS. set (x := f u). set (y := f (u + 1)). assert (UX : unit x) by apply U. assert (UY : unit y) by apply U. pose proof (inv_r p PP e E1 x UX) as IX. pose proof (inv_r p PP e E1 y UY) as IY. fold m in IX, IY. assert (XY : p * f' u == y - x). { specialize (EF u). fold x y in EF. rewrite EF. replace (x + p * f' u - x) with (p * f' u) by ring. reflexivity. }
    replace (inv x + p * (-1 * (f' u * (inv x * inv y)))) with (inv x - p * f' u * (inv x * inv y)) by ring. rewrite XY. replace (inv x - (y - x) * (inv x * inv y)) with (inv x * (1 - y * inv y) + x * inv x * inv y) by ring. rewrite IX, IY. replace (inv x * (1 - 1) + 1 * inv y) with (inv y) by ring. reflexivity.
Qed.
Definition dl (f : Z -> Z) (u : Z) : Z := f (u + 1) * inv (f u).
Fixpoint dln (n : nat) (f : Z -> Z) : Z -> Z := match n with O => f | S n => dln n (dl f) end.
Lemma dl_unit f : (forall u, unit (f u)) -> forall u, unit (dl f u).
Proof. intros H u. apply unit_mul; [exact PP|apply H|]. now apply inv_unit. Qed.
Lemma dln_unit n : forall f, (forall u, unit (f u)) -> forall u, unit (dln n f u).
Proof. induction n as [|n IH]; intros f H u; cbn [dln]; [apply H|]. apply IH. now apply dl_unit. Qed.
Lemma dl_class k f h : 0 <= k -> Bf h -> (forall u, unit (f u)) -> (forall u, f u == 1 + p ^ k * h u) -> exists h', Bf h' /\ forall u, dl f u == 1 + p ^ (k + 1) * h' u.
Proof.
  intros K B U H. destruct (Bf_diff h B) as (g & G & EG). set (F := fun u => 1 + p ^ k * h u). assert (BF : Bf F) by (apply Bf_add; [constructor|apply (Bf_mul (fun _ => p ^ k)); [constructor|exact B]]). assert (UF : forall u, unit (F u)) by (intros u; apply (unit_cong p PP e E1 (f u)); [apply H|apply U]).
  exists (fun u => g u * inv (F u)). split; [apply Bf_mul; [exact G|now apply Bf_inv]|]. intros u. unfold dl. pose proof (inv_cong p PP e E1 _ _ (H u)) as IH. fold m in IH. fold (F u) in IH. rewrite IH. rewrite H, EG. replace (1 + p ^ k * (h u + p * g u)) with (F u + p ^ k * p * g u) by (unfold F; ring). pose proof (inv_r p PP e E1 _ (UF u)) as I1. fold m in I1. rewrite Z.mul_add_distr_r, I1. rewrite Z.pow_add_r, Z.pow_1_r by lia. rewrite Z.mul_assoc. reflexivity.
Qed.
Lemma dln_class n : forall k f h, 0 <= k -> Bf h -> (forall u, unit (f u)) -> (forall u, f u == 1 + p ^ k * h u) -> exists h', forall u, dln n f u == 1 + p ^ (k + Z.of_nat n) * h' u.
Proof.
  induction n as [|n IH]; intros k f h K B U H; cbn [dln]; [exists h; intros u; rewrite Z.add_0_r; apply H|]. destruct (dl_class k f h K B U H) as (h1 & B1 & H1). destruct (IH (k + 1) (dl f) h1 ltac:(lia) B1 (dl_unit f U) H1) as (h' & H'). exists h'. intros u. rewrite H'. replace (k + 1 + Z.of_nat n) with (k + Z.of_nat (S n)) by lia. reflexivity.
Qed.
Lemma poly_delta g n : Bf g -> (forall u, unit (g u)) -> e <= Z.of_nat n -> forall u, dln n g u == 1.
Proof.
  intros B U N. destruct (dln_class n 0 g (fun u => -1 + g u) ltac:(lia)) as (h & H); [apply Bf_add; [constructor|exact B]|exact U|intros u; rewrite Z.pow_0_r; replace (1 + 1 * (-1 + g u)) with (g u) by ring; reflexivity|].
  intros u. rewrite H. apply cong_divide; [now apply m_pos|]. replace (0 + Z.of_nat n) with (e + (Z.of_nat n - e)) by lia. pose proof (p2 p PP). rewrite Z.pow_add_r by lia. exists (p ^ (Z.of_nat n - e) * h u). unfold m. ring.
Qed.

(** equality, or equality up to sign when sg is true *)
Variable sg : bool.
Definition sim (a b : Z) : Prop := a == b \/ (sg = true /\ a == - b).
Lemma cong_sim a b : a == b -> sim a b. Proof. now left. Qed.
Global Instance sim_equiv : Equivalence sim.
Proof.
  split.
  - intros x. left. reflexivity.
  - intros x y [H|(S0 & H)]; [left; now symmetry|right; split; [exact S0|]]. rewrite H, Z.opp_involutive. reflexivity.
  - intros x y z [H|(S0 & H)] [K|(S1 & K)]; [left; now rewrite H|right; split; [exact S1|now rewrite H]|right; split; [exact S0|now rewrite H, K]|left; rewrite H, K, Z.opp_involutive; reflexivity].
Qed.
Global Instance sim_mul : Proper (sim ==> sim ==> sim) Z.mul.
Proof.
  intros a a' A b b' B. destruct A as [A|(S0 & A)], B as [B|(S1 & B)].
  - left. now rewrite A, B.
  - right. split; [exact S1|]. rewrite A, B. replace (a' * - b') with (- (a' * b')) by ring. reflexivity.
  - right. split; [exact S0|]. rewrite A, B. replace (- a' * b') with (- (a' * b')) by ring. reflexivity.
  - left. rewrite A, B. replace (- a' * - b') with (a' * b') by ring. reflexivity.
Qed.
Lemma pm_pow k : 0 <= k -> (-1) ^ k = 1 \/ (-1) ^ k = -1.
Proof. revert k. apply natlike_ind; [left; reflexivity|]. intros k K [IH|IH]; rewrite Z.pow_succ_r by exact K; rewrite IH; [right|left]; reflexivity. Qed.
Lemma sim_zp a b k : sim a b -> sim (zp a k) (zp b k).
Proof.
  intros [H|(S0 & H)]; [left; now apply zp_cong|]. assert (Z1 : zp a k == zp (-1) k * zp b k). { rewrite <- zp_mul. replace (-1 * b) with (- b) by ring. now apply zp_cong. } assert (0 <= k mod phi_pe p e) by (apply Z.mod_pos_bound; pose proof (phi_pos p PP e E1); lia).
  destruct (pm_pow (k mod phi_pe p e)) as [Q|Q]; [assumption| |]; unfold CmppProofs2.zp at 2 in Z1; rewrite Q in Z1; [left; rewrite Z1, Z.mul_1_l; reflexivity|right; split; [exact S0|]; rewrite Z1; replace (-1 * zp b k) with (- zp b k) by ring; reflexivity].
Qed.
Lemma sim_inv a b : sim a b -> sim (inv a) (inv b). Proof. apply sim_zp. Qed.
Lemma dln_sim lo n : forall f g u, (forall u, lo <= u -> sim (f u) (g u)) -> lo <= u -> sim (dln n f u) (dln n g u).
Proof. induction n as [|n IH]; intros f g u H U; cbn [dln]; [now apply H|]. apply IH; [|exact U]. intros v V. unfold dl. rewrite (H (v + 1)) by lia. rewrite (sim_inv _ _ (H v V)). reflexivity. Qed.
Lemma dln_eq n : forall f g u, (forall u, f u = g u) -> dln n f u = dln n g u.
Proof. induction n as [|n IH]; intros f g u H; cbn [dln]; [apply H|]. apply IH. intros v. unfold dl. now rewrite !H. Qed.
Lemma dln_mul n : forall f g u, dln n (fun u => f u * g u) u = dln n f u * dln n g u.
Proof. induction n as [|n IH]; intros f g u; cbn [dln]; [reflexivity|]. rewrite <- IH. apply dln_eq. intros v. unfold dl. rewrite inv_mul. ring. Qed.
Lemma dln_inv n : forall f u, dln n (fun u => inv (f u)) u = inv (dln n f u).
Proof. induction n as [|n IH]; intros f u; cbn [dln]; [reflexivity|]. rewrite <- IH. apply dln_eq. intros v. unfold dl. now rewrite <- inv_mul. Qed.
Lemma dln_zp lo n c : unit c -> forall a u, lo <= u -> sim (dln n (fun u => zp c (a u)) u) (zp c (dan n a u)).
Proof.
  intros U. induction n as [|n IH]; intros a u L; cbn [dln dan]; [reflexivity|]. rewrite <- IH by exact L. apply (dln_sim lo); [|exact L]. intros v V. left. unfold dl, da. rewrite (inv_zp c (a v) U). rewrite <- zp_add by auto. reflexivity.
Qed.
Lemma sim_one a : sim a 1 -> sim (inv a) 1.
Proof. intros H. rewrite (sim_inv _ _ H), inv_one. reflexivity. Qed.
Lemma interp_one n : forall K lo, (forall u, unit (K u)) -> (forall u, lo <= u -> sim (dln n K u) 1) -> (forall i, lo <= i < lo + Z.of_nat n -> sim (K i) 1) -> forall u, lo <= u -> sim (K u) 1.
Proof.
  induction n as [|n IH]; intros K lo U H N u L; [now apply H|]. assert (D1 : forall v, lo <= v -> sim (dl K v) 1). { apply IH; [now apply dl_unit|exact H|]. intros i I. unfold dl. rewrite (N (i + 1)) by lia. rewrite sim_one by (apply N; lia). reflexivity. }
  replace u with (lo + (u - lo)) by lia. assert (W0 : 0 <= u - lo) by lia. revert W0. generalize (u - lo) as w. apply natlike_ind; [rewrite Z.add_0_r; apply N; lia|]. intros w W IHw. specialize (D1 (lo + w) ltac:(lia)). unfold dl in D1. replace (lo + w + 1) with (lo + Z.succ w) in D1 by lia.
  assert (S1 : sim (K (lo + Z.succ w) * inv (K (lo + w)) * K (lo + w)) 1) by (rewrite D1, IHw; reflexivity). rewrite <- S1. left. rewrite <- Z.mul_assoc, (Z.mul_comm (inv _)). pose proof (inv_r p PP e E1 _ (U (lo + w))) as I1. fold m in I1. rewrite I1, Z.mul_1_r. reflexivity.
Qed.
Lemma interp_sim n f g lo : (forall u, unit (f u)) -> (forall u, unit (g u)) -> (forall u, lo <= u -> sim (dln n f u) 1) -> (forall u, lo <= u -> sim (dln n g u) 1) -> (forall i, lo <= i < lo + Z.of_nat n -> sim (f i) (g i)) -> forall u, lo <= u -> sim (f u) (g u).
Proof.
  intros UF UG DF DG N u L. assert (K : sim (f u * inv (g u)) 1).
  { apply (interp_one n (fun u => f u * inv (g u)) lo); [intros v; apply unit_mul; [exact PP|apply UF|now apply inv_unit]| | |exact L].
    - intros v V. rewrite dln_mul, dln_inv. rewrite (DF v V), (sim_one _ (DG v V)). reflexivity.
    - intros i I. rewrite (N i I). left. now apply inv_r. }
  assert (S1 : sim (f u * inv (g u) * g u) (g u)) by (rewrite K, Z.mul_1_l; reflexivity). rewrite <- S1. left. rewrite <- Z.mul_assoc, (Z.mul_comm (inv _)). pose proof (inv_r p PP e E1 _ (UG u)) as I1. fold m in I1. rewrite I1, Z.mul_1_r. reflexivity.
Qed.
(** products of powers with given exponents *)
Definition prodj (c : nat -> Z) (a : nat -> Z -> Z) (js : list nat) (u : Z) : Z := zprodl (map (fun j => zp (c j) (a j u)) js).
Lemma prodj_unit c a js : (forall j, unit (c j)) -> forall u, unit (prodj c a js u).
Proof. intros H u. unfold prodj. induction js as [|j js IH]; cbn [map zprodl]; [now apply unit_1|]. apply unit_mul; [exact PP|now apply zp_unit|exact IH]. Qed.
Lemma prodj_delta lo n c a js : (forall j, unit (c j)) -> (forall j u, In j js -> lo <= u -> dan n (a j) u = 0) -> forall u, lo <= u -> sim (dln n (prodj c a js) u) 1.
Proof.
  intros U H u L. induction js as [|j js IH].
  - rewrite (dln_eq n _ (fun _ => 1)) by reflexivity. assert (K : forall n u, dln n (fun _ => 1) u = 1). { clear - PP E1. induction n as [|n IH]; intros u; cbn [dln]; [reflexivity|]. rewrite (dln_eq n _ (fun _ => 1)); [apply IH|]. intros v. unfold dl. now rewrite inv_one. } rewrite K. reflexivity.
  - rewrite (dln_eq n _ (fun u => zp (c j) (a j u) * prodj c a js u)) by reflexivity. rewrite dln_mul, IH by (intros; apply H; [now right|assumption]). rewrite (dln_zp lo) by auto. rewrite H by (auto; now left). left. rewrite zp_0 by auto. reflexivity.
Qed.
Lemma interp_main lo n f c a js : (forall u, unit (f u)) -> (forall u, lo <= u -> sim (dln n f u) 1) -> (forall j, unit (c j)) -> (forall j u, In j js -> lo <= u -> dan n (a j) u = 0) ->
  (forall i, lo <= i < lo + Z.of_nat n -> sim (f i) (prodj c a js i)) -> forall u, lo <= u -> sim (f u) (prodj c a js u).
Proof. intros U D UC A N. apply (interp_sim n); auto; [now apply prodj_unit|now apply prodj_delta]. Qed.
End Mult.
