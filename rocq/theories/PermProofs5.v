From Coq Require Import Permutation Znumtheory.
From Verif Require Import Lib BaseModel BaseProofs PermModel PermSpec PermProofs PermProofs2 PermProofs3 PermProofs4.
Open Scope nat_scope.

Lemma prime_divisor_exists n : (1 < n)%Z -> exists p, prime p /\ (p | n)%Z.
Proof.
  intros Hn. assert (Hn0 : (0 <= n)%Z) by lia. revert Hn. pattern n. apply Z_lt_induction; [|exact Hn0]. clear n Hn0. intros n IH Hn. destruct (prime_dec n) as [P|NP].
  - exists n. split; [exact P|apply Z.divide_refl].
  - destruct (not_prime_divide n Hn NP) as (m & Hm & Dm). destruct (IH m ltac:(lia) ltac:(lia)) as (p & Pp & Dp). exists p. split; [exact Pp|]. eapply Z.divide_trans; eassumption.
Qed.
Lemma number_lemma l lam T g : (0 < l)%Z -> (0 < lam)%Z -> (0 < T)%Z -> (0 < g)%Z -> (forall k, 0 <= k -> (l | k) <-> (lam | k * T))%Z -> (g | T)%Z -> kernel_divides g l -> (l * g | lam)%Z.
Proof.
  intros Hl Hlam HT Hg H DT K. set (d := Z.gcd lam T). assert (Hd : (0 < d)%Z). { pose proof (Z.gcd_nonneg lam T). assert (d <> 0)%Z; [|unfold d in *; lia]. unfold d. intros X. apply Z.gcd_eq_0 in X. lia. }
  destruct (Z.gcd_divide_l lam T) as [a Ea]. destruct (Z.gcd_divide_r lam T) as [b Eb]. fold d in Ea, Eb.
  assert (C : rel_prime a b). { apply Zgcd_1_rel_prime. assert (X : Z.gcd (a * d) (b * d) = d) by (rewrite <- Ea, <- Eb; reflexivity). rewrite Z.gcd_mul_mono_r_nonneg in X by lia. nia. }
  assert (Ha : (0 < a)%Z) by nia. assert (Hb : (0 < b)%Z) by nia.
  assert (L1 : (l | a)%Z). { apply H; [lia|]. rewrite Ea, Eb. exists b. ring. }
  assert (L2 : (a | l)%Z). { assert (X : (lam | l * T)%Z) by (apply H; [lia|reflexivity]). rewrite Ea, Eb in X. destruct X as [q X]. apply Gauss with b; [exists q; nia|exact C]. }
  assert (l = a) as -> by (apply Z.divide_antisym_nonneg; lia || assumption).
  assert (R : rel_prime g b). { apply Zgcd_1_rel_prime. destruct (Z.eq_dec (Z.gcd g b) 1) as [|N]; [assumption|exfalso].
    assert (P : (1 < Z.gcd g b)%Z). { pose proof (Z.gcd_nonneg g b). assert (Z.gcd g b <> 0)%Z by (intros X; apply Z.gcd_eq_0 in X; lia). lia. }
    destruct (prime_divisor_exists _ P) as (p & Pp & Dp). assert (p | a)%Z by (apply K; [exact Pp|eapply Z.divide_trans; [exact Dp|apply Z.gcd_divide_l]]). assert (p | b)%Z by (eapply Z.divide_trans; [exact Dp|apply Z.gcd_divide_r]).
    destruct C as [_ _ C]. assert (p | 1)%Z by (apply C; assumption). apply prime_ge_2 in Pp. apply Z.divide_1_r in H2. lia. }
  assert (Dgd : (g | d)%Z) by (apply Gauss with b; [rewrite <- Eb; exact DT|exact R]). destruct Dgd as [q ->]. exists q. rewrite Ea. ring.
Qed.
Lemma iter_mul (r : nat -> nat) T k x : Nat.iter (k * T) r x = Nat.iter k (Nat.iter T r) x.
Proof. induction k as [|k IH]; [reflexivity|]. cbn [Nat.mul]. rewrite iter_add, IH. reflexivity. Qed.
Lemma iter_ext (f g : nat -> nat) k x : (forall x, f x = g x) -> Nat.iter k f x = Nat.iter k g x.
Proof. intros H. induction k as [|k IH]; [reflexivity|]. change (f (Nat.iter k f x) = g (Nat.iter k g x)). now rewrite IH, H. Qed.
Lemma iter_comm (f g : nat -> nat) k x : (forall x, f (g x) = g (f x)) -> Nat.iter k f (g x) = g (Nat.iter k f x).
Proof. intros H. induction k as [|k IH]; [reflexivity|]. change (f (Nat.iter k f (g x)) = g (f (Nat.iter k f x))). now rewrite IH, H. Qed.
Lemma period s c i k : cyc_ok s c -> NoDup c -> i < length c -> (Nat.iter k s (nth i c 0) = nth i c 0 <-> Nat.divide (length c) k).
Proof.
  intros C ND Hi. rewrite iter_cyc by assumption. assert (Hm := Nat.mod_upper_bound (i + k) (length c) ltac:(lia)). split.
  - intros E. apply nth_inj in E; [|exact ND|exact Hm|exact Hi]. exists ((i + k) / length c). pose proof (Nat.div_mod (i + k) (length c) ltac:(lia)). nia.
  - intros [q ->]. rewrite Nat.mod_add, Nat.mod_small by lia. reflexivity.
Qed.
Lemma period_unique a b : (forall k, Nat.divide a k <-> Nat.divide b k) -> a = b.
Proof. intros H. apply Nat.divide_antisym; apply H; apply Nat.divide_refl. Qed.
Lemma length_concat_mul (cs : list (list nat)) K : (forall c, In c cs -> Nat.divide K (length c)) -> Nat.divide K (length (concat cs)).
Proof. induction cs as [|c cs IH]; intros H; [apply Nat.divide_0_r|]. cbn. rewrite app_length. apply Nat.divide_add_r; [apply H; now left|apply IH; intros c' Hc'; apply H; now right]. Qed.
Lemma length_concat_const (cs : list (list nat)) l : (forall c, In c cs -> length c = l) -> length (concat cs) = length cs * l.
Proof. induction cs as [|c cs IH]; intros H; [reflexivity|]. cbn. rewrite app_length, IH by (intros c' Hc'; apply H; now right). rewrite (H c) by now left. reflexivity. Qed.
Lemma nodup_concat_filter (f : list nat -> bool) cs : NoDup (concat cs) -> NoDup (concat (filter f cs)).
Proof.
  induction cs as [|c cs IH]; intros ND; [constructor|]. cbn [concat] in ND. apply nodup_app_l in ND as (N1 & N2 & N3). cbn [filter]. destruct (f c); [|now apply IH]. cbn [concat]. apply NoDup_app_intro_disj; [exact N1|now apply IH|].
  intros x Hx Hy. apply (N3 x Hx). apply in_concat in Hy as (c' & Hc' & Hy). apply filter_In in Hc' as (Hc' & _). apply in_concat. now exists c'.
Qed.

Lemma root_complete cs n s T l : wf cs n -> denotes cs s -> (1 <= T)%Z -> (exists r, permutes n r /\ forall x, Nat.iter (Z.to_nat T) r x = s x) -> bucket_ok (all_cycles cs n) T l.
Proof.
  intros W D HT (r & Pr & Hr). destruct (all_cycles_spec cs n s W D) as ((A1 & A2 & A3) & (B1 & B2) & A4). set (vc := all_cycles cs n) in *.
  destruct (line_to_cycles_run n r (map r (seq 0 n)) Pr) as (rc0 & _ & Wr & Dr & _).
  { split; [rewrite map_length; apply seq_length|]. intros x Hx. erewrite map_nth_error; [reflexivity|]. now apply identity_line_spec. }
  destruct (all_cycles_spec rc0 n r Wr Dr) as ((R1 & R2 & R3) & (S1 & S2) & R4). set (rc := all_cycles rc0 n) in *. clear W D Wr Dr.
  unfold bucket_ok. destruct (list_eq_dec (list_eq_dec Nat.eq_dec) (bucket vc l) []) as [E|Hnb]; [now left|right].
  pose proof (bucket_pos vc A3 l Hnb) as Hl. destruct (root_len_run l T Hl HT) as (g & G & Er & Pg & Dg & _ & K & _). exists g, G. split; [exact Er|].
  assert (Per : forall x k, Nat.iter k s x = Nat.iter (k * Z.to_nat T) r x) by (intros x k; rewrite iter_mul; apply iter_ext; intros y; now rewrite Hr).
  assert (Com : forall x, s (r x) = r (s x)) by (intros x; rewrite <- !Hr; apply iter_comm; reflexivity).
  set (A := concat (bucket vc l)).
  assert (InA : forall x, x < n -> (In x A <-> forall k, Nat.iter k s x = x <-> Nat.divide l k)).
  { intros x Hx. pose proof (A4 x Hx) as Hin. apply in_cycle in Hin as (c & i & Hc & Hi & ->). pose proof (nodup_cycle vc c A1 Hc) as NDc. split.
    - intros HA k. unfold A in HA. apply in_concat in HA as (c' & Hc' & Hin'). apply bucket_in in Hc' as (Hc' & Lc'). assert (c = c') as <- by (apply (same_cycle vc c c' _ A1 Hc Hc' (nth_In c 0 Hi) Hin')). rewrite (period s c i k (B1 c Hc) NDc Hi), Lc'. reflexivity.
    - intros H. assert (length c = l) by (apply period_unique; intros k; rewrite <- (period s c i k (B1 c Hc) NDc Hi); apply H). unfold A. apply in_concat. exists c. split; [now apply bucket_in|now apply nth_In]. }
  destruct Pr as (P1 & P2 & P3).
  assert (InR : forall x, x < n -> In x A -> In (r x) A).
  { intros x Hx HA. apply InA; [now apply P1|]. intros k. rewrite iter_comm by exact Com. rewrite <- (proj1 (InA x Hx) HA k). split; [apply P3|intros ->; reflexivity]. }
  assert (InI : forall k x, x < n -> In x A -> In (Nat.iter k r x) A /\ Nat.iter k r x < n).
  { induction k as [|k IH]; intros x Hx HA; [split; assumption|]. destruct (IH x Hx HA) as (H1 & H2). change (Nat.iter (S k) r x) with (r (Nat.iter k r x)). split; [now apply InR|now apply P1]. }
  set (a := fun c : list nat => existsb (Nat.eqb (nth 0 c 0)) A).
  assert (Ha : forall c, a c = true <-> In (nth 0 c 0) A). { intros c. unfold a. rewrite existsb_exists. split; [intros (y & Hy & Ey); apply Nat.eqb_eq in Ey; now rewrite Ey|intros H; exists (nth 0 c 0); split; [exact H|apply Nat.eqb_refl]]. }
  set (F := filter a rc).
  assert (Hcyc : forall c i, In c rc -> i < length c -> (In (nth i c 0) A <-> a c = true)).
  { intros c i Hc Hi. rewrite Ha. assert (Hlt : forall j, j < length c -> nth j c 0 < n) by (intros j Hj; apply R2; now apply nth_concat). split; intros H.
    - destruct (InI (length c - i) (nth i c 0) (Hlt i Hi) H) as (X & _). rewrite iter_cyc in X by (auto; now apply S1). replace (i + (length c - i)) with (length c) in X by lia. now rewrite Nat.mod_same in X by lia.
    - destruct (InI i (nth 0 c 0) (Hlt 0 ltac:(lia)) H) as (X & _). rewrite iter_cyc in X by (try lia; now apply S1). rewrite Nat.add_0_l, Nat.mod_small in X by lia. exact X. }
  assert (PA : Permutation A (concat F)).
  { apply NoDup_Permutation; [now apply nodup_bucket|now apply nodup_concat_filter|]. intros x. split; intros H.
    - assert (Hx : x < n). { apply A2. unfold A in H. apply in_concat in H as (c & Hc & H). apply bucket_in in Hc as (Hc & _). apply in_concat. now exists c. }
      pose proof (R4 x Hx) as Hin. apply in_cycle in Hin as (c & i & Hc & Hi & ->). apply in_concat. exists c. split; [apply filter_In; split; [exact Hc|now apply (Hcyc c i Hc Hi)]|now apply nth_In].
    - apply in_cycle in H as (c & i & Hc & Hi & ->). apply filter_In in Hc as (Hc & Hac). now apply Hcyc. }
  assert (Dv : Nat.divide (l * Z.to_nat g) (length (concat F))).
  { apply length_concat_mul. intros c Hc. apply filter_In in Hc as (Hc & Hac). assert (Lc : 0 < length c) by (destruct c; [contradiction|cbn; lia]).
    pose proof (proj2 (Hcyc c 0 Hc Lc) Hac) as H0. set (x := nth 0 c 0) in *. assert (Hx : x < n) by (apply R2; now apply nth_concat).
    assert (Q : forall k, Nat.divide l k <-> Nat.divide (length c) (k * Z.to_nat T)). { intros k. rewrite <- (proj1 (InA x Hx) H0 k), Per. apply period; [now apply S1|now apply (nodup_cycle rc)|exact Lc]. }
    assert (X : (Z.of_nat l * g | Z.of_nat (length c))%Z).
    { apply (number_lemma _ _ T); try lia; [|exact Dg|exact K]. intros k Hk. specialize (Q (Z.to_nat k)). assert (Cv : forall u v, Nat.divide u v <-> (Z.of_nat u | Z.of_nat v)%Z). { intros u v. split; intros [q Hq]; [exists (Z.of_nat q); nia|]. destruct (Nat.eq_dec u 0) as [->|Hu]; [exists 0; lia|]. exists (Z.to_nat q). assert (0 <= q)%Z by nia. nia. }
      rewrite !Cv, Nat2Z.inj_mul, !Z2Nat.id in Q by lia. exact Q. }
    destruct X as [q X]. assert (0 <= q)%Z by nia. exists (Z.to_nat q). nia. }
  rewrite <- (Permutation_length PA) in Dv. unfold A in Dv. rewrite (length_concat_const _ l) in Dv by (intros c Hc; now apply bucket_in in Hc).
  destruct Dv as [q Dv]. exists (Z.of_nat q). change (@length cycle) with (@length (list nat)). nia.
Qed.
