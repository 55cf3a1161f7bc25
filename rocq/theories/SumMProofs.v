(** sum_m: grouping equal quotients, the memo table. *)
From Coq Require Import Ring Ring_theory Arith Lia.
From Verif Require Import Lib BaseModel RingSpec RingProofs PrimesSpec PrimesProofs DirSpec DirModel DirProofs DirProofs2 DirProofs5 PiProofs PiProofs2 LohiModel LohiSpec LohiProofs SumMSpec SumMModel.
Open Scope nat_scope.

Section Group.
  Context {T : Type} (zero one : T) (add mul sub : T -> T -> T) (opp : T -> T).
  Hypothesis Rth : ring_theory zero one add mul sub opp (@eq T).
  Add Ring TrM : Rth.
  Notation rsum := (rsum zero add).
  (** the sum of g(k) M(h(k)) where g(k) = s(k) - s(k-1), over a < k <= b with h(k) = c *)
  Lemma telescope (s : nat -> T) a d : rsum d (fun i => sub (s (S (a + i))) (s (S (a + i) - 1))) = sub (s (a + d)) (s a).
  Proof.
    induction d as [|d IH]; cbn [RingSpec.rsum]; [rewrite Nat.add_0_r; ring|]. rewrite IH. replace (S (a + d) - 1) with (a + d) by lia. replace (a + S d) with (S (a + d)) by lia. ring.
  Qed.
  (** the last quotients: those k with h(k) < q *)
  Lemma tail_group (s M : nat -> T) (h c : nat -> nat) (n : nat) : (forall m, 1 <= m -> c (S m) <= c m) -> c 1 = n -> (forall m k, 1 <= m -> c (S m) < k <= c m -> h k = m) ->
    forall q, 1 <= q ->
    rsum (n - c q) (fun i => mul (sub (s (S (c q + i))) (s (S (c q + i) - 1))) (M (h (S (c q + i))))) = rsum (q - 1) (fun i => mul (sub (s (c (S i))) (s (c (S (S i))))) (M (S i))).
  Proof.
    intros C1 C2 H q Q. induction q as [|q IH]; [lia|]. destruct (Nat.eq_dec q 0) as [->|NZ].
    - rewrite C2, Nat.sub_diag. reflexivity.
    - replace (S q - 1) with (S (q - 1)) by lia. cbn [RingSpec.rsum]. rewrite <- IH by lia. replace (S (q - 1)) with q by lia.
      assert (B : forall m, 1 <= m -> c m <= n). { intros m Hm. induction m as [|m IHm]; [lia|]. destruct (Nat.eq_dec m 0) as [->|]; [lia|]. specialize (C1 m ltac:(lia)). specialize (IHm ltac:(lia)). lia. }
      pose proof (C1 q ltac:(lia)) as Cq. pose proof (B q ltac:(lia)) as Bq. replace (n - c (S q)) with ((c q - c (S q)) + (n - c q)) by lia. rewrite (rsum_split zero one add mul sub opp Rth).
      assert (E1 : rsum (c q - c (S q)) (fun i => mul (sub (s (S (c (S q) + i))) (s (S (c (S q) + i) - 1))) (M (h (S (c (S q) + i))))) = mul (sub (s (c q)) (s (c (S q)))) (M q)).
      { rewrite (rsum_ext zero add _ _ (fun i => mul (sub (s (S (c (S q) + i))) (s (S (c (S q) + i) - 1))) (M q))). 2:{ intros i I0. do 2 f_equal. apply H; lia. } rewrite (rsum_mul_r zero one add mul sub opp Rth), telescope. do 2 f_equal. f_equal. lia. }
      rewrite E1. rewrite (rsum_ext zero add (n - c q) _ (fun i => mul (sub (s (S (c q + i))) (s (S (c q + i) - 1))) (M (h (S (c q + i)))))). 2:{ intros i I0. replace (c (S q) + (c q - c (S q) + i)) with (c q + i) by lia. reflexivity. } ring.
  Qed.
  Lemma quot_between n m k : 1 <= m -> n / S m < k <= n / m -> n / k = m.
  Proof.
    intros Hm [A B]. pose proof (Nat.mul_div_le n m ltac:(lia)). pose proof (Nat.mul_succ_div_gt n (S m) ltac:(lia)). symmetry. apply (Nat.div_unique n k m (n - k * m)); nia.
  Qed.
  Lemma weighted_group (s M : nat -> T) n q : 1 <= q <= n ->
    weighted_quotients zero add mul (fun k => sub (s k) (s (k - 1))) M n =
    add (mul (sub (s 1) (s 0)) (M n)) (add (rsum (n / q - 1) (fun i => mul (sub (s (i + 2)) (s (i + 2 - 1))) (M (n / (i + 2))))) (rsum (q - 1) (fun i => mul (sub (s (n / (i + 1))) (s (n / (i + 1 + 1)))) (M (i + 1))))).
  Proof.
    intros Q. unfold weighted_quotients. assert (A : 1 <= n / q) by (apply Nat.div_le_lower_bound; lia). assert (B : n / q <= n) by (apply Nat.div_le_upper_bound; nia).
    assert (TG := tail_group s M (fun k => n / k) (fun m => n / m) n). cbv beta in TG. specialize (TG ltac:(intros; apply Nat.div_le_compat_l; lia) (Nat.div_1_r n) (quot_between n) q ltac:(lia)).
    replace n with (n / q + (n - n / q)) at 1 by lia. rewrite (rsum_split zero one add mul sub opp Rth). rewrite TG.
    replace (n / q) with (S (n / q - 1)) at 1 by lia. rewrite (rsum_S_l zero one add mul sub opp Rth). change (1 - 1) with 0. rewrite Nat.div_1_r.
    rewrite (rsum_ext zero add (n / q - 1) (fun k => mul (sub (s (S (S k))) (s (S (S k) - 1))) (M (n / S (S k)))) (fun i => mul (sub (s (i + 2)) (s (i + 2 - 1))) (M (n / (i + 2))))). 2:{ intros i _. replace (S (S i)) with (i + 2) by lia. reflexivity. }
    rewrite (rsum_ext zero add (q - 1) (fun i => mul (sub (s (n / S i)) (s (n / S (S i)))) (M (S i))) (fun i => mul (sub (s (n / (i + 1))) (s (n / (i + 1 + 1)))) (M (i + 1)))). 2:{ intros i _. replace (S (S i)) with (i + 1 + 1) by lia. replace (S i) with (i + 1) by lia. reflexivity. }
    ring.
  Qed.
End Group.

Section Memo.
  Context {T TBL : Type} (zero one : T) (add mul sub : T -> T -> T) (opp : T -> T) (tdiv : T -> T -> option T).
  Hypothesis Rth : ring_theory zero one add mul sub opp (@eq T).
  Add Ring TrN : Rth.
  Context (tfind : TBL -> nat -> option (option T)) (tput : TBL -> nat -> T -> option TBL).
  Variables (root cbrt : nat -> option nat).
  Variables (D : nat -> Prop) (Ok : TBL -> (nat -> option T) -> Prop).
  Hypothesis Table : map_on D tfind tput Ok.
  Hypothesis Keys : quotient_keys D.
  Notation rsum := (rsum zero add).
  Variable M : nat -> T.

  (** what a call on n does to the table *)
  Definition step_ok (n : nat) (m m' : nat -> option T) : Prop := agrees D M m' /\ keeps D m m' /\ (1 <= n -> m' n = Some (M n)).
  Definition call_ok (call : nat -> TBL -> option (T * TBL)) (n : nat) : Prop :=
    forall tb m, D n -> Ok tb m -> agrees D M m -> exists tb' m', call n tb = Some (M n, tb') /\ Ok tb' m' /\ step_ok n m m'.
  Lemma keeps_refl (m : nat -> option T) : keeps D m m. Proof. intros k v _ H. exact H. Qed.
  Lemma keeps_trans (m1 m2 m3 : nat -> option T) : keeps D m1 m2 -> keeps D m2 m3 -> keeps D m1 m3.
  Proof. intros A B k v Dk H. apply B; auto. Qed.
  (** a loop of calls: the terms c(j) M(a(j)) are subtracted one by one *)
  Lemma call_loop (call : nat -> TBL -> option (T * TBL)) (key : nat -> nat) (cf : nat -> T -> T) lo hi (r : T) tb m :
    lo <= hi -> (forall j, lo <= j < hi -> D (key j) /\ 1 <= key j /\ call_ok call (key j)) -> Ok tb m -> agrees D M m ->
    exists tb' m', for_range lo hi (fun k '(r, tbl) => let* '(x, tbl) := call (key k) tbl in Some (sub r (cf k x), tbl)) (r, tb) = Some (sub r (rsum (hi - lo) (fun i => cf (i + lo) (M (key (i + lo))))), tb') /\
      Ok tb' m' /\ agrees D M m' /\ keeps D m m' /\ forall j, lo <= j < hi -> m' (key j) = Some (M (key j)).
  Proof.
    intros L HC HO HA.
    match goal with |- context[for_range lo hi ?body ?s] => destruct (for_range_spec (fun j '(r', tb') => exists m', r' = sub r (rsum (j - lo) (fun i => cf (i + lo) (M (key (i + lo))))) /\ Ok tb' m' /\ agrees D M m' /\ keeps D m m' /\ forall i, lo <= i < j -> m' (key i) = Some (M (key i))) body lo hi s) as ((r' & tb') & E & m' & R & O & A & K & F); [exact L| | |] end.
    - exists m. rewrite Nat.sub_diag. cbn [RingSpec.rsum]. split; [ring|]. split; [exact HO|]. split; [exact HA|]. split; [apply keeps_refl|]. intros; lia.
    - intros j (r1, tb1) J (m1 & R1 & O1 & A1 & K1 & F1). destruct (HC j J) as (Dk & Pk & C). destruct (C tb1 m1 Dk O1 A1) as (tb2 & m2 & E2 & O2 & A2 & K2 & F2). exists (sub r1 (cf j (M (key j))), tb2). rewrite E2. cbn [obind]. split; [reflexivity|]. exists m2. split; [|split; [exact O2|split; [exact A2|split; [now apply (keeps_trans m m1)|]]]].
      + replace (S j - lo) with (S (j - lo)) by lia. cbn [RingSpec.rsum]. replace (j - lo + lo) with j by lia. rewrite R1. ring.
      + intros i I0. destruct (Nat.eq_dec i j) as [->|NE]; [apply F2; lia|]. apply K2; [apply HC; lia|]. apply F1. lia.
    - exists tb', m'. rewrite E, R. split; [reflexivity|]. split; [exact O|]. split; [exact A|]. split; [exact K|exact F].
  Qed.
  Lemma call_loop_down (call : nat -> TBL -> option (T * TBL)) (key : nat -> nat) lo hi (r : T) tb m :
    lo <= hi -> (forall j, lo <= j < hi -> D (key j) /\ 1 <= key j /\ call_ok call (key j)) -> Ok tb m -> agrees D M m ->
    exists tb' m', for_down lo hi (fun k '(r, tbl) => let* '(x, tbl) := call (key k) tbl in Some (sub r x, tbl)) (r, tb) = Some (sub r (rsum (hi - lo) (fun i => M (key (i + lo)))), tb') /\
      Ok tb' m' /\ agrees D M m' /\ keeps D m m'.
  Proof.
    intros L HC HO HA.
    match goal with |- context[for_down lo hi ?body ?s] => destruct (for_down_spec (fun j '(r', tb') => exists m', r' = sub r (rsum (hi - j) (fun i => M (key (i + j)))) /\ Ok tb' m' /\ agrees D M m' /\ keeps D m m') body lo hi s) as ((r' & tb') & E & m' & R & O & A & K); [exact L| | |] end.
    - exists m. rewrite Nat.sub_diag. cbn [RingSpec.rsum]. split; [ring|]. split; [exact HO|]. split; [exact HA|apply keeps_refl].
    - intros j (r1, tb1) J (m1 & R1 & O1 & A1 & K1). destruct (HC j J) as (Dk & Pk & C). destruct (C tb1 m1 Dk O1 A1) as (tb2 & m2 & E2 & O2 & A2 & K2 & F2). exists (sub r1 (M (key j)), tb2). rewrite E2. cbn [obind]. split; [reflexivity|]. exists m2. split; [|split; [exact O2|split; [exact A2|now apply (keeps_trans m m1)]]].
      replace (hi - j) with (S (hi - S j)) by lia. rewrite (rsum_S_l zero one add mul sub opp Rth). cbn [Nat.add]. rewrite (rsum_ext zero add (hi - S j) (fun k => M (key (S (k + j)))) (fun i => M (key (i + S j)))). 2:{ intros; do 2 f_equal; lia. } rewrite R1. ring.
    - exists tb', m'. rewrite E, R. auto.
  Qed.
  Lemma finish (n : nat) tb m m0 : D n -> Ok tb m -> agrees D M m -> keeps D m0 m -> exists tb' m', tput tb n (M n) = Some tb' /\ Ok tb' m' /\ step_ok n m0 m' /\ keeps D m m'.
  Proof.
    intros Dn O A K. destruct (Table tb m n O Dn) as (_ & P). destruct (P (M n)) as (tb' & E & O'). exists tb', (fun j => if n =? j then Some (M n) else m j). split; [exact E|]. split; [exact O'|].
    assert (KK : keeps D m (fun j => if n =? j then Some (M n) else m j)). { intros k v Dk H. cbv beta. destruct (Nat.eqb_spec n k) as [<-|]; [|exact H]. f_equal. symmetry. now apply A. }
    split; [|exact KK]. split; [|split; [now apply (keeps_trans m0 m)|intros _; now rewrite Nat.eqb_refl]].
    intros k v Dk. destruct (Nat.eqb_spec n k) as [<-|]; [now intros [= <-]|]. now apply A.
  Qed.
  Hypothesis M0 : M 0 = zero.
  Hypothesis Root : forall n, 1 <= n -> root n = Some (Nat.sqrt n).
  Lemma sqrt_facts n : 1 <= n -> 1 <= Nat.sqrt n <= n /\ Nat.sqrt n * Nat.sqrt n <= n.
  Proof. intros H. pose proof (Nat.sqrt_spec n ltac:(lia)). assert (1 <= Nat.sqrt n) by (apply Nat.sqrt_le_square; lia). cbn in *. nia. Qed.
  Lemma key_small n m : D n -> 1 <= m -> m * m <= n -> D m.
  Proof. intros Dn Hm H. rewrite <- (div_div_id n m Hm H). apply Keys; [exact Dn|]. split; [apply Nat.div_le_lower_bound; nia|]. apply Nat.div_le_upper_bound; nia. Qed.
  Lemma div_less n k : 1 <= n -> 2 <= k -> n / k < n.
  Proof. intros. apply Nat.div_lt_upper_bound; nia. Qed.

  Section S1.
  Variables (t s : nat -> T).
  Hypothesis Eq : forall n, D n -> 1 <= n -> weighted_quotients zero add mul (fun k => sub (s k) (s (k - 1))) M n = t n.
  Hypothesis Div : forall x, tdiv (mul (sub (s 1) (s 0)) x) (sub (s 1) (s 0)) = Some x.
  Notation call fuel := (sum_m zero mul sub tdiv tfind tput root fuel t s).
  (** all quotients are in the table afterwards, unless n was there already *)
  Lemma sum_m_all fuel : forall n tb m, n < fuel -> D n -> Ok tb m -> agrees D M m ->
    exists tb' m', call fuel n tb = Some (M n, tb') /\ Ok tb' m' /\ step_ok n m m' /\ (m n = None -> forall k, 1 <= k <= n -> m' (n / k) = Some (M (n / k))).
  Proof using Table Rth Root M0 Keys Eq Div.
    induction fuel as [|fuel IH]; intros n tb m F Dn O A; [lia|]. cbn [sum_m]. destruct (Nat.ltb_spec n 1) as [C|C].
    - exists tb, m. assert (n = 0) by lia. subst n. rewrite M0. split; [reflexivity|]. split; [exact O|]. split; [split; [exact A|split; [apply keeps_refl|lia]]|]. intros; lia.
    - destruct (Table tb m n O Dn) as (-> & _). cbn [obind]. destruct (m n) as [v|] eqn:Em.
      + exists tb, m. rewrite (A n v Dn Em). split; [reflexivity|]. split; [exact O|]. split; [|discriminate]. split; [exact A|split; [apply keeps_refl|]]. intros _. rewrite Em. f_equal. now apply A.
      + rewrite Root by exact C. cbn [obind]. destruct (sqrt_facts n C) as (Q & QQ). set (q := Nat.sqrt n) in *. destruct (Nat.eqb_spec q 0); [lia|]. cbn [negb guard obind].
        assert (NQ : 1 <= n / q) by (apply Nat.div_le_lower_bound; lia). assert (NQ2 : n / q <= n) by (apply Nat.div_le_upper_bound; nia).
        assert (CO : forall i, D i -> i < fuel -> call_ok (call fuel) i). { intros i Di Hi tb1 m1 _ O1 A1. destruct (IH i tb1 m1 Hi Di O1 A1) as (tb2 & m2 & E2 & O2 & S2 & _). exists tb2, m2. auto. }
        destruct (call_loop (call fuel) (fun k => n / k) (fun k x => mul (sub (s k) (s (k - 1))) x) 2 (n / q + 1) (t n) tb m) as (tb1 & m1 & E1 & O1 & A1 & K1 & F1); [lia| |exact O|exact A|].
        { intros j J. assert (1 <= n / j) by (apply Nat.div_le_lower_bound; lia). assert (DJ : D (n / j)) by (apply Keys; [exact Dn|lia]). split; [exact DJ|]. split; [lia|]. apply CO; [exact DJ|]. pose proof (div_less n j C ltac:(lia)). lia. }
        rewrite E1. cbn [obind].
        destruct (call_loop (call fuel) (fun k => k) (fun k x => mul (sub (s (n / k)) (s (n / (k + 1)))) x) 1 q (sub (t n) (rsum (n / q + 1 - 2) (fun i => mul (sub (s (i + 2)) (s (i + 2 - 1))) (M (n / (i + 2)))))) tb1 m1) as (tb2 & m2 & E2 & O2 & A2 & K2 & F2); [lia| |exact O1|exact A1|].
        { intros j J. assert (DJ : D j) by (apply (key_small n); [exact Dn|lia|nia]). split; [exact DJ|]. split; [lia|]. apply CO; [exact DJ|lia]. }
        rewrite E2. cbn [obind]. clear E1 E2.
        match goal with |- context[tdiv ?x _] => replace x with (mul (sub (s 1) (s 0)) (M n)) end.
        2:{ rewrite <- (Eq n Dn C), (weighted_group zero one add mul sub opp Rth s M n q) by lia. replace (n / q + 1 - 2) with (n / q - 1) by lia. ring. }
        rewrite Div. cbn [obind]. destruct (finish n tb2 m2 m Dn O2 A2 (keeps_trans m m1 m2 K1 K2)) as (tb' & m' & E3 & O3 & S3 & K3). rewrite E3. cbn [obind]. exists tb', m'. split; [reflexivity|]. split; [exact O3|]. split; [exact S3|]. intros _ k K.
        assert (Dk : D (n / k)) by (apply Keys; [exact Dn|lia]). destruct (Nat.eq_dec k 1) as [->|NK]; [rewrite Nat.div_1_r; apply S3; lia|]. apply K3; [exact Dk|]. destruct (Nat.le_gt_cases k (n / q)) as [KQ|KQ]; [apply K2; [exact Dk|]; apply F1; lia|]. apply F2.
        split; [apply Nat.div_le_lower_bound; lia|]. apply Nat.div_lt_upper_bound; [lia|]. pose proof (Nat.mul_succ_div_gt n q ltac:(lia)). nia.
  Qed.
  End S1.

  Section S2.
  Variable t : nat -> T.
  Hypothesis Eq : forall n, D n -> 1 <= n -> weighted_quotients zero add mul (fun _ => one) M n = t n.
  Notation call fuel := (sum_m1 zero one add mul sub tfind tput root fuel t).
  Notation nat_ := (rnat zero one add).
  Lemma nat_pred k : 1 <= k -> sub (nat_ k) (nat_ (k - 1)) = one.
  Proof using Rth. intros H. replace k with (S (k - 1)) at 1 by lia. cbn [rnat]. ring. Qed.
  Lemma nat_sub a b : b <= a -> sub (nat_ a) (nat_ b) = nat_ (a - b).
  Proof using Rth. intros H. replace a with ((a - b) + b) at 1 by lia. rewrite (rnat_add zero one add mul sub opp Rth). ring. Qed.
  Lemma sum_m1_all fuel : forall n tb m, n < fuel -> D n -> Ok tb m -> agrees D M m ->
    exists tb' m', call fuel n tb = Some (M n, tb') /\ Ok tb' m' /\ step_ok n m m' /\ (m n = None -> forall k, 1 <= k <= n -> m' (n / k) = Some (M (n / k))).
  Proof using Table Rth Root M0 Keys Eq.
    induction fuel as [|fuel IH]; intros n tb m F Dn O A; [lia|]. cbn [sum_m1]. destruct (Nat.ltb_spec n 1) as [C|C].
    - exists tb, m. assert (n = 0) by lia. subst n. rewrite M0. split; [reflexivity|]. split; [exact O|]. split; [split; [exact A|split; [apply keeps_refl|lia]]|]. intros; lia.
    - destruct (Table tb m n O Dn) as (-> & _). cbn [obind]. destruct (m n) as [v|] eqn:Em.
      + exists tb, m. rewrite (A n v Dn Em). split; [reflexivity|]. split; [exact O|]. split; [|discriminate]. split; [exact A|split; [apply keeps_refl|]]. intros _. rewrite Em. f_equal. now apply A.
      + rewrite Root by exact C. cbn [obind]. destruct (sqrt_facts n C) as (Q & QQ). set (q := Nat.sqrt n) in *. destruct (Nat.eqb_spec q 0); [lia|]. cbn [negb guard obind].
        assert (NQ : 1 <= n / q) by (apply Nat.div_le_lower_bound; lia). assert (NQ2 : n / q <= n) by (apply Nat.div_le_upper_bound; nia).
        assert (CO : forall i, D i -> i < fuel -> call_ok (call fuel) i). { intros i Di Hi tb1 m1 _ O1 A1. destruct (IH i tb1 m1 Hi Di O1 A1) as (tb2 & m2 & E2 & O2 & S2 & _). exists tb2, m2. auto. }
        destruct (call_loop (call fuel) (fun k => n / k) (fun k x => x) 2 (n / q + 1) (t n) tb m) as (tb1 & m1 & E1 & O1 & A1 & K1 & F1); [lia| |exact O|exact A|].
        { intros j J. assert (1 <= n / j) by (apply Nat.div_le_lower_bound; lia). assert (DJ : D (n / j)) by (apply Keys; [exact Dn|lia]). split; [exact DJ|]. split; [lia|]. apply CO; [exact DJ|]. pose proof (div_less n j C ltac:(lia)). lia. }
        rewrite E1. cbn [obind].
        destruct (call_loop (call fuel) (fun k => k) (fun k x => mul x (nat_ (n / k - n / (k + 1)))) 1 q (sub (t n) (rsum (n / q + 1 - 2) (fun i => M (n / (i + 2))))) tb1 m1) as (tb2 & m2 & E2 & O2 & A2 & K2 & F2); [lia| |exact O1|exact A1|].
        { intros j J. assert (DJ : D j) by (apply (key_small n); [exact Dn|lia|nia]). split; [exact DJ|]. split; [lia|]. apply CO; [exact DJ|lia]. }
        rewrite E2. cbn [obind]. clear E1 E2.
        match goal with |- context[tput _ _ ?x] => replace x with (M n) end.
        2:{ rewrite <- (Eq n Dn C). transitivity (sub (sub (weighted_quotients zero add mul (fun k => sub (nat_ k) (nat_ (k - 1))) M n) (rsum (n / q - 1) (fun i => mul (sub (nat_ (i + 2)) (nat_ (i + 2 - 1))) (M (n / (i + 2)))))) (rsum (q - 1) (fun i => mul (sub (nat_ (n / (i + 1))) (nat_ (n / (i + 1 + 1)))) (M (i + 1))))).
            - rewrite (weighted_group zero one add mul sub opp Rth nat_ M n q) by lia. assert (E11 : sub (nat_ 1) (nat_ 0) = one) by (cbn [rnat]; ring). rewrite E11. ring.
            - f_equal; [f_equal|].
              + apply (rsum_ext zero add). intros k _. rewrite nat_pred by lia. reflexivity.
              + replace (n / q + 1 - 2) with (n / q - 1) by lia. apply (rsum_ext zero add). intros k _. rewrite nat_pred by lia. ring.
              + apply (rsum_ext zero add). intros k _. rewrite nat_sub by (apply Nat.div_le_compat_l; lia). ring. }
        destruct (finish n tb2 m2 m Dn O2 A2 (keeps_trans m m1 m2 K1 K2)) as (tb' & m' & E3 & O3 & S3 & K3). rewrite E3. cbn [obind]. exists tb', m'. split; [reflexivity|]. split; [exact O3|]. split; [exact S3|]. intros _ k K.
        assert (Dk : D (n / k)) by (apply Keys; [exact Dn|lia]). destruct (Nat.eq_dec k 1) as [->|NK]; [rewrite Nat.div_1_r; apply S3; lia|]. apply K3; [exact Dk|]. destruct (Nat.le_gt_cases k (n / q)) as [KQ|KQ]; [apply K2; [exact Dk|]; apply F1; lia|]. apply F2.
        split; [apply Nat.div_le_lower_bound; lia|]. apply Nat.div_lt_upper_bound; [lia|]. pose proof (Nat.mul_succ_div_gt n q ltac:(lia)). nia.
  Qed.
  End S2.
End Memo.
