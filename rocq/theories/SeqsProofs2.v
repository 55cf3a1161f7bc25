From Coq Require Import Ring Ring_theory Setoid Morphisms.
From Verif Require Import Lib RingSpec RingProofs SeriesSpec SeriesProofs SerSpec SerProofs SeqsSpec SeqsModel.
Open Scope nat_scope.

Section Powx.
  Context {R : Type} (zero one : R) (add mul sub : R -> R -> R) (opp : R -> R).
  Hypothesis Rth : ring_theory zero one add mul sub opp (@eq R).
  Add Ring Rpx : Rth.
  Local Notation rsum := (rsum zero add). Local Notation rnat := (rnat zero one add). Local Notation rpow := (rpow one mul).
  Local Notation pconv := (pconv zero add mul). Local Notation pconst := (pconst zero).
  Local Notation ppow := (ppow zero one add mul). Local Notation D := (pderiv zero one add mul). Local Notation X := (px zero one).
  Local Notation f0 := (f0 zero). Local Notation f1 := (f1 zero one). Local Notation fc := (fc zero).
  Local Notation fadd := (fadd add). Local Notation fsub := (fsub sub). Local Notation fmul := (fmul zero add mul). Local Notation fopp := (fopp opp).
  Local Infix "==" := feq (at level 70). Local Infix "+!" := fadd (at level 50, left associativity). Local Infix "-!" := fsub (at level 50, left associativity). Local Infix "*!" := fmul (at level 40, left associativity).
  Instance feq_equivX : Equivalence (@feq R) := feq_equiv.
  Instance fadd_extX : Proper (feq ==> feq ==> feq) fadd := fadd_ext add. Instance fsub_extX : Proper (feq ==> feq ==> feq) fsub := fsub_ext sub. Instance fopp_extX : Proper (feq ==> feq) fopp := fopp_ext opp. Instance fmul_extX : Proper (feq ==> feq ==> feq) fmul := fmul_ext zero add mul.
  Instance D_extX : Proper (feq ==> feq) D := D_ext zero one add mul.
  Add Ring FsX : (fring zero one add mul sub opp Rth) (setoid (@fset R) (fext zero add mul opp)).

  Lemma X_mul a i : (X *! a) i = match i with O => zero | S i => a i end.
  Proof using Rth.
    unfold SerProofs.fmul, SeriesSpec.pconv. destruct i as [|i]; [cbn; ring|]. rewrite (rsum_single zero one add mul sub opp Rth _ _ 1); [|lia|].
    - cbn. rewrite Nat.sub_0_r. ring.
    - intros [|[|j]] _ H; cbn; try ring; lia.
  Qed.
  Lemma D_X : D X == f1.
  Proof using Rth. intros [|[|i]]; cbn; unfold SerSpec.pderiv, SerProofs.f1; cbn; ring. Qed.
  Lemma X_pow n i : ppow X n i = if i =? n then one else zero.
  Proof using Rth.
    revert i. induction n as [|n IH]; intros i; [destruct i; reflexivity|]. cbn [SerSpec.ppow]. change (pconv (ppow X n) X i) with ((ppow X n *! X) i).
    assert (E : ppow X n *! X == X *! ppow X n) by ring. rewrite (E i), X_mul. destruct i as [|i]; [reflexivity|]. rewrite IH. reflexivity.
  Qed.
  Lemma XD_pow n : X *! D (ppow X n) == fc (rnat n) *! ppow X n.
  Proof using Rth.
    intros i. rewrite X_mul, (fc_mul zero one add mul sub opp Rth), X_pow. destruct i as [|i]; [destruct n; cbn; ring|]. unfold SerSpec.pderiv. rewrite X_pow. destruct (Nat.eqb_spec (S i) n) as [<-|]; ring.
  Qed.
  (** the generating polynomial of k^m, k <= n *)
  Definition gp (n m i : nat) : R := if i <=? n then rpow (rnat i) m else zero.
  Lemma XD_gp n m : X *! D (gp n m) == gp n (S m).
  Proof using Rth.
    intros i. rewrite X_mul. unfold gp, SerSpec.pderiv. destruct i as [|i]; [cbn; ring|]. destruct (S i <=? n); cbn [RingSpec.rpow]; ring.
  Qed.
  Definition W : nat -> R := X -! f1.
  Lemma D_W : D W == f1.
  Proof using Rth. unfold W. rewrite (D_sub zero one add mul sub opp Rth), D_X. rewrite (D_1 zero one add mul sub opp Rth). ring. Qed.
  Lemma geometric n : ppow X n *! X -! f1 == W *! gp n 0.
  Proof using Rth.
    assert (E : W *! gp n 0 == X *! gp n 0 -! gp n 0) by (unfold W; ring). rewrite E. intros i. unfold SerProofs.fsub. rewrite X_mul. change ((ppow X n *! X) i) with (ppow X (S n) i). rewrite X_pow. unfold gp, SerProofs.f1, SeriesSpec.pconst. cbn [RingSpec.rpow].
    destruct i as [|i]; [cbn; ring|]. destruct (Nat.eqb_spec (S i) (S n)) as [Q|Q], (Nat.leb_spec i n), (Nat.leb_spec (S i) n); try lia; ring.
  Qed.
  Definition supp (N : nat) (a : nat -> R) : Prop := forall i, N <= i -> a i = zero.
  Variable cast : Z -> R.
  Hypothesis cast_ok : forall n, cast (Z.of_nat n) = rnat n.
  Local Notation pol := (pol zero). Local Notation step n k := (powx_step zero one add mul sub opp cast (cast (Z.of_nat n)) k).
  Lemma pol2 a b : pol [a; b] == fc a +! fc b *! X.
  Proof using Rth. assert (E : fc b *! X == X *! fc b) by ring. rewrite E. intros i. unfold SerProofs.fadd. rewrite X_mul. destruct i as [|[|i]]; cbn; try ring. unfold SeqsModel.pol. destruct i; cbn; ring. Qed.
  Lemma polz : pol [zero; opp one; one] == X *! W.
  Proof using Rth. intros i. rewrite X_mul. unfold W, SerProofs.fsub, SerProofs.f1, SeqsModel.pol. destruct i as [|[|[|i]]]; cbn; try ring. destruct i; cbn; ring. Qed.
  Lemma fc_sub a b : fc (sub a b) == fc a -! fc b.
  Proof using Rth. intros [|i]; unfold SerProofs.fc, SerProofs.fsub; cbn; ring. Qed.
  Lemma powx_inv n m : let '(p, q) := fold_left (fun pq k => step n k pq) (seq 1 m) (pol [zero; one], pol [one]) in
    ppow X n *! p -! q == ppow W (S m) *! gp n m /\ supp (m + 2) p /\ supp (m + 1) q.
  Proof using Rth cast_ok.
    induction m as [|m IH].
    - cbn [seq fold_left]. split; [|split].
      + assert (E1 : pol [zero; one] == X) by (intros [|[|[|i]]]; reflexivity). assert (E2 : pol [one] == f1) by (intros [|[|i]]; reflexivity). rewrite E1, E2, geometric. cbn [SerSpec.ppow]. change (pconv (pconst one) W) with (f1 *! W). ring.
      + intros [|[|i]] H; try lia. unfold SeqsModel.pol. destruct i; reflexivity.
      + intros [|i] H; try lia. unfold SeqsModel.pol. destruct i; reflexivity.
    - rewrite seq_S, fold_left_app. cbn [fold_left]. destruct (fold_left _ (seq 1 m) _) as (p, q). destruct IH as (IH & Sp & Sq). replace (1 + m) with (S m) by lia. unfold powx_step. rewrite !cast_ok.
      set (k := S m) in *.
      match goal with |- (_ *! ?p' -! ?q' == _) /\ _ => assert (Ep : p' == X *! W *! D p -! (fc (rnat n) +! (fc (rnat k) -! fc (rnat n)) *! X) *! p); [|assert (Eq : q' == X *! W *! D q -! fc (rnat k) *! X *! q)] end.
      { change ((pol [zero; opp one; one] *! D p) -! (pol [rnat n; sub (rnat k) (rnat n)] *! p) == X *! W *! D p -! (fc (rnat n) +! (fc (rnat k) -! fc (rnat n)) *! X) *! p). rewrite polz, pol2, fc_sub. reflexivity. }
      { change ((pol [zero; opp one; one] *! D q) -! (pol [zero; sub (rnat k) zero] *! q) == X *! W *! D q -! fc (rnat k) *! X *! q). rewrite polz, pol2, fc_sub, (fc_0 zero). ring. }
      split; [|split].
      + rewrite Ep, Eq.
        assert (T1 : ppow X n *! (X *! W *! D p -! (fc (rnat n) +! (fc (rnat k) -! fc (rnat n)) *! X) *! p) -! (X *! W *! D q -! fc (rnat k) *! X *! q) == X *! W *! D (ppow X n *! p -! q) -! fc (rnat k) *! X *! (ppow X n *! p -! q)).
        { rewrite (D_sub zero one add mul sub opp Rth), (D_mul zero one add mul sub opp Rth).
          transitivity (X *! W *! (ppow X n *! D p -! D q) +! W *! (fc (rnat n) *! ppow X n) *! p -! fc (rnat k) *! X *! (ppow X n *! p -! q)); [unfold W; ring|]. rewrite <- XD_pow. ring. }
        rewrite T1, IH, (D_mul zero one add mul sub opp Rth). unfold k at 1. rewrite (D_pow zero one add mul sub opp Rth), D_W. fold k. change (ppow W (S k)) with (ppow W k *! W). unfold k. rewrite <- XD_gp. change (ppow W (S m)) with (ppow W m *! W). ring.
      + intros i Hi.
        assert (Sd : supp (m + 1) (D p)) by (intros j Hj; unfold SerSpec.pderiv; rewrite Sp by lia; ring).
        assert (E1 : X *! W *! D p == X *! (X *! D p) -! X *! D p) by (unfold W; ring). assert (E2 : (fc (rnat n) +! (fc (rnat k) -! fc (rnat n)) *! X) *! p == fc (rnat n) *! p +! fc (sub (rnat k) (rnat n)) *! (X *! p)) by (rewrite fc_sub; ring).
        rewrite E1 in Ep. rewrite E2 in Ep. rewrite (Ep i). unfold SerProofs.fsub, SerProofs.fadd. rewrite !(fc_mul zero one add mul sub opp Rth). unfold k in Hi. destruct i as [|[|i]]; try lia. rewrite !X_mul. rewrite (Sd i), (Sd (S i)), (Sp (S i)), (Sp (S (S i))) by lia. ring.
      + intros i Hi.
        assert (Sd : supp m (D q)) by (intros j Hj; unfold SerSpec.pderiv; rewrite Sq by lia; ring).
        assert (E1 : X *! W *! D q == X *! (X *! D q) -! X *! D q) by (unfold W; ring). assert (E2 : fc (rnat k) *! X *! q == fc (rnat k) *! (X *! q)) by ring.
        rewrite E1 in Eq. rewrite E2 in Eq. rewrite (Eq i). unfold SerProofs.fsub. rewrite !(fc_mul zero one add mul sub opp Rth). unfold k in Hi. destruct i as [|[|i]]; try lia. rewrite !X_mul. rewrite (Sd i), (Sd (S i)), (Sq (S i)) by lia. ring.
  Qed.

  (** ** values *)
  Variable x : R.
  Definition ev (L : nat) (a : nat -> R) : R := rsum L (fun i => mul (a i) (rpow x i)).
  Lemma ev_ext L a b : a == b -> ev L a = ev L b. Proof using. intros H. apply RingProofs.rsum_ext. intros i _. now rewrite H. Qed.
  Lemma ev_sub L a b : ev L (a -! b) = sub (ev L a) (ev L b).
  Proof using Rth. unfold ev. rewrite <- (rsum_sub zero one add mul sub opp Rth). apply RingProofs.rsum_ext. intros i _. unfold SerProofs.fsub. ring. Qed.
  Lemma ev_X L N a : supp N a -> N < L -> ev L (X *! a) = mul x (ev L a) /\ supp (S N) (X *! a).
  Proof using Rth.
    intros Sa HL. split; [|intros [|i] Hi; rewrite X_mul; [reflexivity|apply Sa; lia]]. destruct L as [|L]; [lia|]. unfold ev. rewrite (rsum_S_l zero one add mul sub opp Rth), (RingProofs.rsum_S zero add L (fun i => mul (a i) (rpow x i))), (Sa L) by lia. rewrite X_mul.
    rewrite (RingProofs.rsum_ext zero add L _ (fun i => mul x (mul (a i) (rpow x i)))) by (intros i _; rewrite X_mul; cbn [RingSpec.rpow]; ring). rewrite (rsum_mul_l zero one add mul sub opp Rth). ring.
  Qed.
  Lemma supp_ext N a b : a == b -> supp N a -> supp N b. Proof using. intros E H i Hi. rewrite <- E. now apply H. Qed.
  Lemma supp_le N M a : N <= M -> supp N a -> supp M a. Proof using. intros E H i Hi. apply H. lia. Qed.
  Lemma ev_Xn n : forall L N a, supp N a -> N + n < S L -> ev L (ppow X n *! a) = mul (rpow x n) (ev L a) /\ supp (N + n) (ppow X n *! a).
  Proof using Rth.
    induction n as [|n IH]; intros L N a Sa HL.
    - assert (E : ppow X 0 *! a == a) by (change (ppow X 0) with f1; ring). rewrite (ev_ext L _ a E). split; [cbn; ring|]. rewrite Nat.add_0_r. eapply supp_ext; [symmetry; exact E|exact Sa].
    - assert (E : ppow X (S n) *! a == X *! (ppow X n *! a)) by (change (ppow X (S n)) with (ppow X n *! X); ring). destruct (IH L N a Sa ltac:(lia)) as (E1 & S1). destruct (ev_X L (N + n) _ S1 ltac:(lia)) as (E2 & S2). rewrite (ev_ext L _ _ E), E2, E1. split; [cbn [RingSpec.rpow]; ring|].
      eapply supp_ext; [symmetry; exact E|]. replace (N + S n) with (S (N + n)) by lia. exact S2.
  Qed.
  Lemma ev_Wn n : forall L N a, supp N a -> N + n < S L -> ev L (ppow W n *! a) = mul (rpow (sub x one) n) (ev L a) /\ supp (N + n) (ppow W n *! a).
  Proof using Rth.
    induction n as [|n IH]; intros L N a Sa HL.
    - assert (E : ppow W 0 *! a == a) by (change (ppow W 0) with f1; ring). rewrite (ev_ext L _ a E). split; [cbn; ring|]. rewrite Nat.add_0_r. eapply supp_ext; [symmetry; exact E|exact Sa].
    - assert (E : ppow W (S n) *! a == X *! (ppow W n *! a) -! ppow W n *! a) by (change (ppow W (S n)) with (ppow W n *! W); unfold W; ring). destruct (IH L N a Sa ltac:(lia)) as (E1 & S1). destruct (ev_X L (N + n) _ S1 ltac:(lia)) as (E2 & S2). rewrite (ev_ext L _ _ E), ev_sub, E2, E1. split; [cbn [RingSpec.rpow]; ring|].
      eapply supp_ext; [symmetry; exact E|]. intros i Hi. unfold SerProofs.fsub. rewrite S2, S1 by lia. ring.
  Qed.
  Lemma ev_trunc L N a : supp N a -> N <= L -> ev L a = ev N a.
  Proof using Rth. intros Sa HL. apply (rsum_trunc zero one add mul sub opp Rth); [exact HL|]. intros i Hi. rewrite Sa by lia. ring. Qed.
  Lemma ev_gp n m : ev (S n) (gp n m) = add (powx_sum zero one add mul m x n) (if m =? 0 then one else zero).
  Proof using Rth.
    unfold ev. rewrite (rsum_S_l zero one add mul sub opp Rth). unfold powx_sum. rewrite (RingProofs.rsum_ext zero add n _ (fun i => mul (rpow (rnat (S i)) m) (rpow x (S i)))).
    - unfold gp. cbn [Nat.leb]. destruct (Nat.eqb_spec m 0) as [->|N]; [cbn; ring|]. rewrite (rpow_0 zero one add mul sub opp Rth) by lia. ring.
    - intros i Hi. unfold gp. destruct (Nat.leb_spec (S i) n); [reflexivity|lia].
  Qed.
  Variable tdiv : R -> R -> option R.
  Lemma powx_run m n : (forall a, tdiv (mul a (rpow (sub x one) (m + 1))) (rpow (sub x one) (m + 1)) = Some a) -> sum_powx zero one add mul sub opp cast tdiv m x n = Some (powx_sum zero one add mul m x n).
  Proof using Rth cast_ok.
    intros Hd. unfold sum_powx. pose proof (powx_inv n m) as Inv. destruct (fold_left _ (seq 1 m) _) as (p, q). destruct Inv as (E & Sp & Sq).
    set (L := n + m + 5). assert (V : sub (mul (rpow x n) (pol_at zero one add mul m p x)) (pol_at zero one add mul m q x) = mul (rpow (sub x one) (m + 1)) (add (powx_sum zero one add mul m x n) (if m =? 0 then one else zero))).
    { assert (Hp : pol_at zero one add mul m p x = ev L p) by (symmetry; apply (ev_trunc L (m + 2) p Sp); unfold L; lia). assert (Hq : pol_at zero one add mul m q x = ev L q) by (symmetry; apply (ev_trunc L (m + 2) q); [eapply supp_le; [|exact Sq]; lia|unfold L; lia]).
      rewrite Hp, Hq. destruct (ev_Xn n L (m + 2) p Sp ltac:(unfold L; lia)) as (E1 & _). rewrite <- E1, <- ev_sub, (ev_ext L _ _ E).
      assert (Sg : supp (S n) (gp n m)) by (intros i Hi; unfold gp; destruct (Nat.leb_spec i n); [lia|reflexivity]).
      destruct (ev_Wn (S m) L (S n) _ Sg ltac:(unfold L; lia)) as (E2 & _). rewrite E2, (ev_trunc L (S n) _ Sg ltac:(unfold L; lia)), ev_gp. replace (m + 1) with (S m) by lia. reflexivity. }
    rewrite V. rewrite (Rmul_comm Rth), Hd. cbn [obind]. f_equal. ring.
  Qed.
End Powx.
