(** The algebra of power series: a ring with a derivation; truncated equality and valuation. *)
From Coq Require Import Ring Ring_theory Setoid Morphisms.
From Verif Require Import Lib RingSpec RingProofs SeriesSpec SeriesProofs SerSpec.

Section SerProofs.
  Context {R : Type} (zero one : R) (add mul sub : R -> R -> R) (opp : R -> R).
  Hypothesis Rth : ring_theory zero one add mul sub opp (@eq R).
  Add Ring Rsr : Rth.
  Local Notation rsum := (rsum zero add). Local Notation rnat := (rnat zero one add).
  Local Notation pconv := (pconv zero add mul). Local Notation pconst := (pconst zero).
  Local Notation ppow := (ppow zero one add mul). Local Notation pderiv := (pderiv zero one add mul). Local Notation psubst := (psubst zero one add mul).
  Local Notation fs := (nat -> R).
  Definition feq (a b : fs) := forall i, a i = b i.
  Definition fadd (a b : fs) : fs := fun i => add (a i) (b i).
  Definition fsub (a b : fs) : fs := fun i => sub (a i) (b i).
  Definition fopp (a : fs) : fs := fun i => opp (a i).
  Definition fmul (a b : fs) : fs := pconv a b.
  Definition f0 : fs := fun _ => zero.
  Definition f1 : fs := pconst one.
  Definition fc (c : R) : fs := pconst c.
  Instance feq_equiv : Equivalence feq.
  Proof. split; [intros a i; reflexivity|intros a b H i; now rewrite H|intros a b c H K i; now rewrite H]. Qed.
  Instance fadd_ext : Proper (feq ==> feq ==> feq) fadd. Proof. intros a a' H b b' K i. unfold fadd. now rewrite H, K. Qed.
  Instance fsub_ext : Proper (feq ==> feq ==> feq) fsub. Proof. intros a a' H b b' K i. unfold fsub. now rewrite H, K. Qed.
  Instance fopp_ext : Proper (feq ==> feq) fopp. Proof. intros a a' H i. unfold fopp. now rewrite H. Qed.
  Instance fmul_ext : Proper (feq ==> feq ==> feq) fmul. Proof. intros a a' H b b' K i. apply pconv_ext; intros; auto. Qed.
  Lemma fring : ring_theory f0 f1 fadd fmul fsub fopp feq.
  Proof.
    split.
    - intros a i. unfold fadd, f0. ring.
    - intros a b i. unfold fadd. ring.
    - intros a b c i. unfold fadd. ring.
    - intros a i. unfold fmul, f1. rewrite (pconv_const_l _ _ _ _ _ _ Rth). ring.
    - intros a b i. apply (pconv_comm _ _ _ _ _ _ Rth).
    - intros a b c i. apply (pconv_assoc _ _ _ _ _ _ Rth).
    - intros a b c i. apply (pconv_add_l _ _ _ _ _ _ Rth).
    - intros a b i. unfold fsub, fadd, fopp. ring.
    - intros a i. unfold fadd, fopp, f0. ring.
  Qed.
  Lemma fext : ring_eq_ext fadd fmul fopp feq.
  Proof. split; [exact fadd_ext|exact fmul_ext|exact fopp_ext]. Qed.
  Lemma fset : Setoid_Theory fs feq. Proof. exact feq_equiv. Qed.
  Add Ring Fsr : fring (setoid fset fext).
  Local Infix "==" := feq (at level 70). Local Infix "+!" := fadd (at level 50, left associativity). Local Infix "-!" := fsub (at level 50, left associativity). Local Infix "*!" := fmul (at level 40, left associativity).

  (** truncated equality *)
  Definition eqn (n : nat) (a b : fs) := forall i, (i < n)%nat -> a i = b i.
  Instance eqn_equiv n : Equivalence (eqn n).
  Proof. split; [intros a i _; reflexivity|intros a b H i I; now rewrite H|intros a b c H K i I; rewrite H by exact I; now apply K]. Qed.
  Lemma eqn_feq n a b : a == b -> eqn n a b. Proof. intros H i _. apply H. Qed.
  Instance eqn_sub n : subrelation feq (eqn n). Proof. intros a b. apply eqn_feq. Qed.
  Instance eqn_proper n : Proper (feq ==> feq ==> iff) (eqn n).
  Proof. intros a a' H b b' K. split; intros E i I; [rewrite <- H, <- K|rewrite H, K]; now apply E. Qed.
  Instance fadd_eqn n : Proper (eqn n ==> eqn n ==> eqn n) fadd. Proof. intros a a' H b b' K i I. unfold fadd. now rewrite H, K. Qed.
  Instance fsub_eqn n : Proper (eqn n ==> eqn n ==> eqn n) fsub. Proof. intros a a' H b b' K i I. unfold fsub. now rewrite H, K. Qed.
  Instance fopp_eqn n : Proper (eqn n ==> eqn n) fopp. Proof. intros a a' H i I. unfold fopp. now rewrite H. Qed.
  Instance fmul_eqn n : Proper (eqn n ==> eqn n ==> eqn n) fmul. Proof. intros a a' H b b' K i I. apply pconv_ext; intros; [apply H|apply K]; lia. Qed.
  Lemma eqn_le n m a b : (m <= n)%nat -> eqn n a b -> eqn m a b. Proof. intros L H i I. apply H. lia. Qed.
  (** valuation at least n *)
  Definition val (n : nat) (a : fs) := forall i, (i < n)%nat -> a i = zero.
  Instance val_proper n : Proper (feq ==> iff) (val n). Proof. intros a a' H. split; intros E i I; [rewrite <- H|rewrite H]; now apply E. Qed.
  Lemma val_eqn n a b : eqn n a b <-> val n (a -! b).
  Proof. split; intros H i I; specialize (H i I); unfold fsub in *; [rewrite H; ring|]. transitivity (add (sub (a i) (b i)) (b i)); [ring|]. rewrite H. ring. Qed.
  Lemma val_eqn0 n a : eqn n a f0 <-> val n a. Proof. reflexivity. Qed.
  Lemma val_le n m a : (m <= n)%nat -> val n a -> val m a. Proof. intros L H i I. apply H. lia. Qed.
  Lemma val_mul n m a b : val n a -> val m b -> val (n + m) (a *! b).
  Proof.
    intros A B i I. apply (rsum_zero _ _ _ _ _ _ Rth). intros j J. destruct (Nat.lt_ge_cases j n) as [L|L]; [rewrite A by exact L; ring|]. rewrite (B (i - j)%nat) by lia. ring.
  Qed.
  Lemma val_mul_l n a b : val n a -> val n (a *! b).
  Proof. intros A. replace n with (n + 0)%nat by lia. apply val_mul; [exact A|]. intros i I. lia. Qed.
  Lemma val_add n a b : val n a -> val n b -> val n (a +! b). Proof. intros A B i I. unfold fadd. rewrite A, B by exact I. ring. Qed.
  Lemma val_opp n a : val n a -> val n (fopp a). Proof. intros A i I. unfold fopp. rewrite A by exact I. ring. Qed.
  Lemma val_sub n a b : val n a -> val n b -> val n (a -! b). Proof. intros A B i I. unfold fsub. rewrite A, B by exact I. ring. Qed.
  (** an approximate factor is good enough next to a factor of high valuation *)
  Lemma eqn_mul_val n k a b c : eqn n a b -> val k c -> eqn (n + k) (a *! c) (b *! c).
  Proof. intros E V. apply val_eqn. rewrite val_eqn in E. assert (Q : a *! c -! b *! c == (a -! b) *! c) by ring. rewrite Q. now apply val_mul. Qed.
  Lemma unit_cancel n a b c u : mul (c O) u = one -> eqn n (a *! c) (b *! c) -> eqn n a b.
  Proof.
    intros U E i I. destruct n as [|n]; [lia|]. apply (pconv_cancel _ _ _ _ _ _ Rth c a b n); [|exists u; rewrite <- U; ring|lia]. intros j J. rewrite !(pconv_comm _ _ _ _ _ _ Rth c). apply E. lia.
  Qed.

  (** the derivation *)
  Local Notation D := pderiv.
  Instance D_ext : Proper (feq ==> feq) D. Proof. intros a b H i. unfold SerSpec.pderiv. now rewrite H. Qed.
  Lemma D_eqn n a b : eqn (S n) a b -> eqn n (D a) (D b). Proof. intros H i I. unfold SerSpec.pderiv. now rewrite H by lia. Qed.
  Lemma D_val n a : val (S n) a -> val n (D a). Proof. intros H i I. unfold SerSpec.pderiv. rewrite H by lia. ring. Qed.
  Lemma D_add a b : D (a +! b) == D a +! D b. Proof. intros i. unfold SerSpec.pderiv, fadd. ring. Qed.
  Lemma D_sub a b : D (a -! b) == D a -! D b. Proof. intros i. unfold SerSpec.pderiv, fsub. ring. Qed.
  Lemma D_const c : D (fc c) == f0. Proof. intros i. unfold SerSpec.pderiv, fc, f0. cbn [SeriesSpec.pconst]. ring. Qed.
  Lemma D_1 : D f1 == f0. Proof. apply D_const. Qed.
  Lemma D_mul a b : D (a *! b) == D a *! b +! a *! D b.
  Proof.
    intros i. unfold fadd, fmul, SeriesSpec.pconv. unfold SerSpec.pderiv at 1. rewrite <- (rsum_mul_l _ _ _ _ _ _ Rth).
    rewrite (rsum_ext _ _ (S (S i)) (fun j => mul (rnat (S i)) (mul (a j) (b (S i - j)%nat))) (fun j => add (mul (mul (rnat j) (a j)) (b (S i - j)%nat)) (mul (a j) (mul (rnat (S i - j)) (b (S i - j)%nat))))).
    2:{ intros j J. replace (S i) with (j + (S i - j))%nat at 1 by lia. rewrite (rnat_add _ _ _ _ _ _ Rth). ring. }
    rewrite (rsum_add _ _ _ _ _ _ Rth). f_equal.
    - rewrite (rsum_S_l _ _ _ _ _ _ Rth). cbn [RingSpec.rnat]. replace (mul (mul zero (a O)) (b (S i - 0)%nat)) with zero by ring. rewrite (Radd_0_l Rth). apply rsum_ext. intros j J. unfold SerSpec.pderiv. replace (S i - S j)%nat with (i - j)%nat by lia. reflexivity.
    - rewrite rsum_S. rewrite Nat.sub_diag. cbn [RingSpec.rnat]. replace (mul (a (S i)) (mul zero (b O))) with zero by ring. rewrite (Radd_comm Rth), (Radd_0_l Rth). apply rsum_ext. intros j J. unfold SerSpec.pderiv. replace (S i - j)%nat with (S (i - j)) by lia. reflexivity.
  Qed.

  (** sums of series, constants *)
  Lemma fc_mul c a i : (fc c *! a) i = mul c (a i). Proof. apply (pconv_const_l _ _ _ _ _ _ Rth). Qed.
  Lemma fc_mult c d : fc c *! fc d == fc (mul c d). Proof. intros i. rewrite fc_mul. destruct i; cbn; ring. Qed.
  Lemma fc_add c d : fc c +! fc d == fc (add c d). Proof. intros i. unfold fadd, fc. destruct i; cbn; ring. Qed.
  Lemma fc_0 : fc zero == f0. Proof. intros i. unfold fc, f0. destruct i; reflexivity. Qed.
  Lemma fc_1 : fc one == f1. Proof. reflexivity. Qed.
  Fixpoint fsum (n : nat) (f : nat -> fs) : fs := match n with O => f0 | S n => fsum n f +! f n end.
  Lemma fsum_at n f i : fsum n f i = rsum n (fun k => f k i).
  Proof. induction n as [|n IH]; [reflexivity|]. cbn [fsum RingSpec.rsum]. unfold fadd. now rewrite IH. Qed.
  Lemma fsum_ext n f g : (forall k, (k < n)%nat -> f k == g k) -> fsum n f == fsum n g.
  Proof. induction n as [|n IH]; intros H; cbn [fsum]; [reflexivity|]. rewrite IH by (intros; apply H; lia). rewrite (H n) by lia. reflexivity. Qed.
  Lemma fsum_mul_r n f c : fsum n f *! c == fsum n (fun k => f k *! c).
  Proof. induction n as [|n IH]; cbn [fsum]; [ring|]. rewrite <- IH. ring. Qed.
  Lemma fsum_D n f : D (fsum n f) == fsum n (fun k => D (f k)).
  Proof. induction n as [|n IH]; cbn [fsum]; [intros i; unfold SerSpec.pderiv, f0; ring|]. rewrite D_add, IH. reflexivity. Qed.
  Lemma fsum_S_l n f : fsum (S n) f == f O +! fsum n (fun k => f (S k)).
  Proof. intros i. unfold fadd. rewrite !fsum_at. apply (rsum_S_l _ _ _ _ _ _ Rth). Qed.
  Lemma fsum_eqn m n f g : (forall k, (k < n)%nat -> eqn m (f k) (g k)) -> eqn m (fsum n f) (fsum n g).
  Proof. induction n as [|n IH]; intros H; cbn [fsum]; [reflexivity|]. apply fadd_eqn; [apply IH; intros; apply H; lia|apply H; lia]. Qed.
  Lemma fsum_add n f g : fsum n (fun k => f k +! g k) == fsum n f +! fsum n g.
  Proof. induction n as [|n IH]; cbn [fsum]; [ring|]. rewrite IH. ring. Qed.

  (** powers *)
  Instance ppow_ext : Proper (feq ==> eq ==> feq) ppow.
  Proof. intros a b H k _ <-. induction k as [|k IH]; [reflexivity|]. cbn [SerSpec.ppow]. change (ppow a k *! a == ppow b k *! b). now rewrite IH, H. Qed.
  Lemma ppow_eqn n a b k : eqn n a b -> eqn n (ppow a k) (ppow b k).
  Proof. intros H. induction k as [|k IH]; [reflexivity|]. cbn [SerSpec.ppow]. change (eqn n (ppow a k *! a) (ppow b k *! b)). now rewrite IH, H. Qed.
  Lemma ppow_S a k : ppow a (S k) == ppow a k *! a. Proof. reflexivity. Qed.
  Lemma ppow_add a n m : ppow a (n + m) == ppow a n *! ppow a m.
  Proof. induction n as [|n IH]; cbn [Nat.add]; [change (ppow a 0) with f1; ring|]. rewrite !ppow_S, IH. ring. Qed.
  Lemma ppow_mul a n m : ppow a (n * m) == ppow (ppow a n) m.
  Proof. induction m as [|m IH]; [now rewrite Nat.mul_0_r|]. rewrite Nat.mul_succ_r, ppow_add, ppow_S, IH. reflexivity. Qed.
  Lemma ppow_mult a b k : ppow (a *! b) k == ppow a k *! ppow b k.
  Proof. induction k as [|k IH]; [change (f1 == f1 *! f1); ring|]. rewrite !ppow_S, IH. ring. Qed.
  Lemma ppow_1 k : ppow f1 k == f1. Proof. induction k as [|k IH]; [reflexivity|]. rewrite ppow_S, IH. ring. Qed.
  Lemma ppow_val a k : val 1 a -> val k (ppow a k).
  Proof. intros V. induction k as [|k IH]; [intros i I; lia|]. rewrite ppow_S. replace (S k) with (k + 1)%nat by lia. now apply val_mul. Qed.
  Lemma ppow_const c k : ppow (fc c) k == fc (rpow one mul c k).
  Proof. induction k as [|k IH]; [reflexivity|]. rewrite ppow_S, IH, fc_mult. reflexivity. Qed.
  Lemma D_pow a k : D (ppow a (S k)) == fc (rnat (S k)) *! ppow a k *! D a.
  Proof.
    induction k as [|k IH].
    - rewrite ppow_S. change (ppow a 0) with f1. rewrite D_mul, D_1. assert (Q : fc (rnat 1) == f1) by (intros i; unfold fc, f1; destruct i; cbn; ring). rewrite Q. ring.
    - rewrite ppow_S, D_mul, IH. rewrite (ppow_S a k). assert (Q : fc (rnat (S (S k))) == fc (rnat (S k)) +! f1) by (intros i; unfold fc, f1, fadd; destruct i; cbn; ring). rewrite Q. ring.
  Qed.
  (** substitution *)
  Lemma psubst_sum n a b : psubst n a b == fsum n (fun k => fc (a k) *! ppow b k).
  Proof. intros i. rewrite fsum_at. unfold SerSpec.psubst. apply rsum_ext. intros k K. now rewrite fc_mul. Qed.
  Lemma D_subst n a b : D (psubst (S n) a b) == psubst n (D a) b *! D b.
  Proof.
    rewrite !psubst_sum. rewrite fsum_S_l, D_add. change (ppow b 0) with f1. rewrite D_mul, D_const, D_1. rewrite fsum_D, fsum_mul_r.
    transitivity (fsum n (fun k => D (fc (a (S k)) *! ppow b (S k)))); [ring|]. apply fsum_ext. intros k K. rewrite D_mul, D_const, D_pow. unfold SerSpec.pderiv at 2. rewrite <- fc_mult. ring.
  Qed.
  Lemma psubst_eqn n m a b b' : eqn m b b' -> eqn m (psubst n a b) (psubst n a b').
  Proof. intros H. rewrite !psubst_sum. apply fsum_eqn. intros k K. apply fmul_eqn; [reflexivity|now apply ppow_eqn]. Qed.
  Lemma psubst_more n m a b : val 1 b -> (n <= m)%nat -> eqn n (psubst m a b) (psubst n a b).
  Proof. intros V L i I. apply (rsum_trunc _ _ _ _ _ _ Rth); [exact L|]. intros k K. rewrite (ppow_val b k V) by lia. ring. Qed.
  Lemma psubst_coeffs n a a' b i : (forall k, (k < n)%nat -> a k = a' k) -> psubst n a b i = psubst n a' b i.
  Proof. intros H. apply rsum_ext. intros k K. now rewrite H. Qed.
  Lemma ppow_taylor r h v k : val v h -> eqn (v + v) (ppow (r +! h) (S k)) (ppow r (S k) +! fc (rnat (S k)) *! ppow r k *! h).
  Proof.
    intros V. assert (HH : eqn (v + v) (h *! h) f0) by (apply val_eqn0; now apply val_mul). induction k as [|k IH].
    - rewrite !ppow_S. change (ppow (r +! h) 0) with f1. change (ppow r 0) with f1. assert (Q : fc (rnat 1) == f1) by (intros i; unfold fc, f1; destruct i; cbn; ring). rewrite Q. apply eqn_feq. ring.
    - rewrite ppow_S, IH. rewrite (ppow_S r (S k)), (ppow_S r k). assert (Q : fc (rnat (S (S k))) == fc (rnat (S k)) +! f1) by (intros i; unfold fc, f1, fadd; destruct i; cbn; ring). rewrite Q.
      transitivity (ppow r k *! r *! r +! (fc (rnat (S k)) +! f1) *! (ppow r k *! r) *! h +! fc (rnat (S k)) *! ppow r k *! (h *! h)); [apply eqn_feq; ring|]. rewrite HH. apply eqn_feq. ring.
  Qed.
  Lemma psubst_taylor n a r h v : val v h -> eqn (v + v) (psubst (S n) a (r +! h)) (psubst (S n) a r +! psubst n (D a) r *! h).
  Proof.
    intros V. rewrite !psubst_sum. rewrite !fsum_S_l. change (ppow (r +! h) 0) with f1. change (ppow r 0) with f1. rewrite fsum_mul_r.
    transitivity (fc (a O) *! f1 +! fsum n (fun k => fc (a (S k)) *! ppow r (S k) +! fc (D a k) *! ppow r k *! h)).
    - apply fadd_eqn; [reflexivity|]. apply fsum_eqn. intros k K. rewrite (ppow_taylor r h v k V). unfold SerSpec.pderiv. rewrite <- fc_mult. apply eqn_feq. ring.
    - rewrite fsum_add. apply eqn_feq. ring.
  Qed.

  (** y' = g y determines y *)
  Lemma ode_unique n g y z : (forall i, (S i < n)%nat -> exists w, mul (rnat (S i)) w = one) -> y O = z O -> eqn (n - 1) (D y) (g *! y) -> eqn (n - 1) (D z) (g *! z) -> eqn n y z.
  Proof.
    intros W I0 Y Z0 i. induction i as [i IH] using lt_wf_ind. intros L. destruct i as [|i]; [exact I0|]. destruct (W i L) as (w & Hw). specialize (Y i ltac:(lia)). specialize (Z0 i ltac:(lia)). unfold SerSpec.pderiv in Y, Z0.
    assert (E : (g *! y) i = (g *! z) i) by (apply pconv_ext; [reflexivity|]; intros j J; apply IH; lia). rewrite E in Y. rewrite <- Z0 in Y.
    transitivity (mul (mul (rnat (S i)) w) (y (S i))); [rewrite Hw; ring|]. transitivity (mul (mul (rnat (S i)) (z (S i))) w); [rewrite <- Y; ring|]. transitivity (mul (mul (rnat (S i)) w) (z (S i))); [ring|]. rewrite Hw. ring.
  Qed.
  Lemma D_eqn_inv n y z : (forall i, (S i < n)%nat -> exists w, mul (rnat (S i)) w = one) -> y O = z O -> eqn (n - 1) (D y) (D z) -> eqn n y z.
  Proof.
    intros W I0 E i L. destruct i as [|i]; [exact I0|]. destruct (W i L) as (w & Hw). specialize (E i ltac:(lia)). unfold SerSpec.pderiv in E.
    transitivity (mul (mul (rnat (S i)) w) (y (S i))); [rewrite Hw; ring|]. transitivity (mul (mul (rnat (S i)) (y (S i))) w); [ring|]. rewrite E. transitivity (mul (mul (rnat (S i)) w) (z (S i))); [ring|]. rewrite Hw. ring.
  Qed.
  (** the exponential *)
  Section Exp.
  Variable inv : nat -> R.
  Variable N : nat.
  Hypothesis Hinv : forall i, (S i < N)%nat -> mul (rnat (S i)) (inv (S i)) = one.
  Local Notation pexp := (pexp zero one add mul inv). Local Notation ifact := (ifact one mul inv).
  Lemma pexp_sum s n : val 1 s -> eqn n (pexp s) (fsum n (fun k => fc (ifact k) *! ppow s k)).
  Proof.
    intros V i I. rewrite fsum_at. unfold SerSpec.pexp. symmetry. rewrite (rsum_trunc _ _ _ _ _ _ Rth n (S i)); [|lia|].
    - apply rsum_ext. intros k K. now rewrite fc_mul.
    - intros k K. rewrite fc_mul. rewrite (ppow_val s k V) by lia. ring.
  Qed.
  Lemma pexp_0 s : pexp s O = one.
  Proof. unfold SerSpec.pexp. cbn. ring. Qed.
  Lemma pexp_ode s : val 1 s -> eqn (N - 1) (D (pexp s)) (D s *! pexp s).
  Proof.
    intros V. destruct N as [|n]; [intros i I; lia|]. cbn [Nat.sub]. rewrite Nat.sub_0_r.
    rewrite (D_eqn n _ _ (pexp_sum s (S n) V)). rewrite fsum_D, fsum_S_l. change (ppow s 0) with f1. rewrite D_mul, D_const, D_1. rewrite (pexp_sum s n V). assert (C : D s *! fsum n (fun k => fc (ifact k) *! ppow s k) == fsum n (fun k => fc (ifact k) *! ppow s k) *! D s) by ring. rewrite C, fsum_mul_r.
    transitivity (fsum n (fun k => D (fc (ifact (S k)) *! ppow s (S k)))); [apply eqn_feq; ring|]. apply fsum_eqn. intros k K. rewrite D_mul, D_const, D_pow. apply eqn_feq.
    assert (Q : fc (ifact (S k)) *! fc (rnat (S k)) == fc (ifact k)). { rewrite fc_mult. unfold SerSpec.ifact. rewrite rprod_S. intros i. unfold fc. f_equal. transitivity (mul (rprod one mul k (fun i => inv (S i))) (mul (rnat (S k)) (inv (S k)))); [ring|]. rewrite Hinv by lia. ring. }
    rewrite <- Q. ring.
  Qed.
  Lemma Hcan : forall i, (S i < N)%nat -> exists w, mul (rnat (S i)) w = one. Proof. intros i I. exists (inv (S i)). now apply Hinv. Qed.
  Lemma pexp_unique s y : val 1 s -> y O = one -> eqn (N - 1) (D y) (D s *! y) -> eqn N y (pexp s).
  Proof. intros V Y0 Y. apply (ode_unique N (D s)); [exact Hcan|now rewrite pexp_0|exact Y|now apply pexp_ode]. Qed.
  End Exp.
End SerProofs.
