(** C39: matrix algebra. *)
From Coq Require Import Ring Ring_theory.
From Verif Require Import Lib RingSpec RingProofs MatrixModel MatrixSpec MatrixProofs.
Open Scope nat_scope.

Section C39.
  Context {R : Type} (zero one : R) (add mul sub : R -> R -> R) (opp : R -> R).
  Hypothesis Rth : ring_theory zero one add mul sub opp (@eq R).
  Add Ring Rp39 : Rth.
  Local Notation ent := (ent zero). Local Notation rsum := (rsum zero add). Local Notation mmul := (mmul zero add mul).

  (** row-by-column product *)
  Theorem C39_mul n m p a b : n <> 0 -> m <> 0 -> p <> 0 -> shape n m a -> shape m p b ->
    exists c, mmul a b = Some c /\ shape n p c /\ forall i j, i < n -> j < p -> ent c i j = rsum m (fun k => mul (ent a i k) (ent b k j)).
  Proof using.
    intros Hn Hm Hp Ha Hb. destruct (mmul_spec zero add mul n m p a b _ _ Hn Hm Hp (rep_shape zero _ _ _ Ha) (rep_shape zero _ _ _ Hb)) as (c & E & H).
    exists c. split; [exact E|]. exact (rep_ent zero _ _ _ _ H).
  Qed.
  Theorem C39_assoc n m p q a b c : n <> 0 -> m <> 0 -> p <> 0 -> q <> 0 -> shape n m a -> shape m p b -> shape p q c ->
    exists r, (let* x := mmul a b in mmul x c) = Some r /\ (let* y := mmul b c in mmul a y) = Some r /\ shape n q r.
  Proof using Rth.
    intros Hn Hm Hp Hq Ha Hb Hc. apply (rep_shape zero) in Ha, Hb, Hc.
    destruct (mmul_spec zero add mul n m p a b _ _ Hn Hm Hp Ha Hb) as (x & Ex & Hx). destruct (mmul_spec zero add mul m p q b c _ _ Hm Hp Hq Hb Hc) as (y & Ey & Hy).
    destruct (mmul_spec zero add mul n p q x c _ _ Hn Hp Hq Hx Hc) as (r & Er & Hr). destruct (mmul_spec zero add mul n m q a y _ _ Hn Hm Hq Ha Hy) as (s & Es & Hs).
    exists r. rewrite Ex, Ey. cbn [obind]. split; [exact Er|]. split; [|exact (proj1 (rep_ent zero _ _ _ _ Hr))]. rewrite Es. f_equal. apply (rep_inj _ _ _ _ _ _ Hs Hr).
    intros i j Hi Hj. symmetry. apply (fmul_assoc _ _ _ _ _ _ Rth).
  Qed.
  Theorem C39_identity n m a : n <> 0 -> m <> 0 -> shape n m a ->
    exists en em, midentity zero n one = Some en /\ midentity zero m one = Some em /\ mmul en a = Some a /\ mmul a em = Some a /\
      shape n n en /\ forall i j, i < n -> j < n -> ent en i j = if i =? j then one else zero.
  Proof using Rth.
    intros Hn Hm Ha. apply (rep_shape zero) in Ha. destruct (identity_spec zero one n) as (en & En & Hen). destruct (identity_spec zero one m) as (em & Em & Hem).
    exists en, em. split; [exact En|]. split; [exact Em|].
    destruct (mmul_spec zero add mul n n m en a _ _ Hn Hn Hm Hen Ha) as (x & Ex & Hx). destruct (mmul_spec zero add mul n m m a em _ _ Hn Hm Hm Ha Hem) as (y & Ey & Hy).
    split; [rewrite Ex; f_equal; apply (rep_inj _ _ _ _ _ _ Hx Ha); intros i j Hi Hj; apply (fmul_id_l _ _ _ _ _ _ Rth); exact Hi|].
    split; [rewrite Ey; f_equal; apply (rep_inj _ _ _ _ _ _ Hy Ha); intros i j Hi Hj; apply (fmul_id_r _ _ _ _ _ _ Rth); exact Hj|].
    exact (rep_ent zero _ _ _ _ Hen).
  Qed.
  (** for exponents >= 0, pow is the iterated product *)
  Theorem C39_pow tdiv eqb n a e : n <> 0 -> shape n n a -> (0 <= e)%Z ->
    exists id r, midentity zero n one = Some id /\ mpow zero one add sub mul opp tdiv eqb a e = Some r /\ iter_mul mmul id a (Z.to_nat e) = Some r /\ shape n n r.
  Proof using Rth.
    intros Hn Ha He. apply (rep_shape zero) in Ha. destruct (identity_spec zero one n) as (en & En & Hen). exists en.
    destruct (mpowT_spec zero one add mul sub opp Rth n a _ e Hn Ha He) as (r & Er & Hr). exists r. split; [exact En|].
    unfold mpow. destruct (Z.ltb_spec e 0); [lia|]. split; [exact Er|]. split; [|exact (proj1 (rep_ent zero _ _ _ _ Hr))].
    revert Hr. generalize (Z.to_nat e). clear Er. intros k. revert r. induction k as [|k IH]; intros r Hr; cbn [iter_mul].
    - f_equal. apply (rep_inj _ _ _ _ _ _ Hen Hr). reflexivity.
    - assert (Q : exists s, rep n n s (fpow zero one add mul n (ent a) k)).
      { clear - Hn Ha Rth. destruct (mpowT_spec zero one add mul sub opp Rth n a _ (Z.of_nat k) Hn Ha ltac:(lia)) as (r & _ & Hr). rewrite Nat2Z.id in Hr. exists r. exact Hr. }
      destruct Q as (s & Hs). rewrite (IH s Hs). cbn [obind]. destruct (mmul_spec zero add mul n n n s a _ _ Hn Hn Hn Hs Ha) as (t & Et & Ht). rewrite Et. f_equal.
      apply (rep_inj _ _ _ _ _ _ Ht Hr). reflexivity.
  Qed.
  Theorem C39_pow_add tdiv eqb n a x y : n <> 0 -> shape n n a -> (0 <= x)%Z -> (0 <= y)%Z ->
    exists p q r, mpow zero one add sub mul opp tdiv eqb a x = Some p /\ mpow zero one add sub mul opp tdiv eqb a y = Some q /\ mpow zero one add sub mul opp tdiv eqb a (x + y) = Some r /\ mmul p q = Some r.
  Proof using Rth.
    intros Hn Ha Hx Hy. apply (rep_shape zero) in Ha. unfold mpow. destruct (Z.ltb_spec x 0); [lia|]. destruct (Z.ltb_spec y 0); [lia|]. destruct (Z.ltb_spec (x + y) 0); [lia|].
    destruct (mpowT_spec zero one add mul sub opp Rth n a _ x Hn Ha Hx) as (p & Ep & Hp). destruct (mpowT_spec zero one add mul sub opp Rth n a _ y Hn Ha Hy) as (q & Eq & Hq).
    destruct (mpowT_spec zero one add mul sub opp Rth n a _ (x + y) Hn Ha ltac:(lia)) as (r & Er & Hr). exists p, q, r. split; [exact Ep|]. split; [exact Eq|]. split; [exact Er|].
    destruct (mmul_spec zero add mul n n n p q _ _ Hn Hn Hn Hp Hq) as (t & Et & Ht). rewrite Et. f_equal. apply (rep_inj _ _ _ _ _ _ Ht Hr). intros i j Hi Hj.
    rewrite Z2Nat.inj_add by lia. symmetry. apply (fpow_add _ _ _ _ _ _ Rth); assumption.
  Qed.
  Theorem C39_transpose n m a : n <> 0 -> m <> 0 -> shape n m a -> exists t, mtranspose zero a = Some t /\ shape m n t /\
    (forall i j, i < m -> j < n -> ent t i j = ent a j i) /\ mtranspose zero t = Some a.
  Proof using.
    intros Hn Hm Ha. apply (rep_shape zero) in Ha. destruct (transpose_spec zero n m a _ Ha Hn) as (t & Et & Ht). exists t. split; [exact Et|].
    destruct (rep_ent zero _ _ _ _ Ht) as (S & V). split; [exact S|]. split; [exact V|]. destruct (transpose_spec zero m n t _ Ht Hm) as (u & Eu & Hu). rewrite Eu. f_equal.
    apply (rep_inj _ _ _ _ _ _ Hu Ha). reflexivity.
  Qed.
  (** transpose reverses products *)
  Theorem C39_transpose_mul n m p a b : n <> 0 -> m <> 0 -> p <> 0 -> shape n m a -> shape m p b ->
    exists c ta tb t, mmul a b = Some c /\ mtranspose zero a = Some ta /\ mtranspose zero b = Some tb /\ mtranspose zero c = Some t /\ mmul tb ta = Some t.
  Proof using Rth.
    intros Hn Hm Hp Ha Hb. apply (rep_shape zero) in Ha, Hb. destruct (mmul_spec zero add mul n m p a b _ _ Hn Hm Hp Ha Hb) as (c & Ec & Hc).
    destruct (transpose_spec zero n m a _ Ha Hn) as (ta & Eta & Hta). destruct (transpose_spec zero m p b _ Hb Hm) as (tb & Etb & Htb). destruct (transpose_spec zero n p c _ Hc Hn) as (t & Et & Ht).
    exists c, ta, tb, t. split; [exact Ec|]. split; [exact Eta|]. split; [exact Etb|]. split; [exact Et|].
    destruct (mmul_spec zero add mul p m n tb ta _ _ Hp Hm Hn Htb Hta) as (u & Eu & Hu). rewrite Eu. f_equal. apply (rep_inj _ _ _ _ _ _ Hu Ht). intros i j Hi Hj. apply rsum_ext. intros k _. ring.
  Qed.
  Theorem C39_linear n m a b s : n <> 0 -> m <> 0 -> shape n m a -> shape n m b ->
    exists c d e f, madd add a b = Some c /\ msub_ sub a b = Some d /\ mneg zero sub a = Some e /\ msmul mul a s = Some f /\ shape n m c /\ shape n m d /\ shape n m e /\ shape n m f /\
      forall i j, i < n -> j < m -> ent c i j = add (ent a i j) (ent b i j) /\ ent d i j = sub (ent a i j) (ent b i j) /\ ent e i j = opp (ent a i j) /\ ent f i j = mul (ent a i j) s.
  Proof using Rth.
    intros Hn Hm Ha Hb. apply (rep_shape zero) in Ha, Hb. destruct (madd_spec add n m a b _ _ Ha Hb) as (c & Ec & Hc). destruct (msub_spec sub n m a b _ _ Ha Hb) as (d & Ed & Hd).
    destruct (mneg_spec zero one add mul sub opp Rth n m a _ Hn Hm Ha) as (e & Ee & He). destruct (msmul_spec mul n m a _ s Ha) as (f & Ef & Hf). exists c, d, e, f.
    apply (rep_ent zero) in Hc, Hd, He, Hf. destruct Hc as (Sc & Vc), Hd as (Sd & Vd), He as (Se & Ve), Hf as (Sf & Vf).
    split; [exact Ec|]. split; [exact Ed|]. split; [exact Ee|]. split; [exact Ef|]. split; [exact Sc|]. split; [exact Sd|]. split; [exact Se|]. split; [exact Sf|].
    intros i j Hi Hj. rewrite Vc, Vd, Ve, Vf by assumption. auto.
  Qed.
  Theorem C39_scalar_div tdiv n m a s : n <> 0 -> shape n m a -> (forall i j, i < n -> j < m -> exists q, tdiv (ent a i j) s = Some q) ->
    exists c, msdiv tdiv a s = Some c /\ shape n m c /\ forall i j, i < n -> j < m -> tdiv (ent a i j) s = Some (ent c i j).
  Proof using.
    intros Hn Ha Hd. apply (rep_shape zero) in Ha. set (g := fun i j => match tdiv (ent a i j) s with Some q => q | None => zero end).
    assert (G : forall i j, i < n -> j < m -> tdiv (ent a i j) s = Some (g i j)) by (intros i j Hi Hj; unfold g; destruct (Hd i j Hi Hj) as (q & ->); reflexivity).
    destruct (msdiv_spec n m a _ tdiv s g Ha G) as (c & Ec & Hc). exists c. split; [exact Ec|]. destruct (rep_ent zero _ _ _ _ Hc) as (S & V). split; [exact S|].
    intros i j Hi Hj. rewrite V, G by assumption. reflexivity.
  Qed.
  (** the submatrix constructor; zero sizes mean "to the end" *)
  Theorem C39_submatrix n m a i j n' m' : n <> 0 -> shape n m a -> i <= n -> j <= m ->
    let h := if n' =? 0 then n - i else n' in let w := if m' =? 0 then m - j else m' in i + h <= n -> j + w <= m ->
    exists t, msub a i j n' m' = Some t /\ shape h w t /\ forall x y, x < h -> y < w -> ent t x y = ent a (i + x) (j + y).
  Proof using.
    intros Hn Ha Hi Hj h w B1 B2. destruct (submatrix_spec n m a _ i j n' m' (rep_shape zero _ _ _ Ha) Hn Hi Hj B1 B2) as (t & E & H). exists t. split; [exact E|]. exact (rep_ent zero _ _ _ _ H).
  Qed.
End C39.

Example C39_case : let a := [[1; 2]; [3; 4]; [5; 6]]%Z in let b := [[1; 0; 2]; [0; 1; -1]]%Z in
  shape 3 2 a /\ shape 2 3 b /\ mmul 0%Z Z.add Z.mul a b = Some [[1; 2; 0]; [3; 4; 2]; [5; 6; 4]]%Z /\
  mpow 0%Z 1%Z Z.add Z.sub Z.mul Z.opp (fun _ _ => None) Z.eqb [[1; 1]; [1; 0]]%Z 10 = Some [[89; 55]; [55; 34]]%Z /\
  mtranspose 0%Z a = Some [[1; 3; 5]; [2; 4; 6]]%Z.
Proof.
  split; [split; [reflexivity|]; intros r [<-|[<-|[<-|[]]]]; reflexivity|]. split; [split; [reflexivity|]; intros r [<-|[<-|[]]]; reflexivity|].
  vm_compute. auto.
Qed.

Print Assumptions C39_mul.
Print Assumptions C39_assoc.
Print Assumptions C39_identity.
Print Assumptions C39_pow.
Print Assumptions C39_pow_add.
Print Assumptions C39_transpose.
Print Assumptions C39_transpose_mul.
Print Assumptions C39_linear.
Print Assumptions C39_scalar_div.
Print Assumptions C39_submatrix.
