(** C40: Gaussian elimination over a field. *)
From Coq Require Import Ring Ring_theory QArith Qcanon.
From Verif Require Import Lib RingSpec RingProofs MatrixModel MatrixSpec MatrixProofs MatrixProofs2 DetSpec DetProofs MatrixProofs3.
Open Scope nat_scope.

Section C40.
  Context {F : Type} (zero one : F) (add mul sub : F -> F -> F) (opp : F -> F) (tdiv : F -> F -> option F) (eqb : F -> F -> bool).
  (** F is a field: a commutative ring in which 1 <> 0 and division by a non-zero element is defined and inverts multiplication *)
  Hypothesis Rth : ring_theory zero one add mul sub opp (@eq F).
  Hypothesis eqb_spec : forall x y, eqb x y = true <-> x = y.
  Hypothesis H10 : one <> zero.
  Hypothesis div_ok : forall x, x <> zero -> exists y, tdiv one x = Some y /\ mul x y = one.
  Add Ring R40 : Rth.
  Local Notation mmul := (mmul zero add mul).
  Local Notation minverse := (minverse zero one sub mul opp tdiv eqb).
  Local Notation mdet := (mdet zero one sub mul opp tdiv eqb).
  Local Notation mrank := (mrank zero one sub mul opp tdiv eqb).
  Local Notation mpow := (mpow zero one add sub mul opp tdiv eqb).
  Local Notation mdiv := (mdiv zero one add sub mul opp tdiv eqb).
  Local Notation entries := (ent zero).
  Local Notation det := (fdet zero one add mul opp).
  Local Notation product_one := (product_one zero one add mul).
  Local Notation gauss_det := (gauss_det zero one add mul sub opp Rth tdiv eqb eqb_spec H10 div_ok).
  Local Notation mmul_spec := (mmul_spec zero add mul).
  Local Notation mpowT_spec := (mpowT_spec zero one add mul sub opp Rth).
  Local Notation fmul := (MatrixProofs.fmul zero add mul).
  Local Notation fpow := (MatrixProofs.fpow zero one add mul).

  (** det() is the determinant *)
  Theorem C40_det n a : n <> 0 -> shape n n a -> mdet a = Some (det n (entries a)).
  Proof using Rth eqb_spec H10 div_ok.
    intros Hn Ha. destruct (gauss_det n a _ Hn (rep_shape zero _ _ _ Ha)) as (r & a' & b' & d & E & D & _). unfold MatrixModel.mdet. rewrite E. cbn [obind]. rewrite D. reflexivity.
  Qed.
  Lemma mul_one n a b f g : n <> 0 -> rep n n a f -> rep n n b g -> product_one n f g -> mmul a b = midentity zero n one.
  Proof using.
    intros Hn Ha Hb E. destruct (mmul_spec n n n a b f g Hn Hn Hn Ha Hb) as (c & Ec & Hc). destruct (identity_spec zero one n) as (e & Ee & He). rewrite Ec, Ee. f_equal.
    apply (rep_inj _ _ _ _ _ _ Hc He). exact E.
  Qed.
  (** a matrix with non-zero determinant gets its two-sided inverse *)
  Theorem C40_inverse n a : n <> 0 -> shape n n a -> det n (entries a) <> zero ->
    exists b, minverse a = Some b /\ shape n n b /\ product_one n (entries b) (entries a) /\ product_one n (entries a) (entries b) /\
      exists id, midentity zero n one = Some id /\ mmul a b = Some id /\ mmul b a = Some id.
  Proof using Rth eqb_spec H10 div_ok.
    intros Hn Ha NZ. assert (Ra := rep_shape zero _ _ _ Ha). destruct (gauss_det n a _ Hn Ra) as (r & a' & b' & d & E & D & Sb & _ & _ & _ & Hg).
    destruct (Hg NZ) as (g & Rb & M1 & M2). exists b'. unfold MatrixModel.minverse. rewrite E. cbn [obind]. split; [reflexivity|]. split; [exact Sb|].
    assert (Eg := proj2 (rep_ent zero _ _ _ _ Rb)).
    split; [intros i j Hi Hj; rewrite <- (M1 i j Hi Hj); apply rsum_ext; intros k Hk; rewrite Eg by assumption; reflexivity|].
    split; [intros i j Hi Hj; rewrite <- (M2 i j Hi Hj); apply rsum_ext; intros k Hk; rewrite Eg by assumption; reflexivity|].
    destruct (identity_spec zero one n) as (e & Ee & He). exists e. rewrite (mul_one n a b' _ _ Hn Ra Rb M2), (mul_one n b' a _ _ Hn Rb Ra M1). auto.
  Qed.
  (** rank() is n exactly for the invertible matrices: those with non-zero determinant, with independent columns, with an inverse *)
  Theorem C40_full_rank n a : n <> 0 -> shape n n a -> exists r, mrank a = Some r /\ (r = n <-> det n (entries a) <> zero) /\
    (r = n <-> columns_independent zero add mul n (entries a)) /\ (r = n <-> exists g, product_one n (entries a) g /\ product_one n g (entries a)).
  Proof using Rth eqb_spec H10 div_ok.
    intros Hn Ha. destruct (gauss_det n a _ Hn (rep_shape zero _ _ _ Ha)) as (r & a' & b' & d & E & D & Sb & H1 & H2 & H3 & _). exists r. unfold MatrixModel.mrank. rewrite E. cbn [obind]. auto.
  Qed.
  Lemma pow_one n f g k : product_one n f g -> product_one n (fpow n f k) (fpow n g k).
  Proof using Rth.
    intros H. induction k as [|k IH]; intros i j Hi Hj.
    - exact (fmul_id_l zero one add mul sub opp Rth n (fid zero one) i j Hi).
    - change (fmul n (fpow n f (S k)) (fpow n g (S k)) i j = fid zero one i j).
      transitivity (fmul n (fmul n (fpow n f k) f) (fmul n g (fpow n g k)) i j).
      { apply (fmul_ext zero add mul n _ _ _ _ n n); auto. intros x y Hx Hy. change (fpow n g (S k) x y) with (fpow n g (1 + k) x y). rewrite (fpow_add zero one add mul sub opp Rth n g 1 k x y Hx Hy).
        apply (fmul_ext zero add mul n _ _ _ _ n n); auto. intros u v Hu Hv. apply (fpow_1 zero one add mul sub opp Rth); assumption. }
      rewrite (fmul_assoc zero one add mul sub opp Rth). transitivity (fmul n (fpow n f k) (fpow n g k) i j); [|apply IH; assumption].
      apply (fmul_ext zero add mul n _ _ _ _ n n); auto. intros x y Hx Hy. rewrite <- (fmul_assoc zero one add mul sub opp Rth).
      rewrite <- (fmul_id_l zero one add mul sub opp Rth n (fpow n g k) x y Hx). apply (fmul_ext zero add mul n _ _ _ _ n n); auto.
  Qed.
  (** negative exponents are powers of the inverse *)
  Theorem C40_negative_pow n a e : n <> 0 -> shape n n a -> det n (entries a) <> zero -> (e < 0)%Z ->
    exists b id p q, minverse a = Some b /\ midentity zero n one = Some id /\ mpow a e = Some p /\ iter_mul mmul id b (Z.to_nat (- e)) = Some p /\
      mpow a (- e) = Some q /\ mmul p q = Some id /\ mmul q p = Some id.
  Proof using Rth eqb_spec H10 div_ok.
    intros Hn Ha NZ He. assert (Ra := rep_shape zero _ _ _ Ha). destruct (C40_inverse n a Hn Ha NZ) as (b & Eb & Sb & M1 & M2 & id & Eid & ab & ba). exists b, id.
    assert (Rb := rep_shape zero _ _ _ Sb). destruct (mpowT_spec n b _ (- e)%Z Hn Rb ltac:(lia)) as (p & Ep & Hp). destruct (mpowT_spec n a _ (- e)%Z Hn Ra ltac:(lia)) as (q & Eq & Hq). exists p, q.
    split; [exact Eb|]. split; [exact Eid|]. split; [unfold MatrixModel.mpow; rewrite (proj2 (Z.ltb_lt _ _) He), Eb; exact Ep|]. split.
    { destruct (identity_spec zero one n) as (id' & Eid' & Hid). assert (Q : id = id') by congruence. rewrite Q. clear Ep. revert p Hp. generalize (Z.to_nat (- e)). intros k.
      induction k as [|k IH]; intros p Hp; cbn [iter_mul].
      - f_equal. apply (rep_inj _ _ _ _ _ _ Hid Hp). reflexivity.
      - destruct (mpowT_spec n b _ (Z.of_nat k) Hn Rb ltac:(lia)) as (s & _ & Hs). rewrite Nat2Z.id in Hs.
        rewrite (IH s Hs). cbn [obind]. destruct (mmul_spec n n n s b _ _ Hn Hn Hn Hs Rb) as (t & Et & Ht). rewrite Et. f_equal. apply (rep_inj _ _ _ _ _ _ Ht Hp). reflexivity. }
    split; [unfold MatrixModel.mpow; rewrite (proj2 (Z.ltb_ge _ _)) by lia; exact Eq|].
    rewrite (mul_one n p q _ _ Hn Hp Hq), (mul_one n q p _ _ Hn Hq Hp) by (apply pow_one; assumption). auto.
  Qed.
  (** (a / b) * b = a for invertible b *)
  Theorem C40_division n a b : n <> 0 -> shape n n a -> shape n n b -> det n (entries b) <> zero ->
    exists c, mdiv a b = Some c /\ mmul c b = Some a.
  Proof using Rth eqb_spec H10 div_ok.
    intros Hn Ha Hb NZ. assert (Ra := rep_shape zero _ _ _ Ha). assert (Rb := rep_shape zero _ _ _ Hb). destruct (C40_inverse n b Hn Hb NZ) as (i & Ei & Si & M1 & _).
    assert (Ri := rep_shape zero _ _ _ Si). destruct (mmul_spec n n n a i _ _ Hn Hn Hn Ra Ri) as (c & Ec & Hc). exists c. unfold MatrixModel.mdiv. rewrite Ei. cbn [obind]. split; [exact Ec|].
    destruct (mmul_spec n n n c b _ _ Hn Hn Hn Hc Rb) as (t & Et & Ht). rewrite Et. f_equal. apply (rep_inj _ _ _ _ _ _ Ht Ra). intros x y Hx Hy.
    change (fmul n (fmul n (entries a) (entries i)) (entries b) x y = entries a x y). rewrite (fmul_assoc zero one add mul sub opp Rth).
    rewrite <- (fmul_id_r zero one add mul sub opp Rth n (entries a) x y Hy). apply (fmul_ext zero add mul n _ _ _ _ n n); auto.
  Qed.
End C40.

(** For singular matrices rank() is wrong: over the two-element field the matrix below has two independent rows, rank() returns 1. *)
Theorem C40_rank_refuted : let a := [[false; true; false]; [false; false; true]; [false; false; false]] in
  MatrixModel.mrank false true xorb andb (fun x => x) (fun x y => if y then Some x else None) Bool.eqb a = Some 1 /\
  forall c0 c1 : bool, (forall j, j < 3 -> xorb (c0 && ent false a 0 j) (c1 && ent false a 1 j) = false) -> c0 = false /\ c1 = false.
Proof.
  split; [vm_compute; reflexivity|]. intros c0 c1 H. assert (H1 := H 1 ltac:(lia)). assert (H2 := H 2 ltac:(lia)). cbn in H1, H2. destruct c0, c1; cbn in *; auto; discriminate.
Qed.

(** the hypotheses hold over the rationals, and det, inverse, rank and a negative power are as computed by hand *)
Definition q_eqb (x y : Qc) : bool := if Qc_eq_dec x y then true else false.
Definition q_div (x y : Qc) : option Qc := if Qc_eq_dec y (Q2Qc 0) then None else Some (Qcdiv x y).
Definition q_mat (l : list (list Q)) : list (list Qc) := map (map Q2Qc) l.
Example C40_case : let a := q_mat [[0; 2]; [3; 1]]%Q in
  ring_theory (Q2Qc 0) (Q2Qc 1) Qcplus Qcmult Qcminus Qcopp (@eq Qc) /\ (forall x y, q_eqb x y = true <-> x = y) /\
  (forall x, x <> Q2Qc 0 -> exists y, q_div (Q2Qc 1) x = Some y /\ Qcmult x y = Q2Qc 1) /\ shape 2 2 a /\
  fdet (Q2Qc 0) (Q2Qc 1) Qcplus Qcmult Qcopp 2 (ent (Q2Qc 0) a) <> Q2Qc 0 /\
  (exists d, MatrixModel.mdet (Q2Qc 0) (Q2Qc 1) Qcminus Qcmult Qcopp q_div q_eqb a = Some d /\ this d = (-6)%Q) /\
  (exists b, MatrixModel.minverse (Q2Qc 0) (Q2Qc 1) Qcminus Qcmult Qcopp q_div q_eqb a = Some b /\ map (map this) b = [[-1 # 6; 1 # 3]; [1 # 2; 0]]%Q) /\
  MatrixModel.mrank (Q2Qc 0) (Q2Qc 1) Qcminus Qcmult Qcopp q_div q_eqb a = Some 2 /\
  fdet 0%Z 1%Z Z.add Z.mul Z.opp 3 (ent 0%Z [[2; 0; 1]; [1; 3; 2]; [1; 1; 4]]%Z) = 18%Z.
Proof.
  split; [exact Qcrt|]. split; [intros x y; unfold q_eqb; destruct (Qc_eq_dec x y); split; congruence|].
  split. { intros x Hx. unfold q_div. destruct (Qc_eq_dec x (Q2Qc 0)); [contradiction|]. eexists. split; [reflexivity|]. apply Qcmult_div_r. exact Hx. }
  split; [split; [reflexivity|intros r [<-|[<-|[]]]; reflexivity]|]. split; [intros X; apply (f_equal this) in X; vm_compute in X; discriminate|].
  split; [eexists; split; vm_compute; reflexivity|]. split; [eexists; split; vm_compute; reflexivity|]. split; vm_compute; reflexivity.
Qed.
Print Assumptions C40_det.
Print Assumptions C40_inverse.
Print Assumptions C40_full_rank.
Print Assumptions C40_negative_pow.
Print Assumptions C40_division.
Print Assumptions C40_rank_refuted.
