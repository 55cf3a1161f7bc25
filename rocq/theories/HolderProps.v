(** C130: prime_holder. C131: factorial_holder. *)
From Coq Require Import Sorted Permutation Ring Ring_theory QArith Qcanon.
From Verif Require Import Lib BaseModel PrimesSpec PrimesModel PrimesProofs DivisorsModel RingSpec RingProofs RangesModel HolderSpec HolderModel HolderProofs.
Open Scope nat_scope.

(** Whatever was asked before, every answer of a holder is right. [est] is the floating-point estimate of the number of primes: for
    sz >= 40 the holder relies on it being too large *)
Theorem C130_history : forall sz est sortn sortp qs, 3 <= sz -> (40 <= sz -> length (primes_below sz) < est) -> sorts sortn -> sorts_pairs sortp ->
  Forall (allowed sz) qs -> exists h rs, asks est sortn sortp (holder_new sz) qs = Some (h, rs) /\ Forall2 (correct sz) qs rs.
Proof.
  intros sz est sortn sortp qs Hsz He Hn Hp A. destruct (asks_ok sz est sortn sortp Hsz He Hn Hp qs (holder_new sz) (good_new sz est Hsz He) A) as (h & rs & E & _ & C). eauto.
Qed.
(** the answer to a question does not depend on the questions before it: the same one is given by a new holder *)
Theorem C130_order : forall sz est sortn sortp qs q, 3 <= sz -> (40 <= sz -> length (primes_below sz) < est) -> sorts sortn -> sorts_pairs sortp ->
  Forall (allowed sz) qs -> allowed sz q -> (match q with QFactorise _ | QFactoriseProduct _ => False | _ => True end) ->
  exists h rs h' r, asks est sortn sortp (holder_new sz) (qs ++ [q]) = Some (h, rs ++ [r]) /\ ask est sortn sortp (holder_new sz) q = Some (h', r).
Proof.
  intros sz est sortn sortp qs q Hsz He Hn Hp A Aq NF.
  destruct (C130_history sz est sortn sortp (qs ++ [q]) Hsz He Hn Hp) as (h & rs & E & C); [apply Forall_app; auto|].
  apply Forall2_app_inv_l in C. destruct C as (r1 & r2 & C1 & C2 & ->). inversion C2 as [|q' r qs' rs' Cq Cn]; subst. inversion Cn; subst.
  destruct (ask_ok sz est sortn sortp Hsz He Hn Hp (holder_new sz) q (good_new sz est Hsz He) Aq) as (h' & r' & E' & _ & C').
  exists h, r1, h', r. split; [exact E|]. replace r with r'; [exact E'|]. clear E E' C2 Cn C1 A He.
  destruct q; cbn [correct] in *; try contradiction; try congruence.
  - destruct Cq as (p & N & ->), C' as (p' & N' & ->). congruence.
  - destruct Cq as (v & -> & V), C' as (v' & -> & V'). destruct (i <? 2); [congruence|]. destruct V as (P & D & M), V' as (P' & D' & M'). f_equal. f_equal. apply Nat.le_antisymm; auto.
Qed.
(** with sz = 2 the terminating 0 after the primes is taken for a prime: pi(0) is 1 *)
Theorem C130_pi_two_refuted : exists h, ask 0 (fun l => l) (fun l => l) (holder_new 2) (QPi 0) = Some (h, RInt 1) /\ ~ correct 2 (QPi 0) (RInt 1).
Proof. eexists. split; [vm_compute; reflexivity|]. vm_compute. discriminate. Qed.
(** with sz = 1 the table of factors is written out of bounds *)
Theorem C130_factor_one_refuted : forall sortn sortp, ask 0 sortn sortp (holder_new 1) (QFactor 0) = None.
Proof. intros. vm_compute. reflexivity. Qed.
(** the table of prime counts is made by reading the vector of primes one element past its size *)
Theorem C130_pi_past_end_refuted : exists h, ensure_pq 0 (holder_new 10) = Some h /\ prime_pi (repeat 0 10) 10 (firstn (h_psz h) (h_buf h)) = None.
Proof. eexists. split; vm_compute; reflexivity. Qed.

Definition isort_insert (x : nat) := fix ins (l : list nat) := match l with [] => [x] | y :: l' => if x <=? y then x :: l else y :: ins l' end.
Definition isort := fold_right isort_insert [].
Definition pleb (a b : nat * nat) : bool := (fst a <? fst b) || ((fst a =? fst b) && (snd a <=? snd b)).
Definition psort_insert (x : nat * nat) := fix ins (l : list (nat * nat)) := match l with [] => [x] | y :: l' => if pleb x y then x :: l else y :: ins l' end.
Definition psort := fold_right psort_insert [].
Lemma insert_sorts {A} (leb : A -> A -> bool) (le : A -> A -> Prop) ins : (forall x y, leb x y = true -> le x y) -> (forall x y, leb x y = false -> le y x) ->
  (forall x l, ins x l = match l with [] => [x] | y :: l' => if leb x y then x :: l else y :: ins x l' end) ->
  forall l, Permutation l (fold_right ins [] l) /\ LocallySorted le (fold_right ins [] l).
Proof.
  intros T F E. assert (G : forall x l, LocallySorted le l -> Permutation (x :: l) (ins x l) /\ LocallySorted le (ins x l)).
  { intros x l. induction l as [|y l IH]; intros S; rewrite E; [split; [constructor; constructor|constructor]|].
    destruct (leb x y) eqn:B; [split; [apply Permutation_refl|constructor; [exact S|apply T; exact B]]|].
    assert (Sl : LocallySorted le l) by (inversion S; subst; [constructor|assumption]). destruct (IH Sl) as (P & S'). split.
    - eapply perm_trans; [apply perm_swap|]. constructor. exact P.
    - rewrite E in S' |- *. destruct l as [|z l]; [constructor; [constructor|apply F; exact B]|]. destruct (leb x z) eqn:B'; constructor; auto. inversion S; subst. assumption. }
  induction l as [|x l (P & S)]; cbn [fold_right]; [split; [constructor|constructor]|]. destruct (G x _ S) as (P' & S'). split; [|exact S']. eapply perm_trans; [constructor; exact P|exact P'].
Qed.
Example C130_case : sorts isort /\ sorts_pairs psort /\ exists h,
  let qs := [QDivisors 24 7; QPi 29; QMertens 12; QFactor 26; QFactorise 18; QMu 6; QCount; QFactoriseProduct [12; 10]; QPrime 9; QPhi 12; QNu 28; QIsPrime 29] in
  Forall (allowed 30) qs /\ asks 0 isort psort (holder_new 30) qs =
    Some (h, [RList [1; 2; 3; 4; 6]; RInt 10; RInt (-2); RInt 13; RFactors [(2, 1); (3, 2)]; RInt 1; RInt 10; RFactors [(2, 3); (3, 1); (5, 1)]; RInt 29; RInt 4; RInt 2; RInt 1]).
Proof.
  split; [|split].
  - intros l. apply (insert_sorts Nat.leb le isort_insert); [intros x y H; apply Nat.leb_le; exact H|intros x y H; apply Nat.leb_gt in H; lia|intros x [|y l0]; reflexivity].
  - intros l. apply (insert_sorts pleb pair_le psort_insert); [| |intros x [|y l0]; reflexivity]; intros [a b] [c d]; unfold pleb, pair_le; cbn [fst snd]; destruct (Nat.ltb_spec a c), (Nat.eqb_spec a c), (Nat.leb_spec b d); cbn; intros; try discriminate; lia.
  - eexists. cbv zeta. split; [|vm_compute; reflexivity]. repeat (apply Forall_cons; [cbn [allowed]; try exact I; try (vm_compute; lia); try (intros n [<-|[<-|[]]]; lia)|]). apply Forall_nil.
Qed.

(** C131: any commutative ring in which (sz-1)! can be divided by *)
Section C131.
  Context {T : Type} (zero id : T) (add mul sub div : T -> T -> T) (neg : T -> T) (cast : Z -> T).
  Hypothesis Rth : ring_theory zero id add mul sub neg (@eq T).
  Add Ring R131 : Rth.
  Local Notation rnat := (rnat zero id add). Local Notation rfact := (rfact zero id add mul).
  Local Notation fholder_new := (fholder_new zero id add mul sub div cast). Local Notation fholder_bin := (fholder_bin zero mul).

  Theorem C131_tables : forall sz, 1 <= sz -> (forall j, cast (Z.of_nat j) = rnat j) -> mul (div id (rfact (sz - 1))) (rfact (sz - 1)) = id ->
    exists h, fholder_new sz = Some h /\ nth_error (f_inv h) 0 = Some zero /\
      (forall i, i < sz -> nth_error (f_fact h) i = Some (rfact i) /\ exists x, nth_error (f_ifact h) i = Some x /\ mul x (rfact i) = id) /\
      (forall i, 0 < i < sz -> exists x, nth_error (f_inv h) i = Some x /\ mul x (rnat i) = id) /\
      (forall n k, n < sz -> fholder_bin h n k = Some (rnat (choose n k))).
  Proof using Rth.
    intros sz H1 Hc Hd. destruct (fholder_ok zero id add mul sub div neg cast Rth sz H1 Hc Hd) as (h & E & _ & _ & _ & I0 & V & I). exists h. split; [exact E|]. split; [exact I0|]. split; [exact V|]. split; [exact I|].
    intros n k Hn. unfold HolderModel.fholder_bin. destruct (Nat.ltb_spec n k); [rewrite choose_over by assumption; reflexivity|].
    destruct (V n Hn) as (-> & _). destruct (V (n - k) ltac:(lia)) as (_ & b & -> & Hb). destruct (V k ltac:(lia)) as (_ & c & -> & Hcc). cbn [obind]. f_equal.
    rewrite (rfact_nat zero id add mul sub neg Rth n), <- (choose_fact n k) by assumption. rewrite !(rnat_mul zero id add mul sub neg Rth), <- !(rfact_nat zero id add mul sub neg Rth).
    transitivity (mul (rnat (choose n k)) (mul (mul b (rfact (n - k))) (mul c (rfact k)))); [ring|]. rewrite Hb, Hcc. ring.
  Qed.
End C131.
(** no element is made for sz = 0, and the last one is read *)
Theorem C131_empty_refuted : forall (T : Type) (zero id : T) add mul sub div cast, fholder_new zero id add mul sub div cast 0 = None.
Proof. reflexivity. Qed.
(** bin(n, k) for n = sz is not checked *)
Theorem C131_bin_range_refuted : forall (T : Type) (zero id : T) add mul sub div cast sz h k, fholder_new zero id add mul sub div cast sz = Some h -> k <= sz -> fholder_bin zero mul h sz k = None.
Proof.
  intros T zero id add mul sub div cast sz h k E Hk. unfold fholder_new in E. destruct (Nat.eqb_spec sz 0); [discriminate|]. destruct (nth_error _ _); [|discriminate]. cbn [obind] in E.
  destruct (inverses_from_ifact _ _ _ _ _); [|discriminate]. cbn [obind] in E. injection E as <-. unfold fholder_bin. cbn [f_fact]. destruct (Nat.ltb_spec sz k); [lia|].
  replace (nth_error (factorials id add mul sz) sz) with (@None T); [reflexivity|]. symmetry. apply nth_error_None. unfold factorials. rewrite RangesProofs.factorials_loop_length. lia.
Qed.
(** modulo 101 *)
Example C131_case : let mulm a b := (a * b mod 101)%Z in let div a b := (a * (b ^ 99) mod 101)%Z in exists h,
  fholder_new 0%Z 1%Z (fun a b => (a + b) mod 101)%Z mulm (fun a b => (a - b) mod 101)%Z div (fun z => z mod 101)%Z 20 = Some h /\
  fholder_bin 0%Z mulm h 10 3 = Some (120 mod 101)%Z /\ fholder_bin 0%Z mulm h 3 10 = Some 0%Z /\ nth_error (f_inv h) 7 = Some 29%Z.
Proof. eexists. split; [vm_compute; reflexivity|]. split; [|split]; vm_compute; reflexivity. Qed.
(** the hypotheses hold over the rationals *)
Example C131_case_field : let cast z := Q2Qc (inject_Z z) in ring_theory (Q2Qc 0) (Q2Qc 1) Qcplus Qcmult Qcminus Qcopp (@eq Qc) /\ (forall j, cast (Z.of_nat j) = rnat (Q2Qc 0) (Q2Qc 1) Qcplus j) /\ (let f := rfact (Q2Qc 0) (Q2Qc 1) Qcplus Qcmult 5 in Qcmult (Qcdiv (Q2Qc 1) f) f = Q2Qc 1).
Proof.
  split; [exact Qcrt|]. split.
  - induction j as [|j IH]; [reflexivity|]. cbn [rnat]. rewrite <- IH. apply Qc_is_canon. unfold Qcplus, Q2Qc. cbn [this]. rewrite !Qred_correct. rewrite Nat2Z.inj_succ. unfold Z.succ. rewrite inject_Z_plus. reflexivity.
  - apply Qc_is_canon. vm_compute. reflexivity.
Qed.

Print Assumptions C130_history.
Print Assumptions C130_order.
Print Assumptions C130_pi_two_refuted.
Print Assumptions C130_factor_one_refuted.
Print Assumptions C130_pi_past_end_refuted.
Print Assumptions C131_tables.
Print Assumptions C131_empty_refuted.
Print Assumptions C131_bin_range_refuted.
