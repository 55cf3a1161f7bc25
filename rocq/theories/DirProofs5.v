(** Sieves of summatory functions. *)
From Coq Require Import Ring Ring_theory Permutation.
From Verif Require Import Lib RingSpec RingProofs PrimesSpec PrimesProofs PrimesProofs2 PrimesProofs4 DivisorsProofs PiProofs FftProofs3 DirModel DirSpec DirProofs DirProofs2 DirProofs3 DirProofs4.
From Coq Require Import Arith Lia.
Open Scope nat_scope.

Section Dir.
  Context {T : Type} (zero one : T) (add mul sub : T -> T -> T) (opp : T -> T) (tdiv : T -> T -> option T).
  Hypothesis Rth : ring_theory zero one add mul sub opp (@eq T).
  Add Ring Tr : Rth.
  Notation rsum := (rsum zero add).
  Notation dirichlet := (dirichlet zero add mul).
  Notation multiplicative := (multiplicative one mul).
  Notation summatory := (summatory zero add).
  Notation weighted_quotients := (weighted_quotients zero add mul).
  Notation dunit := (dunit zero one).

  Lemma summatory_S f n : summatory f (S n) = add (summatory f n) (f (S n)).
  Proof. reflexivity. Qed.
  Lemma summatory_ext f g n : (forall i, 1 <= i <= n -> f i = g i) -> summatory f n = summatory g n.
  Proof. intros H. apply (rsum_ext zero add). intros k K. apply H. lia. Qed.
  (** ** the sum of a Dirichlet convolution *)
  Lemma summatory_dirichlet p m n : summatory (dirichlet p m) n = weighted_quotients p (summatory m) n.
  Proof.
    induction n as [|n IH]; [reflexivity|]. rewrite summatory_S, IH. unfold DirSpec.weighted_quotients. rewrite (dirichlet_rsum zero one add mul sub opp Rth).
    assert (W : forall N, n <= N -> rsum n (fun k => mul (p (S k)) (summatory m (n / S k))) = rsum N (fun k => mul (p (S k)) (summatory m (n / S k)))).
    { intros N HN. symmetry. apply (rsum_trunc zero one add mul sub opp Rth); [exact HN|]. intros i I0. rewrite Nat.div_small by lia. unfold DirSpec.summatory. cbn [RingSpec.rsum]. ring. }
    rewrite (W (S n)) by lia. rewrite <- (rsum_add zero one add mul sub opp Rth). apply (rsum_ext zero add). intros k K. unfold term. rewrite (succ_div n (S k)) by lia. destruct (S n mod S k =? 0) eqn:E; [|ring]. rewrite summatory_S. ring.
  Qed.
  Lemma summatory_diff t n : 1 <= n -> summatory (diff sub t) n = t n.
  Proof.
    induction n as [|n IH]; intros H; [lia|]. rewrite summatory_S. unfold diff at 2. destruct n as [|n]; [cbn; ring|]. rewrite IH by lia. cbn [Nat.eqb]. replace (S (S n) - 1) with (S n) by lia. ring.
  Qed.
  Lemma quotients_of_sums p m t n : (forall i, 1 <= i < n -> dirichlet m p i = diff sub t i) -> forall i, 1 <= i < n -> weighted_quotients p (summatory m) i = t i.
  Proof.
    intros H i I0. rewrite <- summatory_dirichlet. rewrite (summatory_ext _ (diff sub t)); [apply summatory_diff; lia|]. intros j J. rewrite <- H by lia. apply (dirichlet_comm zero one add mul sub opp Rth). lia.
  Qed.
  Lemma weighted_ext p M M' n : (forall i, 1 <= i <= n -> M i = M' i) -> weighted_quotients p M n = weighted_quotients p M' n.
  Proof. intros H. apply (rsum_ext zero add). intros k K. f_equal. apply H. split; [apply Nat.div_le_lower_bound; lia|]. apply Nat.div_le_upper_bound; nia. Qed.
  (** the equation determines M *)
  Lemma weighted_unique p u M M' n : mul u (p 1) = one -> (forall i, 1 <= i < n -> weighted_quotients p M i = weighted_quotients p M' i) -> forall i, 1 <= i < n -> M i = M' i.
  Proof.
    intros U H. induction i as [i IH] using lt_wf_ind. intros I0. specialize (H i I0) as E. unfold DirSpec.weighted_quotients in E. destruct i as [|i']; [lia|]. set (i := S i') in *. unfold i in E at 1 3. rewrite !(rsum_S_l zero one add mul sub opp Rth) in E. rewrite Nat.div_1_r in E.
    match type of E with add _ ?a = add _ ?b => assert (R : a = b) end. { apply (rsum_ext zero add). intros k K. f_equal. apply IH; [apply Nat.div_lt; lia|]. split; [apply Nat.div_le_lower_bound; lia|]. assert (i / S (S k) < i) by (apply Nat.div_lt; lia). lia. }
    rewrite R in E. match type of E with add (mul _ ?x) ?b = add (mul _ ?y) _ => assert (C : mul (p 1) x = mul (p 1) y) by (transitivity (sub (add (mul (p 1) x) b) b); [ring|rewrite E; ring]) end.
    transitivity (mul u (mul (p 1) (M i))); [transitivity (mul (mul u (p 1)) (M i)); [rewrite U; ring|ring]|]. rewrite C. transitivity (mul (mul u (p 1)) (M' i)); [ring|rewrite U; ring].
  Qed.

  (** prefix sums in place *)
  Lemma prefix_run L n F h : is_arr L F h -> n <= L -> exists h', for_range 1 n (fun i M => let* x := nth_error M (i - 1) in upd M i (fun v => add v x)) h = Some h' /\
    is_arr L (fun i => if i <? n then add (F 0) (summatory F i) else F i) h'.
  Proof.
    intros HA HL. destruct (Nat.le_gt_cases n 1) as [G|G].
    { exists h. split; [unfold for_range; replace (n - 1) with 0 by lia; reflexivity|]. apply (arr_ext L _ _ _ HA). intros i _. destruct (Nat.ltb_spec i n); [|reflexivity]. assert (i = 0) by lia. subst i. unfold DirSpec.summatory. cbn [RingSpec.rsum]. ring. }
    match goal with |- context[for_range 1 n ?body h] => destruct (for_range_spec (fun e h' => is_arr L (fun i => if i <? e then add (F 0) (summatory F i) else F i) h') body 1 n h) as (h' & E & R); [lia| | |eauto] end.
    - apply (arr_ext L _ _ _ HA). intros i _. destruct (Nat.ltb_spec i 1); [|reflexivity]. assert (i = 0) by lia. subst i. unfold DirSpec.summatory. cbn [RingSpec.rsum]. ring.
    - intros e t I0 HT. cbv beta. destruct (HT) as [_ HT2]. rewrite HT2 by lia. cbn [obind]. destruct (Nat.ltb_spec (e - 1) e); [|lia]. match goal with |- exists t', upd t e ?u = _ /\ _ => destruct (upd_arr L _ t e u HT ltac:(lia)) as (t' & E & R) end. exists t'. split; [exact E|]. apply (arr_ext L _ _ _ R). intros i _. cbv beta. destruct (Nat.eqb_spec i e) as [->|N].
      + destruct (Nat.ltb_spec e e), (Nat.ltb_spec e (S e)); try lia. replace (summatory F e) with (summatory F (S (e - 1))) by (f_equal; lia). rewrite summatory_S. replace (S (e - 1)) with e by lia. ring.
      + destruct (Nat.ltb_spec i e), (Nat.ltb_spec i (S e)); try reflexivity; lia.
  Qed.

  (** ** sieve_m *)
  Lemma init_run L n t F h : is_arr L F h -> n <= L -> 2 <= n -> exists h1 h2, set_nth h 1 (t 1) = Some h1 /\ for_range 2 n (fun i M => set_nth M i (sub (t i) (t (i - 1)))) h1 = Some h2 /\
    is_arr L (fun i => if (1 <=? i) && (i <? n) then diff sub t i else F i) h2.
  Proof.
    intros HA HL N2. destruct (set_arr L F h 1 (t 1) HA ltac:(lia)) as (h1 & E1 & R1). destruct (fill_arr L n 2 (fun i => sub (t i) (t (i - 1))) _ h1 R1 HL) as (h2 & E2 & R2). exists h1, h2. split; [exact E1|]. split; [exact E2|]. apply (arr_ext L _ _ _ R2). intros i _. cbv beta. unfold diff.
    destruct (Nat.eqb_spec i 1) as [->|]; [destruct (Nat.ltb_spec 1 n); [reflexivity|lia]|]. destruct (Nat.leb_spec 2 i), (Nat.leb_spec 1 i); try reflexivity; try lia.
  Qed.
  Section SieveM.
    Variables (L n : nat) (t p : nat -> T) (ip1 : T) (F0 : nat -> T).
    Hypothesis HL : n <= L.
    Hypothesis N2 : 2 <= n.
    Hypothesis Hip : mul ip1 (p 1) = one.
    Variable body : nat -> list T -> option (list T).
    (** what one round does before the prefix step *)
    Hypothesis Hbody : forall d h F, 1 <= d < n -> is_arr L F h -> exists h1, body d h = (if 1 <? d then let* x := nth_error h1 (d - 1) in upd h1 d (fun v => add v x) else Some h1) /\
      is_arr L (fun i => if (i mod d =? 0) && (2 * d <=? i) && (i <? n) then sub (F i) (mul (p (i / d)) (mul (F d) ip1)) else if i =? d then mul (F d) ip1 else F i) h1.
    Lemma sieve_run h : is_arr L (fun i => if (1 <=? i) && (i <? n) then diff sub t i else F0 i) h ->
      exists h' F, for_range 1 n body h = Some h' /\ is_arr L (fun i => if (1 <=? i) && (i <? n) then summatory F i else F0 i) h' /\ forall i, 1 <= i < n -> dirichlet F p i = diff sub t i.
    Proof.
      intros HA. destruct (for_range_spec (fun D h' => exists F, dinv zero add mul sub n (diff sub t) p F0 D F /\ is_arr L (fun i => if (1 <=? i) && (i <? D) then summatory F i else F i) h') body 1 n h) as (h' & E & F & DI & R); [lia| | |].
      - eexists. split; [|apply (arr_ext L _ _ _ HA); intros i _; symmetry; replace ((1 <=? i) && (i <? 1)) with false by (destruct (Nat.leb_spec 1 i), (Nat.ltb_spec i 1); (reflexivity || lia)); reflexivity]. split; [intros; lia|]. split; [|intros i [->|I0]; [reflexivity|]].
        + intros i I0. destruct (Nat.leb_spec 1 i), (Nat.ltb_spec i n); try lia. cbn [andb Nat.sub RingSpec.rsum]. ring.
        + destruct (Nat.ltb_spec i n); [lia|]. rewrite andb_false_r. reflexivity.
      - intros d h0 D (F & DI & HT). destruct (Hbody d h0 _ D HT) as (h1 & -> & H1).
        set (F' := fun i => if (i mod d =? 0) && (2 * d <=? i) && (i <? n) then sub (F i) (mul (p (i / d)) (mul (F d) ip1)) else if i =? d then mul (F d) ip1 else F i).
        assert (DS : dinv zero add mul sub n (diff sub t) p F0 (S d) F') by (apply (dinv_step zero one add mul sub opp Rth L n (diff sub t) p F0 ip1 HL Hip d F F'); [exact D|exact DI|reflexivity]).
        assert (LOW : forall i, 1 <= i < d -> F' i = F i). { intros i I0. unfold F'. rewrite Nat.mod_small by lia. destruct (Nat.eqb_spec i 0); [lia|]. cbn [andb]. destruct (Nat.eqb_spec i d); [lia|reflexivity]. }
        assert (H1' : is_arr L (fun i => if (1 <=? i) && (i <? d) then summatory F' i else F' i) h1).
        { apply (arr_ext L _ _ _ H1). intros i _. cbv beta. unfold F' at 2. destruct (Nat.ltb_spec d d); [lia|]. rewrite andb_false_r. destruct (Nat.leb_spec 1 i) as [I1|I1].
          - destruct (Nat.ltb_spec i d) as [I2|I2].
            + rewrite Nat.mod_small by lia. destruct (Nat.eqb_spec i 0); [lia|]. cbn [andb]. destruct (Nat.eqb_spec i d); [lia|]. apply summatory_ext. intros j J. symmetry. apply LOW. lia.
            + cbn [andb]. reflexivity.
          - cbn [andb]. reflexivity. }
        destruct (Nat.ltb_spec 1 d) as [D1|D1].
        + destruct (H1') as [_ H12]. rewrite H12 by lia. cbn [obind]. destruct (Nat.leb_spec 1 (d - 1)), (Nat.ltb_spec (d - 1) d); try lia. cbn [andb]. match goal with |- exists t', upd h1 d ?u = _ /\ _ => destruct (upd_arr L _ h1 d u H1' ltac:(lia)) as (h2 & E2 & R2) end. exists h2. split; [exact E2|]. exists F'. split; [exact DS|]. apply (arr_ext L _ _ _ R2). intros i _. cbv beta. destruct (Nat.eqb_spec i d) as [->|N].
          * destruct (Nat.leb_spec 1 d), (Nat.ltb_spec d d), (Nat.ltb_spec d (S d)); try lia. cbn [andb]. replace (summatory F' d) with (summatory F' (S (d - 1))) by (f_equal; lia). rewrite summatory_S. replace (S (d - 1)) with d by lia. ring.
          * destruct (Nat.leb_spec 1 i), (Nat.ltb_spec i d), (Nat.ltb_spec i (S d)); cbn [andb]; (reflexivity || lia).
        + assert (d = 1) by lia. subst d. exists h1. split; [reflexivity|]. exists F'. split; [exact DS|]. apply (arr_ext L _ _ _ H1'). intros i _. destruct (Nat.leb_spec 1 i), (Nat.ltb_spec i 1), (Nat.ltb_spec i 2); cbn [andb]; try reflexivity; try lia. assert (i = 1) by lia. subst i. unfold DirSpec.summatory. cbn [RingSpec.rsum]. ring.
      - exists h', F. split; [exact E|]. destruct DI as (A & _ & C). split; [|exact A]. apply (arr_ext L _ _ _ R). intros i _. cbv beta. destruct (Nat.leb_spec 1 i), (Nat.ltb_spec i n); cbn [andb]; try reflexivity; apply C; lia.
    Qed.
  End SieveM.
  Lemma sieve_m_ok L n t p ip1 F0 h : is_arr L F0 h -> n <= L -> 2 <= n -> tdiv one (p 1) = Some ip1 -> mul ip1 (p 1) = one ->
    exists h' F, sieve_m one add mul sub tdiv h t p n = Some h' /\ is_arr L (fun i => if (1 <=? i) && (i <? n) then summatory F i else F0 i) h' /\ forall i, 1 <= i < n -> dirichlet F p i = diff sub t i.
  Proof.
    intros HA HL N2 HD HI. unfold sieve_m. rewrite HD. cbn [obind]. destruct (init_run L n t F0 h HA HL N2) as (h1 & h2 & -> & E2 & R2). cbn [obind]. rewrite E2. cbn [obind]. apply (sieve_run L n t p ip1 F0 HL N2 HI); [|exact R2].
    intros d h0 F D HT. destruct (upd_arr L F h0 d (fun v => mul v ip1) HT ltac:(lia)) as (t1 & -> & HT1). cbn [obind].
    set (F1 := fun y => if y =? d then mul (F d) ip1 else F y) in *.
    destruct (mult_loop L n d 2 (fun j v => sub v (mul (p j) (mul (F d) ip1))) (fun j h => let* hd := nth_error h d in upd h (d * j) (fun v => sub v (mul (p j) hd))) F1 t1 HT1 HL ltac:(lia) ltac:(lia)) as (t2 & -> & R3).
    { intros e F' t' E1 DE HT' FF. assert (ND : nth_error t' d = Some (mul (F d) ip1)). { destruct HT' as [_ HT']. rewrite HT' by lia. rewrite FF by lia. unfold F1. now rewrite Nat.eqb_refl. }
      rewrite ND. cbn [obind]. destruct (upd_arr L F' t' (d * e) (fun v => sub v (mul (p e) (mul (F d) ip1))) HT' ltac:(lia)) as (t3 & E3 & R3). exists t3. split; [exact E3|]. apply (arr_ext L _ _ _ R3). intros i _. cbv beta. destruct (Nat.eqb_spec i (d * e)) as [->|]; reflexivity. }
    cbn [obind]. exists t2. split; [reflexivity|]. apply (arr_ext L _ _ _ R3). intros i _. cbv beta. unfold F1. destruct (Nat.eqb_spec (i mod d) 0) as [M|M]; cbn [andb]; [|reflexivity]. destruct (Nat.leb_spec (2 * d) i) as [K|K]; cbn [andb]; [|reflexivity]. destruct (i <? n); [|reflexivity]. destruct (Nat.eqb_spec i d); [lia|reflexivity].
  Qed.
  Lemma sieve_m1_ok L n t F0 h : is_arr L F0 h -> n <= L -> 2 <= n ->
    exists h' F, sieve_m1 add sub h t n = Some h' /\ is_arr L (fun i => if (1 <=? i) && (i <? n) then summatory F i else F0 i) h' /\ forall i, 1 <= i < n -> dirichlet F (fun _ => one) i = diff sub t i.
  Proof.
    intros HA HL N2. unfold sieve_m1. destruct (init_run L n t F0 h HA HL N2) as (h1 & h2 & -> & E2 & R2). cbn [obind]. rewrite E2. cbn [obind]. apply (sieve_run L n t (fun _ => one) one F0 HL N2); [ring| |exact R2].
    intros d h0 F D HT.
    destruct (mult_loop L n d 2 (fun j v => sub v (F d)) (fun j h => let* hd := nth_error h d in upd h (d * j) (fun v => sub v hd)) F h0 HT HL ltac:(lia) ltac:(lia)) as (t2 & -> & R3).
    { intros e F' t' E1 DE HT' FF. assert (ND : nth_error t' d = Some (F d)). { destruct HT' as [_ HT']. rewrite HT' by lia. now rewrite FF by lia. }
      rewrite ND. cbn [obind]. destruct (upd_arr L F' t' (d * e) (fun v => sub v (F d)) HT' ltac:(lia)) as (t3 & E3 & R3). exists t3. split; [exact E3|]. apply (arr_ext L _ _ _ R3). intros i _. cbv beta. destruct (Nat.eqb_spec i (d * e)) as [->|]; reflexivity. }
    cbn [obind]. exists t2. split; [reflexivity|]. apply (arr_ext L _ _ _ R3). intros i _. cbv beta. destruct (Nat.eqb_spec (i mod d) 0) as [M|M]; cbn [andb]; [|destruct (Nat.eqb_spec i d) as [->|]; [ring|reflexivity]]. destruct (Nat.leb_spec (2 * d) i) as [K|K]; cbn [andb]; [|destruct (Nat.eqb_spec i d) as [->|]; [ring|reflexivity]]. destruct (i <? n); [ring|]. destruct (Nat.eqb_spec i d) as [->|]; [ring|reflexivity].
  Qed.

  (** ** sieve_m_multiplicative *)
  Lemma sieve_inv_ok L n N F0 h t q W : is_arr L F0 h -> n <= L -> n <= N -> 1 <= n -> (Z.of_nat n <= 2 ^ 32)%Z -> multiplicative W -> (forall i, 1 <= i < n -> dirichlet q (diff sub t) i = W i) ->
    exists h', sieve_m_multiplicative_inv zero one add mul sub h t q n (primes_below N) = Some h' /\ is_arr L (fun i => if i <? n then add (F0 0) (summatory W i) else F0 i) h'.
  Proof.
    intros HA HL HN N1 B HM HW. unfold sieve_m_multiplicative_inv. destruct (conv_mult_ok zero one add mul sub opp Rth L n N F0 h q (diff sub t) W HA HL HN B HM HW) as (h1 & -> & R1). cbn [obind]. destruct (prefix_run L n _ h1 R1 HL) as (h2 & E2 & R2). exists h2. split; [exact E2|]. apply (arr_ext L _ _ _ R2). intros i _. cbv beta.
    destruct (Nat.ltb_spec i n); [|rewrite andb_false_r; reflexivity]. change (1 <=? 0) with false. cbn [andb]. f_equal. apply summatory_ext. intros j J. destruct (Nat.leb_spec 1 j), (Nat.ltb_spec j n); try lia. reflexivity.
  Qed.
  Lemma sieve_mult_ok L n N F0 h t p W : is_arr L F0 h -> n <= L -> n <= N -> 1 <= n -> (Z.of_nat n <= 2 ^ 32)%Z -> multiplicative p -> multiplicative W -> (forall i, 1 <= i < n -> dirichlet W p i = diff sub t i) ->
    exists h', sieve_m_multiplicative zero one add mul sub h t p n (primes_below N) = Some h' /\ is_arr L (fun i => if i <? n then add (F0 0) (summatory W i) else F0 i) h'.
  Proof.
    intros HA HL HN N1 B HP HM HW. unfold sieve_m_multiplicative, dirichlet_inverse_multiplicative. change (unit_fn zero one) with dunit.
    destruct (quotient_mult zero one add mul sub opp Rth dunit p (mult_unit zero one add mul sub opp Rth) HP) as (Q & HQ & HQ1).
    destruct (div_mult_ok zero one add mul sub opp Rth L n N F0 h dunit p Q HA HL HN B HQ) as (h1 & -> & R1); [apply HP|intros; apply HQ1; lia|]. cbn [obind].
    apply sieve_inv_ok; auto. intros i I0. rewrite (dirichlet_ext zero one add mul sub opp Rth _ (diff sub t) Q (dirichlet p W) i ltac:(lia)).
    - rewrite <- (dirichlet_assoc zero one add mul sub opp Rth) by lia. rewrite (dirichlet_ext zero one add mul sub opp Rth _ W dunit W i ltac:(lia)).
      + rewrite (dirichlet_comm zero one add mul sub opp Rth) by lia. apply (dirichlet_unit_r zero one add mul sub opp Rth). lia.
      + intros j J. apply HQ1. lia.
      + reflexivity.
    - intros j J. destruct R1 as [_ R1]. rewrite (nth_error_nth h1 j zero (R1 j ltac:(lia))). destruct (Nat.leb_spec 1 j), (Nat.ltb_spec j n); try lia. reflexivity.
    - intros j J. rewrite <- HW by lia. apply (dirichlet_comm zero one add mul sub opp Rth). lia.
  Qed.

  (** ** squarefree counts *)
  Lemma squarefreeb_spec n : 1 <= n -> (squarefreeb n = true <-> squarefree n).
  Proof.
    intros H. unfold squarefreeb, squarefree. rewrite forallb_forall. split.
    - intros A r R D. assert (r * r <= n) by (apply Nat.divide_pos_le; [lia|exact D]). specialize (A r ltac:(apply in_seq; nia)). apply mod_div in D; [|nia]. rewrite D in A. discriminate.
    - intros A r R. apply in_seq in R. destruct (Nat.eqb_spec (n mod (r * r)) 0) as [E|E]; [|reflexivity]. exfalso. apply (A r ltac:(lia)). apply Nat.mod_divides in E as [c E]; [exists c; lia|nia].
  Qed.
  Lemma sqfree_primes N n i : n <= N * N -> 1 <= i < n -> squarefreeb i = negb (existsb (fun p => i mod (p * p) =? 0) (primes_below N)).
  Proof.
    intros HN I0. apply eq_true_iff_eq. rewrite squarefreeb_spec, negb_true_iff by lia. split.
    - intros A. destruct (existsb _ _) eqn:E; [|reflexivity]. exfalso. apply existsb_exists in E as (p & P & E). apply primes_below_in in P as [_ P]. pose proof (prime_ge p P). apply (A p ltac:(lia)). apply Nat.eqb_eq in E. apply Nat.mod_divides in E as [c E]; [exists c; lia|nia].
    - intros A r R D. destruct (least_factor r R) as (p & P & [c C] & _). pose proof (prime_ge p P). assert (DP : Nat.divide (p * p) i) by (destruct D as [e ->]; exists (e * (c * c)); rewrite C; lia).
      assert (p * p <= i) by (apply Nat.divide_pos_le; [lia|exact DP]). assert (X : existsb (fun p => i mod (p * p) =? 0) (primes_below N) = true); [|congruence]. apply existsb_exists. exists p. split; [apply primes_below_in; split; [nia|exact P]|]. apply mod_div; [nia|exact DP].
  Qed.
  Lemma sqfree_ok L n N F0 h : is_arr L F0 h -> n <= L -> 1 <= n -> n <= N * N ->
    exists h', sieve_sqfree_count zero one add h n (primes_below N) = Some h' /\ is_arr L (fun i => if i <? n then rnat zero one add (count_squarefree i) else F0 i) h'.
  Proof.
    intros HA HL N1 HN. unfold sieve_sqfree_count. destruct (set_arr L F0 h 0 zero HA ltac:(lia)) as (h1 & -> & R1). cbn [obind]. destruct (fill_arr L n 1 (fun _ => one) _ h1 R1 HL) as (h2 & -> & R2). cbn [obind].
    assert (FL : forall P F h, Forall is_prime P -> is_arr L F h -> exists h', fold_left (fun s p => let* s := s in let* _ := guard (negb (p =? 0)) in for_range 1 (S ((n - 1) / (p * p))) (fun e s => set_nth s (p * p * e) zero) s) P (Some h) = Some h' /\
      is_arr L (fun i => if (1 <=? i) && (i <? n) && existsb (fun p => i mod (p * p) =? 0) P then zero else F i) h').
    { induction P as [|p P IH]; intros F t HP HT; cbn [fold_left]. { exists t. split; [reflexivity|]. apply (arr_ext L _ _ _ HT). intros i _. cbn [existsb]. rewrite andb_false_r. reflexivity. }
      apply Forall_cons_iff in HP as [Pp HP]. pose proof (prime_ge p Pp). destruct (Nat.eqb_spec p 0); [lia|]. cbn [negb guard obind].
      destruct (mult_loop L n (p * p) 1 (fun _ _ => zero) (fun e s => set_nth s (p * p * e) zero) F t HT HL ltac:(nia) ltac:(lia)) as (t1 & -> & T1).
      { intros e F' h' E DE HA' _. destruct (set_arr L F' h' (p * p * e) zero HA' ltac:(lia)) as (h3 & E3 & R3). exists h3. split; [exact E3|]. apply (arr_ext L _ _ _ R3). intros i _. now destruct (i =? p * p * e). }
      destruct (IH _ t1 HP T1) as (t2 & E2 & T2). exists t2. split; [exact E2|]. apply (arr_ext L _ _ _ T2). intros i _. cbv beta. cbn [existsb].
      destruct (Nat.leb_spec 1 i) as [I1|I1]; cbn [andb].
      - destruct (Nat.ltb_spec i n); cbn [andb]; [|now rewrite andb_false_r]. rewrite andb_true_r. destruct (Nat.eqb_spec (i mod (p * p)) 0) as [M|M]; cbn [orb andb].
        + destruct (Nat.leb_spec (1 * (p * p)) i) as [Q|Q]; [now destruct (existsb _ P)|]. rewrite Nat.mod_small in M by lia. lia.
        + now destruct (existsb _ P).
      - destruct (Nat.leb_spec (1 * (p * p)) i); [nia|]. rewrite andb_false_r. reflexivity. }
    assert (PB : Forall is_prime (primes_below N)) by (apply Forall_forall; intros p I0; now apply primes_below_in in I0). destruct (FL (primes_below N) _ h2 PB R2) as (h3 & -> & R3). cbn [obind].
    destruct (prefix_run L n _ h3 R3 HL) as (h4 & E4 & R4). exists h4. split; [exact E4|]. apply (arr_ext L _ _ _ R4). intros i _. cbv beta. destruct (Nat.ltb_spec i n) as [IN|IN].
    - change (1 <=? 0) with false. change (0 =? 0) with true. cbn [andb]. match goal with |- add zero ?x = _ => transitivity x; [ring|] end. induction i as [|i IH]; [reflexivity|]. rewrite summatory_S, IH by lia. unfold count_squarefree. rewrite seq_S, filter_app, app_length. cbn [filter Nat.add]. rewrite (sqfree_primes N n (S i)) by lia. destruct (Nat.leb_spec 1 (S i)), (Nat.ltb_spec (S i) n); try lia. cbn [andb Nat.eqb].
      destruct (existsb (fun p => S i mod (p * p) =? 0) (primes_below N)); cbn [negb length]; [rewrite Nat.add_0_r; ring|]. rewrite Nat.add_1_r. cbn [rnat]. ring.
    - rewrite andb_false_r. cbn [andb]. destruct (Nat.eqb_spec i 0); [lia|reflexivity].
  Qed.
End Dir.
