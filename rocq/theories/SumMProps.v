(** C93 memoised sums, C94 Mertens functions, C95 counting squarefree numbers, C96 sums of totients and maps of quotients, C97 sums over coprime numbers. *)
From Coq Require Import Ring Ring_theory Arith Lia.
From Verif Require Import Lib BaseModel RingSpec RingProofs PrimesSpec PrimesProofs DirSpec DirModel DirProofs DirProofs2 DirProofs5 DirProofs6 FftProofs3 LohiModel LohiSpec SumMSpec SumMModel SumMProofs SumMProofs2 SumMProofs3 DirProps.
Open Scope nat_scope.

Section Props.
  Context {T TBL : Type} (zero one : T) (add mul sub : T -> T -> T) (opp : T -> T) (tdiv : T -> T -> option T).
  Hypothesis Rth : ring_theory zero one add mul sub opp (@eq T).
  Add Ring TrQ : Rth.
  Notation nat_ := (rnat zero one add).
  Notation Mertens := (Mertens zero one add opp).
  Notation MertensOdd := (MertensOdd zero one add opp).
  Notation MertensEven := (MertensEven zero one add opp).
  Section Memo.
  (** any table that is a map on a set of keys closed under division, an exact square root and a lower bound of the cube root *)
  Context (tfind : TBL -> nat -> option (option T)) (tput : TBL -> nat -> T -> option TBL).
  Variables (root cbrt : nat -> option nat).
  Variables (D : nat -> Prop) (Ok : TBL -> (nat -> option T) -> Prop).
  Hypothesis Table : map_on D tfind tput Ok.
  Hypothesis Keys : quotient_keys D.
  Hypothesis Root : forall n, root n = Some (Nat.sqrt n).

  (** ** C93 *)
  Theorem C93_sum_m t s M n tb m : M 0 = zero -> (forall i, D i -> 1 <= i -> weighted_quotients zero add mul (fun k => sub (s k) (s (k - 1))) M i = t i) ->
    (forall x, tdiv (mul (sub (s 1) (s 0)) x) (sub (s 1) (s 0)) = Some x) -> D n -> Ok tb m -> agrees D M m ->
    exists tb' m', sum_m zero mul sub tdiv tfind tput root (S n) t s n tb = Some (M n, tb') /\ Ok tb' m' /\ agrees D M m' /\ keeps D m m' /\ (1 <= n -> m' n = Some (M n)) /\
      (m n = None -> forall k, 1 <= k <= n -> m' (n / k) = Some (M (n / k))).
  Proof using Table Rth Root Keys.
    intros M0 Eq Div Dn O A. destruct (sum_m_all zero one add mul sub opp tdiv Rth tfind tput root D Ok Table Keys M M0 (fun k _ => Root k) t s Eq Div (S n) n tb m (Nat.lt_succ_diag_r n) Dn O A) as (tb' & m' & E & O' & (A' & K' & F') & Q). exists tb', m'. repeat (split; [assumption|]). exact Q.
  Qed.
  Theorem C93_sum_m1 t M n tb m : M 0 = zero -> (forall i, D i -> 1 <= i -> weighted_quotients zero add mul (fun _ => one) M i = t i) -> D n -> Ok tb m -> agrees D M m ->
    exists tb' m', sum_m1 zero one add mul sub tfind tput root (S n) t n tb = Some (M n, tb') /\ Ok tb' m' /\ agrees D M m' /\ keeps D m m' /\ (1 <= n -> m' n = Some (M n)) /\
      (m n = None -> forall k, 1 <= k <= n -> m' (n / k) = Some (M (n / k))).
  Proof using Table Rth Root Keys.
    intros M0 Eq Dn O A. destruct (sum_m1_all zero one add mul sub opp Rth tfind tput root D Ok Table Keys M M0 (fun k _ => Root k) t Eq (S n) n tb m (Nat.lt_succ_diag_r n) Dn O A) as (tb' & m' & E & O' & (A' & K' & F') & Q). exists tb', m'. repeat (split; [assumption|]). exact Q.
  Qed.

  (** ** C94 *)
  Theorem C94_mertens n tb m : D n -> Ok tb m -> agrees D Mertens m ->
    exists tb' m', mertens zero one add mul sub tfind tput root n tb = Some (Mertens n, tb') /\ Ok tb' m' /\ agrees D Mertens m' /\ keeps D m m' /\ (1 <= n -> m' n = Some (Mertens n)).
  Proof using Table Rth Root Keys.
    intros Dn O A. destruct (C93_sum_m1 (fun _ => one) Mertens n tb m eq_refl (fun i _ I0 => mertens_eq zero one add mul sub opp Rth i I0) Dn O A) as (tb' & m' & E & O' & A' & K' & F' & _). exists tb', m'. auto 6.
  Qed.
  Lemma odd_p1 : (forall x, tdiv x one = Some x) -> forall x, tdiv (mul (sub (odd_count zero one add 1) (odd_count zero one add 0)) x) (sub (odd_count zero one add 1) (odd_count zero one add 0)) = Some x.
  Proof using Rth. intros H x. assert (E : sub (odd_count zero one add 1) (odd_count zero one add 0) = one) by (unfold odd_count; change ((1 + 1) / 2) with 1; change ((0 + 1) / 2) with 0; cbn [rnat]; ring). rewrite E. replace (mul one x) with x by ring. apply H. Qed.
  Lemma odd_weights M n : weighted_quotients zero add mul (fun k => sub (odd_count zero one add k) (odd_count zero one add (k - 1))) M n = weighted_quotients zero add mul (oddf zero one) M n.
  Proof using Rth. apply (rsum_ext zero add). intros k _. rewrite (odd_count_step zero one add mul sub opp Rth) by lia. reflexivity. Qed.
  Theorem C94_mertens_odd n tb m : (forall x, tdiv x one = Some x) -> D n -> Ok tb m -> agrees D MertensOdd m ->
    exists tb' m', mertens_odd zero one add mul sub tdiv tfind tput root n tb = Some (MertensOdd n, tb') /\ Ok tb' m' /\ agrees D MertensOdd m' /\ keeps D m m' /\ (1 <= n -> m' n = Some (MertensOdd n)).
  Proof using Table Rth Root Keys.
    intros Div Dn O A. destruct (C93_sum_m (fun _ => one) (odd_count zero one add) MertensOdd n tb m) as (tb' & m' & E & O' & A' & K' & F' & _); [reflexivity| |now apply odd_p1|assumption..|exists tb', m'; auto 6].
    intros i _ I0. rewrite odd_weights. now apply (mertens_odd_eq zero one add mul sub opp Rth).
  Qed.
  (** the arguments must fit an int, see the refutation below *)
  Theorem C94_mertens_even n tb m : (forall x, tdiv x one = Some x) -> (forall k, D k -> (Z.of_nat k < 2 ^ 31)%Z) -> D n -> Ok tb m -> agrees D MertensEven m ->
    exists tb' m', mertens_even zero one add mul sub opp tdiv tfind tput root n tb = Some (MertensEven n, tb') /\ Ok tb' m' /\ agrees D MertensEven m' /\ keeps D m m' /\ (1 <= n -> m' n = Some (MertensEven n)).
  Proof using Table Rth Root Keys.
    intros Div Small Dn O A. destruct (C93_sum_m (even_t zero one opp) (odd_count zero one add) MertensEven n tb m) as (tb' & m' & E & O' & A' & K' & F' & _); [reflexivity| |now apply odd_p1|assumption..|exists tb', m'; auto 6].
    intros i Di I0. rewrite odd_weights, (mertens_even_eq zero one add mul sub opp Rth) by exact I0. unfold even_t, to_int32. specialize (Small i Di). rewrite Z.mod_small by lia. destruct (Nat.ltb_spec 1 i), (Z.ltb_spec 1 (Z.of_nat i + 2 ^ 31 - 2 ^ 31)); (reflexivity || lia).
  Qed.

  (** ** C95 *)
  Theorem C95_sqfree_count n tb m : (forall i, 1 <= i -> exists q, cbrt i = Some q /\ 1 <= q /\ q * q * q <= i) -> D n -> Ok tb m -> agrees D (fun k => nat_ (count_squarefree k)) m ->
    exists tb' m', sqfree_count zero one add mul sub tfind tput root cbrt (S n) n tb = Some (nat_ (count_squarefree n), tb') /\ Ok tb' m' /\ agrees D (fun k => nat_ (count_squarefree k)) m' /\ keeps D m m' /\ (1 <= n -> m' n = Some (nat_ (count_squarefree n))).
  Proof using Table Rth Root Keys.
    intros Cb Dn O A. destruct (sqfree_count_all zero one add mul sub opp Rth tfind tput root cbrt D Ok Table Keys Root Cb (S n) n tb m (Nat.lt_succ_diag_r n) Dn O A) as (tb' & m' & E & O' & A' & K' & F'). exists tb', m'. auto 6.
  Qed.
  End Memo.
  (** the counts are those of the identity: each number is a square times a squarefree number *)
  Theorem C95_square_times_squarefree n K : n <= K -> rsum zero add K (fun k => nat_ (count_squarefree (n / (S k * S k)))) = nat_ n.
  Proof using Rth. apply (sqf_total zero one add mul sub opp Rth). Qed.

  (** the lambda t of mertens_even takes an int: where the conversion of n is at most 1 the value is one too large, even with a complete table *)
  Section Refute.
  Variables (root : nat -> option nat) (n : nat) (tb : nat -> option T).
  Hypothesis Root : forall n, root n = Some (Nat.sqrt n).
  Hypothesis Div : forall x, tdiv x one = Some x.
  Lemma even_wrong : 1 < n -> (to_int32 (Z.of_nat n) <= 1)%Z -> (forall k, 1 <= k < n -> tb k = Some (MertensEven k)) -> tb n = None ->
    exists tb', mertens_even zero one add mul sub opp tdiv pmap_find pmap_put root n tb = Some (add (MertensEven n) one, tb').
  Proof using Rth Root Div.
    intros N W F E. unfold mertens_even. cbn [sum_m]. destruct (Nat.ltb_spec n 1); [lia|]. unfold pmap_find at 1. cbn [obind]. rewrite E, Root. cbn [obind]. destruct (sqrt_facts n ltac:(lia)) as (Q & QQ). set (q := Nat.sqrt n) in *. destruct (Nat.eqb_spec q 0); [lia|]. cbn [negb guard obind].
    assert (NQ : 1 <= n / q) by (apply Nat.div_le_lower_bound; lia). assert (NQ2 : n / q <= n) by (apply Nat.div_le_upper_bound; nia).
    set (s := odd_count zero one add). set (call := sum_m zero mul sub tdiv pmap_find pmap_put root n (even_t zero one opp) s). set (D := fun k => 1 <= k < n).
    assert (CO : forall i, D i -> call_ok D (fun a b => a = tb /\ b = tb) MertensEven call i).
    { intros i Di tb1 m1 _ [-> ->] A1. exists tb, tb. split; [|split; [auto|split; [exact A1|split; [apply keeps_refl|intros _; now apply F]]]]. unfold call. destruct n as [|n']; [lia|]. cbn [sum_m]. destruct (Nat.ltb_spec i 1); [unfold D in Di; lia|]. unfold pmap_find at 1. cbn [obind]. rewrite (F i Di). reflexivity. }
    assert (A0 : agrees D MertensEven tb) by (intros k v Dk Hk; rewrite (F k Dk) in Hk; congruence).
    destruct (call_loop zero one add mul sub opp Rth D (fun a b => a = tb /\ b = tb) MertensEven call (fun k => n / k) (fun k x => mul (sub (s k) (s (k - 1))) x) 2 (n / q + 1) (even_t zero one opp n) tb tb) as (tb1 & m1 & E1 & [-> ->] & _); [lia| |auto|exact A0|].
    { intros j J. assert (1 <= n / j) by (apply Nat.div_le_lower_bound; lia). pose proof (div_less n j ltac:(lia) ltac:(lia)). assert (DJ : D (n / j)) by (unfold D; lia). split; [exact DJ|]. split; [lia|]. now apply CO. }
    rewrite E1. cbn [obind].
    destruct (call_loop zero one add mul sub opp Rth D (fun a b => a = tb /\ b = tb) MertensEven call (fun k => k) (fun k x => mul (sub (s (n / k)) (s (n / (k + 1)))) x) 1 q (sub (even_t zero one opp n) (rsum zero add (n / q + 1 - 2) (fun i => mul (sub (s (i + 2)) (s (i + 2 - 1))) (MertensEven (n / (i + 2)))))) tb tb) as (tb2 & m2 & E2 & [-> ->] & _); [lia| |auto|exact A0|].
    { intros j J. assert (DJ : D j) by (unfold D; lia). split; [exact DJ|]. split; [lia|]. now apply CO. }
    rewrite E2. cbn [obind]. clear E1 E2.
    match goal with |- context[tdiv ?x _] => replace x with (mul (sub (s 1) (s 0)) (add (MertensEven n) one)) end.
    2:{ assert (P1 : sub (s 1) (s 0) = one) by (unfold s, odd_count; change ((1 + 1) / 2) with 1; change ((0 + 1) / 2) with 0; cbn [rnat]; ring).
        assert (T0 : even_t zero one opp n = zero) by (unfold even_t; destruct (Z.ltb_spec 1 (to_int32 (Z.of_nat n))); [lia|reflexivity]). rewrite T0.
        pose proof (mertens_even_eq zero one add mul sub opp Rth n ltac:(lia)) as X. destruct (Nat.ltb_spec 1 n); [|lia]. rewrite <- odd_weights in X. fold s in X. rewrite (weighted_group zero one add mul sub opp Rth s MertensEven n q ltac:(lia)) in X. replace (n / q + 1 - 2) with (n / q - 1) by lia. rewrite P1 in *.
        match type of X with add ?a (add ?b ?c) = _ => transitivity (sub (sub (sub (add a (add b c)) (opp one)) b) c); [ring|rewrite X; ring] end. }
    rewrite odd_p1 by exact Div. cbn [obind]. unfold pmap_put. cbn [obind]. eexists. reflexivity.
  Qed.
  End Refute.
  Theorem C94_mertens_even_int_refuted (root : nat -> option nat) (tb : nat -> option T) : (forall n, root n = Some (Nat.sqrt n)) -> (forall x, tdiv x one = Some x) ->
    let n := Z.to_nat (2 ^ 32) in (forall k, 1 <= k < n -> tb k = Some (MertensEven k)) -> tb n = None ->
    exists tb', mertens_even zero one add mul sub opp tdiv pmap_find pmap_put root n tb = Some (add (MertensEven n) one, tb').
  Proof using Rth.
    intros R Div n F E. assert (N : Z.of_nat n = (2 ^ 32)%Z) by (apply Z2Nat.id; lia). apply even_wrong; auto; [lia|]. rewrite N. vm_compute. discriminate.
  Qed.

  (** ** the sieves; n <= 2^32 is met by every int *)
  Theorem C94_sieve_mertens M n N : 1 <= n <= length M -> n <= N -> (Z.of_nat n <= 2 ^ 32)%Z -> nth_error M 0 = Some zero ->
    exists M', sieve_mertens zero one add mul sub M n (primes_below N) = Some M' /\ holds n Mertens M M'.
  Proof using Rth.
    intros L LN B M0. apply (C91_sieve_m_multiplicative zero one add mul sub opp Rth M (fun _ => one) (fun _ => one) (mu zero one add opp) n N L LN B M0 (mult_ones zero one add mul sub opp Rth) (mu_mult zero one add mul sub opp Rth)). intros i I0. symmetry. now apply (mertens_eq zero one add mul sub opp Rth).
  Qed.
  Lemma odd_p_eq k : odd_p zero one k = oddf zero one k.
  Proof using. unfold odd_p, oddf. rewrite <- (Nat.bit0_mod k), Nat.bit0_odd. now destruct (Nat.odd k). Qed.
  Lemma odd_p_weights M i : weighted_quotients zero add mul (odd_p zero one) M i = weighted_quotients zero add mul (oddf zero one) M i.
  Proof using. apply (rsum_ext zero add). intros k _. now rewrite odd_p_eq. Qed.
  Lemma odd_p_mult : DirSpec.multiplicative one mul (odd_p zero one).
  Proof using Rth. destruct (odd_mult zero one add mul sub opp Rth) as [A B]. split; [rewrite odd_p_eq; exact A|]. intros a b X Y G. rewrite !odd_p_eq. now apply B. Qed.
  Theorem C94_sieve_mertens_odd M n N : 1 <= n <= length M -> n <= N -> (Z.of_nat n <= 2 ^ 32)%Z -> nth_error M 0 = Some zero ->
    exists M', sieve_mertens_odd zero one add mul sub M n (primes_below N) = Some M' /\ holds n MertensOdd M M'.
  Proof using Rth.
    intros L LN B M0. apply (C91_sieve_m_multiplicative zero one add mul sub opp Rth M (fun _ => one) (odd_p zero one) (omu zero one add opp) n N L LN B M0 odd_p_mult (omu_mult zero one add mul sub opp Rth)). intros i I0. rewrite odd_p_weights. symmetry. now apply (mertens_odd_eq zero one add mul sub opp Rth).
  Qed.
  Theorem C94_sieve_mertens_even M n : tdiv one one = Some one -> 2 <= n <= length M ->
    exists M', sieve_mertens_even zero one add mul sub opp tdiv M n = Some M' /\ holds n MertensEven M M'.
  Proof using Rth.
    intros Div L. assert (P1 : odd_p zero one 1 = one) by reflexivity. destruct (C91_sieve_m zero one add mul sub opp tdiv Rth M (fun k => if 1 <? k then opp one else zero) (odd_p zero one) n one L) as (M' & E & S & W); [rewrite P1; exact Div|rewrite P1; ring|]. exists M'. split; [exact E|]. destruct S as [SL SO]. split; [exact SL|]. intros i I0. destruct (Nat.leb_spec 1 i) as [A|A], (Nat.ltb_spec i n) as [B|B]; cbn [andb]; [|apply SO; lia..].
    rewrite (nth_error_nth' M' zero I0). f_equal. change (nth i M' zero) with (entry zero M' i). apply (C91_unique zero one add mul sub opp Rth (odd_p zero one) one (entry zero M') MertensEven n); [rewrite P1; ring| |lia]. intros j J. rewrite W by exact J. rewrite odd_p_weights. symmetry. apply (mertens_even_eq zero one add mul sub opp Rth). lia.
  Qed.
  Theorem C94_sieve_mertens_even_odd M0 M1 n N : 1 <= n <= length M0 -> n <= length M1 -> n <= N -> (Z.of_nat n <= 2 ^ 32)%Z -> nth_error M0 0 = Some zero -> nth_error M1 0 = Some zero ->
    exists M0' M1', sieve_mertens_even_odd zero one add mul sub M0 M1 n (primes_below N) = Some (M0', M1') /\ holds n MertensEven M0 M0' /\ holds n MertensOdd M1 M1'.
  Proof using Rth.
    intros L0 L1 LN B Z0 Z1. unfold sieve_mertens_even_odd. destruct (C94_sieve_mertens_odd M1 n N ltac:(lia) LN B Z1) as (M1' & -> & H1). cbn [obind]. destruct (C94_sieve_mertens M0 n N L0 LN B Z0) as (Ma & -> & H0). cbn [obind].
    destruct H1 as [H1L H1]. destruct H0 as [H0L H0].
    match goal with |- context[for_range 0 n ?body Ma] => destruct (for_range_spec (fun j t => length t = length M0 /\ forall i, i < length t -> nth_error t i = if (1 <=? i) && (i <? j) then Some (MertensEven i) else nth_error Ma i) body 0 n Ma) as (M' & -> & HL & HE); [lia| | |] end.
    - split; [exact H0L|]. intros i _. destruct (Nat.leb_spec 1 i), (Nat.ltb_spec i 0); try lia; reflexivity.
    - intros j t J (TL & TE). rewrite (H1 j) by lia. destruct (Nat.eq_dec j 0) as [->|NZ].
      + change (1 <=? 0) with false. cbn [andb]. rewrite Z1. cbn [obind]. unfold DirModel.upd. rewrite (TE 0) by lia. change (1 <=? 0) with false. cbn [andb]. rewrite (H0 0) by lia. change (1 <=? 0) with false. cbn [andb]. rewrite Z0. cbn [obind]. destruct (set_nth_some t 0 (sub zero zero)) as (t' & E'); [lia|]. exists t'. split; [exact E'|]. split; [rewrite (set_nth_length _ _ _ _ E'); exact TL|]. intros i I0. rewrite (set_nth_get _ _ _ _ i E'). rewrite (set_nth_length _ _ _ _ E') in I0. destruct (Nat.eqb_spec 0 i) as [<-|].
        * change (1 <=? 0) with false. cbn [andb]. rewrite (H0 0) by lia. change (1 <=? 0) with false. cbn [andb]. rewrite Z0. f_equal. ring.
        * rewrite TE by exact I0. destruct (Nat.leb_spec 1 i), (Nat.ltb_spec i 0), (Nat.ltb_spec i 1); try lia; reflexivity.
      + destruct (Nat.leb_spec 1 j); [|lia]. destruct (Nat.ltb_spec j n); [|lia]. cbn [andb obind]. unfold DirModel.upd. rewrite (TE j) by lia. destruct (Nat.ltb_spec j j); [lia|]. rewrite andb_false_r. rewrite (H0 j) by lia. destruct (Nat.leb_spec 1 j); [|lia]. destruct (Nat.ltb_spec j n); [|lia]. cbn [andb obind].
        replace (sub (Mertens j) (MertensOdd j)) with (MertensEven j) by (rewrite (mertens_split zero one add mul sub opp Rth); ring). destruct (set_nth_some t j (MertensEven j)) as (t' & E'); [lia|]. exists t'. split; [exact E'|]. split; [rewrite (set_nth_length _ _ _ _ E'); exact TL|]. intros i I0. rewrite (set_nth_get _ _ _ _ i E'). rewrite (set_nth_length _ _ _ _ E') in I0. destruct (Nat.eqb_spec j i) as [<-|].
        * destruct (Nat.leb_spec 1 j), (Nat.ltb_spec j (S j)); try lia; reflexivity.
        * rewrite TE by exact I0. destruct (Nat.leb_spec 1 i), (Nat.ltb_spec i j), (Nat.ltb_spec i (S j)); try lia; reflexivity.
    - cbn [obind]. exists M', M1'. split; [reflexivity|]. split; [|split; assumption]. split; [exact HL|]. intros i I0. rewrite HE by exact I0. destruct (Nat.leb_spec 1 i), (Nat.ltb_spec i n); cbn [andb]; try reflexivity; rewrite H0 by lia; destruct (Nat.leb_spec 1 i), (Nat.ltb_spec i n); try lia; reflexivity.
  Qed.

  (** ** C96 *)
  Theorem C96_sum_phi root cbrt mk0 n c (phi : option (nat -> option T)) : (forall n, root n = Some (Nat.sqrt n)) -> cbrt n = Some c -> 1 <= c -> c * c * c <= n ->
    (forall x, tdiv x one = Some x) -> (forall x, tdiv (add x x) (add one one) = Some x) -> (forall f, phi = Some f -> forall k, 1 <= k < c * c -> f k = Some (nat_ (totient k))) ->
    exists s, sum_phi zero one add mul sub tdiv root cbrt mk0 n phi = Some s /\ forall k, 1 <= k <= n -> sqm_count s (n / k) = Some 1 /\ sqm_el s (n / k) = Some (sum_totient zero one add (n / k)).
  Proof using Rth.
    intros R Ec C1 C3 Div Half HP. destruct (sum_phi_ok zero one add mul sub opp tdiv Rth root cbrt mk0 R Div Half n (c * c) c phi ltac:(nia) Ec eq_refl C1 C3 HP) as (s & m & E & (_ & _ & _ & H) & F). exists s. split; [exact E|]. intros k K. assert (SK : sqrt_key (c * c) n (n / k)) by (right; exists k; split; [lia|reflexivity]). destruct (H _ SK) as (A & _ & V). rewrite A, (F k K). split; [reflexivity|]. now apply V, F.
  Qed.
  Theorem C96_make_sqrt_map root mk0 (f : nat -> T) n : 1 <= n -> root n = Some (Nat.sqrt n) ->
    exists s, make_sqrt_map zero root mk0 f n = Some s /\ sqm_el s 0 = Some zero /\ forall k, 1 <= k -> k <= Nat.sqrt n \/ (exists j, 1 <= j /\ k = n / j) -> sqm_count s k = Some 1 /\ sqm_el s k = Some (f k).
  Proof using.
    intros N R. destruct (make_sqrt_map_ok zero root mk0 f n N R) as (s & E & (_ & _ & _ & H)). exists s. split; [exact E|]. split; [apply (H 0 (or_introl (Nat.le_0_l _))); reflexivity|]. intros k K1 K. destruct (H k K) as (A & _ & V). rewrite A. destruct (Nat.eqb_spec k 0); [lia|]. split; [reflexivity|]. apply V. reflexivity.
  Qed.

  (** ** C97 *)
  Theorem C97_coprime_sum (f : nat -> T) (sf : nat -> nat -> T) ps n m : (forall n m, sf n m = rsum zero add n (fun k => f (S k * m))) -> NoDup ps -> (forall p, In p ps -> is_prime p) ->
    coprime_sum sub sf ps n m = Some (coprime_total zero add f (fold_right Nat.mul 1 ps) n m).
  Proof using Rth. intros Sf ND HP. now apply (coprime_ok zero one add mul sub opp Rth). Qed.
End Props.
(** std::map and sqrt_map are such tables *)
Theorem C93_map_table : forall T, map_on (fun _ => True) (@pmap_find T) pmap_put map_holds /\ quotient_keys (fun _ => True).
Proof. intros T. split; [apply pmap_table|]. intros n k _ _. exact Logic.I. Qed.
Theorem C93_sqrt_map_table : forall T (dflt : T) ml mk mk0, 0 < ml -> map_on (sqrt_key ml mk) (@sqm_find T) sqm_put (sqrt_map_holds ml mk) /\ quotient_keys (sqrt_key ml mk) /\ sqrt_key ml mk mk /\
  exists s, sqm_new dflt ml mk mk0 = Some s /\ sqrt_map_holds ml mk s (fun _ => None).
Proof. intros T dflt ml mk mk0 H. split; [apply (sq_table dflt)|]. split; [apply sqrt_keys|]. split; [right; exists 1; split; [lia|now rewrite Nat.div_1_r]|]. now apply sq_new. Qed.
(** sum_phi and make_sqrt_map divide by zero at n = 0 *)
Theorem C96_zero_refuted : forall root cbrt mk0 (f : nat -> Z), root 0 = Some 0 -> cbrt 0 = Some 0 -> make_sqrt_map 0%Z root mk0 f 0 = None /\ sum_phi 0%Z 1%Z Z.add Z.mul Z.sub zdivx root cbrt mk0 0 None = None.
Proof. intros root cbrt mk0 f R C. unfold make_sqrt_map, sum_phi. rewrite R, C. split; reflexivity. Qed.

Notation zroot := (fun n => Some (Nat.sqrt n)).
(** the largest c with c^3 <= n, for the examples *)
Definition zcbrt (n : nat) : option nat := find (fun c => c * c * c <=? n) (rev (seq 0 (S n))).
Notation vals r := (match r with Some (v, _) => Some v | None => None end).
Example C93_case : vals (sum_m 0%Z Z.mul Z.sub zdivx pmap_find pmap_put zroot 31 (fun n => Z.of_nat (n * (n + 1) / 2)) Z.of_nat 30 (fun _ => None)) = Some (sum_totient 0 1 Z.add 30)%Z /\
  vals (sum_m1 0%Z 1%Z Z.add Z.mul Z.sub pmap_find pmap_put zroot 31 (fun n => Z.of_nat (n * (n + 1) / 2)) 30 (fun k => if k <? 5 then Some (sum_totient 0 1 Z.add k)%Z else None)) = Some 278%Z.
Proof. split; vm_compute; reflexivity. Qed.
Example C94_case : map (fun n => vals (mertens 0%Z 1%Z Z.add Z.mul Z.sub pmap_find pmap_put zroot n (fun _ => None))) [0; 1; 13; 31; 41] = [Some 0; Some 1; Some (-3); Some (-4); Some (-1)]%Z /\
  map (fun n => vals (mertens_odd 0%Z 1%Z Z.add Z.mul Z.sub zdivx pmap_find pmap_put zroot n (fun _ => None))) [1; 13; 31] = map (fun n => Some (MertensOdd 0 1 Z.add Z.opp n))%Z [1; 13; 31] /\
  map (fun n => vals (mertens_even 0%Z 1%Z Z.add Z.mul Z.sub Z.opp zdivx pmap_find pmap_put zroot n (fun _ => None))) [1; 13; 31] = map (fun n => Some (MertensEven 0 1 Z.add Z.opp n))%Z [1; 13; 31] /\
  sieve_mertens 0%Z 1%Z Z.add Z.mul Z.sub [0; 5; 5; 5; 5; 5; 5; 5; 5]%Z 8 (primes_below 8) = Some [0; 1; 0; -1; -1; -2; -1; -2; 5]%Z /\
  sieve_mertens_even 0%Z 1%Z Z.add Z.mul Z.sub Z.opp zdivx [7; 5; 5; 5; 5; 5; 5; 5; 5]%Z 8 = Some [7; 0; -1; -1; -1; -1; 0; 0; 5]%Z /\
  sieve_mertens_even_odd 0%Z 1%Z Z.add Z.mul Z.sub [0; 5; 5; 5; 5; 5; 5; 5; 5]%Z [0; 5; 5; 5; 5; 5; 5; 5; 5]%Z 8 (primes_below 8) = Some ([0; 0; -1; -1; -1; -1; 0; 0; 5], [0; 1; 1; 0; 0; -1; -1; -2; 5])%Z.
Proof. vm_compute. repeat split. Qed.
Example C95_case : map (fun n => vals (sqfree_count 0%Z 1%Z Z.add Z.mul Z.sub pmap_find pmap_put zroot zcbrt (S n) n (fun _ => None))) [0; 1; 10; 100] = [Some 0; Some 1; Some 7; Some 61]%Z.
Proof. vm_compute. reflexivity. Qed.
Example C96_case : (exists s, sum_phi 0%Z 1%Z Z.add Z.mul Z.sub zdivx zroot zcbrt 77 30 None = Some s /\ map (sqm_el s) [30; 15; 10; 3; 1] = [Some 278; Some 72; Some 32; Some 4; Some 1]%Z) /\
  (exists s, sum_phi 0%Z 1%Z Z.add Z.mul Z.sub zdivx zroot zcbrt 77 30 (Some (fun k => Some (Z.of_nat (totient k)))) = Some s /\ sqm_el s 30 = Some 278%Z) /\
  exists s, make_sqrt_map 0%Z zroot 77 (fun k => Z.of_nat (k * k)) 30 = Some s /\ map (sqm_el s) [0; 1; 5; 7; 30] = [Some 0; Some 1; Some 25; Some 49; Some 900]%Z.
Proof. split; [|split]; eexists; (split; [vm_compute; reflexivity|vm_compute; reflexivity]). Qed.
Example C97_case : coprime_sum Z.sub (fun n m => Z.of_nat (n * (n + 1) / 2 * m)) [2; 5; 3] 30 1 = Some (1 + 7 + 11 + 13 + 17 + 19 + 23 + 29)%Z.
Proof. vm_compute. reflexivity. Qed.
Print Assumptions C93_sum_m.
Print Assumptions C93_sum_m1.
Print Assumptions C94_mertens.
Print Assumptions C94_mertens_odd.
Print Assumptions C94_mertens_even.
Print Assumptions C95_sqfree_count.
Print Assumptions C95_square_times_squarefree.
Print Assumptions C94_mertens_even_int_refuted.
Print Assumptions C94_sieve_mertens.
Print Assumptions C94_sieve_mertens_odd.
Print Assumptions C94_sieve_mertens_even.
Print Assumptions C94_sieve_mertens_even_odd.
Print Assumptions C96_sum_phi.
Print Assumptions C96_make_sqrt_map.
Print Assumptions C97_coprime_sum.
Print Assumptions C93_map_table.
Print Assumptions C93_sqrt_map_table.
Print Assumptions C96_zero_refuted.
