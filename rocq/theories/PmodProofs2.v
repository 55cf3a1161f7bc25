From Coq Require Import Ring_theory Znumtheory Zpow_facts Eqdep_dec.
From Verif Require Import Lib BaseModel BaseProofs ModPowProofs RingSpec RingProofs ModuloModel ModuloProofs FftModel FftSpec FftProofs FftProofs2 FftProofs3 FftProofs4 FftProofs5 PmodModel PmodProofs.
Open Scope Z_scope.

Section Res.
  Variable P : Z.
  Hypothesis HP : 2 <= P < 2 ^ 32.
  Definition res : Set := {x : Z | (0 <=? x) && (x <? P) = true}.
  Definition val (a : res) : Z := proj1_sig a.
  Lemma val_range a : 0 <= val a < P.
  Proof using Type. destruct a as (x & H). cbn. apply andb_prop in H as (H1 & H2). apply Z.leb_le in H1. apply Z.ltb_lt in H2. lia. Qed.
  Lemma mk_proof x : (0 <=? x mod P) && (x mod P <? P) = true.
  Proof using HP. pose proof (Z.mod_pos_bound x P ltac:(lia)). apply andb_true_intro. split; [apply Z.leb_le|apply Z.ltb_lt]; lia. Qed.
  Definition mk (x : Z) : res := exist _ (x mod P) (mk_proof x).
  Lemma val_inj a b : val a = val b -> a = b.
  Proof using Type. destruct a as (x & X), b as (y & Y). cbn. intros <-. f_equal. apply UIP_dec, Bool.bool_dec. Qed.
  Lemma val_mk x : val (mk x) = x mod P. Proof using Type. reflexivity. Qed.
  Lemma mk_val a : mk (val a) = a.
  Proof using Type. apply val_inj. rewrite val_mk. apply Z.mod_small, val_range. Qed.
  Definition radd a b := mk (val a + val b).
  Definition rsub a b := mk (val a - val b).
  Definition rmul a b := mk (val a * val b).
  Definition ropp a := mk (- val a).
  Definition r0 := mk 0.
  Definition r1 := mk 1.
  Lemma mk_eq x y : x mod P = y mod P -> mk x = mk y. Proof using Type. intros. apply val_inj. exact H. Qed.
  Lemma mk_radd x y : radd (mk x) (mk y) = mk (x + y). Proof using HP. apply mk_eq. rewrite !val_mk. symmetry. apply Z.add_mod. lia. Qed.
  Lemma mk_rsub x y : rsub (mk x) (mk y) = mk (x - y). Proof using HP. apply mk_eq. rewrite !val_mk. symmetry. apply Zminus_mod. Qed.
  Lemma mk_rmul x y : rmul (mk x) (mk y) = mk (x * y). Proof using HP. apply mk_eq. rewrite !val_mk. symmetry. apply Z.mul_mod. lia. Qed.
  Lemma mk_ropp x : ropp (mk x) = mk (- x). Proof using HP. apply mk_eq. rewrite val_mk. rewrite <- (Z.sub_0_l (x mod P)), Zminus_mod_idemp_r. f_equal. Qed.
  Lemma res_ring : ring_theory r0 r1 radd rmul rsub ropp (@eq res).
  Proof using HP.
    split; intros; repeat match goal with x : res |- _ => rewrite <- (mk_val x); generalize (val x); clear x; intros x end; unfold r0, r1; rewrite ?mk_ropp, ?mk_rsub, ?mk_radd, ?mk_rmul; rewrite ?mk_radd, ?mk_rmul; apply mk_eq; f_equal; ring.
  Qed.
  Lemma padd_val a b : padd P (val a) (val b) = val (radd a b).
  Proof using HP. pose proof (val_range a). pose proof (val_range b). apply mod_add_u_spec; lia. Qed.
  Lemma psub_val a b : psub P (val a) (val b) = val (rsub a b).
  Proof using HP. pose proof (val_range a). pose proof (val_range b). apply mod_sub_u_spec; lia. Qed.
  Lemma pmul_val a b : pmul P (val a) (val b) = val (rmul a b).
  Proof using HP. pose proof (val_range a). pose proof (val_range b). unfold pmul. rewrite mod_mul_u_spec by (auto; lia). reflexivity. Qed.
  Lemma one_val : 1 = val r1. Proof using HP. unfold r1. rewrite val_mk, Z.mod_small; lia. Qed.
  Lemma rnat_mk n : rnat r0 r1 radd n = mk (Z.of_nat n).
  Proof using HP. induction n as [|n IH]; [reflexivity|]. cbn [rnat]. rewrite IH. unfold r1. rewrite mk_radd. f_equal. lia. Qed.
  Lemma root_ok : root_type r1 rmul (fun x => 0 <= x < P) (pmul P) 1 mk.
  Proof using HP.
    split; [lia|]. split; [reflexivity|]. intros a b A B. assert (Ea : a = val (mk a)) by (rewrite val_mk, Z.mod_small; lia). assert (Eb : b = val (mk b)) by (rewrite val_mk, Z.mod_small; lia). rewrite Ea, Eb, pmul_val, !mk_val. split; [apply val_range|reflexivity].
  Qed.
  Lemma pow_val x e : exists r, powT (pmul P) 1 (val x) (Z.of_nat e) = Some r /\ r = val (rpow r1 rmul x e).
  Proof using HP.
    destruct (root_pow r0 r1 radd rmul rsub ropp res_ring _ _ _ _ root_ok (val x) e (val_range x)) as (r & E & O & V). exists r. split; [exact E|]. rewrite mk_val in V. rewrite <- V, val_mk, Z.mod_small; lia.
  Qed.
  Notation dft := (dft r0 r1 radd rmul).
  Lemma dft_ext n w f f' k : (forall x, f x = f' x) -> dft n w f k = dft n w f' k.
  Proof using Type. intros H. unfold FftSpec.dft. apply rsum_ext. intros i _. now rewrite H. Qed.
  Lemma rmul_comm a b : rmul a b = rmul b a. Proof using Type. unfold rmul. f_equal. ring. Qed.
  Notation half_root := (half_root r1 rmul ropp).
  Lemma pfft_ok L a data w : half_root (2 ^ L)%nat w -> is_arr (2 ^ L)%nat (fun i => val (a i)) data -> exists data', pfft P data (2 ^ L)%nat (val w) = Some data' /\ is_arr (2 ^ L)%nat (fun i => val (dft (2 ^ L)%nat w a i)) data'.
  Proof using HP.
    intros H D. set (l := map a (seq 0 (2 ^ L))). assert (A : is_arr (2 ^ L)%nat a l). { split; [unfold l; now rewrite map_length, seq_length|]. intros x X. unfold l. rewrite nth_error_map, (nth_error_nth' _ 0%nat) by (rewrite seq_length; lia). rewrite seq_nth by lia. reflexivity. }
    assert (ED : data = map val l). { apply list_ext. intros i. rewrite nth_error_map. destruct D as (D1 & D2), A as (A1 & A2). destruct (Nat.lt_ge_cases i (2 ^ L)) as [C|C]; [rewrite D2, A2 by exact C; reflexivity|]. rewrite !(proj2 (nth_error_None _ _)) by lia. reflexivity. }
    assert (RT : root_type r1 rmul (fun _ => True) rmul r1 (fun x => x)) by (split; [exact Logic.I|]; split; [reflexivity|]; intros; split; [exact Logic.I|reflexivity]).
    destruct (fft_ok r0 r1 radd rmul rsub ropp res_ring (fun _ => True) rmul r1 (fun x => x) RT L a l w Logic.I H A) as (d' & E & A'). exists (map val d'). split.
    - unfold pfft. rewrite ED, (fft_map radd rsub rmul r1 (padd P) (psub P) (pmul P) 1 val padd_val psub_val pmul_val one_val), E. reflexivity.
    - destruct A' as (A1 & A2). split; [now rewrite map_length|]. intros x X. rewrite nth_error_map, A2 by exact X. reflexivity.
  Qed.

  Lemma convert_arr (f : Z -> Z) p n : (length p <= n)%nat -> f 0 = 0 -> is_arr n (fun i => f (nth i p 0)) (map f p ++ repeat 0 (n - length p)).
  Proof using Type.
    intros L F. split; [rewrite app_length, map_length, repeat_length; lia|]. intros x X. destruct (Nat.lt_ge_cases x (length p)) as [C|C].
    - rewrite nth_error_app1 by (rewrite map_length; exact C). rewrite nth_error_map, (nth_error_nth' p 0) by exact C. reflexivity.
    - rewrite nth_error_app2 by (rewrite map_length; exact C). rewrite map_length, (nth_error_nth' _ 0), nth_repeat by (rewrite repeat_length; lia). rewrite nth_overflow by exact C. now rewrite F.
  Qed.
  Definition hi_of (p : list Z) (i : nat) : Z := Z.shiftr (u32 (nth i p 0)) 16.
  Definition lo_of (p : list Z) (i : nat) : Z := Z.land (u32 (nth i p 0)) 65535.
  Lemma hi_eq x : Z.shiftr (u32 x) 16 = u32 x / 65536. Proof using Type. rewrite Z.shiftr_div_pow2 by lia. reflexivity. Qed.
  Lemma lo_eq x : Z.land (u32 x) 65535 = u32 x mod 65536. Proof using Type. change 65535 with (Z.ones 16). rewrite Z.land_ones by lia. reflexivity. Qed.
  Lemma hi_range p i : 0 <= hi_of p i <= 65535.
  Proof using Type. unfold hi_of. rewrite hi_eq. unfold u32. pose proof (Z.mod_pos_bound (nth i p 0) (2 ^ 32) ltac:(lia)). change (2 ^ 32) with 4294967296 in *. split; [apply Z.div_pos; lia|]. apply Z.lt_succ_r, Z.div_lt_upper_bound; lia. Qed.
  Lemma lo_range p i : 0 <= lo_of p i <= 65535.
  Proof using Type. unfold lo_of. rewrite lo_eq. pose proof (Z.mod_pos_bound (u32 (nth i p 0)) 65536 ltac:(lia)). lia. Qed.
  Lemma small_val x : 0 <= x <= 65535 -> 2 ^ 28 < P -> val (mk x) = x.
  Proof using Type. intros. rewrite val_mk. apply Z.mod_small. change (2 ^ 28) with 268435456 in *. lia. Qed.
  Notation cyc_sum := (cyclic_sum r0 radd rmul).
  Lemma sum_val n m (a b : nat -> Z) k : cyc_sum n m (fun i => mk (a i)) (fun i => mk (b i)) k = mk (cyclic_sum 0 Z.add Z.mul n m a b k).
  Proof using HP. unfold cyclic_sum. induction n as [|n IH]; [reflexivity|]. cbn [rsum]. rewrite IH, mk_rmul, mk_radd. reflexivity. Qed.
  (** the prime and its primitive root *)
  Variables (g : Z) (h : nat).
  Hypothesis Hg : 0 <= g < P.
  Hypothesis Hh : 2 * Z.of_nat h = P - 1.
  Hypothesis Hgh : rpow r1 rmul (mk g) h = ropp r1.
  Hypothesis H28 : (2 ^ 28 | P - 1).
  Lemma root_half L : (L <= 28)%nat -> exists e : nat, cdiv (P - 1) (Z.of_nat (2 ^ L)) = Some (Z.of_nat e) /\ half_root (2 ^ L)%nat (rpow r1 rmul (mk g) e).
  Proof using HP Hg Hh Hgh H28.
    intros HL. pose proof (Nat2Z.inj_pow 2 L) as EP. change (Z.of_nat 2) with 2 in EP. pose proof (pow2_pos L) as PP. assert (D : (2 ^ Z.of_nat L | P - 1)). { eapply Z.divide_trans; [|exact H28]. exists (2 ^ (28 - Z.of_nat L)). rewrite <- Z.pow_add_r by lia. f_equal. lia. }
    destruct D as (c & C). assert (C0 : 0 <= c) by nia. exists (Z.to_nat c). split.
    - rewrite EP, C, Z2Nat.id by exact C0. unfold cdiv. destruct (Z.eqb_spec (2 ^ Z.of_nat L) 0); [lia|]. rewrite Z.quot_mul by lia. reflexivity.
    - intros H2. destruct L as [|L]; [cbn in H2; lia|]. rewrite pow2_half. rewrite <- (P_mul r0 r1 radd rmul rsub ropp res_ring). rewrite <- Hgh. f_equal. apply Nat2Z.inj. rewrite Nat2Z.inj_mul, Z2Nat.id by exact C0. rewrite Nat2Z.inj_succ, Z.pow_succ_r in C by lia. rewrite Nat2Z.inj_pow. change (Z.of_nat 2) with 2. lia.
  Qed.
  Lemma size_inv L : (L <= 28)%nat -> exists ni, (let* n := mod_normalize_s 32 (Z.of_nat (2 ^ L)) P in modulo_inv n P) = Some (val ni) /\ rmul (rnat r0 r1 radd (2 ^ L)) ni = r1.
  Proof using HP H28. clear Hgh Hh Hg h g.
    intros HL. pose proof (Nat2Z.inj_pow 2 L) as EP. change (Z.of_nat 2) with 2 in EP. pose proof (pow2_pos L) as PP. assert (LB : 2 ^ Z.of_nat L <= 2 ^ 28) by (apply Z.pow_le_mono_r; lia). assert (P28 : 2 ^ 28 < P) by (apply Z.divide_pos_le in H28; lia). rewrite EP. set (n := 2 ^ Z.of_nat L) in *. assert (0 < n) by lia. rewrite mod_normalize_s_spec by (try lia; change (2 ^ (32 - 1)) with 2147483648; change (2 ^ 28) with 268435456 in *; lia). cbn [obind]. rewrite Z.mod_small by lia.
    destruct (modulo_inv_spec n P) as (w & E & _ & W); [lia|lia|]. assert (G : Z.gcd n P = 1). { apply Zgcd_1_rel_prime. unfold n. apply rel_prime_sym, rel_prime_Zpower_r; [lia|]. apply rel_prime_sym, prime_rel_prime; [exact prime_2|]. intros (j & J). destruct H28 as (c & C). change (2 ^ 28) with (2 * 2 ^ 27) in C. lia. }
    destruct (W G) as (W1 & W2 & W3). assert (w < P) by lia. exists (mk w). destruct (Z.eqb_spec n (- 2 ^ (32 - 1))) as [C|C]; [change (- 2 ^ (32 - 1)) with (-2147483648) in C; lia|]. change (32 <=? 32) with true. cbn [andb obind]. rewrite E, val_mk, Z.mod_small by lia. split; [reflexivity|]. rewrite rnat_mk, EP, mk_rmul. fold n. apply mk_eq. rewrite W1. reflexivity.
  Qed.
  Lemma hilo_ok L p1 p2 : (L <= 28)%nat -> p1 <> [] -> p2 <> [] -> (length p1 + length p2 - 1 <= 2 ^ L)%nat -> exists lo mi hi, mul_hilo P p1 p2 (2 ^ L)%nat g = Some (lo, mi, hi) /\
    is_arr (2 ^ L)%nat (fun k => conv_sum 0 Z.add Z.mul (lo_of p1) (lo_of p2) k mod P) lo /\
    is_arr (2 ^ L)%nat (fun k => (conv_sum 0 Z.add Z.mul (lo_of p1) (hi_of p2) k + conv_sum 0 Z.add Z.mul (hi_of p1) (lo_of p2) k) mod P) mi /\
    is_arr (2 ^ L)%nat (fun k => conv_sum 0 Z.add Z.mul (hi_of p1) (hi_of p2) k mod P) hi.
  Proof using HP Hg Hh Hgh H28.
    intros HL N1 N2 HN. assert (LL1 : (0 < length p1)%nat) by (destruct p1; [contradiction|cbn; lia]). assert (LL2 : (0 < length p2)%nat) by (destruct p2; [contradiction|cbn; lia]). pose proof (pow2_pos L) as PP. assert (P28 : 2 ^ 28 < P) by (apply Z.divide_pos_le in H28; lia).
    destruct (root_half L HL) as (e & Ee & HR). destruct (size_inv L HL) as (ni & En & Hn). set (n := (2 ^ L)%nat) in *. set (w := rpow r1 rmul (mk g) e) in *.
    assert (HI : half_root n (rpow r1 rmul w (n - 1))) by (apply (half_inv r0 r1 radd rmul rsub ropp res_ring L w HR)).
    unfold mul_hilo. rewrite mod_normalize_u_spec by lia. cbn [obind]. rewrite Ee. cbn [obind]. change (g mod P) with (val (mk g)). destruct (pow_val (mk g) e) as (root & Er & Vr). rewrite Er. cbn [obind]. fold w in Vr. subst root. destruct (pow_val w (n - 1)) as (iroot & Ei & Vi). replace (Z.of_nat n - 1) with (Z.of_nat (n - 1)) by lia. rewrite Ei. cbn [obind]. subst iroot. set (iw := rpow r1 rmul w (n - 1)) in *.
    unfold convert_hi, convert_lo. rewrite !(proj2 (Nat.leb_le _ _)) by lia. cbn [guard obind].
    pose proof (convert_arr (fun v => Z.shiftr (u32 v) 16) p1 n ltac:(lia) eq_refl) as A1. pose proof (convert_arr (fun v => Z.land (u32 v) 65535) p1 n ltac:(lia) eq_refl) as A2. pose proof (convert_arr (fun v => Z.shiftr (u32 v) 16) p2 n ltac:(lia) eq_refl) as A3. pose proof (convert_arr (fun v => Z.land (u32 v) 65535) p2 n ltac:(lia) eq_refl) as A4.
    destruct (mod_normalize_s 32 (Z.of_nat n) P) as [nn|]; [|discriminate En]. cbn [obind] in *. rewrite En. cbn [obind].
    set (H1 := fun i => mk (hi_of p1 i)). set (L1 := fun i => mk (lo_of p1 i)). set (H2 := fun i => mk (hi_of p2 i)). set (L2 := fun i => mk (lo_of p2 i)).
    destruct (pfft_ok L H1 _ w HR (arr_ext _ _ (fun i => val (H1 i)) _ A1 (fun x _ => eq_sym (small_val (hi_of p1 x) (hi_range p1 x) P28)))) as (d1 & E1 & D1). fold n in E1, D1. rewrite E1. cbn [obind].
    destruct (pfft_ok L L1 _ w HR (arr_ext _ _ (fun i => val (L1 i)) _ A2 (fun x _ => eq_sym (small_val (lo_of p1 x) (lo_range p1 x) P28)))) as (d2 & E2 & D2). fold n in E2, D2. rewrite E2. cbn [obind].
    destruct (pfft_ok L H2 _ w HR (arr_ext _ _ (fun i => val (H2 i)) _ A3 (fun x _ => eq_sym (small_val (hi_of p2 x) (hi_range p2 x) P28)))) as (d3 & E3 & D3). fold n in E3, D3. rewrite E3. cbn [obind].
    destruct (pfft_ok L L2 _ w HR (arr_ext _ _ (fun i => val (L2 i)) _ A4 (fun x _ => eq_sym (small_val (lo_of p2 x) (lo_range p2 x) P28)))) as (d4 & E4 & D4). fold n in E4, D4. rewrite E4. cbn [obind]. clear A1 A2 A3 A4 E1 E2 E3 E4.
    set (a1 := dft n w H1) in *. set (b1 := dft n w L1) in *. set (a2 := dft n w H2) in *. set (b2 := dft n w L2) in *.
    set (LO := fun x => rmul (rmul (b1 x) (b2 x)) ni). set (MI := fun x => rmul (radd (rmul (b1 x) (a2 x)) (rmul (b2 x) (a1 x))) ni). set (HH := fun x => rmul (rmul (a1 x) (a2 x)) ni).
    match goal with |- context [for_range 0 n ?body (d2, d1, d3)] => destruct (for_range_spec (fun i '(lo, mi, hi) => is_arr n (fun x => val (if (x <? i)%nat then LO x else b1 x)) lo /\ is_arr n (fun x => val (if (x <? i)%nat then MI x else a1 x)) mi /\ is_arr n (fun x => val (if (x <? i)%nat then HH x else a2 x)) hi) body 0%nat n (d2, d1, d3)) as (((lo & mi) & hi) & Ef & F1 & F2 & F3) end; [lia| | |].
    { split; [|split]; assumption. }
    { intros i ((lo & mi) & hi) I (J1 & J2 & J3). rewrite (proj2 J2), (proj2 J3), (proj2 J1), (proj2 D4) by lia. cbn [obind]. rewrite Nat.ltb_irrefl. rewrite !pmul_val, !padd_val, !pmul_val.
      destruct (set_arr n _ lo i (val (LO i)) J1) as (lo' & Q1 & K1); [lia|]. destruct (set_arr n _ mi i (val (MI i)) J2) as (mi' & Q2 & K2); [lia|]. destruct (set_arr n _ hi i (val (HH i)) J3) as (hi' & Q3 & K3); [lia|]. fold (LO i) (MI i) (HH i). rewrite Q1. cbn [obind]. rewrite Q2. cbn [obind]. rewrite Q3. cbn [obind]. eexists. split; [reflexivity|]. cbv beta iota.
      split; [|split]; (eapply arr_ext; [eassumption|]; intros x X; cbv beta; destruct (Nat.eqb_spec x i) as [->|]; [rewrite (proj2 (Nat.ltb_lt i (S i))) by lia; reflexivity|]; destruct (Nat.ltb_spec x i), (Nat.ltb_spec x (S i)); try lia; reflexivity). }
    rewrite Ef. cbn [obind]. 
    assert (G1 : is_arr n (fun x => val (LO x)) lo) by (eapply arr_ext; [exact F1|]; intros x X; cbv beta; now rewrite (proj2 (Nat.ltb_lt x n) X)).
    assert (G2 : is_arr n (fun x => val (MI x)) mi) by (eapply arr_ext; [exact F2|]; intros x X; cbv beta; now rewrite (proj2 (Nat.ltb_lt x n) X)).
    assert (G3 : is_arr n (fun x => val (HH x)) hi) by (eapply arr_ext; [exact F3|]; intros x X; cbv beta; now rewrite (proj2 (Nat.ltb_lt x n) X)).
    destruct (pfft_ok L HH hi iw HI G3) as (hi' & E3 & K3). fold n in E3, K3. rewrite E3. cbn [obind]. destruct (pfft_ok L MI mi iw HI G2) as (mi' & E2 & K2). fold n in E2, K2. rewrite E2. cbn [obind]. destruct (pfft_ok L LO lo iw HI G1) as (lo' & E1 & K1). fold n in E1, K1. rewrite E1. cbn [obind].
    exists lo', mi', hi'. split; [reflexivity|].
    assert (ZZ : forall p i, (length p <= i)%nat -> hi_of p i = 0 /\ lo_of p i = 0) by (intros p i LE; unfold hi_of, lo_of; rewrite nth_overflow by exact LE; split; reflexivity).
    assert (CL : forall a b k, (k < n)%nat -> (forall i, (length p1 <= i)%nat -> a i = 0) -> (forall i, (length p2 <= i)%nat -> b i = 0) -> cyclic_sum 0 Z.add Z.mul n n a b k = conv_sum 0 Z.add Z.mul a b k) by (intros a b k K Za Zb; apply (cyclic_linear a b (length p1) (length p2)); auto).
    split; [|split].
    - eapply arr_ext; [exact K1|]. intros k K. cbv beta. transitivity (val (cyc_sum n n L1 L2 k)); [f_equal; exact (conv_back r0 r1 radd rmul rsub ropp res_ring L w L1 L2 ni k HR Hn)|]. unfold L1, L2. rewrite sum_val, val_mk. rewrite CL by (first [exact K|intros; now apply ZZ]). reflexivity.
    - eapply arr_ext; [exact K2|]. intros k K. cbv beta. transitivity (val (radd (cyc_sum n n L1 H2 k) (cyc_sum n n H1 L2 k))).
      + f_equal. etransitivity; [|exact (conv_back2 r0 r1 radd rmul rsub ropp res_ring L w L1 H2 H1 L2 ni k HR Hn)]. apply dft_ext. intros i. unfold MI. f_equal. f_equal. unfold b2, a1. apply rmul_comm.
      + unfold L1, L2, H1, H2. rewrite !sum_val, mk_radd, val_mk. rewrite !CL by (first [exact K|intros; now apply ZZ]). reflexivity.
    - eapply arr_ext; [exact K3|]. intros k K. cbv beta. transitivity (val (cyc_sum n n H1 H2 k)); [f_equal; exact (conv_back r0 r1 radd rmul rsub ropp res_ring L w H1 H2 ni k HR Hn)|]. unfold H1, H2. rewrite sum_val, val_mk. rewrite CL by (first [exact K|intros; now apply ZZ]). reflexivity.
  Qed.
End Res.
