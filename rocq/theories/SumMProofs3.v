(** sqfree_count, the tables, make_sqrt_map, sum_phi, coprime_sum. *)
From Coq Require Import Ring Ring_theory Arith Lia.
From Verif Require Import Lib BaseModel RingSpec RingProofs PrimesSpec PrimesProofs PrimesProofs2 PrimesProofs5 NumTheory DirSpec DirModel DirProofs DirProofs2 DirProofs5 DirProofs6 PiProofs PiProofs2 LohiModel LohiSpec LohiProofs FftProofs3 SumMSpec SumMModel SumMProofs SumMProofs2.
Open Scope nat_scope.

Section Sqf.
  Context {T TBL : Type} (zero one : T) (add mul sub : T -> T -> T) (opp : T -> T).
  Hypothesis Rth : ring_theory zero one add mul sub opp (@eq T).
  Add Ring TrN3 : Rth.
  Context (tfind : TBL -> nat -> option (option T)) (tput : TBL -> nat -> T -> option TBL).
  Variables (root cbrt : nat -> option nat).
  Variables (D : nat -> Prop) (Ok : TBL -> (nat -> option T) -> Prop).
  Hypothesis Table : map_on D tfind tput Ok.
  Hypothesis Keys : quotient_keys D.
  Hypothesis Root : forall n, root n = Some (Nat.sqrt n).
  Hypothesis Cbrt : forall n, 1 <= n -> exists q, cbrt n = Some q /\ 1 <= q /\ q * q * q <= n.
  Notation M := (fun n => rnat zero one add (count_squarefree n)).
  Notation call fuel := (sqfree_count zero one add mul sub tfind tput root cbrt fuel).
  Lemma sqfree_count_all fuel : forall n tb m, n < fuel -> D n -> Ok tb m -> agrees D M m -> exists tb' m', call fuel n tb = Some (M n, tb') /\ Ok tb' m' /\ step_ok D M n m m'.
  Proof using Table Rth Root Keys Cbrt.
    induction fuel as [|fuel IH]; intros n tb m F Dn O A; [lia|]. cbn [sqfree_count]. destruct (Nat.ltb_spec n 1) as [C|C].
    - exists tb, m. assert (n = 0) by lia. subst n. split; [reflexivity|]. split; [exact O|]. split; [exact A|split; [apply keeps_refl|lia]].
    - destruct (Table tb m n O Dn) as (-> & _). cbn [obind]. destruct (m n) as [v|] eqn:Em.
      + exists tb, m. rewrite (A n v Dn Em). split; [reflexivity|]. split; [exact O|]. split; [exact A|split; [apply keeps_refl|]]. intros _. rewrite Em. f_equal. now apply A.
      + destruct (Cbrt n C) as (q & -> & Q1 & Q3). cbn [obind]. assert (QN : q <= n) by nia.
        assert (CO : forall i, D i -> i < fuel -> call_ok D Ok M (call fuel) i). { intros i Di Hi tb1 m1 _ O1 A1. now apply IH. }
        rewrite (for_range_ext' 1 q _ (fun k '(r, tbl) => let* '(x, tbl) := call fuel k tbl in Some (sub r (mul (rnat zero one add (Nat.sqrt (n / k) - Nat.sqrt (n / (k + 1)))) x), tbl))). 2:{ intros i (r, tb1) I0. rewrite !Root. cbn [obind]. reflexivity. }
        destruct (call_loop zero one add mul sub opp Rth D Ok M (call fuel) (fun k => k) (fun k x => mul (rnat zero one add (Nat.sqrt (n / k) - Nat.sqrt (n / (k + 1)))) x) 1 q (rnat zero one add n) tb m) as (tb1 & m1 & E1 & O1 & A1 & K1 & F1); [lia| |exact O|exact A|].
        { intros j J. assert (DJ : D j) by (apply (key_small D Keys n); [exact Dn|lia|nia]). split; [exact DJ|]. split; [lia|]. apply CO; [exact DJ|lia]. }
        cbv beta in E1. rewrite E1. cbn [obind]. destruct (Nat.eqb_spec q 0); [lia|]. cbn [negb guard obind]. rewrite Root. cbn [obind].
        assert (NQ : 1 <= n / q) by (apply Nat.div_le_lower_bound; lia). assert (SQ : 1 <= Nat.sqrt (n / q)) by (apply Nat.sqrt_le_square; lia). pose proof (Nat.sqrt_spec (n / q) ltac:(lia)) as [SS _].
        destruct (call_loop_down zero one add mul sub opp Rth D Ok M (call fuel) (fun k => n / (k * k)) 2 (Nat.sqrt (n / q) + 1) (sub (rnat zero one add n) (rsum zero add (q - 1) (fun i => mul (rnat zero one add (Nat.sqrt (n / (i + 1)) - Nat.sqrt (n / (i + 1 + 1)))) (M (i + 1))))) tb1 m1) as (tb2 & m2 & E2 & O2 & A2 & K2); [lia| |exact O1|exact A1|].
        { intros j J. assert (JJ : j * j <= n). { assert (j * j <= n / q) by nia. assert (n / q <= n) by (apply Nat.div_le_upper_bound; nia). lia. } assert (1 <= n / (j * j)) by (apply Nat.div_le_lower_bound; nia). assert (DJ : D (n / (j * j))) by (apply Keys; [exact Dn|nia]). split; [exact DJ|]. split; [lia|]. apply CO; [exact DJ|]. pose proof (div_less n (j * j) C ltac:(nia)). lia. }
        cbv beta in E2. rewrite E2. cbn [obind]. clear E1 E2.
        match goal with |- context[tput _ _ ?x] => replace x with (M n) end.
        2:{ cbv beta. rewrite (sqf_group zero one add mul sub opp Rth n q) by lia. replace (Nat.sqrt (n / q) + 1 - 2) with (Nat.sqrt (n / q) - 1) by lia. ring. }
        destruct (finish tfind tput D Ok Table M n tb2 m2 m Dn O2 A2 (keeps_trans D m m1 m2 K1 K2)) as (tb' & m' & E3 & O3 & S3 & K3). rewrite E3. cbn [obind]. exists tb', m'. split; [reflexivity|]. split; [exact O3|exact S3].
  Qed.
End Sqf.

(** ** tables *)
Lemma pmap_table {T} : map_on (fun _ => True) (@pmap_find T) pmap_put map_holds.
Proof. intros tb m k O _. unfold pmap_find, pmap_put. rewrite (O k). split; [reflexivity|]. intros v. eexists. split; [reflexivity|]. intros j. cbv beta. now rewrite (O j). Qed.
Lemma sqrt_keys ml mk : quotient_keys (sqrt_key ml mk).
Proof.
  intros n k [H|(j & J & ->)] K.
  - left. apply (Nat.le_trans _ n); [|exact H]. apply Nat.div_le_upper_bound; nia.
  - right. exists (j * k). split; [nia|]. apply Nat.div_div; lia.
Qed.
Lemma key_range ml mk k : sqrt_key ml mk k -> k < ml + mk + 1.
Proof. intros [H|(j & J & ->)]; [lia|]. assert (mk / j <= mk) by (apply Nat.div_le_upper_bound; nia). lia. Qed.
Section Sq.
  Context {T : Type} (dflt : T).
  Lemma holds_sinv ml mk (s : @sqm T) m : sqrt_map_holds ml mk s m -> sinv dflt s m (seq 0 (ml + mk + 1)).
  Proof.
    intros (A & B & C & H). subst ml mk. split; [exact C|]. intros k K. destruct (H k K) as (E1 & E2 & E3). unfold sqm_count, sqm_el in *. pose proof (key_range _ _ _ K) as R. destruct (k <=? sml s).
    - split; [exact E1|]. destruct (nth_error (stl s) k) as [w|] eqn:W; [|congruence]. exists w. split; [reflexivity|]. split; [intros y Y; specialize (E3 y Y); congruence|]. intros _ N. elim N. apply in_seq. lia.
    - split; [exact E1|]. destruct (nth_error (sth s) (hidx s k)) as [w|] eqn:W; [|congruence]. exists w. split; [reflexivity|]. split; [intros y Y; specialize (E3 y Y); congruence|]. intros _ N. elim N. apply in_seq. lia.
  Qed.
  Lemma sinv_holds s m er : sinv dflt s m er -> sqrt_map_holds (sml s) (smk s) s m.
  Proof.
    intros (A & H). split; [reflexivity|]. split; [reflexivity|]. split; [exact A|]. intros k K. specialize (H k K). unfold sqm_count, sqm_el. destruct (k <=? sml s); destruct H as (E & w & W & V & _); rewrite E, W; (split; [reflexivity|]); (split; [discriminate|]); intros v Ev; f_equal; now apply V.
  Qed.
  Lemma sq_read ml mk (s : @sqm T) m k v : sqrt_map_holds ml mk s m -> sqrt_key ml mk k -> m k = Some v -> exists s', sqm_index s k = Some (v, s') /\ sqrt_map_holds ml mk s' m.
  Proof.
    intros H K E. pose proof H as (A & B & _). subst ml mk. destruct (sqm_step_ok dflt s m _ (MRead k) (holds_sinv _ _ _ _ H) K) as (s' & E' & S1 & S2 & I'); [left; congruence|]. cbn [sqm_step map_step fst snd] in *. rewrite E in *. destruct (sqm_index s k) as [(v', s1)|]; cbn [obind] in E'; [|discriminate]. injection E' as -> ->. exists s'. split; [reflexivity|]. rewrite <- S1, <- S2. apply sinv_holds in I'. exact I'.
  Qed.
  Lemma sq_put ml mk (s : @sqm T) m k v : sqrt_map_holds ml mk s m -> sqrt_key ml mk k -> exists s', sqm_put s k v = Some s' /\ sqrt_map_holds ml mk s' (fun j => if k =? j then Some v else m j).
  Proof.
    intros H K. pose proof H as (A & B & _). subst ml mk. destruct (sqm_step_ok dflt s m _ (MPut k v) (holds_sinv _ _ _ _ H) K Logic.I) as (s' & E' & S1 & S2 & I'). cbn [sqm_step map_step fst snd] in *. destruct (sqm_put s k v) as [s1|]; cbn [obind] in E'; [|discriminate]. injection E' as ->. exists s'. split; [reflexivity|]. rewrite <- S1, <- S2. apply sinv_holds in I'. exact I'.
  Qed.
  Lemma sq_table ml mk : map_on (sqrt_key ml mk) (@sqm_find T) sqm_put (sqrt_map_holds ml mk).
  Proof.
    intros s m k H K. split; [|intros v; now apply sq_put]. unfold sqm_find. pose proof H as (_ & _ & _ & X). destruct (X k K) as (-> & _). cbn [obind]. destruct (m k) as [v|] eqn:E; cbn [size1 Nat.eqb]; [|reflexivity]. destruct (sq_read ml mk s m k v H K E) as (s' & -> & _). reflexivity.
  Qed.
  Lemma sq_new ml mk mk0 : 0 < ml -> exists s, sqm_new dflt ml mk mk0 = Some s /\ sqrt_map_holds ml mk s (fun _ => None).
  Proof. intros H. destruct (sinv_new dflt ml mk mk0 H) as (s & E & A & B & I0). exists s. split; [exact E|]. rewrite <- A, <- B. now apply (sinv_holds s _ []). Qed.
  Lemma sq_ext ml mk (s : @sqm T) m m' : sqrt_map_holds ml mk s m -> (forall k, sqrt_key ml mk k -> m k = m' k) -> sqrt_map_holds ml mk s m'.
  Proof. intros (A & B & C & H) E. repeat (split; [assumption|]). intros k K. rewrite <- E by exact K. now apply H. Qed.

  Variables (root : nat -> option nat) (mk0 : nat).
  Lemma make_sqrt_map_ok (f : nat -> T) n : 1 <= n -> root n = Some (Nat.sqrt n) ->
    exists s, make_sqrt_map dflt root mk0 f n = Some s /\ sqrt_map_holds (Nat.sqrt n) n s (fun k => if k =? 0 then Some dflt else Some (f k)).
  Proof.
    intros N R. unfold make_sqrt_map. rewrite R. cbn [obind]. destruct (sqrt_facts n N) as (Q & QQ). pose proof (Nat.sqrt_spec n ltac:(lia)) as [_ Q2]. set (q := Nat.sqrt n) in *. destruct (sq_new q n mk0 ltac:(lia)) as (s0 & -> & H0). cbn [obind].
    match goal with |- context[for_range 1 (q + 1) ?body s0] => destruct (for_range_spec (fun j s => sqrt_map_holds q n s (fun k => if (1 <=? k) && (k <? j) then Some (f k) else None)) body 1 (q + 1) s0) as (s1 & -> & H1); [lia| | |] end.
    { apply (sq_ext _ _ _ _ _ H0). intros k _. destruct (Nat.leb_spec 1 k), (Nat.ltb_spec k 1); cbn [andb]; (lia || reflexivity). }
    { intros j s J H. destruct (sq_put q n s _ j (f j) H) as (s' & E & H'); [left; lia|]. exists s'. split; [exact E|]. apply (sq_ext _ _ _ _ _ H'). intros k _. cbv beta. destruct (Nat.eqb_spec j k) as [<-|]; destruct (Nat.leb_spec 1 j), (Nat.ltb_spec j (S j)); try lia; cbn [andb]; try reflexivity. destruct (Nat.leb_spec 1 k), (Nat.ltb_spec k j), (Nat.ltb_spec k (S j)); try lia; reflexivity. }
    cbn [obind].
    match goal with |- context[for_range 1 (n / (q + 1) + 1) ?body s1] => destruct (for_range_spec (fun j s => sqrt_map_holds q n s (fun k => if (1 <=? k) && ((k <=? q) || (n / k <? j)) then Some (f k) else None)) body 1 (n / (q + 1) + 1) s1) as (s2 & -> & H2); [lia| | |] end.
    { apply (sq_ext _ _ _ _ _ H1). intros k K. cbv beta. destruct (Nat.leb_spec 1 k); cbn [andb]; [|reflexivity]. destruct (Nat.ltb_spec k (q + 1)), (Nat.leb_spec k q); try lia; cbn [orb]; [reflexivity|]. destruct (Nat.ltb_spec (n / k) 1) as [C|]; [|reflexivity]. exfalso. destruct K as [K|(j & J & ->)]; [lia|]. assert (n / j <= n) by (apply Nat.div_le_upper_bound; nia). assert (1 <= n / (n / j)) by (apply Nat.div_le_lower_bound; lia). lia. }
    { intros j s J H. assert (JN : j * (q + 1) <= n) by (pose proof (Nat.mul_div_le n (q + 1) ltac:(lia)); nia). assert (JQ : j <= q) by nia. assert (KD : n / (n / j) = j) by (apply div_div_id; nia). assert (N1 : q + 1 <= n / j) by (apply Nat.div_le_lower_bound; lia).
      destruct (sq_put q n s _ (n / j) (f (n / j)) H) as (s' & E & H'); [right; exists j; split; [lia|reflexivity]|]. exists s'. split; [exact E|]. apply (sq_ext _ _ _ _ _ H'). intros k K. cbv beta. destruct (Nat.eqb_spec (n / j) k) as [<-|NE].
      - rewrite KD. destruct (Nat.leb_spec 1 (n / j)), (Nat.ltb_spec j (S j)); try lia. rewrite orb_true_r. reflexivity.
      - destruct (Nat.leb_spec 1 k) as [K1|]; [|reflexivity]. cbn [andb]. destruct (Nat.leb_spec k q) as [|KQ]; [reflexivity|]. cbn [orb]. destruct (Nat.ltb_spec (n / k) j), (Nat.ltb_spec (n / k) (S j)); try lia; try reflexivity. exfalso. apply NE. assert (EJ : n / k = j) by lia. destruct K as [K|(i & I0 & ->)]; [lia|]. assert (i <= n) by (destruct (Nat.le_gt_cases i n); [assumption|rewrite Nat.div_small in K1 by lia; lia]). rewrite <- EJ. now apply div_div_id2. }
    cbn [obind]. destruct (sq_put q n s2 _ 0 dflt H2) as (s3 & E3 & H3); [left; lia|]. exists s3. split; [exact E3|]. apply (sq_ext _ _ _ _ _ H3). intros k K. cbv beta. rewrite (Nat.eqb_sym 0 k). destruct (Nat.eqb_spec k 0) as [->|NZ]; [reflexivity|]. destruct (Nat.leb_spec 1 k); [|lia]. cbn [andb]. destruct (Nat.leb_spec k q) as [|C]; [reflexivity|]. cbn [orb]. destruct (Nat.ltb_spec (n / k) (n / (q + 1) + 1)) as [|X]; [reflexivity|]. exfalso. pose proof (Nat.div_le_compat_l n (q + 1) k ltac:(lia)). lia.
  Qed.
End Sq.

(** ** sum_phi *)
Section Phi.
  Context {T : Type} (zero one : T) (add mul sub : T -> T -> T) (opp : T -> T) (tdiv : T -> T -> option T).
  Hypothesis Rth : ring_theory zero one add mul sub opp (@eq T).
  Add Ring TrP3 : Rth.
  Variables (root cbrt : nat -> option nat) (mk0 : nat).
  Hypothesis Root : forall n, root n = Some (Nat.sqrt n).
  Hypothesis Div1 : forall x, tdiv x one = Some x.
  Hypothesis Half : forall x, tdiv (add x x) (add one one) = Some x.
  Notation nat_ := (rnat zero one add).
  Notation ST := (sum_totient zero one add).
  Lemma tri_ok n : tri zero one add mul tdiv n = summatory zero add nat_ n.
  Proof using Rth Half.
    unfold tri. assert (E : mul (nat_ n) (add (nat_ n) one) = add (summatory zero add nat_ n) (summatory zero add nat_ n)). { induction n as [|n IH]; [unfold summatory; cbn [RingSpec.rsum rnat]; ring|]. rewrite (summatory_S zero add). cbn [rnat]. transitivity (add (mul (nat_ n) (add (nat_ n) one)) (add (add (nat_ n) one) (add (nat_ n) one))); [ring|]. rewrite IH. ring. }
    rewrite E, Half. reflexivity.
  Qed.
  Lemma st_step k : 1 <= k -> ST k = add (ST (k - 1)) (nat_ (totient k)).
  Proof using. intros H. unfold sum_totient. replace (summatory zero add (fun i => nat_ (totient i)) k) with (summatory zero add (fun i => nat_ (totient i)) (S (k - 1))) by (f_equal; lia). rewrite (summatory_S zero add). do 3 f_equal. lia. Qed.
  Lemma low_key u n k : k <= u -> sqrt_key u n k. Proof. now left. Qed.
  (** marking the first entries as counted *)
  Lemma mark_ok (s : @sqm T) u : u <= length (scl s) -> u <= length (stl s) -> u <= sml s + 1 ->
    exists c, for_range 1 u (fun k mm => let* '(_, mm) := sqm_index mm k in Some mm) s = Some (put_cl s c) /\ length c = length (scl s) /\ forall i, nth_error c i = if (1 <=? i) && (i <? u) then Some 1 else nth_error (scl s) i.
  Proof using.
    intros L1 L2 L3. destruct (Nat.le_gt_cases u 1) as [U|U].
    - exists (scl s). unfold for_range. replace (u - 1) with 0 by lia. cbn [for_n]. split; [now destruct s|]. split; [reflexivity|]. intros i. destruct (Nat.leb_spec 1 i), (Nat.ltb_spec i u); try lia; reflexivity.
    - match goal with |- context[for_range 1 u ?body s] => destruct (for_range_spec (fun j s' => exists c, s' = put_cl s c /\ length c = length (scl s) /\ forall i, nth_error c i = if (1 <=? i) && (i <? j) then Some 1 else nth_error (scl s) i) body 1 u s) as (s' & E & c & -> & C); [lia| | |] end.
      + exists (scl s). split; [now destruct s|]. split; [reflexivity|]. intros i. destruct (Nat.leb_spec 1 i), (Nat.ltb_spec i 1); try lia; reflexivity.
      + intros j t J (c & -> & CL & CE). unfold sqm_index. cbn [put_cl sml scl stl]. destruct (Nat.leb_spec j (sml s)); [|lia]. destruct (get_set c j 1) as (c' & -> & CL' & CE'); [lia|]. cbn [obind]. destruct (nth_error (stl s) j) as [w|] eqn:W; [|apply nth_error_None in W; lia]. cbn [obind]. eexists. split; [reflexivity|]. exists c'. split; [reflexivity|]. split; [lia|]. intros i. rewrite CE', CE. destruct (Nat.eqb_spec j i) as [<-|]; destruct (Nat.leb_spec 1 j), (Nat.ltb_spec j (S j)); try lia; try reflexivity. destruct (Nat.leb_spec 1 i), (Nat.ltb_spec i j), (Nat.ltb_spec i (S j)); try lia; reflexivity.
      + exists c. auto.
  Qed.
  Lemma sum_phi_ok n u c phi : 1 <= n -> cbrt n = Some c -> u = c * c -> 1 <= c -> c * c * c <= n -> (forall f, phi = Some f -> forall k, 1 <= k < u -> f k = Some (nat_ (totient k))) ->
    exists s m, sum_phi zero one add mul sub tdiv root cbrt mk0 n phi = Some s /\ sqrt_map_holds u n s m /\ forall k, 1 <= k <= n -> m (n / k) = Some (ST (n / k)).
  Proof using Rth Root Div1 Half.
    intros N Ec -> C1 C3 HP. unfold sum_phi. rewrite Ec. cbn [obind]. set (u := c * c) in *. assert (U1 : 1 <= u) by (unfold u; nia). assert (UN : u <= n) by (unfold u; nia).
    destruct (sq_new zero u n mk0 ltac:(lia)) as (s0 & E0 & H0). rewrite E0. cbn [obind]. destruct (sq_put zero u n s0 _ 0 zero H0 (or_introl (Nat.le_0_l u))) as (s1 & E1 & H1). rewrite E1. cbn [obind].
    assert (PRE : exists s2, match phi with
      | Some phi => for_range 1 u (fun k mm => let* '(x, mm) := sqm_index mm (k - 1) in let* y := phi k in sqm_put mm k (add x y)) s1
      | None =>
        let* l := moebius_transform one mul sub tdiv (stl s1) (rnat zero one add) u in
        let* mm := for_range 1 u (fun k mm => let* '(_, mm) := sqm_index mm k in Some mm) (put_tl s1 l) in
        for_range 1 u (fun k mm => let* '(x, mm) := sqm_index mm (k - 1) in let* '(y, mm) := sqm_index mm k in sqm_put mm k (add x y)) mm
      end = Some s2 /\ sqrt_map_holds u n s2 (fun k => if k <? u then Some (ST k) else None)).
    { destruct phi as [f|].
      - match goal with |- context[for_range 1 u ?body s1] => destruct (for_range_spec (fun j s => sqrt_map_holds u n s (fun k => if k <? j then Some (ST k) else None)) body 1 u s1) as (s2 & -> & H2); [lia| | |] end.
        + apply (sq_ext _ _ _ _ _ H1). intros k _. cbv beta. destruct (Nat.eqb_spec 0 k) as [<-|]; destruct (Nat.ltb_spec 0 1); try lia; [reflexivity|]. destruct (Nat.ltb_spec k 1); [lia|reflexivity].
        + intros j s J H. assert (X : (if j - 1 <? j then Some (ST (j - 1)) else None) = Some (ST (j - 1))) by (destruct (Nat.ltb_spec (j - 1) j); [reflexivity|lia]). destruct (sq_read zero u n s _ (j - 1) (ST (j - 1)) H (low_key u n (j - 1) ltac:(lia)) X) as (s' & -> & H'). cbn [obind]. rewrite (HP f eq_refl j J). cbn [obind]. rewrite <- (st_step j) by lia.
          destruct (sq_put zero u n s' _ j (ST j) H' (low_key u n j ltac:(lia))) as (s'' & E'' & H''). exists s''. split; [exact E''|]. apply (sq_ext _ _ _ _ _ H''). intros k _. cbv beta. destruct (Nat.eqb_spec j k) as [<-|]; [destruct (Nat.ltb_spec j (S j)); [reflexivity|lia]|]. destruct (Nat.ltb_spec k j), (Nat.ltb_spec k (S j)); try lia; reflexivity.
        + exists s2. split; [reflexivity|exact H2].
      - pose proof H1 as (L1 & K1 & _ & X1).
        assert (LS : length (stl s1) = u + 1 /\ length (scl s1) = u + 1).
        { clear - E0 E1 U1 L1. unfold sqm_new, sqm_reset_max in E0. cbn [sml] in E0. destruct (Nat.eqb_spec u 0); [lia|]. injection E0 as <-. unfold sqm_put, sqm_index in E1. cbn [sml] in E1. destruct (Nat.leb_spec 0 u); [|lia]. cbn [scl stl] in E1. destruct (set_nth (repeat 0 (u + 1)) 0 1) as [c1|] eqn:Q1; [|discriminate]. cbn [obind] in E1. destruct (nth_error (repeat zero (u + 1)) 0) as [w|]; [|discriminate]. cbn [obind] in E1. unfold sqm_el_set in E1. cbn [put_cl sml stl] in E1. destruct (Nat.leb_spec 0 u); [|lia]. destruct (set_nth (repeat zero (u + 1)) 0 zero) as [t1|] eqn:Q2; [|discriminate]. cbn [obind] in E1. injection E1 as <-. cbn [put_tl put_cl stl scl]. rewrite (set_nth_length _ _ _ _ Q1), (set_nth_length _ _ _ _ Q2), !repeat_length. auto. }
        destruct LS as [LS1 LS2].
        unfold moebius_transform. assert (LU : u <= length (stl s1)) by lia. assert (OO : mul one one = one) by ring. destruct (division_ok zero one add mul sub opp tdiv Rth (length (stl s1)) u nat_ (fun _ => one) _ one LU OO (stl s1) (arr_self zero (stl s1)) (Div1 one)) as (l & F & El & Al & Bl & Cl).
        rewrite El. cbn [obind].
        assert (FT : forall k, 1 <= k < u -> F k = nat_ (totient k)).
        { intros k K. apply (dirichlet_cancel zero one add mul sub opp Rth (fun _ => one) one F (fun i => nat_ (totient i)) u); [ring| |lia]. intros i I0. rewrite Bl by lia. symmetry. rewrite (dirichlet_comm zero one add mul sub opp Rth) by lia. apply (phi_sum zero one add mul sub opp Rth). lia. }
        assert (LL : length l = u + 1) by (destruct Al as [Al _]; lia).
        destruct (mark_ok (put_tl s1 l) u) as (cc & -> & CL & CE); cbn [put_tl scl stl sml]; try lia. cbn [obind].
        assert (HM : sqrt_map_holds u n (put_cl (put_tl s1 l) cc) (fun k => if k =? 0 then Some zero else if k <? u then Some (nat_ (totient k)) else None)).
        { split; [exact L1|]. split; [exact K1|]. split; [lia|]. intros k K. specialize (X1 k K). destruct X1 as (Y1 & Y2 & Y3). cbv beta in Y1. unfold sqm_count, sqm_el in *. cbn [put_cl put_tl sml smk scl stl sch sth] in *. rewrite L1 in *. unfold hidx in *. cbn [put_cl put_tl smk] in *. rewrite CE. destruct (Nat.leb_spec k u) as [KU|KU].
          - destruct Al as [_ Al]. rewrite Al by lia. split; [|split; [discriminate|]].
            + destruct (Nat.eqb_spec k 0) as [->|NZ]; [cbn [Nat.leb andb]; exact Y1|]. destruct (Nat.leb_spec 1 k); [|lia]. cbn [andb]. destruct (Nat.ltb_spec k u); [reflexivity|]. rewrite Y1. destruct (Nat.eqb_spec 0 k); [lia|reflexivity].
            + intros v Hv. destruct (Nat.eqb_spec k 0) as [->|NZ].
              * injection Hv as <-. f_equal. rewrite Cl by lia. unfold entry. apply nth_error_nth. apply Y3. reflexivity.
              * destruct (Nat.ltb_spec k u); [|discriminate]. injection Hv as <-. rewrite FT by lia. reflexivity.
          - destruct (Nat.eqb_spec k 0); [lia|]. destruct (Nat.ltb_spec k u); [lia|]. split; [|split; [exact Y2|discriminate]]. rewrite Y1. destruct (Nat.eqb_spec 0 k); [lia|reflexivity]. }
        match goal with |- context[for_range 1 u ?body ?st] => destruct (for_range_spec (fun j s => sqrt_map_holds u n s (fun k => if k <? j then Some (ST k) else if k <? u then Some (nat_ (totient k)) else None)) body 1 u st) as (s2 & -> & H2); [lia| | |] end.
        + apply (sq_ext _ _ _ _ _ HM). intros k _. cbv beta. destruct (Nat.eqb_spec k 0) as [->|]; [destruct (Nat.ltb_spec 0 1); [reflexivity|lia]|]. destruct (Nat.ltb_spec k 1); [lia|reflexivity].
        + intros j s J H. assert (X : (if j - 1 <? j then Some (ST (j - 1)) else if j - 1 <? u then Some (nat_ (totient (j - 1))) else None) = Some (ST (j - 1))) by (destruct (Nat.ltb_spec (j - 1) j); [reflexivity|lia]). destruct (sq_read zero u n s _ (j - 1) (ST (j - 1)) H (low_key u n (j - 1) ltac:(lia)) X) as (s' & -> & H'). cbn [obind].
          assert (Y : (if j <? j then Some (ST j) else if j <? u then Some (nat_ (totient j)) else None) = Some (nat_ (totient j))) by (rewrite Nat.ltb_irrefl; destruct (Nat.ltb_spec j u); [reflexivity|lia]). destruct (sq_read zero u n s' _ j (nat_ (totient j)) H' (low_key u n j ltac:(lia)) Y) as (s3 & -> & H3). cbn [obind]. rewrite <- (st_step j) by lia.
          destruct (sq_put zero u n s3 _ j (ST j) H3 (low_key u n j ltac:(lia))) as (s'' & E'' & H''). exists s''. split; [exact E''|]. apply (sq_ext _ _ _ _ _ H''). intros k _. cbv beta. destruct (Nat.eqb_spec j k) as [<-|]; [destruct (Nat.ltb_spec j (S j)); [reflexivity|lia]|]. destruct (Nat.ltb_spec k j), (Nat.ltb_spec k (S j)); try lia; reflexivity.
        + exists s2. split; [reflexivity|]. apply (sq_ext _ _ _ _ _ H2). intros k _. cbv beta. now destruct (k <? u). }
    destruct PRE as (s2 & E2 & H2). rewrite E2. cbn [obind].
    destruct (sum_m_all zero one add mul sub opp tdiv Rth sqm_find sqm_put root (sqrt_key u n) (sqrt_map_holds u n) (sq_table zero u n) (sqrt_keys u n) ST eq_refl (fun k _ => Root k) (tri zero one add mul tdiv) nat_) with (fuel := S n) (n := n) (tb := s2) (m := fun k => if k <? u then Some (ST k) else None) as (s3 & m3 & E3 & O3 & S3 & F3).
    - intros k _ K. rewrite tri_ok. apply (sum_totient_eq zero one add mul sub opp Rth).
    - intros x. assert (P1 : sub (nat_ 1) (nat_ 0) = one) by (cbn [rnat]; ring). rewrite P1. replace (mul one x) with x by ring. apply Div1.
    - lia.
    - right. exists 1. split; [lia|]. now rewrite Nat.div_1_r.
    - exact H2.
    - intros k v _. destruct (k <? u); [|discriminate]. now intros [= <-].
    - rewrite E3. cbn [obind]. exists s3, m3. split; [reflexivity|]. split; [exact O3|]. apply F3. cbv beta. destruct (Nat.ltb_spec n u); [lia|reflexivity].
  Qed.
End Phi.

(** ** coprime_sum *)
Section Cop.
  Context {T : Type} (zero one : T) (add mul sub : T -> T -> T) (opp : T -> T).
  Hypothesis Rth : ring_theory zero one add mul sub opp (@eq T).
  Add Ring TrC3 : Rth.
  Lemma gcd_step p P k : is_prime p -> (Nat.gcd (p * P) k =? 1) = negb (k mod p =? 0) && (Nat.gcd P k =? 1).
  Proof.
    intros HP. pose proof (prime_ge p HP) as P2. destruct (Nat.eqb_spec (k mod p) 0) as [D|D]; cbn [negb andb].
    - apply Nat.eqb_neq. intros G. apply Nat.mod_divides in D as [c ->]; [|lia]. rewrite Nat.gcd_mul_mono_l in G. apply Nat.eq_mul_1 in G. lia.
    - assert (C : Nat.gcd p k = 1). { apply prime_bezout; [exact HP|]. intros [c ->]. apply D. apply Nat.mod_mul. lia. }
      destruct (Nat.eqb_spec (Nat.gcd P k) 1) as [G|G].
      + apply Nat.eqb_eq. now apply coprime_mul.
      + apply Nat.eqb_neq. intros X. apply G. apply Nat.divide_1_r. rewrite <- X. apply Nat.gcd_greatest; [|apply Nat.gcd_divide_r]. apply (Nat.divide_trans _ P); [apply Nat.gcd_divide_l|]. now exists p.
  Qed.
  Lemma gcd_cancel p P j : Nat.gcd P p = 1 -> (Nat.gcd P (p * j) =? 1) = (Nat.gcd P j =? 1).
  Proof.
    intros G. destruct (Nat.eqb_spec (Nat.gcd P j) 1) as [E|E].
    - apply Nat.eqb_eq. rewrite Nat.gcd_comm. apply coprime_mul; now rewrite Nat.gcd_comm.
    - apply Nat.eqb_neq. intros X. apply E. apply Nat.divide_1_r. rewrite <- X. apply Nat.gcd_greatest; [apply Nat.gcd_divide_l|]. apply (Nat.divide_trans _ j); [apply Nat.gcd_divide_r|]. now exists p.
  Qed.
  Variables (f : nat -> T) (sf : nat -> nat -> T).
  Hypothesis Sf : forall n m, sf n m = rsum zero add n (fun k => f (S k * m)).
  Lemma coprime_ok ps : NoDup ps -> (forall p, In p ps -> is_prime p) -> forall n m, coprime_sum sub sf ps n m = Some (coprime_total zero add f (fold_right Nat.mul 1 ps) n m).
  Proof using Rth Sf.
    induction ps as [|p ps IH]; intros ND HP n m.
    - cbn [coprime_sum fold_right]. assert (E : sf n m = coprime_total zero add f 1 n m). { rewrite Sf. apply (rsum_ext zero add). intros k _. now rewrite Nat.gcd_1_l. } destruct (n =? 0); now rewrite E.
    - apply NoDup_cons_iff in ND as [NI ND]. assert (PP : is_prime p) by (apply HP; now left). pose proof (prime_ge p PP) as P2. cbn [coprime_sum fold_right]. destruct (Nat.eqb_spec n 0) as [->|N0]; [rewrite Sf; reflexivity|].
      rewrite (IH ND (fun q Q => HP q (or_intror Q)) n m). cbn [obind]. destruct (Nat.eqb_spec p 0); [lia|]. cbn [negb guard obind]. rewrite (IH ND (fun q Q => HP q (or_intror Q)) (n / p) (m * p)). cbn [obind]. f_equal. set (P := fold_right Nat.mul 1 ps) in *. unfold coprime_total.
      assert (GP : Nat.gcd P p = 1). { unfold P. clear -NI HP PP. induction ps as [|r ps IH]; [apply Nat.gcd_1_l|]. cbn [fold_right]. apply coprime_mul; [|apply IH; [intros X; apply NI; now right|intros q [->|Q]; apply HP; [now left|right; now right]]]. apply prime_bezout; [apply HP; right; now left|]. intros Dv. assert (R : is_prime r) by (apply HP; right; now left). apply NI. left. pose proof (prime_ge r R). destruct PP as [_ PP]. destruct (PP r) as [X|X]; [exact Dv|lia|exact X]. }
      set (h := fun k => if Nat.gcd P k =? 1 then f (k * (m * p)) else zero).
      pose proof (rsum_multiples zero one add mul sub opp Rth p (fun k => if k =? 0 then zero else h k) n ltac:(lia)) as RM. rewrite !(rsum_S_l zero one add mul sub opp Rth) in RM. cbv beta in RM. rewrite Nat.mod_0_l, Nat.div_0_l in RM by lia. cbn [Nat.eqb] in RM.
      transitivity (sub (rsum zero add n (fun k => if Nat.gcd P (S k) =? 1 then f (S k * m) else zero)) (add zero (rsum zero add (n / p) (fun k => h (S k))))); [unfold h; f_equal; ring|].
      rewrite <- RM. transitivity (sub (rsum zero add n (fun k => if Nat.gcd P (S k) =? 1 then f (S k * m) else zero)) (rsum zero add n (fun k => if S k mod p =? 0 then (if S k / p =? 0 then zero else h (S k / p)) else zero))); [ring|]. rewrite <- (rsum_sub zero one add mul sub opp Rth). apply (rsum_ext zero add). intros k K. rewrite (gcd_step p P (S k) PP). destruct (Nat.eqb_spec (S k mod p) 0) as [D|D]; cbn [negb andb].
      + apply Nat.mod_divides in D as [c D]; [|lia]. rewrite D. rewrite (Nat.mul_comm p c), Nat.div_mul by lia. destruct (Nat.eqb_spec c 0); [lia|]. unfold h. rewrite (Nat.mul_comm c p), gcd_cancel by exact GP. destruct (Nat.gcd P c =? 1); [|ring]. replace (c * (m * p)) with (p * c * m) by ring. ring.
      + ring.
  Qed.
End Cop.
