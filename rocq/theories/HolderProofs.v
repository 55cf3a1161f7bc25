(** The tables of a prime_holder are right whenever they are filled. *)
From Coq Require Import Sorted Permutation Ring Ring_theory.
From Verif Require Import Lib BaseModel PrimesSpec PrimesModel PrimesProofs PrimesProps DivisorsModel DivisorsProofs DivisorsProps RingSpec RangesModel RangesProps HolderSpec HolderModel.
Open Scope nat_scope.

Section PH.
  Variables (sz est : nat) (sortn : list nat -> list nat) (sortp : list (nat * nat) -> list (nat * nat)).
  Hypothesis Hsz : 3 <= sz.
  Hypothesis Hest : 40 <= sz -> length (primes_below sz) < est.
  Hypothesis Hsn : sorts sortn.
  Hypothesis Hsp : sorts_pairs sortp.

  Definition full {A} (f : nat -> A) (l : list A) : Prop := length l = sz /\ forall i, i < sz -> nth_error l i = Some (f i).
  Definition pf_ok (l : list nat) : Prop := length l = sz /\ nth_error l 0 = Some 0 /\ nth_error l 1 = Some 1 /\ forall x, 2 <= x < sz -> exists v, nth_error l x = Some v /\ greatest_prime_factor x v.
  Definition pq_ok (h : holder) : Prop :=
    full primeb (h_q h) /\ h_m h = length (primes_below sz) /\ h_psz h = h_m h /\ exists rest, h_buf h = primes_below sz ++ 0 :: rest.
  Record good (h : holder) : Prop := {
    g_sz : h_sz h = sz;
    g_pq : (h_q h = [] /\ h_psz h = 0) \/ pq_ok h;
    g_pf : h_pf h = [] \/ pf_ok (h_pf h);
    g_pi : h_pi h = [] \/ full (fun i => length (primes_below (i + 1))) (h_pi h);
    g_phi : h_phi h = [] \/ full totient (h_phi h);
    g_mu : h_mu h = [] \/ full mobius (h_mu h);
    g_nu : h_nu h = [] \/ full (fun i => length (prime_divisors i)) (h_nu h);
    g_mer : h_mer h = [] \/ full mertens_of (h_mer h) }.
  Lemma good_new : good (holder_new sz).
  Proof using Hsz Hest. constructor; cbn; auto. Qed.
  Lemma full_nonempty {A} (f : nat -> A) l : full f l -> is_empty l = false.
  Proof using Hsz Hest. intros (L & _). destruct l; [cbn in L; lia|reflexivity]. Qed.
  Lemma table_full {A} (f : nat -> A) z l : table sz f (repeat z sz) l -> full f l.
  Proof using Hsz Hest. intros (L & V & _). rewrite repeat_length in L. split; assumption. Qed.
  Lemma small_est n : n < 40 -> length (primes_below n) < n / 2 + 2.
  Proof using Hsz Hest.
    intros H. assert (E : forallb (fun n => length (primes_below n) <? n / 2 + 2) (seq 0 40) = true) by (vm_compute; reflexivity).
    rewrite forallb_forall in E. apply Nat.ltb_lt. apply E. apply in_seq. lia.
  Qed.
  Lemma ensure_pq_ok h : good h -> exists h', ensure_pq est h = Some h' /\ good h' /\ pq_ok h' /\
    h_pf h' = h_pf h /\ h_pi h' = h_pi h /\ h_phi h' = h_phi h /\ h_mu h' = h_mu h /\ h_nu h' = h_nu h /\ h_mer h' = h_mer h.
  Proof using Hsz Hest.
    intros G. unfold ensure_pq. rewrite (g_sz _ G). destruct (g_pq _ G) as [(Q & P)|Q].
    - rewrite Q, P. cbn [is_empty firstn]. rewrite firstn_nil. cbn [app]. rewrite Nat.sub_0_r. set (m := if sz <? 40 then sz / 2 + 2 else est).
      assert (Hm : length (primes_below sz) < length (repeat 0 m)).
      { rewrite repeat_length. unfold m. destruct (Nat.ltb_spec sz 40); [apply small_est; assumption|auto]. }
      destruct (C19_primes (repeat 0 m) (repeat false sz) sz ltac:(rewrite repeat_length; lia) Hm) as (p & q & E & Ep & T). rewrite E. cbn [obind].
      eexists. split; [reflexivity|].
      assert (PQ : forall h0, pq_ok (set_pq h0 (length (primes_below sz)) p (length (primes_below sz)) q)).
      { intros h0. split; [exact (table_full _ _ _ T)|]. split; [reflexivity|]. split; [reflexivity|]. eexists. exact Ep. }
      split; [|split; [apply PQ|repeat split; reflexivity]].
      destruct G as [g1 g2 g3 g4 g5 g6 g7 g8]. constructor; cbn; auto.
    - rewrite (full_nonempty _ _ (proj1 Q)). exists h. split; [reflexivity|]. split; [exact G|]. split; [exact Q|]. repeat split; reflexivity.
  Qed.
  Lemma get_pf_ok h : good h -> exists h', get_pf est h = Some h' /\ good h' /\ pf_ok (h_pf h').
  Proof using Hsz Hest.
    intros G. unfold get_pf. destruct (g_pf _ G) as [E|E].
    - rewrite E. cbn [is_empty]. destruct (ensure_pq_ok h G) as (h1 & E1 & G1 & (_ & Em & _ & rest & Eb) & _). rewrite E1. cbn [obind]. rewrite (g_sz _ G1), Eb, Em.
      destruct (C21_factor (repeat 0 sz) sz (0 :: rest) ltac:(lia) ltac:(rewrite repeat_length; lia)) as (b & F & L & B0 & B1 & V & _). rewrite F. cbn [obind].
      eexists. split; [reflexivity|]. rewrite repeat_length in L. assert (K : pf_ok b) by (split; [exact L|]; auto).
      split; [|exact K]. destruct G1 as [g1 g2 g3 g4 g5 g6 g7 g8]. constructor; cbn; auto.
    - assert (K : is_empty (h_pf h) = false) by (destruct E as (L & _); destruct (h_pf h); [cbn in L; lia|reflexivity]). rewrite K. exists h. auto.
  Qed.
  Lemma get_pi_ok h : good h -> exists h', get_pi est h = Some h' /\ good h' /\ full (fun i => length (primes_below (i + 1))) (h_pi h').
  Proof using Hsz Hest.
    intros G. unfold get_pi. destruct (g_pi _ G) as [E|E]; [|rewrite (full_nonempty _ _ E); exists h; auto].
    rewrite E. cbn [is_empty]. destruct (ensure_pq_ok h G) as (h1 & E1 & G1 & (_ & Em & _ & rest & Eb) & _). rewrite E1. cbn [obind]. rewrite (g_sz _ G1), Eb.
    destruct (C19_prime_pi (repeat 0 sz) sz rest ltac:(lia) ltac:(rewrite repeat_length; lia)) as (b & F & T). rewrite F. cbn [obind].
    eexists. split; [reflexivity|]. apply table_full in T. split; [|exact T]. destruct G1 as [g1 g2 g3 g4 g5 g6 g7 g8]. constructor; cbn; auto.
  Qed.
  Lemma get_phi_ok h : good h -> exists h', get_phi est h = Some h' /\ good h' /\ full totient (h_phi h').
  Proof using Hsz Hest.
    intros G. unfold get_phi. destruct (g_phi _ G) as [E|E]; [|rewrite (full_nonempty _ _ E); exists h; auto].
    rewrite E. cbn [is_empty]. destruct (ensure_pq_ok h G) as (h1 & E1 & G1 & (_ & Em & _ & rest & Eb) & _). rewrite E1. cbn [obind]. rewrite (g_sz _ G1), Eb, Em.
    destruct (C20_euler_phi (repeat 0 sz) sz (0 :: rest) ltac:(rewrite repeat_length; lia)) as (b & F & T). rewrite F. cbn [obind].
    eexists. split; [reflexivity|]. apply table_full in T. split; [|exact T]. destruct G1 as [g1 g2 g3 g4 g5 g6 g7 g8]. constructor; cbn; auto.
  Qed.
  Lemma get_nu_ok h : good h -> exists h', get_nu est h = Some h' /\ good h' /\ full (fun i => length (prime_divisors i)) (h_nu h').
  Proof using Hsz Hest.
    intros G. unfold get_nu. destruct (g_nu _ G) as [E|E]; [|rewrite (full_nonempty _ _ E); exists h; auto].
    rewrite E. cbn [is_empty]. destruct (ensure_pq_ok h G) as (h1 & E1 & G1 & (_ & Em & _ & rest & Eb) & _). rewrite E1. cbn [obind]. rewrite (g_sz _ G1), Eb, Em.
    destruct (C20_prime_nu (repeat 0 sz) sz (0 :: rest) ltac:(rewrite repeat_length; lia)) as (b & F & T). rewrite F. cbn [obind].
    eexists. split; [reflexivity|]. apply table_full in T. split; [|exact T]. destruct G1 as [g1 g2 g3 g4 g5 g6 g7 g8]. constructor; cbn; auto.
  Qed.
  Lemma get_mu_ok h : good h -> exists h', get_mu est h = Some h' /\ good h' /\ full mobius (h_mu h').
  Proof using Hsz Hest.
    intros G. unfold get_mu. destruct (g_mu _ G) as [E|E]; [|rewrite (full_nonempty _ _ E); exists h; auto].
    rewrite E. cbn [is_empty]. destruct (ensure_pq_ok h G) as (h1 & E1 & G1 & _). rewrite E1. cbn [obind]. rewrite (g_sz _ G1).
    destruct (C20_moebius_mu (repeat 0%Z sz) sz ltac:(lia) ltac:(rewrite repeat_length; lia)) as (b & F & T). rewrite F. cbn [obind].
    eexists. split; [reflexivity|]. apply table_full in T. split; [|exact T]. destruct G1 as [g1 g2 g3 g4 g5 g6 g7 g8]. constructor; cbn; auto.
  Qed.
  Lemma rsum_map n (v : list Z) : n <= sz -> full mobius v -> rsum 0%Z Z.add n (fun j => nth j v 0%Z) = fold_right Z.add 0%Z (map mobius (seq 0 n)).
  Proof using Hsz Hest.
    intros Hn (L & V). induction n as [|n IH]; [reflexivity|]. cbn [rsum]. rewrite IH by lia. rewrite seq_S, map_app, fold_right_app. cbn [map fold_right Nat.add].
    rewrite (nth_error_nth v n 0%Z (V n ltac:(lia))). rewrite Z.add_0_r. generalize (map mobius (seq 0 n)). intros l. induction l as [|x l IHl]; cbn [fold_right]; [lia|]. rewrite <- IHl. lia.
  Qed.
  Lemma get_mertens_ok h : good h -> exists h', get_mertens est h = Some h' /\ good h' /\ full mertens_of (h_mer h').
  Proof using Hsz Hest.
    intros G. unfold get_mertens. destruct (g_mer _ G) as [E|E]; [|rewrite (full_nonempty _ _ E); exists h; auto].
    rewrite E. cbn [is_empty]. destruct (get_mu_ok h G) as (h1 & E1 & G1 & T). rewrite E1. cbn [obind]. eexists. split; [reflexivity|].
    assert (K : full mertens_of (accumulate Z.add (h_mu h1))).
    { destruct (C59_accumulate 0%Z 1%Z Z.add Z.mul Z.sub Z.opp Zth (h_mu h1)) as (L & V). destruct T as (L1 & V1). split; [lia|]. intros i Hi. rewrite V by lia. f_equal.
      rewrite rsum_map by (try lia; split; assumption). unfold mertens_of. f_equal. f_equal. f_equal. lia. }
    split; [|exact K]. destruct G1 as [g1 g2 g3 g4 g5 g6 g7 g8]. constructor; cbn; auto.
  Qed.
  Lemma pf_ok_table l n : pf_ok l -> n < sz -> pf_table n l.
  Proof using Hsz Hest. intros (_ & _ & _ & V) Hn k Hk. destruct (V k ltac:(lia)) as (v & E & P & D & _). eauto. Qed.
  Lemma sort_fact n vf : factorisation n vf -> sorted_factorisation n (sortp vf).
  Proof using Hsz Hest Hsp.
    intros (E & N & V). destruct (Hsp vf) as (P & S). assert (N' : NoDup (map fst (sortp vf))) by (eapply Permutation_NoDup; [apply Permutation_map; exact P|exact N]). split.
    - split; [|split; [exact N'|]].
      + rewrite <- E. unfold product. clear - P. induction P as [|[p e] l l' P IH|[p e] [p' e'] l|l l' l'' P1 IH1 P2 IH2]; cbn [fold_right]; [reflexivity|rewrite IH; reflexivity|lia|congruence].
      + intros p e I. apply V. eapply Permutation_in; [apply Permutation_sym; exact P|exact I].
    - assert (S' : Sorted pair_le (sortp vf)) by (apply Sorted_LocallySorted_iff; exact S).
      apply Sorted_StronglySorted in S'; [|intros [a a'] [b b'] [c c']; unfold pair_le; cbn; lia].
      clear - S' N'. induction S' as [|x l S IH F]; cbn [map]; [constructor|]. cbn [map] in N'. inversion N'; subst. constructor; [auto|].
      rewrite Forall_forall in F |- *. intros y I. apply in_map_iff in I. destruct I as (z & <- & I). assert (Q := F z I). unfold pair_le in Q.
      assert (fst x <> fst z) by (intros C; apply H1; rewrite C; apply in_map; exact I). lia.
  Qed.
  Lemma factor_ok h n : good h -> 0 < n < sz -> exists h' vf, holder_factor est sortp h n = Some (h', vf) /\ good h' /\ sorted_factorisation n vf.
  Proof using Hsz Hest Hsp.
    intros G Hn. unfold holder_factor. destruct (get_pf_ok h G) as (h1 & E1 & G1 & T). rewrite E1. cbn [obind].
    destruct (C21_factor_integer [] n (h_pf h1) ltac:(lia) (pf_ok_table _ n T ltac:(lia))) as (fs & F & FF). rewrite F. cbn [obind app]. eexists _, _. split; [reflexivity|]. split; [exact G1|]. apply sort_fact. exact FF.
  Qed.
  Lemma factor_product_ok h vn : good h -> (forall n, In n vn -> 0 < n < sz) -> exists h' vf, holder_factor_product est sortp h vn = Some (h', vf) /\ good h' /\ sorted_factorisation (product_of vn) vf.
  Proof using Hsz Hest Hsp.
    intros G Hn. unfold holder_factor_product. destruct (get_pf_ok h G) as (h1 & E1 & G1 & T). rewrite E1. cbn [obind].
    destruct (C21_factor_product [] vn (h_pf h1)) as (fs & F & FF); [intros x I; apply Hn in I; lia|intros x I; apply (pf_ok_table _ x T); apply Hn in I; lia|].
    rewrite F. cbn [obind app]. eexists _, _. split; [reflexivity|]. split; [exact G1|]. apply sort_fact. exact FF.
  Qed.
  Lemma ask_ok h q : good h -> allowed sz q -> exists h' r, ask est sortn sortp h q = Some (h', r) /\ good h' /\ correct sz q r.
  Proof using Hsz Hest Hsn Hsp.
    intros G A. destruct q; cbn [allowed ask correct] in *.
    - destruct (ensure_pq_ok h G) as (h1 & E & G1 & (_ & Em & _) & _). rewrite E. cbn [obind]. eexists _, _. split; [reflexivity|]. rewrite Em. auto.
    - destruct (ensure_pq_ok h G) as (h1 & E & G1 & (_ & Em & Ep & rest & Eb) & _). rewrite E. cbn [obind]. rewrite Eb, Ep, Em.
      rewrite firstn_app, Nat.sub_diag, firstn_all, firstn_O, app_nil_r. destruct (nth_error (primes_below sz) i) as [p|] eqn:N; [|apply nth_error_None in N; lia]. cbn [obind]. eexists _, _. split; [reflexivity|]. eauto.
    - destruct (ensure_pq_ok h G) as (h1 & E & G1 & ((_ & V) & _) & _). rewrite E. cbn [obind]. rewrite (V i A). cbn [obind]. eexists _, _. split; [reflexivity|]. auto.
    - destruct (get_pf_ok h G) as (h1 & E & G1 & (L & V0 & V1 & V)). rewrite E. cbn [obind].
      destruct i as [|[|i]]; [rewrite V0|rewrite V1|destruct (V (S (S i)) ltac:(lia)) as (v & Ev & Hv); rewrite Ev]; cbn [obind]; eexists _, _; (split; [reflexivity|]); (split; [exact G1|]); (eexists; split; [reflexivity|]); [reflexivity|reflexivity|exact Hv].
    - destruct (get_pi_ok h G) as (h1 & E & G1 & (_ & V)). rewrite E. cbn [obind]. rewrite (V i A). cbn [obind]. eexists _, _. split; [reflexivity|]. auto.
    - destruct (get_phi_ok h G) as (h1 & E & G1 & (_ & V)). rewrite E. cbn [obind]. rewrite (V i A). cbn [obind]. eexists _, _. split; [reflexivity|]. auto.
    - destruct (get_mu_ok h G) as (h1 & E & G1 & (_ & V)). rewrite E. cbn [obind]. rewrite (V i A). cbn [obind]. eexists _, _. split; [reflexivity|]. auto.
    - destruct (get_nu_ok h G) as (h1 & E & G1 & (_ & V)). rewrite E. cbn [obind]. rewrite (V i A). cbn [obind]. eexists _, _. split; [reflexivity|]. auto.
    - destruct (get_mertens_ok h G) as (h1 & E & G1 & (_ & V)). rewrite E. cbn [obind]. rewrite (V i A). cbn [obind]. eexists _, _. split; [reflexivity|]. auto.
    - destruct (factor_ok h n G A) as (h1 & vf & E & G1 & F). rewrite E. cbn [obind]. eexists _, _. split; [reflexivity|]. eauto.
    - destruct (factor_product_ok h vn G A) as (h1 & vf & E & G1 & F). rewrite E. cbn [obind]. eexists _, _. split; [reflexivity|]. eauto.
    - destruct (factor_ok h n G A) as (h1 & vf & E & G1 & F & _). rewrite E. cbn [obind]. rewrite (C22_divisors_sorted sortn Hsn n vf maxd F). cbn [obind]. eexists _, _. split; [reflexivity|]. auto.
    - destruct (factor_product_ok h vn G A) as (h1 & vf & E & G1 & F & _). rewrite E. cbn [obind]. rewrite (C22_divisors_sorted sortn Hsn _ vf maxd F). cbn [obind]. eexists _, _. split; [reflexivity|]. auto.
  Qed.
  Lemma asks_ok qs : forall h, good h -> Forall (allowed sz) qs -> exists h' rs, asks est sortn sortp h qs = Some (h', rs) /\ good h' /\ Forall2 (correct sz) qs rs.
  Proof using Hsz Hest Hsn Hsp.
    induction qs as [|q qs IH]; intros h G A; [exists h, []; auto|]. inversion A; subst. cbn [asks]. destruct (ask_ok h q G H1) as (h1 & r & E & G1 & C). rewrite E. cbn [obind].
    destruct (IH h1 G1 H2) as (h2 & rs & E2 & G2 & C2). rewrite E2. cbn [obind]. eexists _, _. split; [reflexivity|]. auto.
  Qed.
End PH.

Section FH.
  Context {T : Type} (zero id : T) (add mul sub div : T -> T -> T) (neg : T -> T) (cast : Z -> T).
  Hypothesis Rth : ring_theory zero id add mul sub neg (@eq T).
  Add Ring Rfh : Rth.
  Local Notation rnat := (rnat zero id add). Local Notation rfact := (rfact zero id add mul).
  Lemma rfact_S n : rfact (S n) = mul (rfact n) (rnat (S n)).
  Proof using. reflexivity. Qed.
  Lemma choose_over n : forall k, n < k -> choose n k = 0.
  Proof using. induction n as [|n IH]; intros [|k] H; try lia; [reflexivity|]. cbn [choose]. rewrite !IH by lia. reflexivity. Qed.
  Lemma choose_fact n : forall k, k <= n -> choose n k * (fact k * fact (n - k)) = fact n.
  Proof using.
    induction n as [|n IH]; intros [|k] H; try lia; try reflexivity.
    - cbn [choose]. rewrite Nat.sub_0_r. cbn [fact]. lia.
    - cbn [choose]. replace (S n - S k) with (n - k) by lia. destruct (Nat.eq_dec k n) as [->|].
      + rewrite (choose_over n (S n)) by lia. assert (Q := IH n ltac:(lia)). rewrite Nat.sub_diag in *. cbn [fact] in *. nia.
      + assert (Q1 := IH k ltac:(lia)). assert (Q2 := IH (S k) ltac:(lia)). replace (n - k) with (S (n - S k)) in * by lia. cbn [fact] in *. nia.
  Qed.
  Lemma rnat_mul a b : rnat (a * b) = mul (rnat a) (rnat b).
  Proof using Rth.
    induction a as [|a IH]; cbn [Nat.mul]; [cbn [RingSpec.rnat]; ring|]. rewrite (RingProofs.rnat_add zero id add mul sub neg Rth), IH. cbn [RingSpec.rnat]. ring.
  Qed.
  Lemma rfact_nat n : rfact n = rnat (fact n).
  Proof using Rth. induction n as [|n IH]; [cbn; ring|]. rewrite rfact_S, IH. cbn [fact]. change (fact n + n * fact n) with (S n * fact n). rewrite rnat_mul. ring. Qed.
  Lemma inverses_loop_spec v : forall (f i : T) (k : nat), i = rnat (S k) -> f = rfact k -> (forall j x, nth_error v j = Some x -> mul x (rfact (S k + j)) = id) ->
    forall j x, nth_error (inverses_loop id add mul v f i) j = Some x -> mul x (rnat (S k + j)) = id.
  Proof using Rth.
    induction v as [|y v IH]; intros f i k Ei Ef H j x N; cbn [inverses_loop] in N; [destruct j; discriminate|]. destruct j as [|j].
    - cbn in N. injection N as <-. assert (Q := H 0 y eq_refl). rewrite Nat.add_0_r in *. etransitivity; [|exact Q]. rewrite rfact_S, Ef. ring.
    - cbn in N. replace (S k + S j) with (S (S k) + j) by lia. apply (IH (mul f i) (add i id) (S k)) with (j := j) (x := x); [rewrite Ei; reflexivity|rewrite Ei, Ef; reflexivity| |exact N].
      intros j' x' N'. replace (S (S k) + j') with (S k + S j') by lia. apply H. exact N'.
  Qed.
  Lemma inverses_loop_length v : forall (f i : T), length (inverses_loop id add mul v f i) = length v.
  Proof using. induction v as [|y v IH]; intros f i; cbn [inverses_loop length]; auto. Qed.
  Lemma fholder_ok sz : 1 <= sz -> (forall j, cast (Z.of_nat j) = rnat j) -> mul (div id (rfact (sz - 1))) (rfact (sz - 1)) = id ->
    exists h, fholder_new zero id add mul sub div cast sz = Some h /\ length (f_fact h) = sz /\ length (f_ifact h) = sz /\ length (f_inv h) = sz /\ nth_error (f_inv h) 0 = Some zero /\
      (forall i, i < sz -> nth_error (f_fact h) i = Some (rfact i) /\ (exists x, nth_error (f_ifact h) i = Some x /\ mul x (rfact i) = id)) /\
      (forall i, 0 < i < sz -> exists x, nth_error (f_inv h) i = Some x /\ mul x (rnat i) = id).
  Proof using Rth.
    intros H1 Hc Hd. unfold fholder_new. destruct (Nat.eqb_spec sz 0); [lia|].
    destruct (C59_range_powers_factorials zero id add mul sub neg Rth sz id) as (_ & _ & L & V). rewrite (V (sz - 1) ltac:(lia)). cbn [obind].
    destruct (C59_inv_factorials zero id add mul sub div neg cast Rth sz (sz - 1) Hc ltac:(lia) Hd) as (LI & VI).
    set (ifa := inv_factorials id add mul sub div cast sz (rfact (sz - 1)) (sz - 1)) in *. unfold inverses_from_ifact. destruct ifa as [|y v] eqn:Eif; [cbn in LI; lia|]. cbn [obind].
    eexists. split; [reflexivity|]. cbn [f_fact f_ifact f_inv]. split; [exact L|]. split; [exact LI|]. split; [cbn [length] in *; rewrite inverses_loop_length; exact LI|]. split; [reflexivity|]. split.
    - intros i Hi. split; [apply V; exact Hi|apply VI; exact Hi].
    - intros [|i] Hi; [lia|]. cbn [nth_error]. destruct (nth_error (inverses_loop id add mul v id id) i) as [x|] eqn:N.
      + exists x. split; [reflexivity|]. apply (inverses_loop_spec v id id 0) with (j := i) (x := x); [cbn; ring|reflexivity| |exact N].
        intros j z Nz. cbn [length] in LI. assert (S j < sz) by (rewrite <- LI; apply -> Nat.succ_lt_mono; apply nth_error_Some; congruence).
        destruct (VI (S j) H) as (z' & Nz' & Q). cbn [nth_error] in Nz'. rewrite Nz in Nz'. injection Nz' as <-. exact Q.
      + apply nth_error_None in N. rewrite inverses_loop_length in N. cbn [length] in LI. lia.
  Qed.
End FH.
