From Coq Require Import Ring Ring_theory.
From Verif Require Import Lib RingSpec RingProofs MatrixModel MatrixSpec.
Open Scope nat_scope.

Lemma set_get {A} (l l' : list A) i x j : set_nth l i x = Some l' -> nth_error l' j = if j =? i then Some x else nth_error l j.
Proof. intros E. rewrite (set_nth_get _ _ _ _ j E), Nat.eqb_sym. reflexivity. Qed.

(** [rep n m a f]: the n x m matrix [a] has the entries [f] *)
Section Rep.
  Context {T : Type}.
  Definition rep (n m : nat) (a : list (list T)) (f : nat -> nat -> T) : Prop :=
    length a = n /\ forall i, i < n -> exists r, nth_error a i = Some r /\ length r = m /\ forall j, j < m -> nth_error r j = Some (f i j).

  Lemma rep_ext n m a f g : rep n m a f -> (forall i j, i < n -> j < m -> f i j = g i j) -> rep n m a g.
  Proof.
    intros (L & H) E. split; [exact L|]. intros i Hi. destruct (H i Hi) as (r & N & Lr & V). exists r. split; [exact N|]. split; [exact Lr|].
    intros j Hj. rewrite V by exact Hj. rewrite E by assumption. reflexivity.
  Qed.
  Lemma rep_inj n m a b f g : rep n m a f -> rep n m b g -> (forall i j, i < n -> j < m -> f i j = g i j) -> a = b.
  Proof.
    intros (La & Ha) (Lb & Hb) E. apply list_ext. intros i. destruct (Nat.ltb_spec i n) as [Li|Li].
    - destruct (Ha i Li) as (r & Nr & Lr & Vr). destruct (Hb i Li) as (s & Ns & Ls & Vs). rewrite Nr, Ns. f_equal. apply list_ext. intros j.
      destruct (Nat.ltb_spec j m) as [Lj|Lj]; [rewrite Vr, Vs, E by assumption; reflexivity|].
      transitivity (@None T); [|symmetry]; apply nth_error_None; lia.
    - transitivity (@None (list T)); [|symmetry]; apply nth_error_None; lia.
  Qed.
  Lemma rep_shape z n m a : shape n m a -> rep n m a (ent z a).
  Proof.
    intros (L & H). split; [exact L|]. intros i Hi. assert (N : nth_error a i = Some (nth i a [])) by (apply nth_error_nth'; lia).
    exists (nth i a []). split; [exact N|]. apply nth_error_In in N. split; [apply H; exact N|]. intros j Hj. unfold ent. apply nth_error_nth'. rewrite H; assumption.
  Qed.
  Lemma rep_ent z n m a f : rep n m a f -> shape n m a /\ forall i j, i < n -> j < m -> ent z a i j = f i j.
  Proof.
    intros (L & H). split.
    - split; [exact L|]. intros r Hr. apply In_nth_error in Hr. destruct Hr as (i & Hi). assert (Li : i < n) by (rewrite <- L; apply nth_error_Some; rewrite Hi; discriminate).
      destruct (H i Li) as (s & N & Ls & _). rewrite N in Hi. injection Hi as ->. exact Ls.
    - intros i j Hi Hj. destruct (H i Hi) as (r & N & Lr & V). unfold ent. rewrite (nth_error_nth _ _ _ N). apply nth_error_nth. apply V. exact Hj.
  Qed.
  Lemma rep_get n m a f i j : rep n m a f -> i < n -> j < m -> mget a i j = Some (f i j).
  Proof. intros (L & H) Hi Hj. unfold mget. destruct (H i Hi) as (r & N & Lr & V). rewrite N. cbn. apply V. exact Hj. Qed.
  Definition upd2 (f : nat -> nat -> T) (i j : nat) (v : T) : nat -> nat -> T := fun i' j' => if (i' =? i) && (j' =? j) then v else f i' j'.
  Lemma rep_set n m a f i j v : rep n m a f -> i < n -> j < m -> exists a', mset a i j v = Some a' /\ rep n m a' (upd2 f i j v).
  Proof.
    intros (L & H) Hi Hj. unfold mset. destruct (H i Hi) as (r & N & Lr & V). rewrite N. cbn [obind].
    destruct (set_nth_some r j v) as (r' & Er); [lia|]. rewrite Er. cbn [obind]. destruct (set_nth_some a i r') as (a' & Ea); [lia|]. exists a'. split; [exact Ea|].
    split; [rewrite (set_nth_length _ _ _ _ Ea); exact L|]. intros i' Hi'. rewrite (set_get _ _ _ _ i' Ea). unfold upd2.
    destruct (Nat.eqb_spec i' i) as [->|Ni].
    - exists r'. split; [reflexivity|]. split; [rewrite (set_nth_length _ _ _ _ Er); exact Lr|]. intros j' Hj'. rewrite (set_get _ _ _ _ j' Er). cbn [andb].
      destruct (Nat.eqb_spec j' j); [reflexivity|]. apply V. exact Hj'.
    - destruct (H i' Hi') as (s & Ns & Ls & Vs). exists s. split; [exact Ns|]. split; [exact Ls|]. intros j' Hj'. cbn [andb]. apply Vs. exact Hj'.
  Qed.
  Lemma rep_new n m z : m <> 0 \/ n = 0 -> rep n m (mnew n m z) (fun _ _ => z).
  Proof.
    intros Hm. unfold mnew. assert (E : (if m =? 0 then n else m) = m) by (destruct (Nat.eqb_spec m 0); lia). rewrite E. clear E.
    split; [apply repeat_length|]. intros i Hi. exists (repeat z m). split; [apply nth_error_repeat; exact Hi|]. split; [apply repeat_length|]. intros j Hj. apply nth_error_repeat. exact Hj.
  Qed.
  Lemma rep_rows n m a f : rep n m a f -> rows a = n. Proof. intros (L & _). exact L. Qed.
  Lemma rep_cols n m a f : rep n m a f -> n <> 0 -> cols a = m.
  Proof.
    intros (L & H) Hn. unfold cols. destruct a as [|x a']; [cbn in L; lia|]. set (l := x :: a') in *. destruct (H (n - 1)) as (r & N & Lr & _); [lia|].
    assert (E : last l [] = r); [|rewrite E; exact Lr]. rewrite <- (nth_error_nth _ _ [] N). rewrite <- L. clear. clearbody l. induction l as [|y l IH]; [reflexivity|].
    destruct l as [|w l]; [reflexivity|]. change (last (y :: w :: l) []) with (last (w :: l) []). rewrite IH. cbn [length nth]. replace (S (S (length l)) - 1) with (S (length l)) by lia. replace (S (length l) - 1) with (length l) by lia. reflexivity.
  Qed.

  (** generic double loop over a matrix whose entry (i,j) is rewritten from its own old value *)
  Lemma each_spec n m F (f g : nat -> nat -> T) a : rep n m a f -> (forall i j, i < n -> j < m -> F i j (f i j) = Some (g i j)) ->
    exists a', each n m F a = Some a' /\ rep n m a' g.
  Proof.
    intros Ha HF. unfold each.
    destruct (for_range_spec (fun i t => rep n m t (fun i' j' => if i' <? i then g i' j' else f i' j'))
      (fun i a => for_range 0 m (fun j a => let* x := mget a i j in let* y := F i j x in mset a i j y) a) 0 n a) as (t & E & H).
    - lia.
    - exact Ha.
    - intros i t Hi Ht.
      destruct (for_range_spec (fun j t => rep n m t (fun i' j' => if (i' <? i) || ((i' =? i) && (j' <? j)) then g i' j' else f i' j'))
        (fun j a => let* x := mget a i j in let* y := F i j x in mset a i j y) 0 m t) as (t' & E' & H').
      + lia.
      + apply rep_ext with (1 := Ht). intros i' j' _ _. replace (j' <? 0) with false by (symmetry; apply Nat.ltb_ge; lia). rewrite andb_false_r, orb_false_r. reflexivity.
      + intros j u Hj Hu. rewrite (rep_get _ _ _ _ i j Hu) by lia. cbn [obind]. rewrite Nat.ltb_irrefl, Nat.eqb_refl, Nat.ltb_irrefl. cbn [orb andb].
        rewrite HF by lia. cbn [obind]. destruct (rep_set _ _ _ _ i j (g i j) Hu) as (u' & Eu & Hu'); [lia|lia|]. exists u'. split; [exact Eu|].
        apply rep_ext with (1 := Hu'). intros i' j' _ _. unfold upd2.
        destruct (Nat.eqb_spec i' i) as [->|Ni]; cbn [andb]; [|rewrite !orb_false_r; reflexivity]. rewrite Nat.ltb_irrefl. cbn [orb].
        destruct (Nat.eqb_spec j' j) as [->|Nj]; [replace (j <? S j) with true by (symmetry; apply Nat.ltb_lt; lia); reflexivity|].
        replace (j' <? S j) with (j' <? j); [reflexivity|]. destruct (Nat.ltb_spec j' j), (Nat.ltb_spec j' (S j)); try reflexivity; lia.
      + exists t'. split; [exact E'|]. apply rep_ext with (1 := H'). intros i' j' _ Hj'. replace (j' <? m) with true by (symmetry; apply Nat.ltb_lt; lia). rewrite andb_true_r.
        replace (i' <? S i) with ((i' <? i) || (i' =? i)); [reflexivity|]. destruct (Nat.ltb_spec i' i), (Nat.eqb_spec i' i), (Nat.ltb_spec i' (S i)); try reflexivity; lia.
    - exists t. split; [exact E|]. apply rep_ext with (1 := H). intros i j Hi _. replace (i <? n) with true by (symmetry; apply Nat.ltb_lt; lia). reflexivity.
  Qed.
  (** generic filling of a matrix *)
  Lemma fill_spec n m F (f g : nat -> nat -> T) a : rep n m a f -> (forall i j t, i < n -> j < m -> F i j t = mset t i j (g i j)) ->
    exists a', for_range 0 n (fun i t => for_range 0 m (fun j t => F i j t) t) a = Some a' /\ rep n m a' g.
  Proof.
    intros Ha HF.
    destruct (for_range_spec (fun i t => rep n m t (fun i' j' => if i' <? i then g i' j' else f i' j'))
      (fun i a => for_range 0 m (fun j a => F i j a) a) 0 n a) as (t & E & H).
    - lia.
    - exact Ha.
    - intros i t Hi Ht.
      destruct (for_range_spec (fun j t => rep n m t (fun i' j' => if (i' <? i) || ((i' =? i) && (j' <? j)) then g i' j' else f i' j'))
        (fun j a => F i j a) 0 m t) as (t' & E' & H').
      + lia.
      + apply rep_ext with (1 := Ht). intros i' j' _ _. replace (j' <? 0) with false by (symmetry; apply Nat.ltb_ge; lia). rewrite andb_false_r, orb_false_r. reflexivity.
      + intros j u Hj Hu. rewrite HF by lia. destruct (rep_set _ _ _ _ i j (g i j) Hu) as (u' & Eu & Hu'); [lia|lia|]. exists u'. split; [exact Eu|].
        apply rep_ext with (1 := Hu'). intros i' j' _ _. unfold upd2.
        destruct (Nat.eqb_spec i' i) as [->|Ni]; cbn [andb]; [|rewrite !orb_false_r; reflexivity]. rewrite Nat.ltb_irrefl. cbn [orb].
        destruct (Nat.eqb_spec j' j) as [->|Nj]; [replace (j <? S j) with true by (symmetry; apply Nat.ltb_lt; lia); reflexivity|].
        replace (j' <? S j) with (j' <? j); [reflexivity|]. destruct (Nat.ltb_spec j' j), (Nat.ltb_spec j' (S j)); try reflexivity; lia.
      + exists t'. split; [exact E'|]. apply rep_ext with (1 := H'). intros i' j' _ Hj'. replace (j' <? m) with true by (symmetry; apply Nat.ltb_lt; lia). rewrite andb_true_r.
        replace (i' <? S i) with ((i' <? i) || (i' =? i)); [reflexivity|]. destruct (Nat.ltb_spec i' i), (Nat.eqb_spec i' i), (Nat.ltb_spec i' (S i)); try reflexivity; lia.
    - exists t. split; [exact E|]. apply rep_ext with (1 := H). intros i j Hi _. replace (i <? n) with true by (symmetry; apply Nat.ltb_lt; lia). reflexivity.
  Qed.
  Lemma transpose_spec z n m a f : rep n m a f -> n <> 0 -> exists t, mtranspose z a = Some t /\ rep m n t (fun i j => f j i).
  Proof.
    intros Ha Hn. unfold mtranspose. rewrite (rep_rows _ _ _ _ Ha), (rep_cols _ _ _ _ Ha Hn).
    destruct (for_range_spec (fun i t => rep m n t (fun i' j' => if j' <? i then f j' i' else z))
      (fun i t => for_range 0 m (fun j t => let* x := mget a i j in mset t j i x) t) 0 n (mnew m n z)) as (t & E & H).
    - lia.
    - apply rep_ext with (1 := rep_new m n z (or_introl Hn)). intros. reflexivity.
    - intros i t Hi Ht.
      destruct (for_range_spec (fun j t => rep m n t (fun i' j' => if (j' <? i) || ((j' =? i) && (i' <? j)) then f j' i' else z))
        (fun j t => let* x := mget a i j in mset t j i x) 0 m t) as (t' & E' & H').
      + lia.
      + apply rep_ext with (1 := Ht). intros i' j' _ _. replace (i' <? 0) with false by (symmetry; apply Nat.ltb_ge; lia). rewrite andb_false_r, orb_false_r. reflexivity.
      + intros j u Hj Hu. rewrite (rep_get _ _ _ _ i j Ha) by lia. cbn [obind]. destruct (rep_set _ _ _ _ j i (f i j) Hu) as (u' & Eu & Hu'); [lia|lia|]. exists u'. split; [exact Eu|].
        apply rep_ext with (1 := Hu'). intros i' j' _ _. unfold upd2. rewrite andb_comm.
        destruct (Nat.eqb_spec j' i) as [->|Ni]; cbn [andb]; [|rewrite !orb_false_r; reflexivity]. rewrite Nat.ltb_irrefl. cbn [orb].
        destruct (Nat.eqb_spec i' j) as [->|Nj]; [replace (j <? S j) with true by (symmetry; apply Nat.ltb_lt; lia); reflexivity|].
        replace (i' <? S j) with (i' <? j); [reflexivity|]. destruct (Nat.ltb_spec i' j), (Nat.ltb_spec i' (S j)); try reflexivity; lia.
      + exists t'. split; [exact E'|]. apply rep_ext with (1 := H'). intros i' j' Hi' _. replace (i' <? m) with true by (symmetry; apply Nat.ltb_lt; lia). rewrite andb_true_r.
        replace (j' <? S i) with ((j' <? i) || (j' =? i)); [reflexivity|]. destruct (Nat.ltb_spec j' i), (Nat.eqb_spec j' i), (Nat.ltb_spec j' (S i)); try reflexivity; lia.
    - exists t. split; [exact E|]. apply rep_ext with (1 := H). intros i j _ Hj. replace (j <? n) with true by (symmetry; apply Nat.ltb_lt; lia). reflexivity.
  Qed.
  Lemma identity_spec (z e : T) n : exists t, midentity z n e = Some t /\ rep n n t (fun i j => if i =? j then e else z).
  Proof.
    unfold midentity.
    destruct (for_range_spec (fun k t => rep n n t (fun i j => if (i =? j) && (i <? k) then e else z)) (fun i t => mset t i i e) 0 n (mnew n n z)) as (t & E & H).
    - lia.
    - apply rep_ext with (1 := rep_new n n z ltac:(lia)). intros i j _ _. replace (i <? 0) with false by (symmetry; apply Nat.ltb_ge; lia). rewrite andb_false_r. reflexivity.
    - intros k t Hk Ht. destruct (rep_set _ _ _ _ k k e Ht) as (t' & E' & H'); [lia|lia|]. exists t'. split; [exact E'|]. apply rep_ext with (1 := H').
      intros i j _ _. unfold upd2. destruct (Nat.eqb_spec i k) as [->|Ni], (Nat.eqb_spec j k) as [->|Nj]; cbn [andb].
      + rewrite Nat.eqb_refl. replace (k <? S k) with true by (symmetry; apply Nat.ltb_lt; lia). reflexivity.
      + destruct (Nat.eqb_spec k j); [lia|]. reflexivity.
      + destruct (Nat.eqb_spec i k); [lia|]. reflexivity.
      + destruct (Nat.ltb_spec i k), (Nat.ltb_spec i (S k)); try reflexivity; lia.
    - exists t. split; [exact E|]. apply rep_ext with (1 := H). intros i j Hi _. replace (i <? n) with true by (symmetry; apply Nat.ltb_lt; lia). rewrite andb_true_r. reflexivity.
  Qed.
  Lemma submatrix_spec n m a f i j n' m' : rep n m a f -> n <> 0 -> i <= n -> j <= m ->
    i + (if n' =? 0 then n - i else n') <= n -> j + (if m' =? 0 then m - j else m') <= m ->
    exists t, msub a i j n' m' = Some t /\ rep (if n' =? 0 then n - i else n') (if m' =? 0 then m - j else m') t (fun x y => f (i + x) (j + y)).
  Proof.
    intros Ha Hn Hi Hj Bi Bj. unfold msub. rewrite (rep_rows _ _ _ _ Ha), (rep_cols _ _ _ _ Ha Hn).
    replace (i <=? n) with true by (symmetry; apply Nat.leb_le; lia). replace (j <=? m) with true by (symmetry; apply Nat.leb_le; lia). cbn [andb guard obind].
    set (N := if n' =? 0 then n - i else n') in *. set (M := if m' =? 0 then m - j else m') in *. cbv zeta.
    destruct (for_range_spec (fun k t => length t = N /\ forall x, x < k -> exists r, nth_error t x = Some r /\ length r = M /\ forall y, y < M -> nth_error r y = Some (f (i + x) (j + y)))
      (fun k t => let* r := nth_error a (k + i) in let* _ := guard (j + M <=? length r) in set_nth t k (firstn M (skipn j r))) 0 N (repeat [] N)) as (t & E & L & H).
    - lia.
    - split; [apply repeat_length|]. intros; lia.
    - intros k t Hk (L & H). destruct Ha as (La & Ha). destruct (Ha (k + i)) as (r & Nr & Lr & Vr); [lia|]. rewrite Nr. cbn [obind].
      replace (j + M <=? length r) with true by (symmetry; apply Nat.leb_le; lia). cbn [guard obind]. destruct (set_nth_some t k (firstn M (skipn j r))) as (t' & E'); [lia|].
      exists t'. split; [exact E'|]. split; [rewrite (set_nth_length _ _ _ _ E'); exact L|]. intros x Hx. rewrite (set_get _ _ _ _ x E').
      destruct (Nat.eqb_spec x k) as [->|Nx]; [|apply H; lia]. eexists. split; [reflexivity|]. split; [rewrite firstn_length, skipn_length; lia|].
      intros y Hy. assert (FN : forall (l : list T) c y, y < c -> nth_error (firstn c l) y = nth_error l y).
      { clear. induction l as [|x l IH]; intros [|c] [|y] Hy; cbn; try reflexivity; try lia. apply IH. lia. }
      assert (SN : forall (l : list T) c y, nth_error (skipn c l) y = nth_error l (c + y)).
      { clear. induction l as [|x l IH]; intros [|c] y; cbn; try reflexivity; [destruct y; reflexivity|apply IH]. }
      rewrite FN, SN by exact Hy. rewrite Vr by lia. f_equal. f_equal. lia.
    - exists t. split; [exact E|]. split; [exact L|]. exact H.
  Qed.
End Rep.

Section Alg.
  Context {R : Type} (zero one : R) (add mul sub : R -> R -> R) (opp : R -> R).
  Hypothesis Rth : ring_theory zero one add mul sub opp (@eq R).
  Add Ring Rm : Rth.
  Local Notation rsum := (rsum zero add).

  Lemma madd_spec n m a b f g : rep n m a f -> rep n m b g -> exists c, madd add a b = Some c /\ rep n m c (fun i j => add (f i j) (g i j)).
  Proof using.
    intros Ha Hb. unfold madd. rewrite (rep_rows _ _ _ _ Ha). destruct (Nat.eq_dec n 0) as [->|Hn].
    - exists a. split; [reflexivity|]. destruct Ha as (L & _). split; [exact L|]. intros; lia.
    - rewrite (rep_cols _ _ _ _ Ha Hn). apply each_spec with (1 := Ha). intros i j Hi Hj. rewrite (rep_get _ _ _ _ i j Hb) by assumption. reflexivity.
  Qed.
  Lemma msub_spec n m a b f g : rep n m a f -> rep n m b g -> exists c, msub_ sub a b = Some c /\ rep n m c (fun i j => sub (f i j) (g i j)).
  Proof using.
    intros Ha Hb. unfold msub_. rewrite (rep_rows _ _ _ _ Ha). destruct (Nat.eq_dec n 0) as [->|Hn].
    - exists a. split; [reflexivity|]. destruct Ha as (L & _). split; [exact L|]. intros; lia.
    - rewrite (rep_cols _ _ _ _ Ha Hn). apply each_spec with (1 := Ha). intros i j Hi Hj. rewrite (rep_get _ _ _ _ i j Hb) by assumption. reflexivity.
  Qed.
  Lemma mneg_spec n m a f : n <> 0 -> m <> 0 -> rep n m a f -> exists c, mneg zero sub a = Some c /\ rep n m c (fun i j => opp (f i j)).
  Proof using Rth.
    intros Hn Hm Ha. unfold mneg, mzeroOf. rewrite (rep_get _ _ _ _ 0 0 Ha) by lia. cbn [obind]. rewrite (rep_rows _ _ _ _ Ha), (rep_cols _ _ _ _ Ha Hn).
    destruct (msub_spec n m (mnew n m zero) a _ _ (rep_new n m zero (or_introl Hm)) Ha) as (c & E & H). exists c. split; [exact E|]. apply rep_ext with (1 := H). intros. ring.
  Qed.
  Lemma msmul_spec n m a f s : rep n m a f -> exists c, msmul mul a s = Some c /\ rep n m c (fun i j => mul (f i j) s).
  Proof using.
    intros Ha. unfold msmul. rewrite (rep_rows _ _ _ _ Ha). destruct (Nat.eq_dec n 0) as [->|Hn].
    - exists a. split; [reflexivity|]. destruct Ha as (L & _). split; [exact L|]. intros; lia.
    - rewrite (rep_cols _ _ _ _ Ha Hn). apply each_spec with (1 := Ha). reflexivity.
  Qed.
  Lemma msdiv_spec n m (a : list (list R)) f tdiv (s : R) g : rep n m a f -> (forall i j, i < n -> j < m -> tdiv (f i j) s = Some (g i j)) -> exists c, msdiv tdiv a s = Some c /\ rep n m c g.
  Proof using.
    intros Ha Hd. unfold msdiv. rewrite (rep_rows _ _ _ _ Ha). destruct (Nat.eq_dec n 0) as [->|Hn].
    - exists a. split; [reflexivity|]. destruct Ha as (L & _). split; [exact L|]. intros; lia.
    - rewrite (rep_cols _ _ _ _ Ha Hn). apply each_spec with (1 := Ha). exact Hd.
  Qed.
  Lemma mmul_spec n m p a b f g : n <> 0 -> m <> 0 -> p <> 0 -> rep n m a f -> rep m p b g ->
    exists c, mmul zero add mul a b = Some c /\ rep n p c (fun i j => rsum m (fun k => mul (f i k) (g k j))).
  Proof using.
    intros Hn Hm Hp Ha Hb. unfold mmul. rewrite (rep_get _ _ _ _ 0 0 Ha) by lia. cbn [obind]. rewrite (rep_rows _ _ _ _ Ha), (rep_cols _ _ _ _ Ha Hn), (rep_cols _ _ _ _ Hb Hm).
    apply fill_spec with (1 := rep_new n p zero (or_introl Hp)). intros i j t Hi Hj.
    destruct (for_range_spec (fun k s => s = rsum k (fun k => mul (f i k) (g k j)))
      (fun k s => let* x := mget a i k in let* y := mget b k j in Some (add s (mul x y))) 0 m zero) as (s & E & ->).
    - lia.
    - reflexivity.
    - intros k s Hk ->. rewrite (rep_get _ _ _ _ i k Ha), (rep_get _ _ _ _ k j Hb) by lia. cbn [obind]. eexists. split; [reflexivity|]. rewrite rsum_S. reflexivity.
    - rewrite E. reflexivity.
  Qed.

  (** matrix algebra on entry functions *)
  Definition fmul (m : nat) (f g : nat -> nat -> R) : nat -> nat -> R := fun i j => rsum m (fun k => mul (f i k) (g k j)).
  Definition fid : nat -> nat -> R := fun i j => if i =? j then one else zero.
  Lemma fmul_assoc m p f g h i j : fmul p (fmul m f g) h i j = fmul m f (fmul p g h) i j.
  Proof using Rth.
    unfold fmul. rewrite (rsum_ext _ _ p _ (fun k => rsum m (fun l => mul (mul (f i l) (g l k)) (h k j)))).
    2:{ intros k _. rewrite (rsum_mul_r _ _ _ _ _ _ Rth). reflexivity. }
    rewrite (rsum_swap _ _ _ _ _ _ Rth). apply rsum_ext. intros l _. rewrite <- (rsum_mul_l _ _ _ _ _ _ Rth). apply rsum_ext. intros k _. ring.
  Qed.
  Lemma fmul_id_l m f i j : i < m -> fmul m fid f i j = f i j.
  Proof using Rth.
    intros Hi. unfold fmul, fid. rewrite (rsum_single _ _ _ _ _ _ Rth m _ i) by (exact Hi || (intros k _ Nk; destruct (Nat.eqb_spec i k); [lia|ring])). rewrite Nat.eqb_refl. ring.
  Qed.
  Lemma fmul_id_r m f i j : j < m -> fmul m f fid i j = f i j.
  Proof using Rth.
    intros Hj. unfold fmul, fid. rewrite (rsum_single _ _ _ _ _ _ Rth m _ j) by (exact Hj || (intros k _ Nk; destruct (Nat.eqb_spec k j); [lia|ring])). rewrite Nat.eqb_refl. ring.
  Qed.
  Lemma fmul_ext m f f' g g' n p : (forall i j, i < n -> j < m -> f i j = f' i j) -> (forall i j, i < m -> j < p -> g i j = g' i j) ->
    forall i j, i < n -> j < p -> fmul m f g i j = fmul m f' g' i j.
  Proof using. intros H1 H2 i j Hi Hj. unfold fmul. apply rsum_ext. intros k Hk. rewrite H1, H2 by assumption. reflexivity. Qed.
  Fixpoint fpow (m : nat) (f : nat -> nat -> R) (e : nat) : nat -> nat -> R := match e with O => fid | S e' => fmul m (fpow m f e') f end.
  Lemma fpow_add m f a b : forall i j, i < m -> j < m -> fpow m f (a + b) i j = fmul m (fpow m f a) (fpow m f b) i j.
  Proof using Rth.
    induction b as [|b IH]; intros i j Hi Hj.
    - rewrite Nat.add_0_r. cbn [fpow]. rewrite fmul_id_r by exact Hj. reflexivity.
    - replace (a + S b) with (S (a + b)) by lia. cbn [fpow]. rewrite <- fmul_assoc. apply (fmul_ext m _ _ _ _ m m); auto.
  Qed.
  Lemma fpow_1 m f i j : i < m -> j < m -> fpow m f 1 i j = f i j.
  Proof using Rth. intros Hi Hj. cbn [fpow]. apply fmul_id_l. exact Hi. Qed.

  Open Scope Z_scope.
  Lemma mpowT_spec n x f e : n <> O -> rep n n x f -> 0 <= e -> exists r, mpowT zero one add mul x e = Some r /\ rep n n r (fpow n f (Z.to_nat e)).
  Proof using Rth.
    intros Hn Hx He. unfold mpowT, midentityOf. rewrite (rep_get _ _ _ _ 0 0 Hx) by lia. cbn [obind]. rewrite (rep_rows _ _ _ _ Hx).
    destruct (identity_spec zero one n) as (e0 & Ee & He0). rewrite Ee. cbn [obind].
    destruct (loopZ_spec (fun '(r, x, y) =>
        if 0 <? y then
          let* r' := (if Z.rem y 2 =? 0 then Some r else mmul zero add mul r x) in
          let* x' := mmul zero add mul x x in
          Some (inl (r', x', Z.quot y 2))
        else Some (inr r))
      (fun '(r, x, y) => 0 <= y /\ exists a b, rep n n r (fpow n f a) /\ rep n n x (fpow n f b) /\ (a + b * Z.to_nat y)%nat = Z.to_nat e)
      (fun r => rep n n r (fpow n f (Z.to_nat e))) (fun '(_, _, y) => y)) with (fuel := Z.abs e + 1) (s := (e0, x, e)) as (r & E & P).
    - intros [[r y0] y] (Hy & a & b & Ga & Gb & S). destruct (Z.ltb_spec 0 y) as [Ly|Ly].
      + assert (MM : forall a b r x, rep n n r (fpow n f a) -> rep n n x (fpow n f b) -> exists c, mmul zero add mul r x = Some c /\ rep n n c (fpow n f (a + b))).
        { clear - Rth Hn. intros a b r x Hr Hx. destruct (mmul_spec n n n r x _ _ Hn Hn Hn Hr Hx) as (c & E & H). exists c. split; [exact E|].
          apply rep_ext with (1 := H). intros i j Hi Hj. rewrite fpow_add by assumption. reflexivity. }
        destruct (MM b b y0 y0 Gb Gb) as (x' & Ex & Gx).
        assert (Q : exists r' a', (if Z.rem y 2 =? 0 then Some r else mmul zero add mul r y0) = Some r' /\ rep n n r' (fpow n f a') /\ (a' = a + b * Z.to_nat (Z.rem y 2))%nat).
        { rewrite Z.rem_mod_nonneg by lia. pose proof (Z.mod_pos_bound y 2). destruct (Z.eqb_spec (y mod 2) 0) as [E0|E0].
          - exists r, a. split; [reflexivity|]. split; [exact Ga|]. rewrite E0. lia.
          - destruct (MM a b r y0 Ga Gb) as (r' & Er & Gr). exists r', (a + b)%nat. split; [exact Er|]. split; [exact Gr|]. replace (y mod 2) with 1 by lia. lia. }
        destruct Q as (r' & a' & Er & Ga' & Ea). rewrite Er. cbn [obind]. rewrite Ex. cbn [obind]. eexists. split; [reflexivity|]. cbv beta iota.
        rewrite Z.rem_mod_nonneg in Ea by lia. rewrite Z.quot_div_nonneg by lia. pose proof (Z.div_mod y 2). pose proof (Z.mod_pos_bound y 2). pose proof (Z.div_lt y 2).
        split; [|lia]. split; [lia|]. exists a', (b + b)%nat. split; [exact Ga'|]. split; [exact Gx|]. rewrite <- S, Ea.
        replace (Z.to_nat y) with (Z.to_nat (y mod 2) + 2 * Z.to_nat (y / 2))%nat by lia. lia.
      + eexists. split; [reflexivity|]. cbv beta iota. replace (Z.to_nat e) with a; [exact Ga|]. rewrite <- S. replace (Z.to_nat y) with O by lia. lia.
    - intros [[r y0] y] (Hy & _). exact Hy.
    - split; [exact He|]. exists O, 1%nat. split; [exact He0|]. split; [|lia]. apply rep_ext with (1 := Hx). intros i j Hi Hj. symmetry. apply fpow_1; assumption.
    - lia.
    - exists r. auto.
  Qed.
End Alg.
