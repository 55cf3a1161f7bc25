From Coq Require Import Permutation Sorted.
From Verif Require Import Lib BaseModel BaseProofs PrimesSpec PrimesProofs PrimesProofs2 PrimesProofs3 PrimesProofs4 NumTheory DivisorsModel DivisorsProofs.
Open Scope nat_scope.

Lemma dlist_length vf : length (dlist vf) = fold_right (fun '(_, e) a => (e + 1) * a) 1 vf.
Proof.
  induction vf as [|[p e] vf IH]; [reflexivity|]. cbn [dlist fold_right]. rewrite <- IH. assert (G : forall k a, length (flat_map (fun a => map (fun x => p ^ a * x) (dlist vf)) (seq a k)) = k * length (dlist vf)). { induction k as [|k IHk]; intros a; [reflexivity|]. cbn [seq flat_map]. rewrite app_length, map_length, IHk. lia. } apply G.
Qed.
Lemma sigma0_run vf n : factorisation n vf -> sigma0_of vf = Z.of_nat (length (divisors_of n)).
Proof.
  intros F. rewrite <- (Permutation_length (dlist_perm n vf F)), dlist_length. unfold sigma0_of. assert (G : forall (l : list (nat * nat)) r, fold_left (fun r '(_, e) => r * (Z.of_nat e + 1))%Z l r = (r * Z.of_nat (fold_right (fun '(_, e) a => (e + 1) * a)%nat 1%nat l))%Z). { induction l as [|[p e] l IH]; intros r; cbn [fold_left fold_right]; [lia|]. rewrite IH. nia. } rewrite (G vf 1%Z). apply Z.mul_1_l.
Qed.
Lemma powT_nat p e : powT Z.mul 1%Z (Z.of_nat p) (Z.of_nat e) = Some (Z.of_nat (p ^ e)).
Proof.
  rewrite powT_npow; [|intros; ring|intros; ring|intros; ring|lia]. f_equal. rewrite Nat2Z.id. induction e as [|e IH]; [reflexivity|]. cbn [npow Nat.pow]. rewrite IH. lia.
Qed.
Lemma phi_run vf n : factorisation n vf -> phi_of vf = Some (Z.of_nat (totient n)).
Proof.
  intros F. unfold phi_of. assert (G : forall l m r, factorisation m l -> fold_left (fun r '(p, e) => let* r := r in let* w := powT Z.mul 1%Z (Z.of_nat p) (Z.of_nat e - 1) in Some (r * (w * (Z.of_nat p - 1)))%Z) l (Some r) = Some (r * Z.of_nat (totient m))%Z).
  { induction l as [|[p e] l IH]; intros m r Fm; [destruct Fm as (E & _); cbn in E; subst; cbn [fold_left]; rewrite totient_1; f_equal; lia|]. apply fact_cons in Fm as (P & He & N & Fl & -> & Pos). pose proof (prime_ge p P). cbn [fold_left obind]. replace (Z.of_nat e - 1)%Z with (Z.of_nat (e - 1)) by lia. rewrite powT_nat. cbn [obind]. rewrite (IH _ _ Fl). f_equal. destruct e as [|e]; [lia|]. rewrite totient_step by assumption. replace (S e - 1) with e by lia. replace (Z.of_nat p - 1)%Z with (Z.of_nat (p - 1)) by lia. lia. }
  rewrite (G vf n 1%Z F). f_equal. lia.
Qed.

(** ** signed squarefree divisors *)
Fixpoint slist (vf : list (nat * nat)) : list Z := match vf with [] => [1%Z] | (p, _) :: vf' => slist vf' ++ map (fun y => - Z.of_nat p * y)%Z (slist vf') end.
Lemma signed_run vf : forall vd d, squarefree_signed_divisors vd vf d = vd ++ map (fun y => d * y)%Z (slist vf).
Proof.
  induction vf as [|[p e] vf IH]; intros vd d; cbn [squarefree_signed_divisors slist]; [cbn [map]; now rewrite Z.mul_1_r|]. rewrite !IH, map_app, map_map, <- app_assoc. f_equal. f_equal. apply map_ext. intros y. ring.
Qed.
Lemma sqfree_dec x : 0 < x -> (forall r, is_prime r -> ~ Nat.divide (r * r) x) \/ exists r, is_prime r /\ Nat.divide (r * r) x.
Proof.
  intros Hx. destruct (existsb (fun r => primeb r && (x mod (r * r) =? 0)) (seq 0 (S x))) eqn:E.
  - right. apply existsb_exists in E as (r & _ & E). apply andb_prop in E as (E1 & E2). apply primeb_spec in E1. exists r. split; [exact E1|]. pose proof (prime_ge r E1). apply mod_div in E2; [exact E2|nia].
  - left. intros r P D. pose proof (prime_ge r P). assert (X : existsb (fun r => primeb r && (x mod (r * r) =? 0)) (seq 0 (S x)) = true); [|congruence]. apply existsb_exists. exists r. split; [apply in_seq; pose proof (div_le _ _ Hx D); nia|]. rewrite (proj2 (primeb_spec r) P). cbn [andb]. apply mod_div; [nia|exact D].
Qed.
Lemma mobius_cases x : 0 < x -> (mobius x = 0%Z \/ mobius x = 1%Z \/ mobius x = (-1)%Z).
Proof.
  intros Hx. destruct (sqfree_dec x Hx) as [H|(r & P & D)]; [|left; now apply (mobius_square x r)]. right. rewrite mobius_squarefree by assumption. generalize (length (prime_divisors x)). induction n as [|n IH]; [now left|]. rewrite Nat2Z.inj_succ, Z.pow_succ_r by lia. lia.
Qed.
Lemma mobius_mul p x : is_prime p -> 0 < x -> ~ Nat.divide p x -> mobius (p * x) = (- mobius x)%Z.
Proof.
  intros P Hx N. pose proof (prime_ge p P). destruct (sqfree_dec x Hx) as [H0|(r & Pr & D)].
  - rewrite (mobius_squarefree x) by assumption. rewrite mobius_squarefree; [|nia|].
    + assert (L : length (prime_divisors (p * x)) = S (length (prime_divisors x))). { change (S (length (prime_divisors x))) with (length (p :: prime_divisors x)). apply Permutation_length, NoDup_Permutation; [apply prime_divisors_nodup| |]. - constructor; [|apply prime_divisors_nodup]. intros I. apply prime_divisors_in in I as (_ & _ & D). contradiction. - intros q. cbn [In]. rewrite !prime_divisors_in. split. + intros (_ & Pq & D). apply prime_euclid in D as [D|D]; [left; symmetry; now apply prime_divides_prime|right; auto|exact Pq]. + intros [<-|(_ & Pq & D)]; [split; [nia|]; split; [exact P|apply Nat.divide_factor_l]|split; [nia|]; split; [exact Pq|now apply Nat.divide_mul_r]]. }
      rewrite L, Nat2Z.inj_succ, Z.pow_succ_r by lia. lia.
    + intros r Pr D. destruct (Nat.eq_dec r p) as [->|Ne].
      * apply Nat.mul_divide_cancel_l in D; [contradiction|lia].
      * apply (H0 r Pr). apply Nat.gauss in D; [exact D|]. apply coprime_mul; rewrite Nat.gcd_comm; apply prime_bezout; auto; intros D'; apply prime_divides_prime in D'; auto.
  - rewrite (mobius_square x r Hx Pr D). rewrite (mobius_square (p * x) r); [reflexivity|nia|exact Pr|now apply Nat.divide_mul_r].
Qed.
Lemma mobius_sq p x : is_prime p -> 0 < x -> Nat.divide p x -> mobius (p * x) = 0%Z.
Proof. intros P Hx D. pose proof (prime_ge p P). apply (mobius_square _ p); [nia|exact P|]. now apply Nat.mul_divide_mono_l. Qed.
Lemma slist_spec vf : forall n, factorisation n vf -> NoDup (slist vf) /\ forall y, In y (slist vf) <-> exists d, Nat.divide d n /\ mobius d <> 0%Z /\ y = (mobius d * Z.of_nat d)%Z.
Proof.
  induction vf as [|[p e] vf IH]; intros n F.
  - destruct F as (E & _). cbn in E. subst n. cbn [slist]. split; [repeat constructor; auto|]. intros y. split; [intros [<-|[]]; exists 1; split; [apply Nat.divide_refl|]; split; [discriminate|reflexivity]|]. intros (d & D & _ & ->). apply Nat.divide_1_r in D. subst. now left.
  - apply fact_cons in F as (P & He & N & F & -> & Pos). destruct (IH _ F) as (ND & M). pose proof (prime_ge p P) as Hp. cbn [slist].
    assert (Hd : forall d, Nat.divide d (product vf) -> 0 < d /\ ~ Nat.divide p d). { intros d D. split; [destruct d; [destruct D; lia|lia]|]. intros D'. apply N. etransitivity; eassumption. }
    split.
    + assert (ND2 : NoDup (map (fun y => - Z.of_nat p * y)%Z (slist vf))) by (apply FinFun.Injective_map_NoDup; [intros x y E; nia|exact ND]).
      assert (Dis : forall y, In y (slist vf) -> ~ In y (map (fun y => - Z.of_nat p * y)%Z (slist vf))).
      { intros y Hy Hy'. apply in_map_iff in Hy' as (z & E & _). apply M in Hy as (d & D & Md & ->). destruct (Hd d D) as (Hd0 & Nd). apply Nd. destruct (mobius_cases d Hd0) as [X|[X|X]]; [contradiction| |]; rewrite X in E; (exists (Z.to_nat (Z.abs z))); nia. }
      revert ND Dis. generalize (slist vf) at 1 2 4. induction l as [|z l IHl]; intros A B; [exact ND2|]. cbn. inversion A; subst. constructor; [|apply IHl; [assumption|intros x Hx; apply B; now right]]. intros I. apply in_app_or in I as [I|I]; [contradiction|]. apply (B z); [now left|exact I].
    + intros y. rewrite in_app_iff, in_map_iff. split.
      * intros [Hy|(z & <- & Hz)].
        -- apply M in Hy as (d & D & Md & ->). exists d. split; [now apply Nat.divide_mul_r|]. auto.
        -- apply M in Hz as (d & D & Md & ->). destruct (Hd d D) as (Hd0 & Nd). exists (p * d). rewrite mobius_mul by assumption. split; [|split; [lia|lia]]. destruct e as [|e]; [lia|]. cbn [Nat.pow]. rewrite <- Nat.mul_assoc. apply Nat.mul_divide_mono_l. now apply Nat.divide_mul_r.
      * intros (d & D & Md & ->). apply (pow_split p e (product vf) d P Pos N) in D as (a & x & Ha & Dx & ->). destruct (Hd x Dx) as (Hx0 & Nx). destruct a as [|[|a]].
        -- left. apply M. exists x. cbn [Nat.pow] in *. rewrite Nat.mul_1_l in *. auto.
        -- right. rewrite Nat.pow_1_r in *. rewrite mobius_mul in * by assumption. exists (mobius x * Z.of_nat x)%Z. split; [lia|]. apply M. exists x. split; [exact Dx|]. split; [lia|reflexivity].
        -- exfalso. apply Md. replace (p ^ S (S a) * x) with (p * (p * (p ^ a * x))) by (cbn; lia). apply mobius_sq; [exact P| |apply Nat.divide_factor_l]. pose proof (Nat.pow_nonzero p a). nia.
Qed.
Lemma signed_perm n vf vd : factorisation n vf -> exists l, squarefree_signed_divisors vd vf 1 = vd ++ l /\ Permutation l (map (fun d => mobius d * Z.of_nat d)%Z (filter (fun d => negb (mobius d =? 0)%Z) (divisors_of n))).
Proof.
  intros F. rewrite signed_run. eexists. split; [reflexivity|]. rewrite (map_ext (fun y => 1 * y)%Z (fun y => y)) by (intros; ring). rewrite map_id. destruct (slist_spec vf n F) as (ND & M). pose proof (fact_pos n vf F) as Hn. apply NoDup_Permutation; [exact ND| |].
  - assert (Inj : forall x y, In x (filter (fun d => negb (mobius d =? 0)%Z) (divisors_of n)) -> In y (filter (fun d => negb (mobius d =? 0)%Z) (divisors_of n)) -> (mobius x * Z.of_nat x)%Z = (mobius y * Z.of_nat y)%Z -> x = y).
    { intros x y Hx Hy E. apply filter_In in Hx as (Hx & Mx). apply filter_In in Hy as (Hy & My). apply negb_true_iff, Z.eqb_neq in Mx, My. apply divisors_of_in in Hx; [|exact Hn]. apply divisors_of_in in Hy; [|exact Hn]. assert (0 < x) by (destruct x; [destruct Hx; lia|lia]). assert (0 < y) by (destruct y; [destruct Hy; lia|lia]). destruct (mobius_cases x) as [A|[A|A]], (mobius_cases y) as [B|[B|B]]; auto; rewrite A, B in E; lia. }
    assert (ND' : NoDup (filter (fun d => negb (mobius d =? 0)%Z) (divisors_of n))) by (apply NoDup_filter, NoDup_filter, seq_NoDup). revert Inj ND'. generalize (filter (fun d => negb (mobius d =? 0)%Z) (divisors_of n)). induction l as [|x l IH]; intros Inj ND'; [constructor|]. cbn [map]. inversion ND'; subst. constructor; [|apply IH; [intros u v Hu Hv; apply Inj; now right|assumption]]. intros I. apply in_map_iff in I as (y & E & Hy). apply Inj in E; [subst; contradiction|now right|now left].
  - intros y. rewrite M, in_map_iff. split.
    + intros (d & D & Md & ->). exists d. split; [reflexivity|]. apply filter_In. split; [now apply divisors_of_in|]. now apply negb_true_iff, Z.eqb_neq.
    + intros (d & <- & H). apply filter_In in H as (H1 & H2). exists d. split; [now apply divisors_of_in in H1|]. apply negb_true_iff, Z.eqb_neq in H2. auto.
Qed.

(** ** digits *)
Open Scope Z_scope.
Lemma from_digits_app b l x : from_digits (l ++ [x]) b = x * b ^ Z.of_nat (length l) + from_digits l b.
Proof.
  unfold from_digits. rewrite rev_app_distr. cbn [rev app fold_left]. assert (G : forall m a, fold_left (fun n y => n * b + y) m a = a * b ^ Z.of_nat (length m) + fold_left (fun n y => n * b + y) m 0). { induction m as [|y m IH]; intros a; cbn [fold_left length]; [cbn; ring|]. rewrite (IH (a * b + y)), (IH (0 * b + y)). rewrite Nat2Z.inj_succ, Z.pow_succ_r by lia. ring. }
  rewrite G, rev_length. ring.
Qed.
Lemma from_digits_zeros b l k : from_digits (l ++ repeat 0 k) b = from_digits l b.
Proof. induction k as [|k IH]; [now rewrite app_nil_r|]. replace (repeat 0 (S k)) with (repeat 0 k ++ [0]) by (cbn [repeat]; now rewrite repeat_cons). rewrite app_assoc, from_digits_app, IH. ring. Qed.
Lemma integer_digits_run n b len : 2 <= b -> exists vd, integer_digits n b len = Some vd /\ from_digits vd b = Z.max n 0 /\ Forall (fun x => 0 <= x < b) vd /\ len <= Z.of_nat (length vd) /\
  (0 < Z.of_nat (length vd) -> len < Z.of_nat (length vd) -> last vd 0 <> 0).
Proof.
  intros Hb. unfold integer_digits.
  match goal with |- context [loopZ ?fu ?g ?st] => destruct (loopZ_spec g
    (fun '(t, vd) => from_digits vd b + t * b ^ Z.of_nat (length vd) = n /\ Forall (fun x => 0 <= x < b) vd /\ (n <= 0 -> t = n /\ vd = []) /\ (0 < n -> 0 <= t) /\ (t = 0 -> vd <> [] -> last vd 0 <> 0) /\ (t <= 0 -> 0 < n -> t = 0))
    (fun vd => from_digits vd b = Z.max n 0 /\ Forall (fun x => 0 <= x < b) vd /\ (vd <> [] -> last vd 0 <> 0)) (fun '(t, _) => Z.max 0 t)) with (fuel := fu) (s := st) as (vd & E & H1 & H2 & H3) end.
  - intros [t vd] (A & B & C & D & L & M). destruct (Z.ltb_spec 0 t) as [Ht|Ht].
    + unfold cdiv, cmod. destruct (Z.eqb_spec b 0); [lia|]. cbn [obind]. eexists. split; [reflexivity|]. cbv beta iota. pose proof (Z.quot_rem t b ltac:(lia)) as QR. pose proof (Z.rem_bound_pos t b ltac:(lia) ltac:(lia)) as RB. assert (0 <= Z.quot t b) by (apply Z.quot_pos; lia). assert (Z.quot t b < t) by (apply Z.quot_lt; lia).
      split; [|lia]. split; [rewrite from_digits_app, app_length; cbn [length]; rewrite Nat2Z.inj_add, Z.pow_add_r by lia; change (Z.of_nat 1) with 1; rewrite Z.pow_1_r, <- A; assert (X : t * b ^ Z.of_nat (length vd) = (b * Z.quot t b + Z.rem t b) * b ^ Z.of_nat (length vd)) by (now rewrite <- QR); rewrite X; ring|].
      split; [apply Forall_app; split; [exact B|repeat constructor; lia]|]. assert (0 < n) by (destruct (Z.lt_ge_cases 0 n) as [|X]; [assumption|destruct (C X); lia]). split; [lia|]. split; [lia|]. split; [|lia]. intros Q _. rewrite last_last. nia.
    + eexists. split; [reflexivity|]. destruct (Z.lt_ge_cases 0 n) as [X|X].
      * assert (t = 0) as -> by (apply M; assumption). split; [rewrite Z.max_l by lia; lia|]. split; [exact B|]. now apply L.
      * destruct (C X) as (-> & ->). cbn. split; [lia|]. split; [constructor|congruence].
  - intros [t vd] _. lia.
  - cbn. split; [lia|]. split; [constructor|]. split; [auto|]. split; [lia|]. split; [congruence|lia].
  - lia.
  - rewrite E. cbn [obind]. eexists. split; [reflexivity|]. split; [now rewrite from_digits_zeros|]. split; [apply Forall_app; split; [exact H2|]; rewrite Forall_forall; intros x Hx; apply repeat_spec in Hx; lia|]. rewrite app_length, repeat_length. split; [lia|]. intros X Y. assert (Z.to_nat len - length vd = 0)%nat as -> by lia. cbn [repeat]. rewrite app_nil_r. apply H3. intros ->. cbn in *. lia.
Qed.
Lemma string_run vd : Forall (fun x => 0 <= x < 36) vd -> string_of_digits vd = Some (map (fun x => nth (Z.to_nat x) digit_table 0) (rev vd)).
Proof.
  intros H. unfold string_of_digits. assert (H' : Forall (fun x => 0 <= x < 36) (rev vd)) by now apply Forall_rev. assert (G : forall l s, Forall (fun x => 0 <= x < 36) l -> fold_left (fun s x => let* s := s in if x <? 0 then None else let* c := nth_error digit_table (Z.to_nat x) in Some (s ++ [c])) l (Some s) = Some (s ++ map (fun x => nth (Z.to_nat x) digit_table 0) l)).
  { induction l as [|x l IH]; intros s Hl; [cbn; now rewrite app_nil_r|]. inversion Hl; subst. cbn [fold_left obind map]. destruct (Z.ltb_spec x 0); [lia|]. rewrite (nth_error_nth' digit_table 0) by (cbn [digit_table length]; lia). cbn [obind]. rewrite IH by assumption. now rewrite <- app_assoc. }
  now apply (G (rev vd) []).
Qed.
