From Coq Require Import Permutation Sorted.
From Verif Require Import Lib BaseModel BaseProofs PrimesSpec PrimesProofs PrimesProofs2 PrimesProofs3 PrimesProofs4 NumTheory DivisorsModel.
Open Scope nat_scope.

(** all products of powers, in the order of the recursion *)
Fixpoint dlist (vf : list (nat * nat)) : list nat :=
  match vf with [] => [1] | (p, e) :: vf' => flat_map (fun a => map (fun x => p ^ a * x) (dlist vf')) (seq 0 (e + 1)) end.
Definition okd (maxd d : nat) : bool := (maxd =? 0) || (d <=? maxd).
Lemma dlist_pos vf x : (forall p e, In (p, e) vf -> 0 < p) -> In x (dlist vf) -> 0 < x.
Proof.
  revert x. induction vf as [|[p e] vf IH]; intros x H Hx; cbn in Hx; [destruct Hx as [<-|[]]; lia|]. apply in_flat_map in Hx as (a & _ & Hx). apply in_map_iff in Hx as (y & <- & Hy). assert (0 < p) by (apply (H p e); now left). assert (0 < y) by (apply IH; [intros q f Hq; apply (H q f); now right|exact Hy]). pose proof (Nat.pow_nonzero p a). nia.
Qed.
Lemma filter_nil {A} (f : A -> bool) l : (forall x, In x l -> f x = false) -> filter f l = [].
Proof. induction l as [|x l IH]; intros H; [reflexivity|]. cbn. rewrite H by now left. apply IH. intros y Hy. apply H. now right. Qed.
Lemma divisors_run vf maxd : (forall p e, In (p, e) vf -> 0 < p) -> forall vd d, 0 < d -> okd maxd d = true -> divisors vd vf maxd d = Some (vd ++ filter (okd maxd) (map (fun x => d * x) (dlist vf))).
Proof.
  intros H. induction vf as [|[p e] vf IH]; intros vd d Hd Hok.
  - cbn [divisors dlist map filter]. rewrite Nat.mul_1_r, Hok. reflexivity.
  - assert (Hp : 0 < p) by (apply (H p e); now left). assert (H' : forall q f, In (q, f) vf -> 0 < q) by (intros q f Hq; apply (H q f); now right). specialize (IH H'). cbn [divisors dlist].
    match goal with |- ?F (e + 1) vd d = _ => set (lp := F) end.
    assert (G : forall k vd d', 0 < d' -> okd maxd d' = true -> lp k vd d' = Some (vd ++ filter (okd maxd) (map (fun x => d' * x) (flat_map (fun a => map (fun x => p ^ a * x) (dlist vf)) (seq 0 k))))).
    { induction k as [|k IHk]; intros v d' Hd' Hok'; [cbn; now rewrite app_nil_r|].
      change (lp (S k) v d') with (let* vd := divisors v vf maxd d' in if 0 <? maxd then (if p =? 0 then None else if maxd / p <? d' then Some vd else lp k vd (d' * p)) else lp k vd (d' * p)). rewrite IH by assumption. cbn [obind].
      cbn [seq flat_map]. rewrite map_app, filter_app, map_map. rewrite (map_ext (fun x => d' * (p ^ 0 * x)) (fun x => d' * x)) by (intros x; cbn; lia).
      assert (Sh : map (fun x => d' * x) (flat_map (fun a => map (fun x => p ^ a * x) (dlist vf)) (seq 1 k)) = map (fun x => d' * p * x) (flat_map (fun a => map (fun x => p ^ a * x) (dlist vf)) (seq 0 k))).
      { rewrite <- seq_shift. generalize (seq 0 k). induction l as [|a l IHl]; [reflexivity|]. cbn [map flat_map]. rewrite !map_app, !map_map, IHl. f_equal. apply map_ext. intros x. cbn [Nat.pow]. lia. }
      rewrite Sh. destruct (Nat.ltb_spec 0 maxd) as [Hm|Hm].
      - destruct (Nat.eqb_spec p 0); [lia|]. destruct (Nat.ltb_spec (maxd / p) d') as [Hb|Hb].
        + f_equal. f_equal. rewrite filter_nil with (l := map (fun x => d' * p * x) _), app_nil_r; [reflexivity|]. intros x Hx. apply in_map_iff in Hx as (y & <- & Hy). assert (0 < y) by (apply in_flat_map in Hy as (a & _ & Hy); apply in_map_iff in Hy as (z & <- & Hz); pose proof (dlist_pos vf z H' Hz); pose proof (Nat.pow_nonzero p a); nia). unfold okd. destruct (Nat.eqb_spec maxd 0); [lia|]. cbn [orb]. apply Nat.leb_gt. assert (maxd < d' * p). { pose proof (Nat.mul_succ_div_gt maxd p ltac:(lia)). nia. } nia.
        + rewrite IHk; [now rewrite <- app_assoc|nia|]. unfold okd. destruct (Nat.eqb_spec maxd 0); [lia|]. cbn [orb]. apply Nat.leb_le. pose proof (Nat.mul_div_le maxd p ltac:(lia)). nia.
      - rewrite IHk; [now rewrite <- app_assoc|nia|]. unfold okd. destruct (Nat.eqb_spec maxd 0); [reflexivity|lia]. }
    apply (G (e + 1)); assumption.
Qed.
Lemma product_cons p e vf : product ((p, e) :: vf) = p ^ e * product vf. Proof. reflexivity. Qed.
Lemma fact_cons p e vf n : factorisation n ((p, e) :: vf) -> is_prime p /\ 1 <= e /\ ~ Nat.divide p (product vf) /\ factorisation (product vf) vf /\ n = p ^ e * product vf /\ 0 < product vf.
Proof.
  intros (H1 & H2 & H3). cbn [map fst] in H2. inversion H2; subst. destruct (H3 p e (or_introl eq_refl)) as (P & He).
  assert (F : factorisation (product vf) vf) by (split; [reflexivity|]; split; [assumption|]; intros q f Hq; apply H3; now right).
  assert (Pos : 0 < product vf). { clear - H3. assert (G : forall q f, In (q, f) vf -> 2 <= q) by (intros q f Hq; apply prime_ge; apply (H3 q f); now right). clear H3. induction vf as [|[q f] vf IH]; [cbn; lia|]. rewrite product_cons. assert (2 <= q) by (apply (G q f); now left). assert (0 < product vf) by (apply IH; intros r g Hr; apply (G r g); now right). pose proof (Nat.pow_nonzero q f). nia. }
  split; [exact P|]. split; [exact He|]. split; [|split; [exact F|split; [now rewrite product_cons|exact Pos]]].
  assert (G : forall l, (forall q f, In (q, f) l -> is_prime q) -> Nat.divide p (product l) -> In p (map fst l)). { clear - P. induction l as [|[q f] l IH]; intros H D; [cbn in D; apply Nat.divide_1_r in D; pose proof (prime_ge p P); lia|]. rewrite product_cons in D. apply prime_euclid in D as [D|D]; [| |exact P]; cbn [map fst In]; [left; symmetry; apply (prime_divides_pow p q f); auto; apply (H q f); now left|right; apply IH; [intros r g Hr; apply (H r g); now right|exact D]]. }
  intros D. apply G in D; [contradiction|]. intros q f Hq. apply (H3 q f). now right.
Qed.
Lemma pow_split p e m d : is_prime p -> 0 < m -> ~ Nat.divide p m -> (Nat.divide d (p ^ e * m) <-> exists a x, a <= e /\ Nat.divide x m /\ d = p ^ a * x).
Proof.
  intros P Hm N. pose proof (prime_ge p P) as Hp. split.
  - revert d. induction e as [|e IH]; intros d D.
    + exists 0, d. cbn in *. rewrite Nat.add_0_r in *. split; [lia|]. split; [exact D|lia].
    + destruct (d mod p =? 0) eqn:M.
      * apply mod_div in M as [c Hc]; [|lia]. subst d. destruct (IH c) as (a & x & Ha & Hx & ->). { cbn [Nat.pow] in D. rewrite (Nat.mul_comm c p), <- Nat.mul_assoc in D. apply Nat.mul_divide_cancel_l in D; [exact D|lia]. } exists (S a), x. split; [lia|]. split; [exact Hx|]. cbn. lia.
      * apply mod_div_false in M; [|lia]. destruct (IH d) as (a & x & Ha & Hx & E). { cbn [Nat.pow] in D. rewrite <- Nat.mul_assoc in D. apply Nat.gauss in D; [exact D|]. rewrite Nat.gcd_comm. now apply prime_bezout. } exists a, x. auto.
  - intros (a & x & Ha & [c Hc] & ->). exists (p ^ (e - a) * c). rewrite Hc. replace e with (a + (e - a)) at 1 by lia. rewrite Nat.pow_add_r. lia.
Qed.
Lemma pow_unique p a b x y : is_prime p -> ~ Nat.divide p x -> ~ Nat.divide p y -> p ^ a * x = p ^ b * y -> a = b /\ x = y.
Proof.
  intros P. pose proof (prime_ge p P). revert b. induction a as [|a IH]; intros [|b] Nx Ny E; cbn [Nat.pow] in E.
  - split; lia.
  - exfalso. apply Nx. rewrite Nat.mul_1_l in E. rewrite E. exists (p ^ b * y). lia.
  - exfalso. apply Ny. rewrite Nat.mul_1_l in E. rewrite <- E. exists (p ^ a * x). lia.
  - destruct (IH b Nx Ny) as (-> & ->); [nia|auto].
Qed.
Lemma dlist_spec vf : forall n, factorisation n vf -> NoDup (dlist vf) /\ forall d, In d (dlist vf) <-> Nat.divide d n.
Proof.
  induction vf as [|[p e] vf IH]; intros n F.
  - destruct F as (E & _). cbn in E. subst n. cbn. split; [repeat constructor; auto|]. intros d. split; [intros [<-|[]]; apply Nat.divide_refl|intros D; left; symmetry; now apply Nat.divide_1_r].
  - apply fact_cons in F as (P & He & N & F & -> & Pos). destruct (IH _ F) as (ND & M). pose proof (prime_ge p P) as Hp. cbn [dlist]. assert (Nx : forall x, In x (dlist vf) -> ~ Nat.divide p x) by (intros x Hx D; apply N; etransitivity; [exact D|now apply M]). split.
    + assert (G : forall k, NoDup (flat_map (fun a => map (fun x => p ^ a * x) (dlist vf)) (seq 0 k))). { induction k as [|k IHk]; [constructor|]. rewrite seq_S, flat_map_app. cbn [flat_map]. rewrite app_nil_r. cbn [Nat.add].
        assert (ND2 : NoDup (map (fun x => p ^ k * x) (dlist vf))) by (apply FinFun.Injective_map_NoDup; [|exact ND]; intros x y Exy; pose proof (Nat.pow_nonzero p k); nia).
        assert (Dis : forall x, In x (flat_map (fun a => map (fun x => p ^ a * x) (dlist vf)) (seq 0 k)) -> ~ In x (map (fun x => p ^ k * x) (dlist vf))). { intros x Hx Hx'. apply in_flat_map in Hx as (a & Ha & Hx). apply in_seq in Ha. apply in_map_iff in Hx as (u & <- & Hu). apply in_map_iff in Hx' as (w & E & Hw). apply pow_unique in E as (E & _); auto. lia. }
        revert IHk Dis. generalize (flat_map (fun a => map (fun x => p ^ a * x) (dlist vf)) (seq 0 k)). induction l as [|z l IHl]; intros A B; [exact ND2|]. cbn. inversion A; subst. constructor; [|apply IHl; [assumption|intros x Hx; apply B; now right]]. intros I. apply in_app_or in I as [I|I]; [contradiction|]. apply (B z); [now left|exact I]. }
      apply G.
    + intros d. rewrite (pow_split p e (product vf) d P Pos N), in_flat_map. split.
      * intros (a & Ha & Hx). apply in_seq in Ha. apply in_map_iff in Hx as (x & <- & Hx). exists a, x. split; [lia|]. split; [now apply M|reflexivity].
      * intros (a & x & Ha & Hx & ->). exists a. split; [apply in_seq; lia|]. apply in_map_iff. exists x. split; [reflexivity|now apply M].
Qed.
Lemma fact_pos n vf : factorisation n vf -> 0 < n.
Proof. intros F. destruct vf as [|[p e] vf]; [destruct F as (E & _); cbn in E; lia|]. apply fact_cons in F as (P & _ & _ & _ & -> & H). pose proof (prime_ge p P). pose proof (Nat.pow_nonzero p e). nia. Qed.
Lemma divisors_of_in n d : 0 < n -> (In d (divisors_of n) <-> Nat.divide d n).
Proof.
  intros Hn. unfold divisors_of. rewrite filter_In, in_seq. split.
  - intros (A & B). apply mod_div in B; [exact B|lia].
  - intros D. pose proof (div_le d n Hn D). assert (0 < d) by (destruct d; [destruct D as [c Hc]; lia|lia]). split; [lia|]. apply mod_div; [lia|exact D].
Qed.
Lemma dlist_perm n vf : factorisation n vf -> Permutation (dlist vf) (divisors_of n).
Proof. intros F. destruct (dlist_spec vf n F) as (ND & M). apply NoDup_Permutation; [exact ND|apply NoDup_filter, seq_NoDup|]. intros d. rewrite M, divisors_of_in; [reflexivity|now apply (fact_pos n vf)]. Qed.
Lemma fact_first_pos n vf p e : factorisation n vf -> In (p, e) vf -> 0 < p.
Proof. intros (_ & _ & H) I. apply H in I as (P & _). pose proof (prime_ge p P). lia. Qed.
Lemma filter_perm {A} (f : A -> bool) a b : Permutation a b -> Permutation (filter f a) (filter f b).
Proof. induction 1; cbn; [constructor|destruct (f x); [now constructor|assumption]|destruct (f x), (f y); try constructor; apply Permutation_refl|eapply Permutation_trans; eassumption]. Qed.
Lemma divisors_perm n vf maxd vd : factorisation n vf -> exists l, divisors vd vf maxd 1 = Some (vd ++ l) /\ Permutation l (filter (fun d => (maxd =? 0) || (d <=? maxd)) (divisors_of n)).
Proof.
  intros F. rewrite divisors_run; [|intros p e; now apply (fact_first_pos n vf)|lia|unfold okd; destruct (Nat.eqb_spec maxd 0); cbn [orb]; [reflexivity|apply Nat.leb_le; lia]]. eexists. split; [reflexivity|]. rewrite (map_ext (fun x => 1 * x) (fun x => x)) by (intros; lia). rewrite map_id. apply filter_perm. now apply dlist_perm.
Qed.
Lemma sorted_perm_unique (a b : list nat) : Permutation a b -> StronglySorted lt a -> LocallySorted le b -> a = b.
Proof.
  intros P SA SB. apply Sorted_LocallySorted_iff in SB. apply Sorted_StronglySorted in SB; [|intros x y z; lia]. revert b P SB. induction a as [|x a IH]; intros b P SB; [symmetry; now apply Permutation_nil|]. destruct b as [|y b]; [apply Permutation_sym, Permutation_nil in P; discriminate|]. inversion SA; subst. inversion SB; subst. rewrite Forall_forall in H2, H4.
  assert (x = y). { assert (In x (y :: b)) by (eapply Permutation_in; [exact P|now left]). assert (In y (x :: a)) by (eapply Permutation_in; [apply Permutation_sym; exact P|now left]). destruct H as [->|H]; [reflexivity|]. destruct H0 as [->|H0]; [reflexivity|]. specialize (H4 x H). specialize (H2 y H0). lia. }
  subst. f_equal. apply IH; auto. now apply Permutation_cons_inv in P.
Qed.
Lemma seq_sorted a k : StronglySorted lt (seq a k).
Proof. revert a. induction k as [|k IH]; intros a; [constructor|]. cbn. constructor; [apply IH|]. rewrite Forall_forall. intros x Hx. apply in_seq in Hx. lia. Qed.
Lemma filter_sorted f l : StronglySorted lt l -> StronglySorted lt (filter f l).
Proof. induction 1 as [|x l H IH HF]; [constructor|]. cbn. destruct (f x); [|exact IH]. constructor; [exact IH|]. rewrite Forall_forall in *. intros y Hy. apply HF. now apply filter_In in Hy. Qed.
