From Coq Require Import Permutation Znumtheory.
From Verif Require Import Lib BaseModel BaseProofs PermModel PermSpec PermProofs PermProofs2 PermProofs3.
Open Scope nat_scope.

(** whatever r the cycles rs denote, r^T agrees with s on xs *)
Definition powers_to (T : nat) (s : nat -> nat) (rs : list cycle) (xs : list nat) : Prop := forall r, (forall c, In c rs -> cyc_ok r c) -> forall x, In x xs -> Nat.iter T r x = s x.
Lemma swaps_app a b : swaps (a ++ b) = swaps a + swaps b.
Proof. unfold swaps. now rewrite map_app, list_sum_app. Qed.
Lemma swaps_one c : swaps [c] = length c - 1.
Proof. unfold swaps. cbn. lia. Qed.

(** the parameters: T = t * g, t coprime to l; when doubled, t is even *)
Lemma groups_run (b : list cycle) l s t g k (dbl : bool) : 1 <= l -> 1 <= g -> length b = g * k -> (forall c, In c b -> length c = l /\ cyc_ok s c) -> NoDup (concat b) -> Nat.gcd l t = 1 ->
  (dbl = true -> 2 <= k /\ exists t', t = t' * 2 /\ Nat.gcd l t' = 1) ->
  exists res, root_groups b l (Z.of_nat (t * g)) g dbl = Some res /\ Permutation (concat res) (concat b) /\ powers_to (t * g) s res (concat b) /\ ~ In [] res /\
    swaps res + k = g * k * l + (if dbl then 1 else 0) * (if k =? 0 then 0 else 1).
Proof.
  intros Hl Hg Lb Hc ND Co Dbl. unfold root_groups, cycle in *.
  match goal with |- context [loopZ _ ?f _] => destruct (loopZ_spec f
    (fun '(i, res) => exists q, i = g * q /\ q <= k /\ (dbl = true -> q = 0 \/ 2 <= q) /\ Permutation (concat res) (concat (firstn i b)) /\ powers_to (t * g) s res (concat (firstn i b)) /\ ~ In [] res /\
       swaps res + q = g * q * l + (if dbl then 1 else 0) * (if q =? 0 then 0 else 1))
    (fun res => Permutation (concat res) (concat b) /\ powers_to (t * g) s res (concat b) /\ ~ In [] res /\ swaps res + k = g * k * l + (if dbl then 1 else 0) * (if k =? 0 then 0 else 1))
    (fun '(i, _) => Z.of_nat (length b) - Z.of_nat i)%Z) with (fuel := (Z.of_nat (length b) + 2)%Z) (s := (0, @nil (list nat))) as (res & E & H) end.
  - intros [i res] (q & -> & Hq & Hdq & P & S & Ne & W). destruct (Nat.leb_spec (length b) (g * q)) as [Hle|Hlt].
    + eexists. split; [reflexivity|]. assert (q = k) as -> by nia. rewrite firstn_all2 in * by lia. repeat split; assumption.
    + assert (Hqk : q < k) by nia.
      set (G := if dbl && (g * q =? 0) then g * 2 else g).
      assert (HG : exists t' e, t * g = t' * G /\ Nat.gcd l t' = 1 /\ G = g * e /\ q + e <= k /\ 1 <= e /\ (dbl = true -> 2 <= q + e) /\ (e = if dbl && (q =? 0) then 2 else 1)).
      { unfold G. assert (Eq0 : (g * q =? 0) = (q =? 0)) by (destruct (Nat.eqb_spec (g * q) 0), (Nat.eqb_spec q 0); auto; nia). rewrite Eq0. destruct dbl; cbn [andb].
        - destruct (Dbl eq_refl) as (H2 & t' & Et & Ct). destruct (Nat.eqb_spec q 0).
          + exists t', 2. repeat split; auto; try lia.
          + exists t, 1. destruct (Hdq eq_refl); repeat split; auto; try lia.
        - exists t, 1. repeat split; auto; try lia. }
      destruct HG as (t' & e & Et & Ct & EG & Hqe & He & Hde & Ee). rewrite Et.
      assert (Hb : g * q + G <= length b) by (rewrite Lb, EG; nia).
      destruct (combine_run b l t' (g * q) G Hl ltac:(nia) Hb) as (c & Ec & M); [intros c Hcb; now apply Hc|exact Ct|]. rewrite Ec. cbn [obind]. eexists. split; [reflexivity|].
      assert (Sp : firstn (g * q + G) b = firstn (g * q) b ++ firstn G (skipn (g * q) b)).
      { rewrite <- (firstn_skipn (g * q) b) at 1. rewrite firstn_app. rewrite firstn_length_le by lia. rewrite firstn_all2 by (rewrite firstn_length_le; lia). f_equal. f_equal. lia. }
      assert (Lsk : G <= length (skipn (g * q) b)) by (rewrite skipn_length; lia).
      assert (Isk : forall c, In c (skipn (g * q) b) -> In c b) by (intros x Hx; rewrite <- (firstn_skipn (g * q) b); apply in_or_app; now right).
      assert (NDs : NoDup (concat (firstn G (skipn (g * q) b)))).
      { rewrite <- (firstn_skipn (g * q) b), concat_app in ND. apply nodup_app_l in ND as (_ & ND & _). rewrite <- (firstn_skipn G (skipn (g * q) b)), concat_app in ND. now apply nodup_app_l in ND as (ND & _). }
      pose proof (merged_perm _ l t' G c Hl ltac:(nia) Lsk (fun x Hx => proj1 (Hc x (Isk x Hx))) NDs M) as Pm. pose proof M as (Lc & _).
      split.
      * exists (q + e). split; [rewrite EG; ring|]. split; [exact Hqe|]. split; [intros Hd; right; auto|]. rewrite Sp, !concat_app. cbn [concat]. rewrite app_nil_r. split; [now apply Permutation_app|]. split.
        { intros r Hr x Hx. apply in_app_or in Hx as [Hx|Hx]; [rewrite <- Et; apply S; [intros c' Hc'; apply Hr, in_or_app; now left|exact Hx]|].
          apply (merged_step (skipn (g * q) b) l t' G c r s Hl ltac:(nia) Lsk); [intros y Hy; now apply Hc, Isk|exact M|apply Hr, in_or_app; right; now left|intros y Hy; now apply Hc, Isk|exact Hx]. }
        split. { intros X. apply in_app_or in X as [X|[X|[]]]; [contradiction|]. rewrite X in Lc. cbn in Lc. nia. }
        rewrite swaps_app, swaps_one, Lc, EG. assert (g * e * l >= e) by nia. destruct (Nat.eqb_spec (q + e) 0); [lia|]. rewrite Nat.mul_1_r.
        assert (Ed : (if dbl then 1 else 0) * (if q =? 0 then 0 else 1) + (e - 1) = (if dbl then 1 else 0)) by (rewrite Ee; destruct dbl; cbn [andb]; [|reflexivity]; destruct (q =? 0); reflexivity). nia.
      * nia.
  - intros [i res] (q & -> & Hq & _). nia.
  - exists 0. split; [lia|]. split; [lia|]. split; [auto|]. cbn. split; [constructor|]. split; [intros r Hr x []|]. split; [auto|]. unfold swaps. cbn. lia.
  - lia.
  - exists res. split; [exact E|exact H].
Qed.

(** one length: the conditions the scan establishes *)
Definition bucket_ok (vc : list cycle) (T : Z) (l : nat) : Prop := bucket vc l = [] \/ exists g G, root_len l T = Some (Z.of_nat l * g, g, G)%Z /\ (g | Z.of_nat (length (bucket vc l)))%Z.
Definition double_ok (vc : list cycle) (T : Z) (l : nat) : Prop := bucket vc l <> [] /\ exists g, root_len l T = Some (Z.of_nat l * g, g, g * 2)%Z /\ (g * 2 <= Z.of_nat (length (bucket vc l)))%Z.
Definition cost (vc : list cycle) (T : Z) (l : nat) : Z := match bucket vc l with [] => 0%Z | b => match root_len l T with Some (L, g, _) => ((L - 1) * Z.quot (Z.of_nat (length b)) g)%Z | None => 0%Z end end.
Definition costs (vc : list cycle) (T : Z) (ls : list nat) : Z := fold_right (fun l a => (cost vc T l + a)%Z) 0%Z ls.

Lemma cost_some vc T l L g G : bucket vc l <> [] -> root_len l T = Some (L, g, G) -> cost vc T l = ((L - 1) * Z.quot (Z.of_nat (length (bucket vc l))) g)%Z.
Proof. intros H E. unfold cost. rewrite E. destruct (bucket vc l); [easy|reflexivity]. Qed.
Lemma cost_none vc T l : bucket vc l = [] -> cost vc T l = 0%Z.
Proof. intros H. unfold cost. now rewrite H. Qed.
Lemma costs_cons vc T l ls : costs vc T (l :: ls) = (cost vc T l + costs vc T ls)%Z.
Proof. reflexivity. Qed.
Section Root.
  Variables (vc : list cycle) (n : nat) (s : nat -> nat) (T : Z).
  Hypothesis ND : NoDup (concat vc).
  Hypothesis Ne : ~ In [] vc.
  Hypothesis Cy : forall c, In c vc -> cyc_ok s c.
  Hypothesis HT : (1 <= T)%Z.
  Lemma bucket_in l c : In c (bucket vc l) <-> In c vc /\ length c = l.
  Proof. unfold bucket. rewrite filter_In, Nat.eqb_eq. reflexivity. Qed.
  Lemma bucket_pos l : bucket vc l <> [] -> 1 <= l.
  Proof. intros H. destruct (bucket vc l) as [|c b] eqn:E; [easy|]. assert (In c (bucket vc l)) as X by (rewrite E; now left). apply bucket_in in X as (X & L). destruct c; [contradiction|cbn in L; lia]. Qed.
  Lemma scan_run ls : forall plen tr, exists r, root_scan vc T ls plen tr = Some r /\
    ((r = None /\ exists l, In l ls /\ ~ bucket_ok vc T l) \/
     (exists pl, r = Some (pl, (tr + costs vc T ls)%Z) /\ (forall l, In l ls -> bucket_ok vc T l) /\ (pl = plen \/ exists l, pl = Some l /\ In l ls /\ double_ok vc T l))).
  Proof.
    induction ls as [|l ls IH]; intros plen tr; cbn [root_scan].
    - eexists. split; [reflexivity|]. right. exists plen. split; [cbn; do 2 f_equal; lia|]. split; [intros l []|now left].
    - destruct (bucket vc l) as [|b0 b'] eqn:Eb.
      + destruct (IH plen tr) as (r & E & [(-> & l' & Hl & Hn)|(pl & -> & Ok & Hp)]); rewrite E; eexists; (split; [reflexivity|]).
        * left. split; [reflexivity|]. exists l'. split; [now right|exact Hn].
        * right. exists pl. split; [rewrite costs_cons, (cost_none _ _ _ Eb); reflexivity|]. split; [intros l' [<-|Hl]; [left; exact Eb|now apply Ok]|]. destruct Hp as [Hp|(l' & H1 & H2 & H3)]; [now left|right]. exists l'. split; [exact H1|]. split; [now right|exact H3].
      + assert (Hnb : bucket vc l <> []) by (rewrite Eb; discriminate). rewrite <- Eb. set (b := bucket vc l) in *.
        destruct (root_len_run l T (bucket_pos l Hnb) HT) as (g & G & Er & Pg & Dg & C & K & DG). rewrite Er. cbn [obind]. destruct (Z.eqb_spec g 0) as [|_]; [lia|]. cbn [obind].
        rewrite Z.rem_mod_nonneg by lia. destruct (Z.eqb_spec (Z.of_nat (length b) mod g) 0) as [Em|Em]; cbn [negb].
        * match goal with |- context [root_scan vc T ls ?p ?t] => destruct (IH p t) as (r & E & [(-> & l' & Hl & Hn)|(pl & -> & Ok & Hp)]) end; rewrite E; eexists; (split; [reflexivity|]).
          -- left. split; [reflexivity|]. exists l'. split; [now right|exact Hn].
          -- right. exists pl. split; [rewrite costs_cons, (cost_some _ _ _ _ _ _ Hnb Er); fold b; do 2 f_equal; lia|].
             split; [intros l' [<-|Hl]; [right; exists g, G; split; [exact Er|now apply Z.mod_divide; [lia|]]|now apply Ok]|].
             destruct Hp as [Hp|(l' & H1 & H2 & H3)]; [|right; exists l'; split; [exact H1|]; split; [now right|exact H3]].
             destruct ((G =? g * 2)%Z && (G <=? Z.of_nat (length b))%Z) eqn:Q; [|now left]. apply andb_prop in Q as (Q1 & Q2). apply Z.eqb_eq in Q1. apply Z.leb_le in Q2. right. exists l. split; [exact Hp|]. split; [now left|]. split; [exact Hnb|]. exists g. rewrite <- Q1. split; [exact Er|exact Q2].
        * eexists. split; [reflexivity|]. left. split; [reflexivity|]. exists l. split; [now left|]. intros [X|(g' & G' & Er' & X)]; [now apply Hnb|]. rewrite Er in Er'. injection Er' as _ <- <-. apply Em. now apply Z.mod_divide; [lia|].
  Qed.
  Lemma nodup_bucket l : NoDup (concat (bucket vc l)).
  Proof.
    clear Ne Cy HT. induction vc as [|c v IH]; [constructor|]. cbn [concat] in ND. apply nodup_app_l in ND as (N1 & N2 & N3). unfold bucket. cbn [filter]. destruct (length c =? l); [|now apply IH].
    cbn [concat]. apply NoDup_app_intro_disj; [exact N1|now apply IH|]. intros x Hx Hy. apply (N3 x Hx). apply in_concat in Hy as (c' & Hc' & Hy). apply filter_In in Hc' as (Hc' & _). apply in_concat. now exists c'.
  Qed.
  Lemma build_run (wrong : option nat) ls : NoDup ls -> (forall l, In l ls -> bucket_ok vc T l) -> (forall l, wrong = Some l -> double_ok vc T l) -> forall res, ~ In [] res ->
    exists res' new, root_build vc T ls wrong res = Some res' /\ res' = res ++ new /\ Permutation (concat new) (concat (flat_map (bucket vc) ls)) /\ powers_to (Z.to_nat T) s new (concat (flat_map (bucket vc) ls)) /\ ~ In [] new /\
      Z.of_nat (swaps new) = (costs vc T ls + (match wrong with Some l => if in_dec Nat.eq_dec l ls then 1 else 0 | None => 0 end))%Z.
  Proof.
    intros NDl Ok Dok. induction ls as [|l ls IH]; intros res Hres; cbn [root_build].
    - exists res, []. split; [reflexivity|]. split; [now rewrite app_nil_r|]. split; [constructor|]. split; [intros r Hr x []|]. split; [auto|]. cbn. destruct wrong; reflexivity.
    - inversion NDl as [|? ? Nl NDl']; subst. destruct (bucket vc l) as [|b0 b'] eqn:Eb.
      + destruct (IH NDl' (fun l' H => Ok l' (or_intror H)) res Hres) as (res' & new & E & Er & P & S & N & W). exists res', new. split; [exact E|]. split; [exact Er|]. cbn [flat_map]. rewrite Eb. cbn [app]. split; [exact P|]. split; [exact S|]. split; [exact N|].
        rewrite W, costs_cons, (cost_none _ _ _ Eb). f_equal. destruct wrong as [w|]; [|reflexivity]. destruct (in_dec Nat.eq_dec w ls) as [i|i], (in_dec Nat.eq_dec w (l :: ls)) as [j|j]; try reflexivity; [elim j; now right|].
        destruct j as [->|j]; [|contradiction]. destruct (Dok w eq_refl) as (X & _). contradiction.
      + assert (Hnb : bucket vc l <> []) by (rewrite Eb; discriminate). rewrite <- Eb. set (b := bucket vc l) in *.
        pose proof (bucket_pos l Hnb) as Hl. destruct (root_len_run l T Hl HT) as (g & G & Er & Pg & Dg & C & K & DG). rewrite Er. cbn [obind].
        destruct (Ok l (or_introl eq_refl)) as [X|(g' & G' & Er' & Dm)]; [contradiction|]. rewrite Er in Er'. injection Er' as _ <- <-. fold b in Dm.
        set (dbl := match wrong with Some pl => l =? pl | None => false end).
        destruct Dg as [t Et]. assert (Ht : (0 <= t)%Z) by nia. destruct Dm as [k Ek]. assert (Hk : (0 <= k)%Z) by nia.
        rewrite Et, Z.div_mul in C by lia. rewrite <- (Z2Nat.id t Ht) in C. apply gcd_of_nat in C.
        assert (ET : T = Z.of_nat (Z.to_nat t * Z.to_nat g)) by (rewrite Nat2Z.inj_mul, !Z2Nat.id by lia; exact Et).
        destruct (groups_run b l s (Z.to_nat t) (Z.to_nat g) (Z.to_nat k) dbl Hl ltac:(lia)) as (new0 & E0 & P0 & S0 & N0 & W0).
        * apply Nat2Z.inj. rewrite Ek, Nat2Z.inj_mul, !Z2Nat.id by lia. ring.
        * intros c Hc. apply bucket_in in Hc as (Hc & Lc). split; [exact Lc|now apply Cy].
        * apply nodup_bucket.
        * exact C.
        * intros Hd. unfold dbl in Hd. destruct wrong as [w|]; [|discriminate]. apply Nat.eqb_eq in Hd. subst w. destruct (Dok l eq_refl) as (_ & g'' & Er'' & Hg2). rewrite Er in Er''. injection Er'' as _ <- EG. fold b in Hg2. split; [nia|].
          destruct (DG EG) as [t' Et']. assert (Ht' : (0 <= t')%Z) by nia. assert (Ett : t = (t' * 2)%Z) by nia. exists (Z.to_nat t'). split; [apply Nat2Z.inj; rewrite Nat2Z.inj_mul, !Z2Nat.id by lia; exact Ett|].
          apply Nat.divide_1_r. rewrite <- C. apply Nat.gcd_greatest; [apply Nat.gcd_divide_l|]. eapply Nat.divide_trans; [apply Nat.gcd_divide_r|]. exists 2. apply Nat2Z.inj. rewrite Nat2Z.inj_mul, !Z2Nat.id by lia. rewrite Ett. ring.
        * rewrite <- ET in E0. rewrite E0. cbn [obind]. destruct (IH NDl' (fun l' H => Ok l' (or_intror H)) (res ++ new0)) as (res' & new & E & Eq & P & S & N & W); [intros X; apply in_app_or in X as [X|X]; contradiction|].
          exists res', (new0 ++ new). split; [exact E|]. split; [now rewrite app_assoc|]. cbn [flat_map]. fold b. rewrite !concat_app. split; [now apply Permutation_app|]. split.
          { intros r Hr x Hx. apply in_app_or in Hx as [Hx|Hx]; [|apply S; [intros c Hc; apply Hr, in_or_app; now right|exact Hx]]. rewrite ET, Nat2Z.id. apply S0; [intros c Hc; apply Hr, in_or_app; now left|exact Hx]. }
          split; [intros X; apply in_app_or in X as [X|X]; contradiction|].
          rewrite swaps_app, Nat2Z.inj_add, W, costs_cons, (cost_some _ _ _ _ _ _ Hnb Er). fold b. rewrite Ek, Z.quot_div_nonneg by nia. rewrite Z.div_mul by lia.
          assert (Hk0 : Z.to_nat k <> 0). { intros X. assert (length b = 0) as Y by nia. rewrite Eb in Y. discriminate. }
          apply Nat.eqb_neq in Hk0. rewrite Hk0, Nat.mul_1_r in W0. apply (f_equal Z.of_nat) in W0. rewrite !Nat2Z.inj_add, !Nat2Z.inj_mul, !Z2Nat.id in W0 by lia.
          assert (Q : ((if dbl then 1 else 0) + match wrong with Some l0 => if in_dec Nat.eq_dec l0 ls then 1 else 0 | None => 0 end)%Z = match wrong with Some l0 => if in_dec Nat.eq_dec l0 (l :: ls) then 1%Z else 0%Z | None => 0%Z end).
          { unfold dbl. destruct wrong as [w|]; [|reflexivity]. destruct (Nat.eqb_spec l w) as [->|Hw]; destruct (in_dec Nat.eq_dec w ls) as [i|i], (in_dec Nat.eq_dec w (_ :: ls)) as [j|j]; try reflexivity; try contradiction; try (elim j; now left); try (elim j; now right). destruct j as [j|j]; [congruence|contradiction]. }
          rewrite <- Q. destruct dbl; cbn [Z.of_nat] in W0; nia.
  Qed.
End Root.

Lemma buckets_perm vc n : (forall c, In c vc -> length c <= n) -> Permutation (flat_map (bucket vc) (seq 0 (n + 1))) vc.
Proof.
  induction vc as [|c vc IH]; intros H.
  - assert (X : forall ls, flat_map (bucket []) ls = []) by (induction ls; auto). rewrite X. constructor.
  - assert (G : forall ls, NoDup ls -> Permutation (flat_map (bucket (c :: vc)) ls) (if in_dec Nat.eq_dec (length c) ls then c :: flat_map (bucket vc) ls else flat_map (bucket vc) ls)).
    { induction ls as [|l ls IHl]; intros NDl; [reflexivity|]. inversion NDl as [|? ? Nl NDl']; subst. cbn [flat_map]. specialize (IHl NDl'). unfold bucket at 1. cbn [filter]. destruct (Nat.eqb_spec (length c) l) as [<-|Hl].
      - destruct (in_dec Nat.eq_dec (length c) (length c :: ls)) as [i|i]; [|elim i; now left]. destruct (in_dec Nat.eq_dec (length c) ls) as [j|j]; [contradiction|]. cbn [app]. constructor. apply Permutation_app_head. exact IHl.
      - destruct (in_dec Nat.eq_dec (length c) (l :: ls)) as [[i|i]|i], (in_dec Nat.eq_dec (length c) ls) as [j|j]; try congruence; try (elim i; now right).
        + fold (bucket vc l). rewrite IHl. symmetry. apply Permutation_middle.
        + fold (bucket vc l). now rewrite IHl. }
    rewrite (G _ (seq_NoDup _ _)). destruct (in_dec Nat.eq_dec (length c) (seq 0 (n + 1))) as [i|i].
    + constructor. apply IH. intros c' Hc'. apply H. now right.
    + elim i. apply in_seq. specialize (H c (or_introl eq_refl)). lia.
Qed.
Lemma permutation_concat (a b : list (list nat)) : Permutation a b -> Permutation (concat a) (concat b).
Proof. induction 1; cbn; [constructor|now apply Permutation_app_head|rewrite !app_assoc; apply Permutation_app_tail, Permutation_app_comm|etransitivity; eassumption]. Qed.
Lemma concat_map_single (l : list nat) : concat (map (fun i => [i]) l) = l.
Proof. induction l as [|x l IH]; cbn; [reflexivity|now rewrite IH]. Qed.
Lemma all_cycles_spec cs n s : wf cs n -> denotes cs s -> wf (all_cycles cs n) n /\ denotes (all_cycles cs n) s /\ (forall x, x < n -> In x (concat (all_cycles cs n))).
Proof.
  intros (W1 & W2 & W3) (D1 & D2). unfold all_cycles, cycle. set (f := filter _ (seq 0 n)).
  assert (Hf : forall x, In x f <-> x < n /\ ~ In x (concat cs)).
  { intros x. unfold f. rewrite filter_In, in_seq. split.
    - intros (H1 & H2). split; [lia|]. intros X. apply negb_true_iff in H2. assert (existsb (Nat.eqb x) (concat cs) = true) by (apply existsb_exists; exists x; split; [exact X|apply Nat.eqb_refl]). congruence.
    - intros (H1 & H2). split; [lia|]. apply negb_true_iff. destruct (existsb (Nat.eqb x) (concat cs)) eqn:E; [|reflexivity]. apply existsb_exists in E as (y & Hy & Ey). apply Nat.eqb_eq in Ey. subst y. contradiction. }
  assert (C : concat (cs ++ map (fun i => [i]) f) = concat cs ++ f) by (rewrite concat_app, concat_map_single; reflexivity).
  split; [split; [|split]|split; [split|]]; rewrite ?C.
  - apply NoDup_app_intro_disj; [exact W1|apply NoDup_filter, seq_NoDup|]. intros x Hx Hy. now apply Hf in Hy as (_ & Hy).
  - intros x Hx. apply in_app_or in Hx as [Hx|Hx]; [now apply W2|now apply Hf].
  - intros X. apply in_app_or in X as [X|X]; [contradiction|]. apply in_map_iff in X as (y & Hy & _). discriminate.
  - intros c Hc. apply in_app_or in Hc as [Hc|Hc]; [now apply D1|]. apply in_map_iff in Hc as (y & <- & Hy). apply Hf in Hy as (_ & Hy). intros i Hi. cbn in Hi. destruct i; [|lia]. cbn. now apply D2.
  - intros x Hx. apply D2. intros X. apply Hx, in_or_app. now left.
  - intros x Hx. apply in_or_app. destruct (in_dec Nat.eq_dec x (concat cs)) as [H|H]; [now left|right]. now apply Hf.
Qed.
Lemma root_run cs n s T parity : wf cs n -> denotes cs s -> (1 <= T)%Z -> exists q, perm_root (cs, n) T parity = Some q /\
  ((q = ([], 0) /\ (parity < 0 -> exists l, ~ bucket_ok (all_cycles cs n) T l)%Z) \/ exists rc, q = (rc, n) /\ wf rc n /\ (forall r, denotes rc r -> forall x, Nat.iter (Z.to_nat T) r x = s x) /\ (parity = 0 \/ parity = 1 -> Z.of_nat (swaps rc) mod 2 = parity)%Z).
Proof.
  intros W D HT. destruct (all_cycles_spec cs n s W D) as ((A1 & A2 & A3) & (B1 & B2) & A4). unfold perm_root. cbn [fst snd]. set (vc := all_cycles cs n) in *.
  assert (Bl : forall c, In c vc -> length c <= n). { intros c Hc. apply (nodup_bound c n); [now apply (nodup_cycle vc)|]. intros x Hx. apply A2, in_concat. now exists c. }
  destruct (scan_run vc T A3 HT (seq 0 (n + 1)) None 0%Z) as (r & E & [(-> & l & Hl & Hn)|(pl & -> & Ok & Hp)]); rewrite E; cbn [obind].
  - eexists. split; [reflexivity|]. left. split; [reflexivity|]. intros _. now exists l.
  - set (tr := (0 + costs vc T (seq 0 (n + 1)))%Z) in *. set (wr := ((0 <=? parity)%Z && negb (Z.rem tr 2 =? parity)%Z)).
    assert (Main : forall wrong, (forall l, wrong = Some l -> double_ok vc T l) -> exists rc, root_build vc T (seq 0 (n + 1)) wrong [] = Some rc /\ wf rc n /\ (forall r, denotes rc r -> forall x, Nat.iter (Z.to_nat T) r x = s x) /\
      Z.of_nat (swaps rc) = (costs vc T (seq 0 (n + 1)) + (match wrong with Some l => if in_dec Nat.eq_dec l (seq 0 (n + 1)) then 1 else 0 | None => 0 end))%Z).
    { intros wrong Hw. destruct (build_run vc s T A1 A3 B1 HT wrong (seq 0 (n + 1)) (seq_NoDup _ _) Ok Hw [] (fun H => H)) as (res & new & Eb & Er & P & S & N & Ws). cbn in Er. subst res.
      pose proof (permutation_concat _ _ (buckets_perm vc n Bl)) as Pb. exists new. split; [exact Eb|].
      assert (Pn : Permutation (concat new) (concat vc)) by (etransitivity; eassumption).
      split; [split; [|split]|split; [|exact Ws]].
      - eapply Permutation_NoDup; [symmetry; exact Pn|exact A1].
      - intros x Hx. apply A2. eapply Permutation_in; eassumption.
      - exact N.
      - intros r (R1 & R2) x. destruct (in_dec Nat.eq_dec x (concat vc)) as [H|H].
        + apply S; [exact R1|]. eapply Permutation_in; [symmetry; exact Pb|exact H].
        + rewrite (B2 x H). apply iter_fix, R2. intros X. apply H. eapply Permutation_in; eassumption. }
    assert (Hc0 : (0 <= costs vc T (seq 0 (n + 1)))%Z). { destruct (Main None) as (rc & _ & _ & _ & X); [discriminate|]. lia. }
    destruct wr eqn:Ewr; unfold wr in Ewr.
    + apply andb_prop in Ewr as (W1 & W2). apply Z.leb_le in W1. apply negb_true_iff, Z.eqb_neq in W2. destruct pl as [l|].
      * destruct Hp as [Hp|(l' & El & Hl & Hd)]; [discriminate|]. injection El as <-. destruct (Main (Some l)) as (rc & Eb & Wf & Pw & Sw); [intros l' El; injection El as <-; exact Hd|]. rewrite Eb. cbn [obind]. eexists. split; [reflexivity|]. right. exists rc. split; [reflexivity|]. split; [exact Wf|]. split; [exact Pw|].
        destruct (in_dec Nat.eq_dec l (seq 0 (n + 1))) as [i|i]; [|contradiction]. intros Hpar. rewrite Sw. unfold tr in W2. cbn [Z.add] in W2. rewrite Z.rem_mod_nonneg in W2 by lia.
        set (X := costs vc T (seq 0 (n + 1))) in *. pose proof (Z.mod_pos_bound X 2 ltac:(lia)). pose proof (Z.div_mod X 2 ltac:(lia)). replace (X + 1)%Z with (X mod 2 + 1 + (X / 2) * 2)%Z by lia. rewrite Z.mod_add by lia. assert (X mod 2 = 0 \/ X mod 2 = 1)%Z as [Q|Q] by lia; rewrite Q in *; destruct Hpar; subst parity; cbn; congruence || lia.
      * eexists. split; [reflexivity|]. left. split; [reflexivity|]. lia.
    + assert (E' : match pl with Some _ => let* cs0 := root_build vc T (seq 0 (n + 1)) None [] in Some (cs0, n) | None => let* cs0 := root_build vc T (seq 0 (n + 1)) None [] in Some (cs0, n) end = (let* cs0 := root_build vc T (seq 0 (n + 1)) None [] in Some (cs0, n))) by (destruct pl; reflexivity).
      destruct (Main None) as (rc & Eb & Wf & Pw & Sw); [discriminate|]. exists (rc, n). split; [destruct pl; rewrite Eb; reflexivity|]. right. exists rc. split; [reflexivity|]. split; [exact Wf|]. split; [exact Pw|]. intros Hpar. rewrite Sw, Z.add_0_r. apply andb_false_iff in Ewr. unfold tr in Ewr. cbn [Z.add] in Ewr. rewrite Z.rem_mod_nonneg in Ewr by lia.
      destruct Ewr as [X|X]; [apply Z.leb_gt in X; lia|]. apply negb_false_iff, Z.eqb_eq in X. exact X.
Qed.
