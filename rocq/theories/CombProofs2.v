From Coq Require Import Permutation Sorted.
From Verif Require Import Lib BaseModel BaseProofs CombModel CombSpec CombProofs.
Local Open Scope Z_scope.

(* ------------------------------------------------------------------ partitions *)
Lemma zsuml_app x y : zsuml (x ++ y) = zsuml x + zsuml y.
Proof. induction x as [|a x IH]; cbn [app zsuml]; [reflexivity|]. rewrite IH. ring. Qed.
Lemma zsuml_zeros k : zsuml (repeat 0 k) = 0.
Proof. induction k as [|k IH]; cbn [repeat zsuml]; [reflexivity|]. rewrite IH. reflexivity. Qed.
Lemma zsuml_nonneg v : Forall (fun x => 0 <= x) v -> 0 <= zsuml v.
Proof. induction 1; cbn [zsuml]; lia. Qed.
Lemma zsuml_bound v m : Forall (fun x => x <= m) v -> zsuml v <= Z.of_nat (length v) * m.
Proof. induction 1; cbn [zsuml length]; lia. Qed.
Lemma zsuml_0 v : Forall (fun x => 0 <= x) v -> zsuml v = 0 -> v = repeat 0 (length v).
Proof.
  induction 1 as [|a v Ha F IH]; cbn [zsuml length repeat]; [reflexivity|]. intros E. pose proof (zsuml_nonneg v F).
  assert (a = 0) by lia. subst. f_equal. apply IH. lia.
Qed.
Lemma sorted_app (x y : list Z) : StronglySorted Z.ge (x ++ y) <-> StronglySorted Z.ge x /\ StronglySorted Z.ge y /\ (forall a b, In a x -> In b y -> b <= a).
Proof.
  induction x as [|u x IH]; cbn [app].
  - split; [intros H; repeat split; auto; [constructor|intros ? ? []]|tauto].
  - split.
    + intros H. inversion H as [|? ? S F]; subst. apply IH in S. destruct S as (S1 & S2 & S3). rewrite Forall_app in F. destruct F as [F1 F2].
      repeat split; auto; [constructor; auto|]. intros a b [<-|Ia] Ib; [|auto]. rewrite Forall_forall in F2. specialize (F2 b Ib). lia.
    + intros (S1 & S2 & S3). inversion S1 as [|? ? S F]; subst. constructor.
      * apply IH. split; [exact S|]. split; [exact S2|]. intros a b Ia Ib. apply S3; auto. now right.
      * apply Forall_app. split; [exact F|]. apply Forall_forall. intros b Ib. specialize (S3 u b (or_introl eq_refl) Ib). lia.
Qed.
Lemma lex_app w1 w2 x y : length w1 = length x -> (lex_lt (w1 ++ w2) (x ++ y) <-> lex_lt w1 x \/ (w1 = x /\ lex_lt w2 y)).
Proof.
  revert x. induction w1 as [|a w1 IH]; intros [|b x] H; try discriminate; cbn [app lex_lt].
  - tauto.
  - injection H as H. rewrite IH by exact H. split.
    + intros [L|[-> [L|[-> L]]]]; auto.
    + intros [[L|[-> L]]|[[= -> ->] L]]; auto.
Qed.
Lemma split_len {A} (w : list A) k : (k <= length w)%nat -> exists a b, w = a ++ b /\ length a = k.
Proof. intros H. exists (firstn k w), (skipn k w). split; [symmetry; apply firstn_skipn|]. rewrite firstn_length. lia. Qed.

Fixpoint greedy (n : nat) (xm x : Z) : list Z :=
  match n with O => [] | S n => if xm <? x then xm :: greedy n xm (x - xm) else x :: repeat 0 n end.
Lemma greedy_length n xm x : length (greedy n xm x) = n.
Proof. revert x. induction n as [|n IH]; intros x; cbn [greedy]; [reflexivity|]. destruct (xm <? x); cbn [length]; rewrite ?IH, ?repeat_length; reflexivity. Qed.
Lemma greedy_sum n xm x : 0 < xm -> 0 <= x <= Z.of_nat n * xm -> zsuml (greedy n xm x) = x.
Proof.
  intros Hm. revert x. induction n as [|n IH]; intros x Hx; cbn [greedy]; [cbn in *; lia|].
  destruct (Z.ltb_spec xm x); cbn [zsuml]; [rewrite IH; lia|]. rewrite zsuml_zeros. lia.
Qed.
Lemma greedy_in n xm x : 0 < xm -> 0 <= x -> Forall (fun a => 0 <= a <= xm) (greedy n xm x).
Proof.
  intros Hm. revert x. induction n as [|n IH]; intros x Hx; cbn [greedy]; [constructor|].
  destruct (Z.ltb_spec xm x); constructor; try lia; [apply IH; lia|]. apply Forall_forall. intros a Ha. apply repeat_spec in Ha. lia.
Qed.
Lemma sorted_zeros n : StronglySorted Z.ge (repeat 0 n).
Proof. induction n as [|n IH]; cbn [repeat]; constructor; auto. apply Forall_forall. intros a Ha. apply repeat_spec in Ha. lia. Qed.
Lemma greedy_sorted n xm x : 0 < xm -> 0 <= x -> StronglySorted Z.ge (greedy n xm x).
Proof.
  intros Hm. revert x. induction n as [|n IH]; intros x Hx; cbn [greedy]; [constructor|].
  destruct (Z.ltb_spec xm x); constructor.
  - apply IH. lia.
  - eapply Forall_impl; [|apply (greedy_in n xm (x - xm)); lia]. cbv beta. intros; lia.
  - apply sorted_zeros.
  - apply Forall_forall. intros a Ha. apply repeat_spec in Ha. lia.
Qed.
Lemma greedy_max n xm : forall x w, length w = n -> zsuml w = x -> Forall (fun a => 0 <= a <= xm) w -> w = greedy n xm x \/ lex_lt w (greedy n xm x).
Proof.
  induction n as [|n IH]; intros x [|f w] HL HS F; try discriminate; cbn [greedy]; [now left|].
  injection HL as HL. cbn [zsuml] in HS. inversion F as [|? ? Hf Fw]; subst.
  assert (Fw0 : Forall (fun a => 0 <= a) w) by (eapply Forall_impl; [|exact Fw]; cbv beta; intros; lia).
  pose proof (zsuml_nonneg w Fw0) as S0.
  destruct (Z.ltb_spec xm (f + zsuml w)) as [H|H].
  - destruct (Z.eq_dec f xm) as [->|N]; [|right; cbn [lex_lt]; lia].
    destruct (IH (zsuml w) w eq_refl eq_refl Fw) as [E|E]; replace (xm + zsuml w - xm) with (zsuml w) by ring.
    + left. now rewrite <- E.
    + right. cbn [lex_lt]. auto.
  - destruct (Z.eq_dec (zsuml w) 0) as [E|N].
    + left. rewrite E, Z.add_0_r. f_equal. now apply zsuml_0.
    + right. cbn [lex_lt]. lia.
Qed.
Lemma set_nth_mid {A} (pre : list A) y rest z : set_nth (pre ++ y :: rest) (length pre) z = Some (pre ++ z :: rest).
Proof. induction pre as [|a pre IH]; cbn [app length set_nth]; [reflexivity|]. rewrite IH. reflexivity. Qed.
Lemma fill_spec xm : 0 < xm -> forall n fuel pre y x, (n <= fuel)%nat -> (0 < n)%nat -> 0 <= x <= Z.of_nat n * xm ->
  fill_partition fuel (pre ++ y :: repeat 0 (n - 1)) (length pre) xm x = Some (pre ++ greedy n xm x).
Proof.
  intros Hm. induction n as [|n IH]; intros fuel pre y x Hf Hn Hx; [lia|]. cbn [greedy]. replace (S n - 1)%nat with n by lia.
  destruct fuel as [|fuel]; [lia|]. cbn [fill_partition]. destruct (Z.ltb_spec xm x) as [L|L].
  - rewrite set_nth_mid. cbn [obind]. destruct n as [|n]; [lia|]. cbn [repeat].
    replace (pre ++ xm :: 0 :: repeat 0 n) with ((pre ++ [xm]) ++ 0 :: repeat 0 n) by now rewrite <- app_assoc.
    replace (S (length pre)) with (length (pre ++ [xm])) by (rewrite app_length; cbn; lia).
    specialize (IH fuel (pre ++ [xm]) 0 (x - xm)). replace (S n - 1)%nat with n in IH by lia.
    rewrite IH by lia. now rewrite <- app_assoc.
  - now rewrite set_nth_mid.
Qed.

Lemma rev_case {A} (l : list A) : l = [] \/ exists l' x, l = l' ++ [x].
Proof. destruct l as [|x l] using rev_ind; [now left|right; eauto]. Qed.

Definition np_result (d : nat) (s : Z) (v v' : list Z) (b : bool) : Prop :=
  if b then is_partition d s v' /\ lex_lt v' v /\ (forall w, is_partition d s w -> lex_lt w v -> w = v' \/ lex_lt w v')
  else v' = s :: repeat 0 (d - 1) /\ (forall w, is_partition d s w -> ~ lex_lt w v).

Lemma next_partition_run d s : (0 < d)%nat -> forall k pre suf, length pre = k -> is_partition d s (pre ++ suf) ->
  (forall w, length w = length suf -> zsuml w = zsuml suf -> Forall (fun x => 0 <= x) w -> StronglySorted Z.ge w -> ~ lex_lt w suf) ->
  exists v' b, next_partition_loop k (pre ++ repeat 0 (length suf)) (Z.of_nat (length suf)) (zsuml suf) = Some (v', b) /\ np_result d s (pre ++ suf) v' b.
Proof.
  intros Hd. induction k as [|it IH]; intros pre suf HL HP HI; cbn [next_partition_loop].
  - destruct pre; [|discriminate]. cbn [app] in *. destruct HP as (L & Sm & _).
    destruct suf as [|e suf]; [cbn in L; lia|]. cbn [length repeat set_nth obind]. eexists _, false. split; [reflexivity|].
    cbn [np_result]. cbn [length] in L. split; [rewrite Sm; f_equal; f_equal; lia|]. intros w (W1 & W2 & W3 & W4). apply HI; auto; cbn [length]; lia.
  - destruct (rev_case pre) as [->|(pre' & e & ->)]. 
    { discriminate. }
    assert (HL' : length pre' = it) by (rewrite app_length in HL; cbn in HL; lia). clear HL. subst it.
    rewrite <- !app_assoc in *. cbn [app] in *. rewrite nth_error_app2 by lia. rewrite Nat.sub_diag. cbn [nth_error obind].
    destruct HP as (PL & PS & PN & PO). rewrite app_length in PL. cbn [length] in PL. rewrite zsuml_app in PS. cbn [zsuml] in PS.
    apply Forall_app in PN. destruct PN as [PN1 PN2]. inversion PN2 as [|? ? He PN3]; subst.
    apply sorted_app in PO. destruct PO as (PO1 & PO2 & PO3).
    pose proof (zsuml_nonneg suf PN3) as S0.
    set (x := zsuml suf + e) in *. set (l := Z.of_nat (length suf) + 1).
    (* any smaller suffix starts below e *)
    assert (Below : forall f w, length w = length suf -> zsuml (f :: w) = zsuml (e :: suf) -> Forall (fun x => 0 <= x) (f :: w) ->
       StronglySorted Z.ge (f :: w) -> lex_lt (f :: w) (e :: suf) -> f <= e - 1).
    { intros f w L1 L2 L3 L4 [L5|[-> L5]]; [lia|]. exfalso. cbn [zsuml] in L2. inversion L3; inversion L4; subst. apply (HI w); auto. lia. }
    destruct (Z.ltb_spec 0 (e - 1)) as [Hm|Hm]; cbn [andb].
    + rewrite Z.quot_div_nonneg by lia. destruct (Z.leb_spec ((x - 1) / (e - 1)) (l - 1)) as [Le|Gt].
      * (* fill *)
        assert (Hx : 0 <= x <= Z.of_nat (S (length suf)) * (e - 1)).
        { split; [lia|]. pose proof (Z.mul_succ_div_gt (x - 1) (e - 1) ltac:(lia)). unfold l in Le. rewrite Nat2Z.inj_succ. nia. }
        pose proof (fill_spec (e - 1) Hm (S (length suf)) (length (pre' ++ e :: repeat 0 (length suf))) pre' e x) as FS.
        replace (S (length suf) - 1)%nat with (length suf) in FS by lia.
        rewrite FS; [|rewrite app_length; cbn [length]; rewrite repeat_length; lia|lia|exact Hx]. cbn [obind].
        eexists _, true. split; [reflexivity|]. cbn [np_result].
        pose proof (greedy_in (S (length suf)) (e - 1) x Hm ltac:(lia)) as GI.
        split; [|split].
        -- split; [rewrite app_length, greedy_length; lia|]. split; [rewrite zsuml_app, greedy_sum by (auto; lia); lia|]. split.
           ++ apply Forall_app. split; [exact PN1|]. eapply Forall_impl; [|exact GI]. cbv beta. intros; lia.
           ++ apply sorted_app. split; [exact PO1|]. split; [apply greedy_sorted; lia|]. intros a b Ia Ib.
              rewrite Forall_forall in GI. specialize (GI b Ib). specialize (PO3 a e Ia (or_introl eq_refl)). lia.
        -- apply lex_app; [reflexivity|]. right. split; [reflexivity|]. cbn [greedy].
           destruct (Z.ltb_spec (e - 1) x); cbn [lex_lt]; lia.
        -- intros w (W1 & W2 & W3 & W4) Lw. destruct (split_len w (length pre')) as (w1 & w2 & -> & Lw1); [lia|].
           apply lex_app in Lw; [|exact Lw1]. destruct Lw as [Lw|[-> Lw]].
           ++ right. apply lex_app; auto.
           ++ rewrite app_length in W1. rewrite zsuml_app in W2. apply Forall_app in W3. apply sorted_app in W4.
              destruct W3 as [_ W3]. destruct W4 as (_ & W4 & _). destruct w2 as [|f w2]; [destruct Lw|]. cbn [length] in W1.
              assert (Hf : f <= e - 1) by (apply (Below f w2); auto; cbn [zsuml] in *; lia).
              destruct (greedy_max (S (length suf)) (e - 1) x (f :: w2)) as [E|E].
              ** cbn [length]; lia.
              ** unfold x. cbn [zsuml] in *. lia.
              ** inversion W3; inversion W4; subst. constructor; [lia|]. apply Forall_forall. intros b Ib.
                 rewrite Forall_forall in *. match goal with H : forall y, In y w2 -> f >= y |- _ => specialize (H b Ib) end.
                 match goal with H : forall y, In y w2 -> 0 <= y |- _ => specialize (H b Ib) end. lia.
              ** left. now rewrite E.
              ** right. apply lex_app; auto.
      * rewrite set_nth_mid. cbn [obind].
        replace (pre' ++ 0 :: repeat 0 (length suf)) with (pre' ++ repeat 0 (length (e :: suf))) by reflexivity.
        replace l with (Z.of_nat (length (e :: suf))) by (unfold l; cbn [length]; lia). replace x with (zsuml (e :: suf)) by (unfold x; cbn [zsuml]; lia).
        apply IH; [reflexivity| |].
        -- split; [rewrite app_length; cbn [length]; lia|]. split; [rewrite zsuml_app; cbn [zsuml]; lia|]. split; [apply Forall_app; auto|]. apply sorted_app; auto.
        -- intros [|f w] L1 L2 L3 L4 Lw; [destruct Lw|]. cbn [length] in L1.
           assert (Hf : f <= e - 1) by (apply (Below f w); auto; lia).
           assert (B : zsuml (f :: w) <= Z.of_nat (length (f :: w)) * (e - 1)).
           { apply zsuml_bound. inversion L4; subst. constructor; [lia|]. apply Forall_forall. intros b Ib. rewrite Forall_forall in *.
             match goal with H : forall y, In y w -> f >= y |- _ => specialize (H b Ib) end. lia. }
           rewrite L2 in B. cbn [length] in B. cbn [zsuml] in B. 
           pose proof (Z.mul_div_le (x - 1) (e - 1) ltac:(lia)) as M. unfold l in Gt.
           assert (G2 : Z.of_nat (length suf) + 1 <= (x - 1) / (e - 1)) by lia. unfold x in *. rewrite Nat2Z.inj_succ in B. nia.
    + rewrite set_nth_mid. cbn [obind].
      replace (pre' ++ 0 :: repeat 0 (length suf)) with (pre' ++ repeat 0 (length (e :: suf))) by reflexivity.
      replace l with (Z.of_nat (length (e :: suf))) by (unfold l; cbn [length]; lia). replace x with (zsuml (e :: suf)) by (unfold x; cbn [zsuml]; lia).
      apply IH; [reflexivity| |].
      * split; [rewrite app_length; cbn [length]; lia|]. split; [rewrite zsuml_app; cbn [zsuml]; lia|]. split; [apply Forall_app; auto|]. apply sorted_app; auto.
      * intros [|f w] L1 L2 L3 L4 Lw; [destruct Lw|]. cbn [length] in L1.
        assert (Hf : f <= e - 1) by (apply (Below f w); auto; lia).
        assert (B : zsuml (f :: w) <= Z.of_nat (length (f :: w)) * 0).
        { apply zsuml_bound. inversion L4; subst. constructor; [lia|]. apply Forall_forall. intros b Ib. rewrite Forall_forall in *.
          match goal with H : forall y, In y w -> f >= y |- _ => specialize (H b Ib) end. lia. }
        rewrite L2, Z.mul_0_r in B. cbn [zsuml] in B. inversion L3; subst. lia.
Qed.

(* ------------------------------------------------------------------ permutations *)
Section Perm.
  Context {A : Type}.
  Lemma picks_nth (a : list A) x b : nth_error (picks (a ++ x :: b)) (length a) = Some (x, a ++ b).
  Proof.
    induction a as [|y a IH]; cbn [app picks length nth_error]; [reflexivity|].
    rewrite nth_error_map, IH. reflexivity.
  Qed.
  Lemma picks_length (l : list A) : length (picks l) = length l.
  Proof. induction l as [|x l IH]; cbn [picks length]; [reflexivity|]. now rewrite map_length, IH. Qed.
  Lemma picks_in (l : list A) x r : In (x, r) (picks l) -> exists a b, l = a ++ x :: b /\ r = a ++ b.
  Proof.
    revert r. induction l as [|y l IH]; intros r I; cbn [picks In] in I; [destruct I|]. destruct I as [[= -> ->]|I]; [now exists [], r|].
    apply in_map_iff in I. destruct I as ([z r'] & [= -> <-] & I). destruct (IH r' I) as (a & b & -> & ->). now exists (y :: a), b.
  Qed.
  Lemma perms_n_length n : forall l : list A, length l = n -> length (perms_n n l) = fact n.
  Proof.
    induction n as [|n IH]; intros l HL; [reflexivity|]. cbn [perms_n].
    assert (G : forall L : list (A * list A), (forall x r, In (x, r) L -> length r = n) ->
       length (flat_map (fun '(x, r) => map (cons x) (perms_n n r)) L) = (length L * fact n)%nat).
    { induction L as [|[x r] L IHL]; intros HL'; cbn [flat_map length]; [reflexivity|].
      rewrite app_length, map_length, IH by (apply (HL' x); now left). rewrite IHL by (intros; eapply HL'; right; eauto). lia. }
    rewrite G; [rewrite picks_length, HL; cbn [fact]; lia|].
    intros x r I. apply picks_in in I. destruct I as (a & b & -> & ->). rewrite app_length in *. cbn [length] in HL. lia.
  Qed.
  (** blocks of constant length *)
  Lemma flat_map_nth {B C} (f : B -> list C) c : forall (L : list B) q r y, (forall z, In z L -> length (f z) = c) -> (r < c)%nat ->
    nth_error L q = Some y -> nth_error (flat_map f L) (q * c + r) = nth_error (f y) r.
  Proof.
    induction L as [|z L IH]; intros q r y HL Hr Hq; [destruct q; discriminate|]. cbn [flat_map].
    assert (Lz : length (f z) = c) by (apply HL; now left). destruct q as [|q]; cbn [nth_error] in Hq.
    - injection Hq as ->. rewrite nth_error_app1 by lia. f_equal.
    - rewrite nth_error_app2 by lia. rewrite Lz. replace (S q * c + r - c)%nat with (q * c + r)%nat by lia. apply IH; auto. intros; apply HL; now right.
  Qed.
  Lemma perms_cons n (l : list A) o a x b : length l = S n -> l = a ++ x :: b -> (o < fact n)%nat ->
    nth_error (perms l) (length a * fact n + o) = option_map (cons x) (nth_error (perms (a ++ b)) o).
  Proof.
    intros HL -> Ho. unfold perms. rewrite HL. cbn [perms_n].
    assert (Lab : length (a ++ b) = n) by (rewrite app_length in *; cbn [length] in HL; lia).
    rewrite (flat_map_nth _ (fact n) _ (length a) o (x, a ++ b)).
    - rewrite Lab, nth_error_map. reflexivity.
    - intros [y r] I. apply picks_in in I. destruct I as (a' & b' & E & ->). rewrite map_length. apply perms_n_length.
      apply (f_equal (@length A)) in E. rewrite !app_length in *. cbn [length] in *. lia.
    - exact Ho.
    - apply picks_nth.
  Qed.
  Lemma perms_keep (a l : list A) o : (o < fact (length l))%nat -> nth_error (perms (a ++ l)) o = option_map (app a) (nth_error (perms l) o).
  Proof.
    intros Ho. induction a as [|x a IH].
    - cbn [app]. now destruct (nth_error (perms l) o).
    - cbn [app]. replace o with (length (@nil A) * fact (length (a ++ l)) + o)%nat at 1 by reflexivity.
      assert (M : (fact (length l) <= fact (length (a ++ l)))%nat) by (apply fact_le; rewrite app_length; lia).
      rewrite (perms_cons (length (a ++ l)) (x :: a ++ l) o [] x (a ++ l)) by (cbn [length]; auto; lia).
      cbn [app]. rewrite IH. now destruct (nth_error (perms l) o).
  Qed.
  Lemma perms_0 (l : list A) : nth_error (perms l) 0 = Some l.
  Proof. rewrite <- (app_nil_r l) at 1. rewrite perms_keep by (cbn; lia). cbn. now rewrite app_nil_r. Qed.

  Lemma aswap_spec (pre : list A) a u w b : aswap (pre ++ a ++ u :: w :: b) (length pre + S (length a)) (length pre + length a) = Some (pre ++ a ++ w :: u :: b).
  Proof.
    rewrite !app_assoc. set (p := pre ++ a). replace (length pre + S (length a))%nat with (S (length p)) by (unfold p; rewrite app_length; lia).
    replace (length pre + length a)%nat with (length p) by (unfold p; rewrite app_length; lia). clearbody p. unfold aswap.
    rewrite nth_error_app2 by lia. replace (S (length p) - length p)%nat with 1%nat by lia. cbn [nth_error obind].
    rewrite nth_error_app2 by lia. rewrite Nat.sub_diag. cbn [nth_error obind].
    replace (p ++ u :: w :: b) with ((p ++ [u]) ++ w :: b) by now rewrite <- app_assoc.
    replace (S (length p)) with (length (p ++ [u])) by (rewrite app_length; cbn; lia). rewrite set_nth_mid. cbn [obind].
    rewrite <- app_assoc. cbn [app]. now rewrite set_nth_mid.
  Qed.
  Lemma swap_down_spec (pre : list A) : forall k a x b, length a = k -> swap_down k (pre ++ a ++ x :: b) (length pre) = Some (pre ++ x :: a ++ b).
  Proof.
    induction k as [|k IH]; intros a x b HL; cbn [swap_down]; [destruct a; [reflexivity|discriminate]|].
    destruct (rev_case a) as [->|(a' & u & ->)]; [discriminate|]. rewrite app_length in HL. cbn [length] in HL. assert (HL' : length a' = k) by lia. clear HL.
    rewrite <- app_assoc. cbn [app]. subst k. rewrite aswap_spec. cbn [obind]. rewrite IH by reflexivity. now rewrite <- app_assoc.
  Qed.

  Lemma zf n : 0 <= n -> Z.of_nat (fact (Z.to_nat n)) = zfact n. Proof. reflexivity. Qed.
  Lemma np_up_spec : forall fuel d i o, 0 <= i <= d -> d - i <= Z.of_nat fuel ->
    exists i', np_up fuel d i (zfact i) o = (i', zfact i') /\ 0 <= i' <= d /\ (i' < d -> o < zfact i').
  Proof.
    induction fuel as [|fuel IH]; intros d i o Hi Hf; cbn [np_up].
    - exists i. split; [reflexivity|]. lia.
    - destruct (Z.ltb_spec i d) as [L|L]; cbn [andb]; [|exists i; split; [reflexivity|]; lia].
      destruct (Z.leb_spec (zfact i) o) as [L2|L2].
      + replace (zfact i * (i + 1)) with (zfact (i + 1)) by (rewrite zfact_S by lia; ring). apply IH; lia.
      + exists i. split; [reflexivity|]. lia.
  Qed.
  Lemma np_down_spec : forall fuel i o, 1 <= i -> i <= Z.of_nat fuel -> 0 <= o -> o < zfact i ->
    exists i', np_down fuel i (zfact i) o = (i', zfact i') /\ 1 <= i' /\ (1 < i -> i' < i) /\ i' <= i /\ (1 < i -> o < zfact (i' + 1)).
  Proof.
    induction fuel as [|fuel IH]; intros i o Hi Hf Ho Hl; cbn [np_down].
    - lia.
    - destruct (Z.ltb_spec 1 i) as [L|L]; cbn [andb]; [|exists i; split; [reflexivity|]; lia].
      destruct (Z.ltb_spec o (zfact i)) as [L2|L2]; [|lia].
      assert (Q : Z.quot (zfact i) i = zfact (i - 1)).
      { replace i with (i - 1 + 1) at 1 by ring. rewrite zfact_S by lia. replace (i - 1 + 1) with i by ring. rewrite Z.mul_comm. apply Z.quot_mul. lia. }
      rewrite Q. destruct (Z.lt_ge_cases o (zfact (i - 1))) as [L3|L3].
      + destruct (IH (i - 1) o) as (i' & E & I1 & I2 & I3 & I4); [lia|lia|lia|lia|]. exists i'. split; [exact E|]. split; [lia|]. split; [lia|]. split; [lia|].
        intros _. destruct (Z.eq_dec (i - 1) 1) as [E1|N1]; [|apply I4; lia].
        assert (i' = 1) by lia. subst i'. assert (i = 2) by lia. subst i. exact Hl.
      + exists (i - 1). split.
        * destruct fuel as [|fuel]; [reflexivity|]. cbn [np_down]. destruct (Z.ltb_spec o (zfact (i - 1))); [lia|]. now rewrite andb_false_r.
        * split; [lia|]. split; [lia|]. split; [lia|]. intros _. now replace (i - 1 + 1) with i by ring.
  Qed.

  Lemma np_outer_spec : forall fuel (pre tl : list A) i o, Z.of_nat (length tl) = i -> i <= Z.of_nat fuel -> 0 <= o ->
    exists r, nth_error (perms tl) (Z.to_nat (o mod zfact i)) = Some r /\ np_outer fuel (pre ++ tl) i (zfact i) o = Some (pre ++ r).
  Proof.
    induction fuel as [|fuel IH]; intros pre tl i o HL Hf Ho; cbn [np_outer].
    - destruct tl; [|cbn in HL; lia]. cbn [length] in HL. subst i. cbn [Z.of_nat]. exists []. change (zfact 0) with 1. rewrite Z.mod_1_r. split; reflexivity.
    - destruct (Z.ltb_spec 1 i) as [L|L].
      + pose proof (zfact_pos i) as FP. rewrite cmod_some by lia. cbn [obind]. rewrite Z.rem_mod_nonneg by lia.
        pose proof (Z.mod_pos_bound o (zfact i) FP) as OB. set (o' := o mod zfact i) in *. clearbody o'. clear o Ho. rename o' into o.
        destruct (np_down_spec (Z.to_nat i) i o) as (i' & E & I1 & I2 & I3 & I4); [lia|lia|lia|lia|]. rewrite E.
        specialize (I2 L). specialize (I4 L).
        destruct (split_len tl (length tl - S (Z.to_nat i'))) as (mid & blk & -> & Lm); [lia|].
        rewrite app_length in HL. rewrite app_length in Lm. assert (Lb : length blk = S (Z.to_nat i')) by lia.
        assert (IT : Z.of_nat (length (pre ++ mid ++ blk)) - i' - 1 = Z.of_nat (length (pre ++ mid))) by (rewrite !app_length; lia).
        rewrite IT. destruct (Z.leb_spec 0 (Z.of_nat (length (pre ++ mid)))); [|lia]. cbn [guard obind].
        pose proof (zfact_pos i') as FP'. rewrite cdiv_some by lia. cbn [obind]. rewrite Z.quot_div_nonneg by lia. rewrite Nat2Z.id.
        rewrite zfact_S in I4 by lia.
        assert (KB : 0 <= o / zfact i' <= i').
        { split; [apply Z.div_pos; lia|]. assert (o / zfact i' < i' + 1); [|lia]. apply Z.div_lt_upper_bound; lia. }
        set (k := o / zfact i') in *.
        destruct (split_len blk (Z.to_nat k)) as (a & xb & -> & La); [lia|]. rewrite app_length in Lb. destruct xb as [|x b]; [cbn [length] in Lb; lia|].
        cbn [length] in Lb. rewrite (app_assoc pre). rewrite swap_down_spec by exact La. cbn [obind].
        destruct (IH ((pre ++ mid) ++ [x]) (a ++ b) i' o) as (r & R1 & R2); [rewrite app_length; lia|lia|lia|].
        rewrite <- (app_assoc (pre ++ mid)) in R2. cbn [app] in R2. exists (mid ++ x :: r). split.
        * assert (OL : (Z.to_nat o < fact (length (a ++ x :: b)))%nat).
          { replace (length (a ++ x :: b)) with (S (Z.to_nat i')) by (rewrite app_length; cbn [length]; lia).
            assert (X : Z.of_nat (fact (S (Z.to_nat i'))) = (i' + 1) * zfact i') by (unfold zfact; cbn [fact]; lia). lia. }
          rewrite perms_keep by exact OL.
          assert (DM : o = k * zfact i' + o mod zfact i') by (unfold k; rewrite Z.mul_comm; apply Z.div_mod; lia).
          pose proof (Z.mod_pos_bound o (zfact i') FP') as MB.
          replace (Z.to_nat o) with (length a * fact (Z.to_nat i') + Z.to_nat (o mod zfact i'))%nat.
          -- rewrite (perms_cons (Z.to_nat i') (a ++ x :: b) _ a x b); [now rewrite R1|rewrite app_length; cbn [length]; lia|reflexivity|unfold zfact in *; lia].
          -- rewrite La. unfold zfact in *. rewrite DM at 2. nia.
        * rewrite R2. now rewrite <- !app_assoc.
      + exists tl. split; [|reflexivity]. destruct (Z.eq_dec i 0) as [->|N]; [change (zfact 0) with 1|replace i with 1 by lia; change (zfact 1) with 1]; rewrite Z.mod_1_r; apply perms_0.
  Qed.
  Lemma zfact_mono a b : 0 <= a <= b -> zfact a <= zfact b.
  Proof. intros H. unfold zfact. assert (fact (Z.to_nat a) <= fact (Z.to_nat b))%nat by (apply fact_le; lia). lia. Qed.
  Lemma nth_permutation_run (v : list A) o : 0 <= o -> 
    exists r, nth_error (perms v) (Z.to_nat (o mod zfact (Z.of_nat (length v)))) = Some r /\ nth_permutation v o = Some r.
  Proof.
    intros Ho. unfold nth_permutation. destruct (np_up_spec (length v) (Z.of_nat (length v)) 0 o) as (i & E & Hi & Hl); [lia|lia|].
    change (zfact 0) with 1 in E. rewrite E.
    destruct (split_len v (length v - Z.to_nat i)) as (pre & tl & -> & Lp); [lia|]. rewrite app_length in *.
    assert (Ltl : Z.of_nat (length tl) = i) by lia.
    destruct (np_outer_spec (length pre + length tl) pre tl i o Ltl ltac:(lia) Ho) as (r & R1 & R2).
    exists (pre ++ r). split; [|exact R2].
    assert (EQ : o mod zfact (Z.of_nat (length pre + length tl)) = o mod zfact i).
    { destruct (Z.eq_dec i (Z.of_nat (length pre + length tl))) as [->|N]; [reflexivity|].
      rewrite !Z.mod_small; [reflexivity|lia|]. split; [lia|]. pose proof (zfact_mono i (Z.of_nat (length pre + length tl)) ltac:(lia)). lia. }
    rewrite EQ. rewrite perms_keep; [now rewrite R1|].
    pose proof (Z.mod_pos_bound o (zfact i) (zfact_pos i)). unfold zfact in *. rewrite <- Ltl in *. rewrite Nat2Z.id in *. lia.
  Qed.

  Lemma perms_complete n : forall (l p : list A), length l = n -> (In p (perms_n n l) <-> Permutation p l).
  Proof.
    induction n as [|n IH]; intros l p HL; cbn [perms_n].
    - destruct l; [|discriminate]. split; [intros [<-|[]]; constructor|]. intros Hp. apply Permutation_sym, Permutation_nil in Hp. subst. now left.
    - rewrite in_flat_map. split.
      + intros ([x r] & I & Ip). apply in_map_iff in Ip. destruct Ip as (q & <- & Iq). apply picks_in in I. destruct I as (a & b & -> & ->).
        apply IH in Iq; [|rewrite app_length in *; cbn [length] in HL; lia]. rewrite Iq. apply Permutation_middle.
      + intros Hp. destruct p as [|x q]; [apply Permutation_nil in Hp; subst; discriminate|].
        assert (Ix : In x l) by (eapply Permutation_in; [exact Hp|now left]). apply in_split in Ix. destruct Ix as (a & b & ->).
        exists (x, a ++ b). split; [eapply nth_error_In; apply picks_nth|]. apply in_map. apply IH; [rewrite app_length in *; cbn [length] in HL; lia|].
        eapply Permutation_cons_app_inv. exact Hp.
  Qed.
End Perm.

(** the list of permutations of a sorted list is in lexicographic order *)
Lemma SS_app {A} (R : A -> A -> Prop) (x y : list A) : StronglySorted R x -> StronglySorted R y -> (forall a b, In a x -> In b y -> R a b) -> StronglySorted R (x ++ y).
Proof.
  intros Sx Sy H. induction Sx as [|a x Sx IH F]; cbn [app]; [exact Sy|]. constructor.
  - apply IH. intros; apply H; auto. now right.
  - apply Forall_app. split; [exact F|]. apply Forall_forall. intros b Ib. apply H; auto. now left.
Qed.
Lemma SS_split {A} (R : A -> A -> Prop) (a : list A) x b : StronglySorted R (a ++ x :: b) -> StronglySorted R (a ++ b).
Proof.
  induction a as [|y a IH]; cbn [app]; intros H; inversion H as [|? ? S F]; subst; [exact S|].
  constructor; [now apply IH|]. rewrite Forall_app in *. destruct F as [F1 F2]. inversion F2; subst. auto.
Qed.
Lemma perms_sorted n : forall l : list Z, length l = n -> StronglySorted Z.lt l -> StronglySorted lex_lt (perms_n n l).
Proof.
  induction n as [|n IH]; intros l HL HS; cbn [perms_n]; [repeat constructor|].
  assert (G : forall L, StronglySorted (fun x y => fst x < fst y) L -> (forall x r, In (x, r) L -> length r = n /\ StronglySorted Z.lt r) ->
     StronglySorted lex_lt (flat_map (fun '(x, r) => map (cons x) (perms_n n r)) L)).
  { induction 1 as [|[x r] L S IHL F]; intros HI; cbn [flat_map]; [constructor|]. apply SS_app.
    - destruct (HI x r (or_introl eq_refl)) as [L1 L2]. specialize (IH r L1 L2). clear -IH. induction IH as [|p ps S IHp Fp]; cbn [map]; constructor; auto.
      apply Forall_forall. intros q Iq. apply in_map_iff in Iq. destruct Iq as (p' & <- & Ip). rewrite Forall_forall in Fp. cbn [lex_lt]. auto.
    - apply IHL. intros; eapply HI; right; eauto.
    - intros a b Ia Ib. apply in_map_iff in Ia. destruct Ia as (p & <- & _). apply in_flat_map in Ib. destruct Ib as ([y r'] & Iy & Ib).
      apply in_map_iff in Ib. destruct Ib as (p' & <- & _). rewrite Forall_forall in F. specialize (F _ Iy). cbn [fst lex_lt] in *. auto. }
  apply G.
  - clear -HS. induction HS as [|x l S IH F]; cbn [picks]; constructor.
    + clear -IH. induction IH as [|[y r] L S IHL Fl]; cbn [map]; constructor; auto. apply Forall_forall. intros [z q] I. apply in_map_iff in I.
      destruct I as ([z' q'] & [= <- <-] & I). rewrite Forall_forall in Fl. specialize (Fl _ I). exact Fl.
    + apply Forall_forall. intros [z q] I. apply in_map_iff in I. destruct I as ([z' q'] & [= <- <-] & I). apply picks_in in I.
      destruct I as (a & b & -> & ->). rewrite Forall_forall in F. cbn [fst]. apply F. apply in_or_app. right. now left.
  - intros x r I. apply picks_in in I. destruct I as (a & b & -> & ->). split; [rewrite app_length in *; cbn [length] in HL; lia|]. now apply SS_split in HS.
Qed.
