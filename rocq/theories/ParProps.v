(** parallel_execute, under every schedule. *)
From Verif Require Import Lib ParModel ParSpec ParProofs.
From Coq Require Import Permutation.
Open Scope nat_scope.

Lemma threads_pos k : 0 < threads k.
Proof. unfold threads. destruct (1 <? k)%Z eqn:E; lia. Qed.

Section Any.
  (** any job provider, worker provider, worker and result collector *)
  Context {P J W R C : Type}.
  Variable has_next : P -> bool.
  Variable next : P -> J * P.
  Variable creates : W -> Prop.
  Variable execute : W -> J -> R * W.
  Variable collect : C -> R -> J -> C.
  Variable num_threads : Z.
  Notation exec := (exec has_next next creates execute collect (threads num_threads)).
  Notation step := (step has_next next creates execute collect (threads num_threads)).

  (** when parallel_execute returns: every job was taken once, in the provider's order; executed once; its result collected once, with its job *)
  Theorem C53_exactly_once p0 c0 k tr s : exec (init p0 c0) k tr s -> main s = Returned ->
    all_jobs has_next next p0 (taken tr) /\ Permutation (taken tr) (map snd (executed tr)) /\ Permutation (executed tr) (collected tr) /\
    (forall r j, In (r, j) (executed tr) -> exists w w', execute w j = (r, w')) /\
    coll s = fold_left (fun c '(r, j) => collect c r j) (collected tr) c0.
  Proof.
    intros H M. destruct (returned _ _ _ _ _ _ _ _ _ _ _ (threads_pos _) H M) as (A & B & D). pose proof (exec_inv _ _ _ _ _ _ _ _ _ _ _ H) as I.
    split; [exact A|]. split; [exact B|]. split; [exact D|]. split; [apply I|apply I].
  Qed.
  (** at no moment are two threads in calls of the job provider, or in calls of the result collector *)
  Theorem C53_exclusive p0 c0 k tr s t1 t2 : exec (init p0 c0) k tr s ->
    ((exists w, thr s t1 = Has w \/ thr s t1 = Next w) -> (exists w, thr s t2 = Has w \/ thr s t2 = Next w) -> t1 = t2) /\
    ((exists w j r, thr s t1 = Collect w j r) -> (exists w j r, thr s t2 = Collect w j r) -> t1 = t2).
  Proof.
    intros H. pose proof (exec_inv _ _ _ _ _ _ _ _ _ _ _ H) as I.
    assert (X : forall t, (exists w, thr s t = Has w \/ thr s t = Next w) -> holds_job (thr s t) = true) by (intros t (w & [-> | ->]); reflexivity).
    assert (Y : forall t, (exists w j r, thr s t = Collect w j r) -> holds_res (thr s t) = true) by (intros t (w & j & r & ->); reflexivity).
    split; intros H1 H2; [apply X in H1, H2; rewrite (I_job _ _ _ _ _ _ _ _ _ I) in H1, H2; destruct (job_mutex s)|apply Y in H1, H2; rewrite (I_res _ _ _ _ _ _ _ _ _ I) in H1, H2; destruct (res_mutex s)];
      try discriminate; apply Nat.eqb_eq in H1, H2; congruence.
  Qed.
  (** as long as it has not returned, some thread can move *)
  Theorem C53_no_deadlock p0 c0 k tr s : (exists w, creates w) -> exec (init p0 c0) k tr s -> main s <> Returned -> exists e s', step s e s'.
  Proof. exact (progress _ _ _ _ _ _ p0 c0 k tr s). Qed.
  (** and it cannot go on forever: no schedule takes more steps than this *)
  Theorem C53_terminates p0 c0 js k tr s : all_jobs has_next next p0 js -> exec (init p0 c0) k tr s -> k <= 8 * length js + 9 * threads num_threads + 2.
  Proof. intros Ha H. pose proof (bounded _ _ _ _ _ _ _ _ _ _ _ _ Ha H). lia. Qed.
  (** so every execution, whatever its schedule was so far, can be continued until parallel_execute returns *)
  Theorem C53_completes p0 c0 js k tr s : all_jobs has_next next p0 js -> (exists w, creates w) -> exec (init p0 c0) k tr s ->
    exists k' tr' s', exec (init p0 c0) k' (tr ++ tr') s' /\ main s' = Returned.
  Proof.
    intros Ha Hw H. remember (8 * length js + 9 * threads num_threads + 3 - k) as m eqn:Em. revert k tr s H Em. induction m as [|m IH]; intros k tr s H Em.
    - pose proof (C53_terminates _ _ _ _ _ _ Ha H). lia.
    - destruct (main s) eqn:M; try (exists k, [], s; rewrite app_nil_r; now split);
      (destruct (C53_no_deadlock _ _ _ _ _ Hw H) as (e & s1 & St); [rewrite M; discriminate|];
       destruct (IH (k + 1) (tr ++ e) s1) as (k' & tr' & s' & H' & R'); [econstructor; eassumption|lia|];
       exists k', (e ++ tr'), s'; rewrite app_assoc; now split).
  Qed.
End Any.

(** add_result_collector with workers that compute f: the sum of f over the jobs, whatever the schedule *)
Section Sum.
  Context {P J W R : Type}.
  Variable has_next : P -> bool.
  Variable next : P -> J * P.
  Variable creates : W -> Prop.
  Variable execute : W -> J -> R * W.
  Variable f : J -> R.
  Hypothesis execute_f : forall w j, fst (execute w j) = f j.
  Variable zero : R.
  Variable add : R -> R -> R.
  Hypothesis add_comm : forall a b, add a b = add b a.
  Hypothesis add_assoc : forall a b c, add a (add b c) = add (add a b) c.
  Theorem C53_sum num_threads p0 k tr s js : all_jobs has_next next p0 js ->
    exec has_next next creates execute (add_collect add) (threads num_threads) (init p0 zero) k tr s -> main s = Returned ->
    coll s = fold_left (fun c j => add c (f j)) js zero.
  Proof.
    intros Ha H M. destruct (C53_exactly_once _ _ _ _ _ _ _ _ _ _ _ H M) as (A & B & D & E & ->).
    assert (Ej : taken tr = js). { destruct Ha as (q & S1 & S2). destruct A as (q' & T1 & T2). destruct (supplies_split _ _ _ _ _ S1 S2 _ _ T1) as (rest & -> & X). destruct X; [now rewrite app_nil_r|congruence]. }
    assert (X : forall l : list (R * J), (forall r j, In (r, j) l -> r = f j) -> forall c, fold_left (fun c '(r, j) => add_collect add c r j) l c = fold_left (fun c j => add c (f j)) (map snd l) c).
    { induction l as [|[r j] l IH]; intros Hl c; cbn; [reflexivity|]. rewrite IH by (intros; apply Hl; now right). unfold add_collect. rewrite (Hl r j) by now left. reflexivity. }
    assert (Hc : forall r j, In (r, j) (collected tr) -> r = f j).
    { intros r j Hin. destruct (E r j) as (w & w' & Ew); [eapply Permutation_in; [symmetry; exact D|exact Hin]|]. rewrite <- (execute_f w j), Ew. reflexivity. }
    rewrite X by exact Hc. rewrite <- Ej.
    assert (Hp : Permutation (map snd (collected tr)) (taken tr)) by (rewrite B, D; reflexivity).
    assert (Y : forall l1 l2, Permutation l1 l2 -> forall c, fold_left (fun c j => add c (f j)) l1 c = fold_left (fun c j => add c (f j)) l2 c).
    { induction 1 as [|x l1 l2 Hp' IH|x y l|l1 l2 l3 H1 IH1 H2 IH2]; intros c; cbn; [reflexivity|apply IH| |now rewrite IH1]. f_equal. rewrite <- !add_assoc. f_equal. apply add_comm. }
    now apply Y.
  Qed.
End Sum.

(** range_job_provider(a, b, len): consecutive pieces of [a, b) *)
Theorem C53_range a b len : (0 < len)%Z -> (a <= b)%Z -> exists js, all_jobs range_has (range_next len) (a, b) js /\ pieces len a b js.
Proof.
  intros Hl. remember (Z.to_nat (b - a)) as k eqn:Ek. revert a Ek. induction k as [k IH] using lt_wf_ind. intros a Ek Hab.
  destruct (Z.eq_dec a b) as [->|Hne].
  - exists []. split; [|constructor]. exists (b, b). split; [constructor|]. unfold range_has. cbn. lia.
  - destruct (Z.le_gt_cases b (a + len)).
    + exists [(a, b)]. split; [|constructor; try lia; constructor]. exists ((a + len)%Z, b). split; [|unfold range_has; cbn; lia].
      eapply Sup_cons; [unfold range_has; cbn; lia| |apply Sup_nil]. unfold range_next. cbn [fst snd]. rewrite Z.min_r by lia. now replace (a + len - len)%Z with a by lia.
    + destruct (IH (Z.to_nat (b - (a + len)))) with (a := (a + len)%Z) as (js & (q & S1 & S2) & Hp); [lia|reflexivity|lia|].
      exists ((a, (a + len)%Z) :: js). split; [|constructor; try lia; exact Hp]. exists q. split; [|exact S2].
      eapply Sup_cons; [unfold range_has; cbn; lia| |exact S1]. unfold range_next. cbn [fst snd]. rewrite Z.min_l by lia. now replace (a + len - len)%Z with a by lia.
Qed.
(** in a fixed-width type this is what next_job computes, as long as end + len - 1 is representable *)
Theorem C53_range_width wd len p : (0 < len)%Z -> (- 2 ^ (wd - 1) <= fst p < snd p)%Z -> (snd p + len - 1 < 2 ^ (wd - 1))%Z ->
  range_next_w wd len p = Some (range_next len p).
Proof.
  intros H1 H2 H3. unfold range_next_w, range_next, in_range. replace _ with true by (symmetry; apply andb_true_iff; lia). cbn [obind].
  replace _ with true by (symmetry; apply andb_true_iff; lia). reflexivity.
Qed.
(** REFUTED without room: near the end of the type, begin += len overflows *)
Theorem C53_range_overflow_refuted : range_next_w 32 10 (2 ^ 31 - 5, 2 ^ 31 - 1)%Z = None.
Proof. vm_compute. reflexivity. Qed.
(** the whole: workers that add up g over their piece add up g over [a, b) *)
Definition zsum (g : Z -> Z) (a b : Z) : Z := fold_left (fun c i => c + g (a + Z.of_nat i))%Z (seq 0 (Z.to_nat (b - a))) 0%Z.
Lemma zsum_acc g a l c : fold_left (fun c i => c + g (a + Z.of_nat i))%Z l c = (c + fold_left (fun c i => c + g (a + Z.of_nat i)) l 0)%Z.
Proof. revert c. induction l as [|i l IH]; intros c; cbn [fold_left]; [lia|]. rewrite IH, (IH (0 + _)%Z). lia. Qed.
Lemma map_add_seq d k : forall x, map (fun i => d + i) (seq x k) = seq (d + x) k.
Proof. induction k as [|k IH]; intros x; cbn; [reflexivity|]. rewrite IH. do 2 f_equal. lia. Qed.
Lemma zsum_split g a m b : (a <= m <= b)%Z -> zsum g a b = (zsum g a m + zsum g m b)%Z.
Proof.
  intros H. unfold zsum. replace (Z.to_nat (b - a)) with (Z.to_nat (m - a) + Z.to_nat (b - m)) by lia. rewrite seq_app, fold_left_app, zsum_acc. f_equal.
  cbn [Nat.add]. replace (seq (Z.to_nat (m - a)) (Z.to_nat (b - m))) with (map (fun i => Z.to_nat (m - a) + i) (seq 0 (Z.to_nat (b - m)))) by (rewrite map_add_seq; f_equal; lia).
  generalize 0%Z. generalize (seq 0 (Z.to_nat (b - m))). induction l as [|i l IH]; intros c; cbn [map fold_left]; [reflexivity|]. rewrite IH. do 3 f_equal. lia.
Qed.
Theorem C53_range_sum g a b len num_threads (W : Type) (creates : W -> Prop) (execute : W -> Z * Z -> Z * W) k tr s : (0 < len)%Z -> (a <= b)%Z ->
  (forall w x y, fst (execute w (x, y)) = zsum g x y) ->
  exec range_has (range_next len) creates execute (add_collect Z.add) (threads num_threads) (init (a, b) 0%Z) k tr s -> main s = Returned ->
  coll s = zsum g a b.
Proof.
  intros Hl Hab He H M. destruct (C53_range a b len Hl Hab) as (js & Ha & Hp).
  rewrite (C53_sum range_has (range_next len) creates execute (fun j => zsum g (fst j) (snd j)) ltac:(intros w [x y]; apply He) 0%Z Z.add Z.add_comm Z.add_assoc num_threads _ _ _ _ js Ha H M).
  assert (X : forall c, fold_left (fun c j => (c + zsum g (fst j) (snd j))%Z) js c = (c + zsum g a b)%Z /\ (a <= b)%Z); [|apply X].
  clear -Hp. induction Hp as [a|a m b l H1 H2 H3 Hp IH]; intros c; cbn [fold_left fst snd].
  - split; [|lia]. unfold zsum. rewrite Z.sub_diag. cbn. lia.
  - destruct (IH (c + zsum g a m)%Z) as [-> _]. split; [|lia]. rewrite (zsum_split g a m b) by lia. lia.
Qed.
(** REFUTED: "none of the provided objects need to worry about synchronization" does not hold for the worker provider: two threads can be inside create_worker at once *)
Theorem C53_create_worker_refuted (P J W R C : Type) has_next (next : P -> J * P) (creates : W -> Prop) (execute : W -> J -> R * W) (collect : C -> R -> J -> C) p0 c0 :
  exists k tr s, exec has_next next creates execute collect (threads 2) (init p0 c0) k tr s /\ thr s 0 = Creating /\ thr s 1 = Creating.
Proof.
  eexists _, _, _. split.
  - eapply X_step; [eapply X_step; [eapply X_step; [eapply X_step; [apply X_nil|]|]|]|].
    + eapply (St_spawn _ _ _ _ _ _ _ 0); [reflexivity|cbn; lia].
    + eapply (St_spawn _ _ _ _ _ _ _ 1); [reflexivity|cbn; lia].
    + eapply (St_create _ _ _ _ _ _ _ 0). reflexivity.
    + eapply (St_create _ _ _ _ _ _ _ 1). reflexivity.
  - split; reflexivity.
Qed.
Example C53_case : exists js, all_jobs range_has (range_next 10) (12, 58)%Z js /\ js = [(12, 22); (22, 32); (32, 42); (42, 52); (52, 58)]%Z.
Proof. eexists. split; [|reflexivity]. exists (62, 58)%Z. split; [|reflexivity]. repeat (eapply Sup_cons; [reflexivity|reflexivity|]). apply Sup_nil. Qed.
Print Assumptions C53_exactly_once. Print Assumptions C53_exclusive. Print Assumptions C53_no_deadlock. Print Assumptions C53_terminates. Print Assumptions C53_completes. Print Assumptions C53_sum.
Print Assumptions C53_range. Print Assumptions C53_range_width. Print Assumptions C53_range_overflow_refuted. Print Assumptions C53_range_sum. Print Assumptions C53_create_worker_refuted.
