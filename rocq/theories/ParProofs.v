From Verif Require Import Lib ParModel ParSpec.
From Coq Require Import Permutation.
Open Scope nat_scope.

Section Par.
  Context {P J W R C : Type}.
  Variable has_next : P -> bool.
  Variable next : P -> J * P.
  Variable creates : W -> Prop.
  Variable execute : W -> J -> R * W.
  Variable collect : C -> R -> J -> C.
  Variable n : nat.
  Notation pc := (pc J W R).
  Notation state := (state P J W R C).
  Notation event := (event J R).
  Notation step := (step has_next next creates execute collect n).
  Notation exec := (exec has_next next creates execute collect n).

  Definition holds_job (c : pc) : bool := match c with Has _ | Next _ | UnlockJob _ _ | Break => true | _ => false end.
  Definition holds_res (c : pc) : bool := match c with Collect _ _ _ | UnlockRes _ => true | _ => false end.
  Definition idle (c : pc) : bool := match c with Idle => true | _ => false end.
  Definition finished (c : pc) : bool := match c with Break | End => true | _ => false end.
  (** a job in a thread: taken but not executed, executed but not collected *)
  Definition raw (c : pc) : list J := match c with UnlockJob _ j | Exec _ j => [j] | _ => [] end.
  Definition done (c : pc) : list (R * J) := match c with LockRes _ j r | Collect _ j r => [(r, j)] | _ => [] end.
  Definition over {A} (g : pc -> list A) (f : nat -> pc) : list A := flat_map (fun i => g (f i)) (seq 0 n).

  Lemma upd_same (f : nat -> pc) t c : upd f t c t = c.
  Proof. unfold upd. now rewrite Nat.eqb_refl. Qed.
  Lemma upd_other (f : nat -> pc) t c i : i <> t -> upd f t c i = f i.
  Proof. unfold upd. now destruct (Nat.eqb_spec i t). Qed.
  Lemma over_upd {A} (g : pc -> list A) f t c : t < n -> Permutation (g (f t) ++ over g (upd f t c)) (g c ++ over g f).
  Proof.
    intros Ht. unfold over. assert (E : seq 0 n = seq 0 t ++ t :: seq (S t) (n - t - 1)).
    { replace n with (t + S (n - t - 1)) at 1 by lia. rewrite seq_app. reflexivity. }
    rewrite E, !flat_map_app. cbn [flat_map]. rewrite upd_same.
    assert (X : forall a k, ~ (a <= t < a + k) -> flat_map (fun i => g (upd f t c i)) (seq a k) = flat_map (fun i => g (f i)) (seq a k)).
    { intros a k Hk. rewrite !flat_map_concat_map. f_equal. apply map_ext_in. intros i Hi. apply in_seq in Hi. rewrite upd_other by lia. reflexivity. }
    rewrite !X by lia. set (L := flat_map _ (seq 0 t)). set (Q := flat_map _ (seq (S t) _)).
    rewrite !(app_assoc _ L), <- !app_assoc. 
    transitivity (L ++ g (f t) ++ g c ++ Q); [apply Permutation_app_swap_app|].
    transitivity (L ++ g c ++ g (f t) ++ Q); [apply Permutation_app_head, Permutation_app_swap_app|]. apply Permutation_app_swap_app.
  Qed.
  Lemma over_same {A} (g : pc -> list A) f t c : t < n -> g (f t) = g c -> Permutation (over g (upd f t c)) (over g f).
  Proof. intros Ht E. pose proof (over_upd g f t c Ht) as H. rewrite E in H. now apply Permutation_app_inv_l in H. Qed.
  Lemma taken_app (a b : list event) : taken (a ++ b) = taken a ++ taken b.
  Proof. apply flat_map_app. Qed.
  Lemma executed_app (a b : list event) : executed (a ++ b) = executed a ++ executed b.
  Proof. apply flat_map_app. Qed.
  Lemma collected_app (a b : list event) : collected (a ++ b) = collected a ++ collected b.
  Proof. apply flat_map_app. Qed.
  Lemma supplies_snoc p js q j q' : supplies has_next next p js q -> has_next q = true -> next q = (j, q') -> supplies has_next next p (js ++ [j]) q'.
  Proof. induction 1 as [p|p j0 p1 js p2 H1 H2 H3 IH]; intros A B; cbn [app]; econstructor; eauto. constructor. Qed.

  Definition spawned (m : main_pc) : nat := match m with Spawn i => i | _ => n end.
  Definition joined (m : main_pc) : nat := match m with Spawn _ => 0 | Join i => i | Returned => n end.
  Record Inv (p0 : P) (c0 : C) (tr : list event) (s : state) : Prop := {
    I_spawn : spawned (main s) <= n;
    I_join : joined (main s) <= n;
    I_idle : forall i, idle (thr s i) = negb (i <? spawned (main s));
    I_joined : forall i, i < joined (main s) -> thr s i = End;
    I_job : forall i, holds_job (thr s i) = match job_mutex s with Some t => i =? t | None => false end;
    I_res : forall i, holds_res (thr s i) = match res_mutex s with Some t => i =? t | None => false end;
    I_next : forall i w, thr s i = Next w -> has_next (prov s) = true;
    I_fin : forall i, finished (thr s i) = true -> has_next (prov s) = false;
    I_sup : supplies has_next next p0 (taken tr) (prov s);
    I_raw : Permutation (taken tr) (map snd (executed tr) ++ over raw (thr s));
    I_done : Permutation (executed tr) (collected tr ++ over done (thr s));
    I_exe : forall r j, In (r, j) (executed tr) -> exists w w', execute w j = (r, w');
    I_coll : coll s = fold_left (fun c '(r, j) => collect c r j) (collected tr) c0;
    I_jm : forall t, job_mutex s = Some t -> t < n;
    I_rm : forall t, res_mutex s = Some t -> t < n }.
  Lemma lt_n p0 c0 tr s t : Inv p0 c0 tr s -> idle (thr s t) = false -> t < n.
  Proof. intros I H. rewrite (I_idle _ _ _ _ I) in H. apply negb_false_iff, Nat.ltb_lt in H. pose proof (I_spawn _ _ _ _ I). lia. Qed.
  Lemma over_idle {A} (g : pc -> list A) : g Idle = [] -> over g (fun _ => Idle) = [].
  Proof. intros H. unfold over. induction (seq 0 n) as [|a l IH]; cbn; [reflexivity|]. rewrite IH, app_nil_r. exact H. Qed.
  Lemma init_inv p0 c0 : Inv p0 c0 [] (init p0 c0).
  Proof.
    split; cbn; try (intros; discriminate); try lia; try reflexivity.
    - constructor. - now rewrite over_idle. - now rewrite over_idle.
  Qed.
  Ltac upd_case i t := unfold upd; destruct (Nat.eqb_spec i t) as [->|?].
  Lemma step_inv p0 c0 tr s e s' : Inv p0 c0 tr s -> step s e s' -> Inv p0 c0 (tr ++ e) s'.
  Proof.
    intros I St. pose proof I as [V1 V2 V3 V4 V5 V6 V7 V8 V9 V10 V11 V12 V13 V14 V15].
    destruct St as [s i M Hi|s M|s i M Hi HE|s M|s t HT|s t w HT Hw|s t w HT HM|s t w HT HN|s t w HT HN|s t HT|s t w j p HT HN|s t w j HT|s t w j r w' HT HX|s t w j r HT HM|s t w j r HT|s t w HT];
      rewrite ?app_nil_r;
      try (match type of HT with thr s t = ?c => assert (Ht : t < n) by (apply (lt_n p0 c0 tr s t I); now rewrite HT); pose proof (V5 t) as K5; pose proof (V6 t) as K6; rewrite HT in K5, K6; cbn [holds_job holds_res] in K5, K6 end).
    all: try (assert (Nj : forall c : pc, idle c = false -> forall i, idle (upd (thr s) t c i) = negb (i <? spawned (main s)))
                by (intros c Hc i; upd_case i t; [rewrite <- V3, HT; exact Hc|apply V3])).
    all: try (assert (Ne : forall c : pc, forall i, i < joined (main s) -> upd (thr s) t c i = End)
                by (intros c i Hlt; upd_case i t; [specialize (V4 _ Hlt); rewrite HT in V4; discriminate|now apply V4])).
    - (* spawn *) assert (Hid : thr s i = Idle). { specialize (V3 i). rewrite M in V3. cbn [spawned] in V3. rewrite Nat.ltb_irrefl in V3. cbn in V3. destruct (thr s i); try discriminate; reflexivity. }
      rewrite M in *. cbn [spawned joined] in *. split; cbn [thr prov coll job_mutex res_mutex main spawned joined]; try assumption; try lia.
      + intros k. upd_case k i; cbn [idle]; [destruct (Nat.ltb_spec i (i + 1)); [reflexivity|lia]|]. rewrite V3. f_equal. apply eq_true_iff_eq. rewrite !Nat.ltb_lt. lia.
      + intros k. upd_case k i; [|apply V5]. rewrite <- V5, Hid. reflexivity.
      + intros k. upd_case k i; [|apply V6]. rewrite <- V6, Hid. reflexivity.
      + intros k w. upd_case k i; [discriminate|apply V7].
      + intros k. upd_case k i; [discriminate|apply V8].
      + etransitivity; [exact V10|]. apply Permutation_app_head. symmetry. apply over_same; [exact Hi|]. now rewrite Hid.
      + etransitivity; [exact V11|]. apply Permutation_app_head. symmetry. apply over_same; [exact Hi|]. now rewrite Hid.
    - rewrite M in *. cbn [spawned joined] in *. split; cbn [thr prov coll job_mutex res_mutex main spawned joined]; try assumption; try lia.
    - rewrite M in *. cbn [spawned joined] in *. split; cbn [thr prov coll job_mutex res_mutex main spawned joined]; try assumption; try lia. intros k Hk. destruct (Nat.eq_dec k i) as [->|]; [exact HE|]. apply V4. lia.
    - rewrite M in *. cbn [spawned joined] in *. split; cbn [thr prov coll job_mutex res_mutex main spawned joined]; try assumption; try lia.
    - (* create *) split; cbn [thr prov coll job_mutex res_mutex main spawned joined]; try assumption.
      + now apply Nj. + now apply Ne.
      + intros i. upd_case i t; [exact K5|apply V5].
      + intros i. upd_case i t; [exact K6|apply V6].
      + intros i w'. upd_case i t; [discriminate|apply V7].
      + intros i. upd_case i t; [discriminate|apply V8].
      + etransitivity; [exact V10|]. apply Permutation_app_head. symmetry. apply over_same; [exact Ht|]. now rewrite HT.
      + etransitivity; [exact V11|]. apply Permutation_app_head. symmetry. apply over_same; [exact Ht|]. now rewrite HT.
    - (* created *) split; cbn [thr prov coll job_mutex res_mutex main spawned joined]; try assumption.
      + now apply Nj. + now apply Ne.
      + intros i. upd_case i t; [exact K5|apply V5].
      + intros i. upd_case i t; [exact K6|apply V6].
      + intros i w'. upd_case i t; [discriminate|apply V7].
      + intros i. upd_case i t; [discriminate|apply V8].
      + etransitivity; [exact V10|]. apply Permutation_app_head. symmetry. apply over_same; [exact Ht|]. now rewrite HT.
      + etransitivity; [exact V11|]. apply Permutation_app_head. symmetry. apply over_same; [exact Ht|]. now rewrite HT.
    - (* lock job *) rewrite HM in *. split; cbn [thr prov coll job_mutex res_mutex main spawned joined]; try assumption.
      + now apply Nj. + now apply Ne.
      + intros i. upd_case i t; [reflexivity|]. rewrite V5. reflexivity.
      + intros i. upd_case i t; [exact K6|apply V6].
      + intros i w'. upd_case i t; [discriminate|apply V7].
      + intros i. upd_case i t; [discriminate|apply V8].
      + etransitivity; [exact V10|]. apply Permutation_app_head. symmetry. apply over_same; [exact Ht|]. now rewrite HT.
      + etransitivity; [exact V11|]. apply Permutation_app_head. symmetry. apply over_same; [exact Ht|]. now rewrite HT.
      + intros t' Et. injection Et as <-. exact Ht.
    - (* has *) split; cbn [thr prov coll job_mutex res_mutex main spawned joined]; try assumption.
      + now apply Nj. + now apply Ne.
      + intros i. upd_case i t; [exact K5|apply V5].
      + intros i. upd_case i t; [exact K6|apply V6].
      + intros; assumption.
      + intros i. upd_case i t; [discriminate|apply V8].
      + etransitivity; [exact V10|]. apply Permutation_app_head. symmetry. apply over_same; [exact Ht|]. now rewrite HT.
      + etransitivity; [exact V11|]. apply Permutation_app_head. symmetry. apply over_same; [exact Ht|]. now rewrite HT.
    - (* break *) split; cbn [thr prov coll job_mutex res_mutex main spawned joined]; try assumption.
      + now apply Nj. + now apply Ne.
      + intros i. upd_case i t; [exact K5|apply V5].
      + intros i. upd_case i t; [exact K6|apply V6].
      + intros i w'. upd_case i t; [discriminate|apply V7].
      + intros; assumption.
      + etransitivity; [exact V10|]. apply Permutation_app_head. symmetry. apply over_same; [exact Ht|]. now rewrite HT.
      + etransitivity; [exact V11|]. apply Permutation_app_head. symmetry. apply over_same; [exact Ht|]. now rewrite HT.
    - (* end *) destruct (job_mutex s) as [t'|] eqn:HM; [|discriminate]. symmetry in K5. apply Nat.eqb_eq in K5. subst t'. split; cbn [thr prov coll job_mutex res_mutex main spawned joined]; try assumption.
      + now apply Nj.
      + now apply Ne.
      + intros i. upd_case i t; [reflexivity|]. rewrite V5. now apply Nat.eqb_neq.
      + intros i. upd_case i t; [exact K6|apply V6].
      + intros i w'. upd_case i t; [discriminate|apply V7].
      + intros i. upd_case i t; [|apply V8]. intros _. apply (V8 t). now rewrite HT.
      + etransitivity; [exact V10|]. apply Permutation_app_head. symmetry. apply over_same; [exact Ht|]. now rewrite HT.
      + etransitivity; [exact V11|]. apply Permutation_app_head. symmetry. apply over_same; [exact Ht|]. now rewrite HT.
      + discriminate.
    - (* next *) destruct (job_mutex s) as [t'|] eqn:HM; [|discriminate]. symmetry in K5. apply Nat.eqb_eq in K5. subst t'.
      pose proof (V7 t w HT) as HH. split; cbn [thr prov coll job_mutex res_mutex main spawned joined]; try assumption; rewrite ?taken_app, ?executed_app, ?collected_app; cbn [taken executed collected flat_map app]; rewrite ?app_nil_r; try assumption.
      + now apply Nj. + now apply Ne.
      + intros i. upd_case i t; [reflexivity|rewrite V5; now apply Nat.eqb_neq].
      + intros i. upd_case i t; [exact K6|apply V6].
      + intros i w'. upd_case i t; [discriminate|]. intros Hx. exfalso. specialize (V5 i). rewrite Hx in V5. cbn in V5. symmetry in V5. now apply Nat.eqb_eq in V5.
      + intros i. upd_case i t; [discriminate|]. intros Hx. apply V8 in Hx. congruence.
      + now apply (supplies_snoc p0 (taken tr) (prov s)).
      + pose proof (over_upd raw (thr s) t (UnlockJob w j) Ht) as Q. rewrite HT in Q. cbn [raw app] in Q.
        etransitivity; [apply Permutation_app_comm|]. cbn [app]. rewrite Q. rewrite V10. apply Permutation_cons_app. reflexivity.
      + etransitivity; [exact V11|]. apply Permutation_app_head. symmetry. apply over_same; [exact Ht|]. now rewrite HT.
    - (* unlock job *) destruct (job_mutex s) as [t'|] eqn:HM; [|discriminate]. symmetry in K5. apply Nat.eqb_eq in K5. subst t'. split; cbn [thr prov coll job_mutex res_mutex main spawned joined]; try assumption.
      + now apply Nj. + now apply Ne.
      + intros i. upd_case i t; [reflexivity|]. rewrite V5. now apply Nat.eqb_neq.
      + intros i. upd_case i t; [exact K6|apply V6].
      + intros i w'. upd_case i t; [discriminate|apply V7].
      + intros i. upd_case i t; [discriminate|apply V8].
      + etransitivity; [exact V10|]. apply Permutation_app_head. symmetry. apply over_same; [exact Ht|]. now rewrite HT.
      + etransitivity; [exact V11|]. apply Permutation_app_head. symmetry. apply over_same; [exact Ht|]. now rewrite HT.
      + discriminate.
    - (* execute *) split; cbn [thr prov coll job_mutex res_mutex main spawned joined]; try assumption; rewrite ?taken_app, ?executed_app, ?collected_app; cbn [taken executed collected flat_map app]; rewrite ?app_nil_r; try assumption.
      + now apply Nj. + now apply Ne.
      + intros i. upd_case i t; [exact K5|apply V5].
      + intros i. upd_case i t; [exact K6|apply V6].
      + intros i w0. upd_case i t; [discriminate|apply V7].
      + intros i. upd_case i t; [discriminate|apply V8].
      + pose proof (over_upd raw (thr s) t (LockRes w' j r) Ht) as Q. rewrite HT in Q. cbn [raw app] in Q. rewrite V10, map_app. cbn [map snd].
        rewrite <- app_assoc. cbn [app]. apply Permutation_app_head. now symmetry.
      + pose proof (over_upd done (thr s) t (LockRes w' j r) Ht) as Q. rewrite HT in Q. cbn [done app] in Q. rewrite Q.
        etransitivity; [apply Permutation_app_comm|]. cbn [app]. rewrite V11. apply Permutation_cons_app. reflexivity.
      + intros r0 j0 Hin. apply in_app_or in Hin as [Hin|[Hin|[]]]; [now apply V12|]. injection Hin as <- <-. eauto.
    - (* lock res *) rewrite HM in *. split; cbn [thr prov coll job_mutex res_mutex main spawned joined]; try assumption.
      + now apply Nj. + now apply Ne.
      + intros i. upd_case i t; [exact K5|apply V5].
      + intros i. upd_case i t; [reflexivity|]. rewrite V6. reflexivity.
      + intros i w'. upd_case i t; [discriminate|apply V7].
      + intros i. upd_case i t; [discriminate|apply V8].
      + etransitivity; [exact V10|]. apply Permutation_app_head. symmetry. apply over_same; [exact Ht|]. now rewrite HT.
      + etransitivity; [exact V11|]. apply Permutation_app_head. symmetry. apply over_same; [exact Ht|]. now rewrite HT.
      + intros t' Et. injection Et as <-. exact Ht.
    - (* collect *) split; cbn [thr prov coll job_mutex res_mutex main spawned joined]; try assumption; rewrite ?taken_app, ?executed_app, ?collected_app; cbn [taken executed collected flat_map app]; rewrite ?app_nil_r; try assumption.
      + now apply Nj. + now apply Ne.
      + intros i. upd_case i t; [exact K5|apply V5].
      + intros i. upd_case i t; [exact K6|apply V6].
      + intros i w0. upd_case i t; [discriminate|apply V7].
      + intros i. upd_case i t; [discriminate|apply V8].
      + etransitivity; [exact V10|]. apply Permutation_app_head. symmetry. apply over_same; [exact Ht|]. now rewrite HT.
      + pose proof (over_upd done (thr s) t (UnlockRes w) Ht) as Q. rewrite HT in Q. cbn [done app] in Q. rewrite V11, <- app_assoc. cbn [app].
        apply Permutation_app_head. now symmetry.
      + rewrite fold_left_app. cbn. now rewrite <- V13.
    - (* unlock res *) destruct (res_mutex s) as [t'|] eqn:HM; [|discriminate]. symmetry in K6. apply Nat.eqb_eq in K6. subst t'. split; cbn [thr prov coll job_mutex res_mutex main spawned joined]; try assumption.
      + now apply Nj. + now apply Ne.
      + intros i. upd_case i t; [exact K5|apply V5].
      + intros i. upd_case i t; [reflexivity|]. rewrite V6. now apply Nat.eqb_neq.
      + intros i w'. upd_case i t; [discriminate|apply V7].
      + intros i. upd_case i t; [discriminate|apply V8].
      + etransitivity; [exact V10|]. apply Permutation_app_head. symmetry. apply over_same; [exact Ht|]. now rewrite HT.
      + etransitivity; [exact V11|]. apply Permutation_app_head. symmetry. apply over_same; [exact Ht|]. now rewrite HT.
      + discriminate.
  Qed.
  Lemma exec_inv p0 c0 k tr s : exec (init p0 c0) k tr s -> Inv p0 c0 tr s.
  Proof. induction 1 as [|k tr s e s' H IH St]; [apply init_inv|now apply (step_inv _ _ _ s)]. Qed.

  (** when the caller returns *)
  Lemma returned p0 c0 k tr s : 0 < n -> exec (init p0 c0) k tr s -> main s = Returned ->
    all_jobs has_next next p0 (taken tr) /\ Permutation (taken tr) (map snd (executed tr)) /\ Permutation (executed tr) (collected tr).
  Proof.
    intros Hn H M. pose proof (exec_inv _ _ _ _ _ H) as I. assert (E : forall i, i < n -> thr s i = End) by (intros i Hi; apply (I_joined _ _ _ _ I); rewrite M; exact Hi).
    assert (O : forall A (g : pc -> list A), g End = [] -> over g (thr s) = []).
    { intros A g Hg. unfold over. assert (X : forall l, (forall i, In i l -> i < n) -> flat_map (fun i => g (thr s i)) l = []).
      { induction l as [|a l IHl]; intros Hl; cbn; [reflexivity|]. rewrite E by (apply Hl; now left). rewrite Hg, IHl; [reflexivity|]. intros i Hi. apply Hl. now right. }
      apply X. intros i Hi. apply in_seq in Hi. lia. }
    split; [exists (prov s); split; [apply I|]; apply (I_fin _ _ _ _ I 0); now rewrite E|].
    pose proof (I_raw _ _ _ _ I) as A. pose proof (I_done _ _ _ _ I) as B. rewrite O in A, B by reflexivity. rewrite app_nil_r in A, B. now split.
  Qed.

  (** no deadlock *)
  Lemma progress p0 c0 k tr s : (exists w, creates w) -> exec (init p0 c0) k tr s -> main s <> Returned -> exists e s', step s e s'.
  Proof.
    intros (w0 & Hw0) H M. pose proof (exec_inv _ _ _ _ _ H) as I.
    assert (T : forall t, idle (thr s t) = false -> (exists e s', step s e s') \/ thr s t = End \/ (exists w, thr s t = LockJob w /\ job_mutex s <> None) \/ (exists w j r, thr s t = LockRes w j r /\ res_mutex s <> None)).
    { intros t Ht. destruct (thr s t) eqn:Q.
      - discriminate.
      - left. eexists _, _. now apply (St_create _ _ _ _ _ _ s t).
      - left. eexists _, _. now apply (St_created _ _ _ _ _ _ s t w0).
      - destruct (job_mutex s) eqn:E; [right; right; left; exists w; split; [reflexivity|discriminate]|]. left. eexists _, _. now apply (St_lock_job _ _ _ _ _ _ s t w).
      - left. destruct (has_next (prov s)) eqn:E; eexists _, _; [now apply (St_has _ _ _ _ _ _ s t w)|now apply (St_break _ _ _ _ _ _ s t w)].
      - left. destruct (next (prov s)) as [j p] eqn:E. eexists _, _. now apply (St_next _ _ _ _ _ _ s t w j p).
      - left. eexists _, _. now apply (St_unlock_job _ _ _ _ _ _ s t w j).
      - left. eexists _, _. now apply (St_end _ _ _ _ _ _ s t).
      - left. destruct (execute w j) as [r w'] eqn:E. eexists _, _. now apply (St_exec _ _ _ _ _ _ s t w j r w').
      - destruct (res_mutex s) eqn:E; [right; right; right; exists w, j, r; split; [reflexivity|discriminate]|]. left. eexists _, _. now apply (St_lock_res _ _ _ _ _ _ s t w j r).
      - left. eexists _, _. now apply (St_collect _ _ _ _ _ _ s t w j r).
      - left. eexists _, _. now apply (St_unlock_res _ _ _ _ _ _ s t w).
      - right. now left. }
    assert (TJ : job_mutex s <> None -> exists e s', step s e s').
    { intros Hm. destruct (job_mutex s) as [t|] eqn:E; [|easy]. pose proof (I_job _ _ _ _ I t) as K. rewrite E, Nat.eqb_refl in K.
      destruct (T t) as [X|[X|[(w & X & _)|(w & j & r & X & _)]]]; [destruct (thr s t); easy|exact X|rewrite X in K; discriminate|rewrite X in K; discriminate|rewrite X in K; discriminate]. }
    assert (TR : res_mutex s <> None -> exists e s', step s e s').
    { intros Hm. destruct (res_mutex s) as [t|] eqn:E; [|easy]. pose proof (I_res _ _ _ _ I t) as K. rewrite E, Nat.eqb_refl in K.
      destruct (T t) as [X|[X|[(w & X & _)|(w & j & r & X & _)]]]; [destruct (thr s t); easy|exact X|rewrite X in K; discriminate|rewrite X in K; discriminate|rewrite X in K; discriminate]. }
    destruct (main s) as [i|i|] eqn:E; [| |easy].
    - pose proof (I_spawn _ _ _ _ I) as Hi. rewrite E in Hi. cbn in Hi. destruct (Nat.eq_dec i n) as [->|]; eexists _, _; [now apply St_spawned|apply (St_spawn _ _ _ _ _ _ s i E); lia].
    - pose proof (I_join _ _ _ _ I) as Hi. rewrite E in Hi. cbn in Hi. destruct (Nat.eq_dec i n) as [->|]; [eexists _, _; now apply St_return|].
      destruct (T i) as [X|[X|[(w & _ & X)|(w & j & r & _ & X)]]].
      + rewrite (I_idle _ _ _ _ I), E. cbn. apply negb_false_iff, Nat.ltb_lt. lia.
      + exact X. + eexists _, _. apply (St_join _ _ _ _ _ _ s i E); [lia|exact X]. + now apply TJ. + now apply TR.
  Qed.

  (** termination *)
  Definition rank (c : pc) : nat :=
    match c with Idle => 7 | Start => 6 | Creating => 5 | LockJob _ => 4 | Has _ => 3 | Next _ => 2 | Break => 2 | End => 0
    | UnlockJob _ _ => 9 | Exec _ _ => 8 | LockRes _ _ _ => 7 | Collect _ _ _ => 6 | UnlockRes _ => 5 end.
  Definition total (f : nat -> pc) : nat := list_sum (map (fun i => rank (f i)) (seq 0 n)).
  Lemma total_upd f t c : t < n -> total (upd f t c) + rank (f t) = total f + rank c.
  Proof.
    intros Ht. unfold total. assert (E : seq 0 n = seq 0 t ++ t :: seq (S t) (n - t - 1)).
    { replace n with (t + S (n - t - 1)) at 1 by lia. rewrite seq_app. reflexivity. }
    rewrite E, !map_app, !list_sum_app. cbn [map list_sum fold_right]. rewrite upd_same.
    assert (X : forall a k, ~ (a <= t < a + k) -> map (fun i => rank (upd f t c i)) (seq a k) = map (fun i => rank (f i)) (seq a k)).
    { intros a k Hk. apply map_ext_in. intros i Hi. apply in_seq in Hi. rewrite upd_other by lia. reflexivity. }
    unfold list_sum. rewrite !X by lia. cbn [fold_right]. lia.
  Qed.
  Definition mrank (m : main_pc) : nat := match m with Spawn i => (n - i) + n + 2 | Join i => (n - i) + 1 | Returned => 0 end.
  Lemma supplies_split p js q : supplies has_next next p js q -> has_next q = false -> forall ks q', supplies has_next next p ks q' -> exists rest, js = ks ++ rest /\ supplies has_next next q' rest q.
  Proof.
    intros H Hq. induction H as [p|p j p1 js p2 H1 H2 H3 IH]; intros ks q' K.
    - destruct K as [p|p k p1 ks p2 K1 K2 K3]; [|congruence]. exists []. split; [reflexivity|constructor].
    - destruct K as [p|p k p1' ks p2' K1 K2 K3]; [exists (j :: js); split; [reflexivity|econstructor; eauto]|].
      rewrite H2 in K2. injection K2 as <- <-. destruct (IH Hq _ _ K3) as (rest & -> & X). now exists rest.
  Qed.
  Definition measure (js : list J) (tr : list event) (s : state) : nat := 8 * (length js - length (taken tr)) + total (thr s) + mrank (main s).
  Lemma step_measure p0 c0 js k tr s e s' : all_jobs has_next next p0 js -> exec (init p0 c0) k tr s -> step s e s' -> measure js (tr ++ e) s' < measure js tr s.
  Proof.
    intros (q & Hs & Hq) H St. pose proof (exec_inv _ _ _ _ _ H) as I. unfold measure. rewrite taken_app, app_length.
    destruct (supplies_split _ _ _ Hs Hq _ _ (I_sup _ _ _ _ I)) as (rest & Ej & Hr).
    destruct St as [s i M Hi|s M|s i M Hi HE|s M|s t HT|s t w HT Hw|s t w HT HM|s t w HT HN|s t w HT HN|s t HT|s t w j p HT HN|s t w j HT|s t w j r w' HT HX|s t w j r HT HM|s t w j r HT|s t w HT];
      cbn [main thr taken flat_map length app];
      try (assert (Ht : t < n) by (apply (lt_n _ _ _ _ t I); now rewrite HT);
           match goal with |- context [upd (thr s) t ?c] => pose proof (total_upd (thr s) t c Ht) as U; rewrite HT in U; cbn [rank] in U end; try lia).
    - rewrite M. cbn [mrank]. assert (HT : thr s i = Idle). { pose proof (I_idle _ _ _ _ I i) as V3. rewrite M in V3. cbn [spawned] in V3. rewrite Nat.ltb_irrefl in V3. cbn in V3. destruct (thr s i); try discriminate; reflexivity. }
      pose proof (total_upd (thr s) i Start Hi) as U. rewrite HT in U. cbn [rank] in U. lia.
    - rewrite M. cbn [mrank]. lia.
    - rewrite M. cbn [mrank]. lia.
    - rewrite M. cbn [mrank]. lia.
    - pose proof (I_next _ _ _ _ I t w HT) as HH. destruct Hr as [x|x j' x1 js' x2 R1 R2 R3]; [congruence|]. rewrite Ej, app_length. cbn [length]. lia.
  Qed.
  Lemma bounded p0 c0 js k tr s : all_jobs has_next next p0 js -> exec (init p0 c0) k tr s -> k + measure js tr s <= 8 * length js + 9 * n + 2.
  Proof.
    intros Ha H. induction H as [|k tr s e s' H IH St].
    - unfold measure, total, init. cbn [thr main mrank taken flat_map length rank]. replace (list_sum (map (fun _ : nat => 7) (seq 0 n))) with (7 * n); [lia|].
      rewrite <- (seq_length n 0) at 1. induction (seq 0 n) as [|a l IHl]; [reflexivity|]. cbn [length map]. change (list_sum (7 :: ?x)) with (7 + list_sum x). rewrite <- IHl. lia.
    - pose proof (step_measure _ _ _ _ _ _ _ _ Ha H St). lia.
  Qed.
End Par.
