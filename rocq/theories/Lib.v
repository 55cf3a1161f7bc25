(** Common vocabulary of the models: the option monad (None = undefined
    behaviour / thrown / out of fuel), bounds-checked arrays and loops.
    Nothing here models repository code by itself. *)
From Coq Require Export List Arith ZArith Lia Bool.
Export ListNotations.

Definition obind {A B} (m : option A) (k : A -> option B) : option B :=
  match m with Some x => k x | None => None end.
Notation "'let*' x ':=' e 'in' k" := (obind e (fun x => k))
  (at level 200, x name, e at level 100, k at level 200, right associativity).
Notation "'let*' ' p ':=' e 'in' k" := (obind e (fun p => k))
  (at level 200, p pattern, e at level 100, k at level 200, right associativity).

(** a failed check is undefined behaviour *)
Definition guard (b : bool) : option unit := if b then Some tt else None.

(** Array write; None when the index is out of range. Reads are [nth_error]. *)
Fixpoint set_nth {A} (l : list A) (i : nat) (x : A) : option (list A) :=
  match l, i with
  | [], _ => None
  | _ :: t, O => Some (x :: t)
  | y :: t, S i' => let* t' := set_nth t i' x in Some (y :: t')
  end.

(** for (i = a; i < b; i++) body *)
Fixpoint for_n {S} (n i : nat) (body : nat -> S -> option S) (s : S) : option S :=
  match n with
  | O => Some s
  | Datatypes.S n' => let* s' := body i s in for_n n' (Datatypes.S i) body s'
  end.
Definition for_range {S} (a b : nat) (body : nat -> S -> option S) (s : S) : option S :=
  for_n (b - a) a body s.

(** for (i = b; i-- > a;) body *)
Fixpoint for_dn {S} (n a : nat) (body : nat -> S -> option S) (s : S) : option S :=
  match n with
  | O => Some s
  | Datatypes.S n' => let* s' := body (a + n') s in for_dn n' a body s'
  end.
Definition for_down {S} (a b : nat) (body : nat -> S -> option S) (s : S) : option S :=
  for_dn (b - a) a body s.

(** while loop: [f] does one iteration; [inl] = go on, [inr] = left the loop.
    At most [fuel] iterations, otherwise None. *)
Fixpoint iterP {S R} (p : positive) (f : S -> option (S + R)) (s : S) : option (S + R) :=
  match p with
  | xH => f s
  | xO p' =>
      match iterP p' f s with
      | Some (inl s') => iterP p' f s'
      | r => r
      end
  | xI p' =>
      match f s with
      | Some (inl s') =>
          match iterP p' f s' with
          | Some (inl s'') => iterP p' f s''
          | r => r
          end
      | r => r
      end
  end.
Definition loopZ {S R} (fuel : Z) (f : S -> option (S + R)) (s : S) : option R :=
  match fuel with
  | Zpos p => match iterP p f s with Some (inr r) => Some r | _ => None end
  | _ => None
  end.

(* ------------------------------------------------------------------ *)
(** Lemmas about the vocabulary. *)

Lemma set_nth_some {A} (l : list A) i x :
  i < length l -> exists l', set_nth l i x = Some l'.
Proof.
  revert i; induction l as [|y t IH]; intros i Hi; simpl in Hi; [lia|].
  destruct i as [|i]; simpl; [eauto|].
  destruct (IH i) as [t' Ht]; [lia|]. rewrite Ht; simpl; eauto.
Qed.

Lemma set_nth_none {A} (l : list A) i x :
  length l <= i -> set_nth l i x = None.
Proof.
  revert i; induction l as [|y t IH]; intros i Hi; simpl in Hi; [reflexivity|].
  destruct i as [|i]; simpl; [lia|]. rewrite IH by lia. reflexivity.
Qed.

Lemma set_nth_length {A} (l l' : list A) i x :
  set_nth l i x = Some l' -> length l' = length l.
Proof.
  revert i l'; induction l as [|y t IH]; intros i l' H; simpl in H; [discriminate|].
  destruct i as [|i]; [injection H as <-; reflexivity|].
  destruct (set_nth t i x) as [t'|] eqn:E; simpl in H; [|discriminate].
  injection H as <-; simpl; f_equal; eauto.
Qed.

Lemma set_nth_lt {A} (l l' : list A) i x :
  set_nth l i x = Some l' -> i < length l.
Proof.
  intros H. destruct (Nat.lt_ge_cases i (length l)) as [G|G]; [exact G|].
  rewrite set_nth_none in H by exact G. discriminate.
Qed.

Lemma set_nth_get {A} (l l' : list A) i x j :
  set_nth l i x = Some l' ->
  nth_error l' j = if Nat.eqb i j then Some x else nth_error l j.
Proof.
  revert i l' j; induction l as [|y t IH]; intros i l' j H; simpl in H; [discriminate|].
  destruct i as [|i].
  - injection H as <-. destruct j as [|j]; reflexivity.
  - destruct (set_nth t i x) as [t'|] eqn:E; simpl in H; [|discriminate].
    injection H as <-. destruct j as [|j]; simpl; [reflexivity|]. eauto.
Qed.

Lemma nth_error_some {A} (l : list A) i :
  i < length l -> exists x, nth_error l i = Some x.
Proof.
  intros H. destruct (nth_error l i) as [x|] eqn:E; [eauto|].
  apply nth_error_None in E. lia.
Qed.

Lemma set_nth_app {A} (l l' : list A) i x :
  set_nth l i x = Some l' -> l' = firstn i l ++ x :: skipn (S i) l.
Proof.
  revert i l'; induction l as [|y t IH]; intros i l' H; simpl in H; [discriminate|].
  destruct i as [|i]; [injection H as <-; reflexivity|].
  destruct (set_nth t i x) as [t'|] eqn:E; simpl in H; [|discriminate].
  injection H as <-. simpl. f_equal. eauto.
Qed.

Lemma list_ext {A} (l1 l2 : list A) :
  (forall i, nth_error l1 i = nth_error l2 i) -> l1 = l2.
Proof.
  revert l2; induction l1 as [|x t IH]; intros [|y t2] H.
  - reflexivity.
  - specialize (H 0); discriminate.
  - specialize (H 0); discriminate.
  - assert (x = y) by (specialize (H 0); simpl in H; congruence). subst y.
    f_equal. apply IH. intros i. exact (H (S i)).
Qed.

Lemma for_n_spec {S} (Inv : nat -> S -> Prop) body n i s :
  Inv i s ->
  (forall j t, i <= j < i + n -> Inv j t -> exists t', body j t = Some t' /\ Inv (Datatypes.S j) t') ->
  exists s', for_n n i body s = Some s' /\ Inv (i + n) s'.
Proof.
  revert i s; induction n as [|n IH]; intros i s H0 Hb; simpl.
  - rewrite Nat.add_0_r. eauto.
  - destruct (Hb i s) as (t & Et & Ht); [lia|exact H0|]. rewrite Et; simpl.
    destruct (IH (Datatypes.S i) t Ht) as (s' & Es & Hs).
    + intros j u Hj. apply Hb. lia.
    + exists s'. split; [exact Es|]. replace (i + Datatypes.S n) with (Datatypes.S i + n) by lia. exact Hs.
Qed.

Lemma for_range_spec {S} (Inv : nat -> S -> Prop) body a b s :
  a <= b -> Inv a s ->
  (forall j t, a <= j < b -> Inv j t -> exists t', body j t = Some t' /\ Inv (Datatypes.S j) t') ->
  exists s', for_range a b body s = Some s' /\ Inv b s'.
Proof.
  intros Hab H0 Hb. unfold for_range.
  destruct (for_n_spec Inv body (b - a) a s H0) as (s' & E & H).
  - intros j t Hj. apply Hb. lia.
  - exists s'. split; [exact E|]. replace b with (a + (b - a)) by lia. exact H.
Qed.

Lemma for_dn_spec {S} (Inv : nat -> S -> Prop) body n a s :
  Inv (a + n) s ->
  (forall j t, a <= j < a + n -> Inv (Datatypes.S j) t -> exists t', body j t = Some t' /\ Inv j t') ->
  exists s', for_dn n a body s = Some s' /\ Inv a s'.
Proof.
  revert s; induction n as [|n IH]; intros s H0 Hb; simpl.
  - rewrite Nat.add_0_r in H0. eauto.
  - destruct (Hb (a + n) s) as (t & Et & Ht); [lia| |].
    + replace (Datatypes.S (a + n)) with (a + Datatypes.S n) by lia. exact H0.
    + rewrite Et; simpl. apply IH; [exact Ht|]. intros j u Hj. apply Hb. lia.
Qed.

Lemma for_down_spec {S} (Inv : nat -> S -> Prop) body a b s :
  a <= b -> Inv b s ->
  (forall j t, a <= j < b -> Inv (Datatypes.S j) t -> exists t', body j t = Some t' /\ Inv j t') ->
  exists s', for_down a b body s = Some s' /\ Inv a s'.
Proof.
  intros Hab H0 Hb. unfold for_down. apply for_dn_spec.
  - replace (a + (b - a)) with b by lia. exact H0.
  - intros j t Hj. apply Hb. lia.
Qed.

Section Loop.
  Context {S R : Type}.
  Variable f : S -> option (S + R).
  Variable Inv : S -> Prop.
  Variable Post : R -> Prop.
  Variable m : S -> Z.
  Hypothesis step : forall s, Inv s ->
    exists r, f s = Some r /\
      match r with
      | inl s' => Inv s' /\ (m s' < m s)%Z
      | inr r => Post r
      end.
  Hypothesis mpos : forall s, Inv s -> (0 <= m s)%Z.

  Lemma iterP_spec p s : Inv s ->
    exists r, iterP p f s = Some r /\
      match r with
      | inl s' => Inv s' /\ (m s' + Zpos p <= m s)%Z
      | inr r => Post r
      end.
  Proof.
    revert s; induction p as [p IH|p IH|]; intros s Hs; cbn [iterP].
    - destruct (step s Hs) as (r & E & Hr); rewrite E.
      destruct r as [s1|r]; [|eauto].
      destruct Hr as [H1 M1]. destruct (IH s1 H1) as (r2 & E2 & Hr2); rewrite E2.
      destruct r2 as [s2|r2]; [|eauto].
      destruct Hr2 as [H2 M2]. destruct (IH s2 H2) as (r3 & E3 & Hr3); rewrite E3.
      destruct r3 as [s3|r3]; [|eauto].
      exists (inl s3). split; [reflexivity|]. destruct Hr3. split; [assumption|lia].
    - destruct (IH s Hs) as (r2 & E2 & Hr2); rewrite E2.
      destruct r2 as [s2|r2]; [|eauto].
      destruct Hr2 as [H2 M2]. destruct (IH s2 H2) as (r3 & E3 & Hr3); rewrite E3.
      destruct r3 as [s3|r3]; [|eauto].
      exists (inl s3). split; [reflexivity|]. destruct Hr3. split; [assumption|lia].
    - destruct (step s Hs) as (r & E & Hr); rewrite E. exists r. split; [reflexivity|].
      destruct r as [s1|r]; [|exact Hr]. destruct Hr; split; [assumption|lia].
  Qed.

  Lemma loopZ_spec fuel s : Inv s -> (m s < fuel)%Z ->
    exists r, loopZ fuel f s = Some r /\ Post r.
  Proof.
    intros Hs Hf. pose proof (mpos s Hs) as Hp.
    destruct fuel as [|p|p]; [lia| |lia]. cbn [loopZ].
    destruct (iterP_spec p s Hs) as (r & E & Hr). rewrite E.
    destruct r as [s'|r]; [|eauto].
    destruct Hr as [Hi Hm]. pose proof (mpos s' Hi). lia.
  Qed.
End Loop.
