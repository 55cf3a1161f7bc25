(** C156: the assignment problem. *)
From Coq Require Import List PeanoNat ZArith Lia Bool Permutation.
From Verif Require Import Lib HungModel HungSpec HungProofs HungProofs2.
Import ListNotations.
Open Scope Z_scope.

Definition total (f : nat -> Z) (l : list nat) : Z := fold_right Z.add 0 (map f l).
Lemma total_app f a b : total f (a ++ b) = total f a + total f b.
Proof. unfold total. induction a as [|x a IH]; cbn [app map fold_right]; [reflexivity|]. rewrite IH. ring. Qed.
Lemma total_perm f a b : Permutation a b -> total f a = total f b.
Proof. unfold total. induction 1; cbn [map fold_right]; lia. Qed.
Lemma total_le f g l : (forall x, In x l -> f x <= g x) -> total f l <= total g l.
Proof.
  unfold total. induction l as [|x l IH]; intro H; cbn [map fold_right]; [lia|].
  pose proof (H x (or_introl eq_refl)). specialize (IH (fun y Hy => H y (or_intror Hy))). lia.
Qed.
Lemma total_plus f g l : total (fun x => f x + g x) l = total f l + total g l.
Proof. unfold total. induction l as [|x l IH]; cbn [map fold_right]; [reflexivity|]. rewrite IH. ring. Qed.
Lemma total_ext f g l : (forall x, In x l -> f x = g x) -> total f l = total g l.
Proof. intro H. unfold total. f_equal. apply map_ext_in. exact H. Qed.
Lemma total_map f (g : nat -> nat) l : total (fun x => f (g x)) l = total f (map g l).
Proof. unfold total. rewrite map_map. reflexivity. Qed.
Lemma map_nth_seq (m : list nat) : map (fun x => nth x m 0%nat) (seq 0 (length m)) = m.
Proof.
  apply list_ext. intro i. rewrite nth_error_map. destruct (Nat.lt_ge_cases i (length m)) as [L|L].
  - rewrite (nth_error_nth' (seq 0 (length m)) 0%nat) by (rewrite seq_length; exact L). rewrite seq_nth by exact L. cbn [option_map plus].
    symmetry. apply nth_error_nth'. exact L.
  - rewrite (proj2 (nth_error_None (seq 0 (length m)) i)) by (rewrite seq_length; exact L). symmetry. apply nth_error_None. exact L.
Qed.
(** no assignment is worth more than the labels *)
Lemma value_bound n c lx ly m : (forall x y, (x < n)%nat -> (y < n)%nat -> c x y <= lx x + ly y) -> assignment n m ->
  value c m <= total lx (seq 0 n) + total ly (seq 0 n).
Proof.
  intros F A. assert (L : length m = n) by (rewrite (Permutation_length A), seq_length; reflexivity).
  unfold value. fold (total (fun x => c x (nth x m 0%nat)) (seq 0 (length m))). rewrite L.
  transitivity (total (fun x => lx x + ly (nth x m 0%nat)) (seq 0 n)).
  - apply total_le. intros x Hx. apply in_seq in Hx. apply F; [lia|]. assert (In (nth x m 0%nat) (seq 0 n)) as H by (apply (Permutation_in _ A), nth_In; lia).
    apply in_seq in H. lia.
  - rewrite total_plus, (total_map ly (fun x => nth x m 0%nat)). rewrite <- L at 2. rewrite map_nth_seq, (total_perm ly m _ A). lia.
Qed.

(** For every cost matrix calc_max_cost returns the greatest value of an assignment, and the matches are an assignment
    with this value and its inverse. *)
Theorem C156_max_cost : forall (n : nat) (c : nat -> nat -> Z),
  exists r mx my, calc_max_cost n c = Some (r, mx, my) /\ assignment n mx /\ inverse mx my /\ value c mx = r /\
    forall m, assignment n m -> value c m <= r.
Proof.
  intros n c. destruct (impl_ok n c) as (xy & yx & lx0 & ly0 & E & R). unfold calc_max_cost. rewrite E. cbn [obind].
  destruct R as [R1 R2 R3 R4 R5]. cbn [fst snd] in *. set (get := fun (f : table) i => match f i with Some j => j | None => 0%nat end).
  assert (G : forall x, (x < n)%nat -> xy x = Some (get xy x) /\ (get xy x < n)%nat /\ lx0 x + ly0 (get xy x) = c x (get xy x)).
  { intros x Hx. unfold get. destruct (xy x) as [y|] eqn:Y; [split; [reflexivity|]; apply R2; assumption|]. apply (R4 x Hx) in Y. lia. }
  assert (GY : forall x, (x < n)%nat -> yx (get xy x) = Some x).
  { intros x Hx. destruct (G x Hx) as (A & B & _). apply R1; assumption. }
  destruct (for_range_spec (fun i r => r = total (fun x => c x (get xy x)) (seq 0 i))
    (fun x r => let* y := xy x in let* _ := guard (Nat.ltb y n) in Some (r + c x y)) 0 n 0) as (r & -> & Er); [lia|reflexivity| |].
  { intros i r Hi ->. destruct (G i ltac:(lia)) as (A & B & _). rewrite A. cbn [obind]. rewrite (guard_lt _ n B). cbn [obind]. eexists. split; [reflexivity|].
    replace (S i) with (i + 1)%nat by lia. rewrite seq_app, total_app. unfold total at 3. cbn. lia. }
  cbn [obind]. fold get. exists r. eexists. eexists. split; [reflexivity|].
  set (mx := map (get xy) (vertices n)). set (my := map (get yx) (vertices n)).
  assert (LX : length mx = n) by (unfold mx, vertices; rewrite map_length, seq_length; reflexivity).
  assert (LY : length my = n) by (unfold my, vertices; rewrite map_length, seq_length; reflexivity).
  assert (NG : forall (f : table) i, (i < n)%nat -> nth i (map (get f) (vertices n)) 0%nat = get f i).
  { intros f i Hi. rewrite (nth_indep _ 0%nat (get f 0%nat)) by (unfold vertices; rewrite map_length, seq_length; exact Hi). rewrite map_nth. f_equal. unfold vertices. apply seq_nth. exact Hi. }
  assert (NX : forall x, (x < n)%nat -> nth x mx 0%nat = get xy x) by (intros; apply NG; assumption).
  assert (ND : NoDup mx).
  { apply (NoDup_nth mx 0%nat). rewrite LX. intros i j Hi Hj X. rewrite (NX i Hi), (NX j Hj) in X. pose proof (GY i Hi) as A. pose proof (GY j Hj) as B. rewrite X in A. congruence. }
  assert (INC : incl mx (seq 0 n)).
  { intros z Hz. unfold mx in Hz. apply in_map_iff in Hz as (x & <- & Hx). apply in_V in Hx. apply in_seq. destruct (G x Hx) as (_ & B & _). lia. }
  assert (AS : assignment n mx) by (apply NoDup_Permutation_bis; [exact ND|rewrite LX, seq_length; lia|exact INC]).
  assert (SUR : forall y, (y < n)%nat -> exists x, (x < n)%nat /\ get xy x = y).
  { intros y Hy. assert (H : In y mx) by (apply (Permutation_in _ (Permutation_sym AS)), in_seq; lia). unfold mx in H. apply in_map_iff in H as (x & X & Hx). apply in_V in Hx. exists x. auto. }
  assert (V : value c mx = r).
  { unfold value. rewrite LX, Er. apply total_ext. intros x Hx. apply in_seq in Hx. rewrite NX by lia. reflexivity. }
  change (assignment n mx /\ inverse mx my /\ value c mx = r /\ forall m, assignment n m -> value c m <= r).
  split; [exact AS|]. split.
  - split; [congruence|]. rewrite LX. intros x Hx. split.
    + rewrite (NX x Hx). unfold my. destruct (G x Hx) as (_ & B & _). rewrite (NG yx _ B). unfold get at 1. rewrite (GY x Hx). reflexivity.
    + unfold my. rewrite (NG yx x Hx). destruct (SUR x Hx) as (z & Hz & <-).
      assert (X : get yx (get xy z) = z) by (unfold get at 1; rewrite (GY z Hz); reflexivity). rewrite X. apply (NX z Hz).
  - split; [exact V|]. intros m Am. pose proof (value_bound n c lx0 ly0 m R5 Am) as LE.
    assert (EQ : r = total lx0 (seq 0 n) + total ly0 (seq 0 n)); [|lia].
    rewrite Er. rewrite (total_ext _ (fun x => lx0 x + ly0 (get xy x))).
    + rewrite total_plus, (total_map ly0 (get xy)). f_equal. apply total_perm. exact AS.
    + intros x Hx. apply in_seq in Hx. destruct (G x ltac:(lia)) as (_ & _ & B). lia.
Qed.

Lemma value_negate c m : value (negate c) m = - value c m.
Proof. unfold value, negate. induction (seq 0 (length m)) as [|x l IH]; cbn [map fold_right]; [reflexivity|]. rewrite IH. ring. Qed.
(** And calc_min_cost the least one. *)
Theorem C156_min_cost : forall (n : nat) (c : nat -> nat -> Z),
  exists r mx my, calc_min_cost n c = Some (r, mx, my) /\ assignment n mx /\ inverse mx my /\ value c mx = r /\
    forall m, assignment n m -> r <= value c m.
Proof.
  intros n c. destruct (C156_max_cost n (negate c)) as (r & mx & my & E & A & I & V & B). unfold calc_min_cost. rewrite E. cbn [obind].
  exists (- r), mx, my. split; [reflexivity|]. split; [exact A|]. split; [exact I|]. rewrite value_negate in V. split; [lia|].
  intros m Am. specialize (B m Am). rewrite value_negate in B. lia.
Qed.

Definition hung_cost (x y : nat) : Z := nth y (nth x [[7; 4; 3]; [6; 8; 5]; [9; 4; 4]] []) 0.
Example C156_case : calc_max_cost 3 hung_cost = Some (20, [2; 1; 0]%nat, [2; 1; 0]%nat) /\ calc_min_cost 3 hung_cost = Some (13, [2; 0; 1]%nat, [1; 2; 0]%nat).
Proof. vm_compute. split; reflexivity. Qed.
Print Assumptions C156_max_cost.
Print Assumptions C156_min_cost.
