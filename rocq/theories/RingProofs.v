From Coq Require Import Ring Ring_theory.
From Verif Require Import Lib RingSpec.

Section RingProofs.
  Context {R : Type} (zero one : R) (add mul sub : R -> R -> R) (opp : R -> R).
  Hypothesis Rth : ring_theory zero one add mul sub opp (@eq R).
  Add Ring Rr : Rth.
  Local Notation "0" := zero. Local Notation "1" := one.
  Local Infix "+" := add. Local Infix "*" := mul. Local Infix "-" := sub.
  Local Notation "- x" := (opp x).
  Local Notation rsum := (rsum zero add). Local Notation rprod := (rprod one mul).
  Local Notation rpow := (rpow one mul). Local Notation rnat := (rnat zero one add).

  Lemma rsum_S n f : rsum (S n) f = rsum n f + f n. Proof. reflexivity. Qed.
  Lemma rsum_ext n f g : (forall i, (i < n)%nat -> f i = g i) -> rsum n f = rsum n g.
  Proof. induction n as [|n IH]; intros H; [reflexivity|]. rewrite !rsum_S, IH, H; auto. Qed.
  Lemma rsum_zero n f : (forall i, (i < n)%nat -> f i = 0) -> rsum n f = 0.
  Proof using Rth. induction n as [|n IH]; intros H; [reflexivity|]. rewrite rsum_S, IH, H; auto. ring. Qed.
  Lemma rsum_add n f g : rsum n (fun i => f i + g i) = rsum n f + rsum n g.
  Proof using Rth. induction n as [|n IH]; [cbn; ring|]. rewrite !rsum_S, IH. ring. Qed.
  Lemma rsum_sub n f g : rsum n (fun i => f i - g i) = rsum n f - rsum n g.
  Proof using Rth. induction n as [|n IH]; [cbn; ring|]. rewrite !rsum_S, IH. ring. Qed.
  Lemma rsum_opp n f : rsum n (fun i => - f i) = - rsum n f.
  Proof using Rth. induction n as [|n IH]; [cbn; ring|]. rewrite !rsum_S, IH. ring. Qed.
  Lemma rsum_mul_l n f c : rsum n (fun i => c * f i) = c * rsum n f.
  Proof using Rth. induction n as [|n IH]; [cbn; ring|]. rewrite !rsum_S, IH. ring. Qed.
  Lemma rsum_mul_r n f c : rsum n (fun i => f i * c) = rsum n f * c.
  Proof using Rth. induction n as [|n IH]; [cbn; ring|]. rewrite !rsum_S, IH. ring. Qed.
  Lemma rsum_split a b f : rsum (a + b) f = rsum a f + rsum b (fun i => f (a + i)%nat).
  Proof using Rth.
    induction b as [|b IH]; [rewrite Nat.add_0_r; cbn; ring|]. rewrite Nat.add_succ_r, !rsum_S, IH. ring.
  Qed.
  Lemma rsum_S_l n f : rsum (S n) f = f O + rsum n (fun i => f (S i)).
  Proof using Rth. change (S n) with (1 + n)%nat. rewrite rsum_split. cbn. ring. Qed.
  Lemma rsum_swap n m (f : nat -> nat -> R) : rsum n (fun i => rsum m (fun j => f i j)) = rsum m (fun j => rsum n (fun i => f i j)).
  Proof using Rth.
    induction n as [|n IH].
    - cbn. symmetry. now apply rsum_zero.
    - rewrite rsum_S, IH, <- rsum_add. apply rsum_ext. intros j _. reflexivity.
  Qed.
  (** only one term differs from zero *)
  Lemma rsum_single n f k : (k < n)%nat -> (forall i, (i < n)%nat -> i <> k -> f i = 0) -> rsum n f = f k.
  Proof using Rth.
    induction n as [|n IH]; intros Hk H; [lia|]. rewrite rsum_S. destruct (Nat.eq_dec k n) as [->|N].
    - rewrite rsum_zero by (intros; apply H; lia). ring.
    - rewrite IH; [|lia|intros; apply H; lia]. rewrite (H n) by lia. ring.
  Qed.
  (** terms above a bound vanish *)
  Lemma rsum_trunc n m f : (m <= n)%nat -> (forall i, (m <= i < n)%nat -> f i = 0) -> rsum n f = rsum m f.
  Proof using Rth.
    intros Hm H. replace n with (m + (n - m))%nat by lia. rewrite rsum_split. rewrite (rsum_zero (n - m)); [ring|].
    intros i Hi. apply H. lia.
  Qed.
  Lemma rsum_rev n f : rsum n f = rsum n (fun i => f (n - 1 - i)%nat).
  Proof using Rth.
    revert f. induction n as [|n IH]; intros f; [reflexivity|]. rewrite rsum_S_l, rsum_S. rewrite (IH (fun i => f (S i))).
    replace (S n - 1 - n)%nat with O by lia.
    rewrite (rsum_ext n (fun i => f (S n - 1 - i)%nat) (fun i => f (S (n - 1 - i)))); [ring|]. intros i Hi. f_equal. lia.
  Qed.
  (** splitting an index range into blocks *)
  Lemma rsum_blocks n b f : rsum (n * b) f = rsum n (fun i => rsum b (fun j => f (i * b + j)%nat)).
  Proof using Rth.
    induction n as [|n IH]; [reflexivity|]. rewrite rsum_S, <- IH. replace (S n * b)%nat with (n * b + b)%nat by lia. apply rsum_split.
  Qed.
  (** over the triangle i + j < n, by rows or by diagonals *)
  Lemma rsum_triangle n (f : nat -> nat -> R) :
    rsum n (fun k => rsum (S k) (fun i => f i (k - i)%nat)) = rsum n (fun i => rsum (n - i) (fun j => f i j)).
  Proof using Rth.
    induction n as [|n IH]; [reflexivity|]. rewrite rsum_S, IH. rewrite (rsum_S n (fun i => rsum (S n - i) _)).
    replace (S n - n)%nat with 1%nat by lia. rewrite (rsum_ext n (fun i => rsum (S n - i) _) (fun i => rsum (n - i) (fun j => f i j) + f i (n - i)%nat)).
    - rewrite rsum_add. rewrite rsum_S. rewrite Nat.sub_diag. cbn [RingSpec.rsum]. ring.
    - intros i Hi. replace (S n - i)%nat with (S (n - i)) by lia. reflexivity.
  Qed.

  Lemma rprod_S n f : rprod (S n) f = rprod n f * f n. Proof. reflexivity. Qed.
  Lemma rprod_ext n f g : (forall i, (i < n)%nat -> f i = g i) -> rprod n f = rprod n g.
  Proof. induction n as [|n IH]; intros H; [reflexivity|]. rewrite !rprod_S, IH, H; auto. Qed.
  Lemma rprod_S_l n f : rprod (S n) f = f O * rprod n (fun i => f (S i)).
  Proof using Rth. induction n as [|n IH]; [cbn; ring|]. rewrite rprod_S, IH, (rprod_S n (fun i => f (S i))). ring. Qed.
  Lemma rprod_mul n f g : rprod n (fun i => f i * g i) = rprod n f * rprod n g.
  Proof using Rth. induction n as [|n IH]; [cbn; ring|]. rewrite !rprod_S, IH. ring. Qed.

  Lemma rpow_S x n : rpow x (S n) = rpow x n * x. Proof. reflexivity. Qed.
  Lemma rpow_add x n m : rpow x (n + m) = rpow x n * rpow x m.
  Proof using Rth. induction m as [|m IH]; [rewrite Nat.add_0_r; cbn; ring|]. rewrite Nat.add_succ_r, !rpow_S, IH. ring. Qed.
  Lemma rpow_mul_l x y n : rpow (x * y) n = rpow x n * rpow y n.
  Proof using Rth. induction n as [|n IH]; [cbn; ring|]. rewrite !rpow_S, IH. ring. Qed.
  Lemma rpow_mul x n m : rpow x (n * m) = rpow (rpow x n) m.
  Proof using Rth. induction m as [|m IH]; [now rewrite Nat.mul_0_r|]. rewrite Nat.mul_succ_r, rpow_add, IH. reflexivity. Qed.
  Lemma rpow_1 n : rpow 1 n = 1.
  Proof using Rth. induction n as [|n IH]; [reflexivity|]. rewrite rpow_S, IH. ring. Qed.
  Lemma rpow_0 n : (0 < n)%nat -> rpow 0 n = 0.
  Proof using Rth. destruct n as [|n]; [lia|]. intros _. rewrite rpow_S. ring. Qed.
  Lemma rnat_S n : rnat (S n) = rnat n + 1. Proof. reflexivity. Qed.
  Lemma rnat_add n m : rnat (n + m) = rnat n + rnat m.
  Proof using Rth. induction m as [|m IH]; [rewrite Nat.add_0_r; cbn; ring|]. rewrite Nat.add_succ_r, !rnat_S, IH. ring. Qed.
  Lemma rsum_const n c : rsum n (fun _ => c) = rnat n * c.
  Proof using Rth. induction n as [|n IH]; [cbn; ring|]. rewrite rsum_S, IH, rnat_S. ring. Qed.
End RingProofs.
