(** C54, C55: bitwise, max and subset convolutions (algorithm/math/convolutions.h).
    [e] maps array names to contents; the names r, f, g may coincide. [arr n l F]: l has n elements F 0 .. F (n-1). *)
From Coq Require Import Ring Ring_theory.
From Verif Require Import Lib RingSpec RingProofs ConvModel ConvSpec ConvProofs ConvProofs2 ConvProofs3.
Open Scope nat_scope.

Section Props.
  Context {R : Type} (zero one : R) (add mul sub : R -> R -> R) (opp : R -> R).
  Hypothesis Rth : ring_theory zero one add mul sub opp (@eq R).
  Add Ring RkP : Rth.
  Local Notation kconv := (kconv zero add mul).

  Theorem C54_or_and : forall (e : aenv) r f g L F G,
    length (e r) = 2 ^ L -> arr (2 ^ L) (e f) F -> arr (2 ^ L) (e g) G ->
    (exists e', or_convolution add sub mul e r f g L = Some e' /\ arr (2 ^ L) (e' r) (kconv (2 ^ L) Nat.lor F G) /\ forall x, x <> r -> x <> f -> x <> g -> e' x = e x) /\
    (exists e', and_convolution add sub mul e r f g L = Some e' /\ arr (2 ^ L) (e' r) (kconv (2 ^ L) Nat.land F G) /\ forall x, x <> r -> x <> f -> x <> g -> e' x = e x).
  Proof. intros. split; [apply (or_spec _ _ _ _ _ _ Rth)|apply (and_spec _ _ _ _ _ _ Rth)]; assumption. Qed.

  (** dividing by n must undo multiplying by n = 1 + ... + 1 *)
  Theorem C54_xor : forall (tdivn : R -> nat -> option R) (e : aenv) r f g L F G,
    (forall x, tdivn (mul (rnat zero one add (2 ^ L)) x) (2 ^ L) = Some x) ->
    length (e r) = 2 ^ L -> arr (2 ^ L) (e f) F -> arr (2 ^ L) (e g) G ->
    exists e', xor_convolution add sub mul tdivn e r f g L = Some e' /\ arr (2 ^ L) (e' r) (kconv (2 ^ L) Nat.lxor F G) /\ forall x, x <> r -> x <> f -> x <> g -> e' x = e x.
  Proof. apply (xor_spec _ _ _ _ _ _ Rth). Qed.

  Theorem C54_max : forall (e : aenv) r f g n F G, length (e r) = n -> arr n (e f) F -> arr n (e g) G ->
    exists e', max_convolution zero add mul e r f g n = Some e' /\ arr n (e' r) (kconv n Nat.max F G) /\ forall x, x <> r -> e' x = e x.
  Proof. apply (max_spec _ _ _ _ _ _ Rth). Qed.

  (** transforms: Walsh-Hadamard twice multiplies by n; the arithmetic transforms undo each other *)
  Theorem C54_transforms : forall l L F, arr (2 ^ L) l F ->
    (exists l1 l2, walsh_hadamard add sub l L = Some l1 /\ walsh_hadamard add sub l1 L = Some l2 /\ arr (2 ^ L) l2 (fun k => mul (rnat zero one add (2 ^ L)) (F k))) /\
    (exists l1, arith_plus add l L = Some l1 /\ arr (2 ^ L) l1 (subset_sum zero add (2 ^ L) F) /\ arith_minus sub l1 L = Some l) /\
    (exists l1, arith_minus sub l L = Some l1 /\ arith_plus add l1 L = Some l).
  Proof.
    intros l L F Hl. split; [|split].
    - destruct (wht_spec _ _ _ _ _ _ Rth L l F Hl) as (l1 & E1 & H1). destruct (wht_spec _ _ _ _ _ _ Rth L l1 _ H1) as (l2 & E2 & H2). exists l1, l2. split; [exact E1|]. split; [exact E2|].
      apply arr_ext with (1 := H2). intros k Hk. apply (wht_wht _ _ _ _ _ _ Rth). exact Hk.
    - destruct (plus_spec _ _ _ _ _ _ Rth L l F Hl) as (l1 & E1 & H1). destruct (minus_spec _ _ _ _ _ _ Rth L l1 _ H1) as (l2 & E2 & H2). exists l1. split; [exact E1|]. split.
      + apply arr_ext with (1 := H1). intros k _. apply (full_plus_subset _ _ _ _ _ _ Rth).
      + rewrite E2. f_equal. apply (arr_inj (2 ^ L) _ _ F); [|exact Hl]. apply arr_ext with (1 := H2). intros k Hk. apply (minus_plus _ _ _ _ _ _ Rth). exact Hk.
    - destruct (minus_spec _ _ _ _ _ _ Rth L l F Hl) as (l1 & E1 & H1). destruct (plus_spec _ _ _ _ _ _ Rth L l1 _ H1) as (l2 & E2 & H2). exists l1. split; [exact E1|].
      rewrite E2. f_equal. apply (arr_inj (2 ^ L) _ _ F); [|exact Hl]. apply arr_ext with (1 := H2). intros k Hk. apply (plus_minus _ _ _ _ _ _ Rth). exact Hk.
  Qed.

  (** the quadratic versions add the convolution to what r already holds *)
  Theorem C54_slow : forall n op r f g F G Q, (forall i j, i < n -> j < n -> op i j < n) -> arr n r Q -> arr n f F -> arr n g G ->
    exists r', slow_k_convolution add mul r f g n op = Some r' /\ arr n r' (fun k => add (Q k) (kconv n op F G k)).
  Proof. intros. apply (slow_k_spec _ _ _ _ _ _ Rth); assumption. Qed.
  Theorem C54_slow_ops : forall r f g L F G Q, let n := 2 ^ L in arr n r Q -> arr n f F -> arr n g G ->
    (exists r', slow_and_convolution add mul r f g L = Some r' /\ arr n r' (fun k => add (Q k) (kconv n Nat.land F G k))) /\
    (exists r', slow_or_convolution add mul r f g L = Some r' /\ arr n r' (fun k => add (Q k) (kconv n Nat.lor F G k))) /\
    (exists r', slow_xor_convolution add mul r f g L = Some r' /\ arr n r' (fun k => add (Q k) (kconv n Nat.lxor F G k))).
  Proof.
    intros r f g L F G Q n Hr Hf Hg. unfold slow_and_convolution, slow_or_convolution, slow_xor_convolution. fold n.
    split; [|split]; apply C54_slow; try assumption; unfold n; intros i j Hi Hj; [apply land_lt|apply lor_lt|apply lxor_lt]; assumption.
  Qed.
  Theorem C54_slow_max_cyclic : forall n r f g F G Q, arr n r Q -> arr n f F -> arr n g G ->
    (exists r', slow_max_convolution add mul r f g n = Some r' /\ arr n r' (fun k => add (Q k) (kconv n Nat.max F G k))) /\
    (exists r', slow_cyclic_convolution add mul r f g n = Some r' /\ arr n r' (fun k => add (Q k) (kconv n (fun i j => (i + j) mod n) F G k))).
  Proof. intros n r f g F G Q Hr Hf Hg. split; apply C54_slow; try assumption; intros i j Hi Hj; [lia|]. apply Nat.mod_upper_bound. lia. Qed.

  Theorem C55_subset_sum : forall (e : aenv) r f L F, length (e r) = 2 ^ L -> arr (2 ^ L) (e f) F ->
    exists e', fast_subset_sum add e r f L = Some e' /\ arr (2 ^ L) (e' r) (subset_sum zero add (2 ^ L) F) /\ forall x, x <> r -> e' x = e x.
  Proof. apply (fast_sum_spec _ _ _ _ _ _ Rth). Qed.
  (** the inverse: the result G is the array whose subset sums are F, and inverting subset sums restores the array *)
  Theorem C55_inverse : forall (e : aenv) r f L F, length (e r) = 2 ^ L -> arr (2 ^ L) (e f) F ->
    exists e' G, fast_subset_sum_inverse sub e r f L = Some e' /\ arr (2 ^ L) (e' r) G /\ (forall x, x <> r -> e' x = e x) /\
      (forall k, k < 2 ^ L -> subset_sum zero add (2 ^ L) G k = F k) /\
      (forall H, (forall k, k < 2 ^ L -> F k = subset_sum zero add (2 ^ L) H k) -> forall k, k < 2 ^ L -> G k = H k).
  Proof.
    intros e r f L F Hr Hf. destruct (fast_sum_inv_spec _ _ _ _ _ _ Rth e r f L F Hr Hf) as (e' & E & R' & O). exists e'. eexists. split; [exact E|]. split; [exact R'|]. split; [exact O|]. split.
    - intros k Hk. rewrite <- (full_plus_subset _ _ _ _ _ _ Rth). apply (plus_minus _ _ _ _ _ _ Rth). exact Hk.
    - intros H EH k Hk. rewrite <- (minus_plus _ _ _ _ _ _ Rth L H k Hk). apply full_ext. intros i Hi. rewrite EH by exact Hi. symmetry. apply (full_plus_subset _ _ _ _ _ _ Rth).
  Qed.
  Theorem C55_subset_convolution : forall (e : aenv) r f g L F G, L <= 31 -> length (e r) = 2 ^ L -> arr (2 ^ L) (e f) F -> arr (2 ^ L) (e g) G ->
    exists e', fast_subset_convolution zero add sub mul e r f g L = Some e' /\ arr (2 ^ L) (e' r) (subset_conv zero add mul (2 ^ L) F G) /\ forall x, x <> r -> e' x = e x.
  Proof. apply (fast_conv_spec _ _ _ _ _ _ Rth). Qed.
  Theorem C55_slow : forall r f g L F G, length r = 2 ^ L -> arr (2 ^ L) f F -> arr (2 ^ L) g G ->
    (exists r', slow_subset_sum zero add r f L = Some r' /\ arr (2 ^ L) r' (subset_sum zero add (2 ^ L) F)) /\
    (exists r', slow_subset_convolution zero add mul r f g L = Some r' /\ arr (2 ^ L) r' (subset_conv zero add mul (2 ^ L) F G)).
  Proof. intros. split; [apply (slow_sum_spec _ _ _ _ _ _ Rth)|apply (slow_conv_spec _ _ _ _ _ _ Rth)]; assumption. Qed.
End Props.
Print Assumptions C54_or_and.
Print Assumptions C54_xor.
Print Assumptions C54_max.
Print Assumptions C54_transforms.
Print Assumptions C54_slow.
Print Assumptions C54_slow_ops.
Print Assumptions C54_slow_max_cyclic.
Print Assumptions C55_subset_sum.
Print Assumptions C55_inverse.
Print Assumptions C55_subset_convolution.
Print Assumptions C55_slow.

(** integers, 4 elements, three different arrays and then all names equal *)
Definition ex_env : nat -> list Z := fun x => match x with 0 => [1; 2; 3; 4]%Z | 1 => [5; 0; -1; 2]%Z | _ => [9; 9; 9; 9]%Z end.
Definition ex_div (x : Z) (n : nat) : option Z := if (n =? 0) then None else Some (x / Z.of_nat n)%Z.
Lemma ex_arr : arr 4 (ex_env 0) (fun k => nth k (ex_env 0) 0%Z) /\ arr 4 (ex_env 1) (fun k => nth k (ex_env 1) 0%Z).
Proof. split; apply (arr_nth 0%Z). Qed.
Lemma ex_div_ok x : ex_div (rnat 0%Z 1%Z Z.add (2 ^ 2) * x)%Z (2 ^ 2) = Some x.
Proof. unfold ex_div. change (rnat 0%Z 1%Z Z.add (2 ^ 2)) with 4%Z. change (Z.of_nat (2 ^ 2)) with 4%Z. rewrite Z.mul_comm, Z.div_mul by lia. reflexivity. Qed.
Example C54_case :
  (let* e := or_convolution Z.add Z.sub Z.mul ex_env 2 0 1 2 in Some (e 2)) = Some [5; 10; 11; 34]%Z /\
  (let* e := and_convolution Z.add Z.sub Z.mul ex_env 2 0 1 2 in Some (e 2)) = Some [49; 4; -1; 8]%Z /\
  (let* e := xor_convolution Z.add Z.sub Z.mul ex_div ex_env 0 0 0 2 in Some (e 0)) = Some [30; 28; 22; 20]%Z /\
  (let* e := max_convolution 0%Z Z.add Z.mul ex_env 0 0 1 4 in Some (e 0)) = Some [5; 10; 9; 36]%Z.
Proof. vm_compute. auto. Qed.
Example C55_case :
  (let* e := fast_subset_sum Z.add ex_env 2 0 2 in Some (e 2)) = Some [1; 3; 4; 10]%Z /\
  (let* e := fast_subset_sum_inverse Z.sub ex_env 2 0 2 in Some (e 2)) = Some [1; 1; 2; 0]%Z /\
  slow_subset_convolution 0%Z Z.add Z.mul [9; 9; 9; 9]%Z (ex_env 0) (ex_env 1) 2 = Some [5; 10; 14; 20]%Z.
Proof. vm_compute. auto. Qed.
