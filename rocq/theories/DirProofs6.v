(** Tables as lists; divisor sums of powers. *)
From Coq Require Import Ring Ring_theory Permutation.
From Verif Require Import Lib BaseModel BaseProofs RingSpec RingProofs PrimesSpec PrimesProofs PrimesProofs2 PrimesProofs4 DivisorsProofs PiProofs FftProofs3 DirModel DirSpec DirProofs DirProofs2 DirProofs3 DirProofs4 DirProofs5.
From Coq Require Import Arith Lia.
Open Scope nat_scope.

Section Dir.
  Context {T : Type} (zero one : T) (add mul sub : T -> T -> T) (opp : T -> T) (tdiv : T -> T -> option T).
  Hypothesis Rth : ring_theory zero one add mul sub opp (@eq T).
  Add Ring Tr : Rth.
  Notation dirichlet := (dirichlet zero add mul).
  Notation summatory := (summatory zero add).
  Notation weighted_quotients := (weighted_quotients zero add mul).
  Lemma arr_self (h : list T) : is_arr (length h) (entry zero h) h.
  Proof. split; [reflexivity|]. intros x X. now apply nth_error_nth'. Qed.
  Lemma arr_holds n (f : nat -> T) h h' : is_arr (length h) (fun i => if (1 <=? i) && (i <? n) then f i else entry zero h i) h' -> holds n f h h'.
  Proof. intros [A B]. split; [exact A|]. intros i I0. rewrite A in I0. rewrite B by exact I0. destruct ((1 <=? i) && (i <? n)); [reflexivity|]. symmetry. now apply arr_self. Qed.
  Lemma arr_outside n (F : nat -> T) h h' : is_arr (length h) F h' -> (forall i, i = 0 \/ n <= i -> F i = entry zero h i) -> same_outside n h h'.
  Proof.
    intros [A B] C. split; [exact A|]. intros i I0. destruct (Nat.lt_ge_cases i (length h)) as [L|L].
    - rewrite B, C by assumption. symmetry. now apply arr_self.
    - rewrite !(proj2 (nth_error_None _ _)); [reflexivity|lia|lia].
  Qed.
  Lemma arr_entry L (F : nat -> T) h i : is_arr L F h -> i < L -> entry zero h i = F i.
  Proof. intros [A B] I0. apply nth_error_nth. now apply B. Qed.
  Lemma rnat_mul a b : rnat zero one add (a * b) = mul (rnat zero one add a) (rnat zero one add b).
  Proof. induction a as [|a IH]; [cbn; ring|]. replace (S a * b) with (b + a * b) by lia. rewrite (rnat_add zero one add mul sub opp Rth), IH. cbn [rnat]. ring. Qed.
  Lemma rnat_list_sum l : rnat zero one add (list_sum l) = sum_list zero add (map (rnat zero one add) l).
  Proof. induction l as [|x l IH]; [reflexivity|]. change (list_sum (x :: l)) with (x + list_sum l). rewrite (rnat_add zero one add mul sub opp Rth), IH. reflexivity. Qed.
  Lemma rnat_npow x k : npow mul one (rnat zero one add x) k = rnat zero one add (x ^ k).
  Proof. induction k as [|k IH]; cbn [npow Nat.pow]; [cbn; ring|]. rewrite IH, rnat_mul. reflexivity. Qed.
  Lemma id_pow_ok cast k n : (0 <= k)%Z -> (forall n, cast n = rnat zero one add n) -> id_pow zero one mul cast k n = rnat zero one add (n ^ Z.to_nat k).
  Proof.
    intros K C. unfold id_pow. destruct (Z.eqb_spec k 0) as [->|K0]; [cbn; ring|]. destruct (Z.eqb_spec k 1) as [->|K1]; [change (Z.to_nat 1) with 1; rewrite C, Nat.pow_1_r; reflexivity|]. destruct (Z.eqb_spec k 2) as [->|K2]; [change (Z.to_nat 2) with 2; rewrite C, <- rnat_mul; f_equal; cbn [Nat.pow]; lia|].
    rewrite (powT_npow mul one); [rewrite C; apply rnat_npow|intros; ring|intros; ring|intros; ring|exact K].
  Qed.
  Lemma id_pow_sum cast k n : (0 <= k)%Z -> (forall n, cast n = rnat zero one add n) -> dirichlet (id_pow zero one mul cast k) (fun _ => one) n = rnat zero one add (sigma_k (Z.to_nat k) n).
  Proof.
    intros K C. unfold DirSpec.dirichlet, sigma_k. rewrite rnat_list_sum, map_map. f_equal. apply map_ext. intros d. rewrite id_pow_ok by assumption. ring.
  Qed.
  Lemma id_pow_mult cast k : (0 <= k)%Z -> (forall n, cast n = rnat zero one add n) -> multiplicative one mul (id_pow zero one mul cast k).
  Proof. intros K C. split; [rewrite id_pow_ok, Nat.pow_1_l by assumption; cbn; ring|]. intros a b _ _ _. rewrite !id_pow_ok by assumption. now rewrite Nat.pow_mul_l, rnat_mul. Qed.
  (** from the equation for the sums to the equation for the terms *)
  Lemma terms_of_quotients p W t n : (forall i, 1 <= i < n -> t i = weighted_quotients p (summatory W) i) -> forall i, 1 <= i < n -> dirichlet W p i = diff sub t i.
  Proof.
    intros H i I0. rewrite (dirichlet_comm zero one add mul sub opp Rth) by lia. unfold diff. destruct (Nat.eqb_spec i 1) as [->|N].
    - rewrite (H 1 I0), <- (summatory_dirichlet zero one add mul sub opp Rth). unfold DirSpec.summatory. cbn [RingSpec.rsum]. ring.
    - rewrite (H i), (H (i - 1)) by lia. rewrite <- !(summatory_dirichlet zero one add mul sub opp Rth). replace (summatory (dirichlet p W) i) with (summatory (dirichlet p W) (S (i - 1))) by (f_equal; lia). rewrite summatory_S. replace (S (i - 1)) with i by lia. ring.
  Qed.
End Dir.
