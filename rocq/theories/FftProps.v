(** C81: the fast transforms compute the discrete Fourier transform. C82: the convolutions by fast transforms. *)
From Verif Require Import Lib BaseModel RingSpec RingProofs FftModel FftSpec FftProofs FftProofs2 FftProofs3 FftProofs4 FftProofs5.
From Coq Require Import Ring_theory Lia Arith.
Open Scope nat_scope.

Section Fft.
  Context {T R : Type}.
  Variables (zero one : T) (add mul sub : T -> T -> T) (opp : T -> T).
  Hypothesis Rth : ring_theory zero one add mul sub opp (@eq T).
  Variables (ok : R -> Prop) (rmul : R -> R -> R) (rone : R) (inj : R -> T).
  Hypothesis RT : root_type one mul ok rmul rone inj.
  Notation dft := (dft zero one add mul). Notation half_root := (half_root one mul opp).
  Notation elem := (elem zero).

  (** fft replaces the 2^L elements by their transform *)
  Theorem C81_fft L data root : length data = 2 ^ L -> ok root -> half_root (2 ^ L) (inj root) ->
    exists data', fft add sub mul rmul rone inj data (2 ^ L) root = Some data' /\ length data' = 2 ^ L /\
      forall k, k < 2 ^ L -> elem data' k = dft (2 ^ L) (inj root) (elem data) k.
  Proof using Rth RT.
    intros HL Ho Hr. destruct (fft_ok zero one add mul sub opp Rth ok rmul rone inj RT L (elem data) data root Ho Hr) as (d & E & D1 & D2).
    - split; [exact HL|]. intros x Hx. apply nth_error_nth'. lia.
    - exists d. split; [exact E|]. split; [exact D1|]. intros k Hk. apply nth_error_nth. now apply D2.
  Qed.
  (** and it leaves an array of another length alone *)
  Theorem C81_fft_not_power size data root : size <> 0 -> (forall L, size <> 2 ^ L) -> fft add sub mul rmul rone inj data size root = Some data.
  Proof using Type. apply fft_other. Qed.
  (** transforming twice, the second time with the inverse root, multiplies by the length *)
  Theorem C81_fft_inverse L data root iroot : length data = 2 ^ L -> ok root -> ok iroot -> half_root (2 ^ L) (inj root) -> mul (inj root) (inj iroot) = one ->
    (let* d := fft add sub mul rmul rone inj data (2 ^ L) root in fft add sub mul rmul rone inj d (2 ^ L) iroot) = Some (map (fun x => mul (rnat zero one add (2 ^ L)) x) data).
  Proof using Rth RT.
    intros HL Ho Hi Hr HI. destruct (fft_ok zero one add mul sub opp Rth ok rmul rone inj RT L (elem data) data root Ho Hr) as (d & E & D).
    { split; [exact HL|]. intros x Hx. apply nth_error_nth'. lia. }
    rewrite E. cbn [obind].
    destruct (fft_ok zero one add mul sub opp Rth ok rmul rone inj RT L _ d iroot Hi (half_inverse zero one add mul sub opp Rth L _ _ Hr HI) D) as (d2 & E2 & D21 & D22).
    rewrite E2. f_equal. apply list_ext. intros i. rewrite nth_error_map. destruct (Nat.lt_ge_cases i (2 ^ L)) as [C|C].
    - rewrite D22 by lia. rewrite (nth_error_nth' data zero) by lia. cbn [option_map]. f_equal. apply (dft_inverse zero one add mul sub opp Rth); auto.
    - rewrite (proj2 (nth_error_None d2 i)), (proj2 (nth_error_None data i)) by lia. reflexivity.
  Qed.
  (** fft_rec writes the transform of every off-th element of src to dest and changes nothing else *)
  Theorem C81_fft_rec L e bd d bs s root off a : bd <> bs -> ok root -> half_root (2 ^ L) (inj root) ->
    (forall j, j < 2 ^ L -> nth_error (e bs) (s + j * off) = Some (a j)) -> d + 2 ^ L <= length (e bd) ->
    exists e', fft_rec add sub mul rmul rone inj (S (2 ^ L)) e bd d bs s (2 ^ L) root off = Some e' /\
      (forall k, k < 2 ^ L -> nth_error (e' bd) (d + k) = Some (dft (2 ^ L) (inj root) a k)) /\
      (forall x, ~ (d <= x < d + 2 ^ L) -> nth_error (e' bd) x = nth_error (e bd) x) /\
      (forall b x, b <> bd -> nth_error (e' b) x = nth_error (e b) x).
  Proof using Rth RT.
    intros Hb Ho Hr Hs Hd. destruct (fft_rec_ok zero one add mul sub opp Rth ok rmul rone inj RT L (S (2 ^ L)) e bd d bs s root off a) as (e' & E & U); auto.
    - pose proof (pow2_gt L). lia.
    - intros j Hj. apply nth_error_Some. lia.
    - exists e'. split; [exact E|]. split; [|split].
      + intros k Hk. exact (upd_in _ _ _ _ _ _ k U Hk).
      + intros x Hx. exact (upd_out _ _ _ _ _ _ x U Hx).
      + intros b x Hx. exact (upd_other _ _ _ _ _ _ b x U Hx).
  Qed.

  Variables (tdiv : T -> T -> option T) (tnat : nat -> T).
  Notation halves := (halves zero one add mul tdiv tnat).

  (** the cyclic convolution of two arrays of length 2^L lands in the array dataR *)
  Theorem C82_fft_cyclic_convolution L K base e r p q : r <> p -> r <> q -> p <> q -> L <= K -> ok base -> half_root (2 ^ K) (inj base) -> halves K ->
    length (e r) = 2 ^ L -> length (e p) = 2 ^ L -> length (e q) = 2 ^ L ->
    exists e', fft_cyclic_convolution add sub mul tdiv tnat rmul rone inj e r p q (2 ^ L) base (2 ^ K) = Some e' /\ length (e' r) = 2 ^ L /\
      (forall k, k < 2 ^ L -> elem (e' r) k = cyclic_sum zero add mul (2 ^ L) (2 ^ L) (elem (e p)) (elem (e q)) k) /\
      (forall b, b <> r -> b <> p -> b <> q -> forall x, nth_error (e' b) x = nth_error (e b) x).
  Proof using Rth RT.
    intros N1 N2 N3 HK Ho Hr HD Lr Lp Lq. destruct (HD L HK) as (c & Ec & Ic).
    destruct (fft_cyclic_ok zero one add mul sub opp Rth ok rmul rone inj RT tdiv tnat L K base e r p q (elem (e p)) (elem (e q)) c) as (e' & E & H & O); auto.
    - intros j Hj. apply nth_error_Some. lia.
    - intros j Hj. apply nth_error_nth'. lia.
    - intros j Hj. apply nth_error_nth'. lia.
    - exists e'. split; [exact E|].
      assert (A : is_arr (2 ^ L) (cyclic_sum zero add mul (2 ^ L) (2 ^ L) (elem (e p)) (elem (e q))) (e' r)).
      { apply (load_arr _ _ (elem (e r)) e); [|exact H]. split; [exact Lr|]. intros x Hx. apply nth_error_nth'. lia. }
      split; [apply A|]. split; [|exact O]. intros k Hk. apply nth_error_nth. now apply A.
  Qed.
  (** convolution: the coefficients of the product of two polynomials *)
  Theorem C82_convolution K base u v : u <> [] -> v <> [] -> length u + length v - 1 <= 2 ^ K -> ok base -> half_root (2 ^ K) (inj base) -> halves K ->
    exists r, convolution zero add sub mul tdiv tnat rmul rone inj u v base (2 ^ K) = Some r /\ length r = length u + length v - 1 /\
      forall k, k < length r -> elem r k = conv_sum zero add mul (elem u) (elem v) k.
  Proof using Rth RT.
    intros Hu Hv HK Ho Hr HD. destruct (convolution_ok zero one add mul sub opp Rth ok rmul rone inj RT tdiv tnat K base Ho Hr HD u v Hu Hv HK) as (r & E & A1 & A2).
    exists r. split; [exact E|]. split; [exact A1|]. intros k Hk. apply nth_error_nth. apply A2. lia.
  Qed.
  (** cyclic_convolution: the list v is read cyclically; the order of the root must reach ceil(|u| / |v|) |v| + |u| - 1 *)
  Theorem C82_cyclic_convolution K base u v : u <> [] -> v <> [] -> (length u + length v - 1) / length v * length v + length u - 1 <= 2 ^ K ->
    ok base -> half_root (2 ^ K) (inj base) -> halves K ->
    exists r, cyclic_convolution zero add sub mul tdiv tnat rmul rone inj u v base (2 ^ K) = Some r /\ length r = length v + length u - 1 /\
      forall k, k < length r -> elem r k = cyclic_sum zero add mul (length u) (length v) (elem u) (elem v) k.
  Proof using Rth RT.
    intros Hu Hv HK Ho Hr HD. destruct (cyclic_convolution_ok zero one add mul sub opp Rth ok rmul rone inj RT tdiv tnat K base Ho Hr HD u v Hu Hv HK) as (r & E & A1 & A2).
    exists r. split; [exact E|]. split; [exact A1|]. intros k Hk. apply nth_error_nth. apply A2. lia.
  Qed.
  (** a table of all the 2^s-th roots of unity may stand for the root *)
  Theorem C82_root_wrapper s w roots : rpow one mul w (2 ^ s) = one -> length roots = 2 ^ s -> (forall i, i < 2 ^ s -> elem roots i = rpow one mul w i) ->
    root_type one mul (fun r => exists i, (0 <= i < 2 ^ Z.of_nat s)%Z /\ r = (roots, (2 ^ Z.of_nat s)%Z, i)) rw_mul (rw_one (roots, (2 ^ Z.of_nat s)%Z, 1%Z)) (rw_value zero).
  Proof using Rth.
    intros HW HL HR. apply (root_wrapper_ok zero one add mul sub opp Rth s w roots HW). split; [exact HL|].
    intros i Hi. rewrite (nth_error_nth' roots zero) by lia. f_equal. now apply HR.
  Qed.
End Fft.

(** the integers modulo 5 *)
Inductive f5 : Set := F0 | F1 | F2 | F3 | F4.
Definition f5n (a : f5) : nat := match a with F0 => 0 | F1 => 1 | F2 => 2 | F3 => 3 | F4 => 4 end.
Definition n5f (n : nat) : f5 := nth (n mod 5) [F0; F1; F2; F3; F4] F0.
Definition f5add a b := n5f (f5n a + f5n b).
Definition f5mul a b := n5f (f5n a * f5n b).
Definition f5opp a := n5f (5 - f5n a).
Definition f5sub a b := f5add a (f5opp b).
Definition f5div a b := match b with F0 => None | F1 => Some a | F2 => Some (f5mul a F3) | F3 => Some (f5mul a F2) | F4 => Some (f5mul a F4) end.
Lemma f5_ring : ring_theory F0 F1 f5add f5mul f5sub f5opp (@eq f5).
Proof. split; intros; repeat match goal with x : f5 |- _ => destruct x end; reflexivity. Qed.
Lemma f5_root : root_type F1 f5mul (fun _ => True) f5mul F1 (fun x => x).
Proof. split; [exact I|]. split; [reflexivity|]. intros; split; [exact I|reflexivity]. Qed.
Lemma f5_halves : halves F0 F1 f5add f5mul f5div n5f 2.
Proof. intros L HL. destruct L as [|[|[|L]]]; [exists F1|exists F3|exists F4|lia]; split; reflexivity. Qed.
(** 2 is a 4-th root of unity modulo 5 *)
Lemma f5_half : half_root F1 f5mul f5opp (2 ^ 2) F2. Proof. intros _. reflexivity. Qed.
Example C81_case : fft f5add f5sub f5mul f5mul F1 (fun x => x) [F1; F2; F0; F3] 4 F2 = Some [F1; F4; F1; F3] /\
  fft f5add f5sub f5mul f5mul F1 (fun x => x) [F1; F4; F1; F3] 4 F3 = Some [F4; F3; F0; F2] /\
  (exists d, fft f5add f5sub f5mul f5mul F1 (fun x => x) [F1; F2; F0; F3] (2 ^ 2) F2 = Some d /\ length d = 2 ^ 2 /\ forall k, k < 2 ^ 2 -> elem F0 d k = dft F0 F1 f5add f5mul (2 ^ 2) F2 (elem F0 [F1; F2; F0; F3]) k).
Proof.
  split; [reflexivity|]. split; [reflexivity|]. exact (C81_fft F0 F1 f5add f5mul f5sub f5opp f5_ring (fun _ => True) f5mul F1 (fun x => x) f5_root 2 [F1; F2; F0; F3] F2 eq_refl I f5_half).
Qed.
Example C82_case : convolution F0 f5add f5sub f5mul f5div n5f f5mul F1 (fun x => x) [F1; F2] [F3; F4; F1] F2 4 = Some [F3; F0; F4; F2] /\
  (exists r, convolution F0 f5add f5sub f5mul f5div n5f f5mul F1 (fun x => x) [F1; F2] [F3; F4; F1] F2 (2 ^ 2) = Some r /\ length r = 4 /\ forall k, k < length r -> elem F0 r k = conv_sum F0 f5add f5mul (elem F0 [F1; F2]) (elem F0 [F3; F4; F1]) k) /\
  (exists r, cyclic_convolution F0 f5add f5sub f5mul f5div n5f f5mul F1 (fun x => x) [F1; F2] [F3; F4; F1] F2 (2 ^ 2) = Some r /\ length r = 4 /\ forall k, k < length r -> elem F0 r k = cyclic_sum F0 f5add f5mul 2 3 (elem F0 [F1; F2]) (elem F0 [F3; F4; F1]) k).
Proof.
  split; [vm_compute; reflexivity|]. split.
  - apply (C82_convolution F0 F1 f5add f5mul f5sub f5opp f5_ring (fun _ => True) f5mul F1 (fun x => x) f5_root f5div n5f 2 F2 [F1; F2] [F3; F4; F1]); auto using f5_half, f5_halves; try discriminate.
  - apply (C82_cyclic_convolution F0 F1 f5add f5mul f5sub f5opp f5_ring (fun _ => True) f5mul F1 (fun x => x) f5_root f5div n5f 2 F2 [F1; F2] [F3; F4; F1]); auto using f5_half, f5_halves; try discriminate.
Qed.
Example C82_case_table : root_type F1 f5mul (fun r => exists i, (0 <= i < 2 ^ Z.of_nat 2)%Z /\ r = ([F1; F2; F4; F3], (2 ^ Z.of_nat 2)%Z, i)) rw_mul (rw_one ([F1; F2; F4; F3], (2 ^ Z.of_nat 2)%Z, 1%Z)) (rw_value F0).
Proof.
  apply (C82_root_wrapper F0 F1 f5add f5mul f5sub f5opp f5_ring 2 F2); [reflexivity|reflexivity|]. intros i Hi. cbn in Hi. do 4 (destruct i as [|i]; [reflexivity|]). lia.
Qed.
(** residues modulo 17; 9 is an 8-th root of unity *)
Definition a17 (x y : Z) := ((x + y) mod 17)%Z.
Definition s17 (x y : Z) := ((x - y) mod 17)%Z.
Definition m17 (x y : Z) := ((x * y) mod 17)%Z.
Definition d17 (x y : Z) := if (y =? 0)%Z then None else Some (m17 x ((y ^ 15) mod 17)%Z).
(** The header asks only that the order of the root be at least |u| + |v| - 1. That is not enough when u is longer than v. *)
Theorem C82_documented_order_refuted : exists u v : list Z, length u + length v - 1 <= 2 ^ 3 /\ half_root 1%Z m17 (s17 0) (2 ^ 3) 9%Z /\ halves 0%Z 1%Z a17 m17 d17 (fun n => (Z.of_nat n mod 17)%Z) 7 /\
  exists r, cyclic_convolution 0%Z a17 s17 m17 d17 (fun n => (Z.of_nat n mod 17)%Z) m17 1%Z (fun x => x) u v 9%Z (2 ^ 3) = Some r /\
    exists k, k < length r /\ elem 0%Z r k <> cyclic_sum 0%Z a17 m17 (length u) (length v) (elem 0%Z u) (elem 0%Z v) k.
Proof.
  exists [1; 2; 3; 4]%Z, [1; 5; 7]%Z. split; [cbn; lia|]. split; [intros _; reflexivity|].
  split. { intros L HL. do 8 (destruct L as [|L]; [eexists; split; [reflexivity|vm_compute; reflexivity]|]). lia. }
  eexists. split; [vm_compute; reflexivity|]. exists 0. split; [cbn; lia|]. vm_compute. discriminate.
Qed.

Print Assumptions C81_fft.
Print Assumptions C81_fft_not_power.
Print Assumptions C81_fft_inverse.
Print Assumptions C81_fft_rec.
Print Assumptions C82_fft_cyclic_convolution.
Print Assumptions C82_convolution.
Print Assumptions C82_cyclic_convolution.
Print Assumptions C82_root_wrapper.
Print Assumptions C82_documented_order_refuted.
