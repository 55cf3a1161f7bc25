(** Properties of the segmented sieves (src/algorithm/math/primes.cpp). *)
From Verif Require Import Lib PrimesModel PrimesSpec PrimesProofs SegModel SegSpec SegProofs SegProofs2.
Open Scope nat_scope.

(** C103: the documented requirement, p[m-1] >= sqrt(e - 1) for the first m primes, makes the primes suffice *)
Theorem C103_documented_bound : forall p m e r, nth_error p (m - 1) = Some r -> m <= length p -> firstn m p = primes_below (S r) -> e - 1 <= r * r -> sieving_primes p m e.
Proof. intros p m e r E Hm HP He. exists (S r). split; [exact Hm|]. split; [exact HP|]. nia. Qed.
(** C103: primality of every integer of [b, e); entries past the range are not touched *)
Theorem C103_segmented_q : forall q b e p m, sieving_primes p m e -> e - b <= length q -> (b < 2 -> 2 <= e) ->
  exists q', segmented_q q b e p m = Some q' /\ segment b e primeb q q'.
Proof. exact segmented_q_run. Qed.
(** C103: a range that starts at 0 or 1 and ends before 2 is written past its end *)
Theorem C103_short_range_refuted : exists q b e p m, b < e /\ sieving_primes p m e /\ e - b <= length q /\ segmented_q q b e p m = None.
Proof. exists [true], 0, 1, [], 0. split; [lia|]. split; [|split; [cbn; lia|reflexivity]]. exists 2. split; [cbn; lia|]. split; [reflexivity|lia]. Qed.
Theorem C103_short_range_overwrites_refuted : exists q b e p m q', b < e /\ sieving_primes p m e /\ e - b <= length q /\ segmented_q q b e p m = Some q' /\ ~ segment b e primeb q q'.
Proof. exists [true; true], 0, 1, [], 0, [false; false]. split; [lia|]. split; [exists 2; split; [cbn; lia|split; [reflexivity|lia]]|]. split; [cbn; lia|]. split; [reflexivity|]. intros (_ & _ & H). specialize (H 1 ltac:(lia)). discriminate. Qed.
Example C103_case : sieving_primes [2; 3; 5; 7; 11; 13] 6 170 /\ option_map (firstn 11) (segmented_q (repeat false 12) 90 101 [2; 3; 5; 7] 4) = Some (map primeb (seq 90 11)) /\ map primeb (seq 90 11) = [false; false; false; false; false; false; false; true; false; false; false].
Proof. split; [exists 14; split; [cbn; lia|split; [reflexivity|lia]]|]. split; reflexivity. Qed.

(** C104: Euler's totient of every integer of [b, e); the scratch array keeps its size and what lies past the range *)
Theorem C104_segmented_phi : forall phi tmp b e p m, sieving_primes p m e -> e - b <= length phi -> e - b <= length tmp -> (b = 0 -> 1 <= e) ->
  exists phi' tmp', segmented_phi phi tmp b e p m = Some (phi', tmp') /\ segment b e totient phi phi' /\ length tmp' = length tmp /\ forall i, e - b <= i -> nth_error tmp' i = nth_error tmp i.
Proof. exact segmented_phi_run. Qed.
(** C104: the Moebius function of every integer of [b, e) *)
Theorem C104_segmented_mu : forall mu b e p m, sieving_primes p m e -> e - b <= length mu -> (b = 0 -> 1 <= e) ->
  exists mu', segmented_mu mu b e p m = Some mu' /\ segment b e mobius mu mu'.
Proof. exact segmented_mu_run. Qed.
(** C104: the empty range at 0 is written *)
Theorem C104_empty_range_refuted : exists p m, sieving_primes p m 0 /\ segmented_phi [] [] 0 0 p m = None /\ segmented_mu [] 0 0 p m = None /\ ~ segment 0 0 mobius [5%Z] [0%Z] /\ segmented_mu [5%Z] 0 0 p m = Some [0%Z].
Proof. exists [], 0. split; [exists 0; split; [cbn; lia|split; [reflexivity|lia]]|]. split; [reflexivity|]. split; [reflexivity|]. split; [|reflexivity]. intros (_ & _ & H). specialize (H 0 ltac:(lia)). discriminate. Qed.
Example C104_case : option_map fst (segmented_phi (repeat 9 12) (repeat 9 11) 90 101 [2; 3; 5; 7] 4) = Some (map totient (seq 90 11) ++ [9]) /\ segmented_mu (repeat 9%Z 12) 90 101 [2; 3; 5; 7] 4 = Some (map mobius (seq 90 11) ++ [9%Z]) /\ map totient (seq 97 3) = [96; 42; 60] /\ segmented_mu (repeat 9%Z 4) 0 4 [] 0 = Some (map mobius (seq 0 4)).
Proof. repeat split; vm_compute; reflexivity. Qed.
Print Assumptions C103_documented_bound.
Print Assumptions C103_segmented_q.
Print Assumptions C103_short_range_refuted.
Print Assumptions C103_short_range_overwrites_refuted.
Print Assumptions C104_segmented_phi.
Print Assumptions C104_segmented_mu.
Print Assumptions C104_empty_range_refuted.
