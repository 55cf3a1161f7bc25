(** C132: counting primes by Meissel's formula. *)
From Verif Require Import Lib PrimesSpec PrimesProofs MeisselSpec MeisselModel MeisselProofs.
Open Scope nat_scope.

(** Any sequence of calls, started with empty tables: every answer is the number of primes up to m, whatever arrays each call brings,
    so long as they hold what [meissel_inputs] says. *)
Theorem C132_history : forall cs : list (nat * nat * list Z * list nat * nat),
  Forall (fun '(cb, m, pi, p, size) => m < 2 \/ meissel_inputs cb m pi p size) cs ->
  pi_calls cs (fun _ => None, fun _ => None) = Some (map (fun '(cb, m, pi, p, size) => Z.of_nat (length (primes_below (m + 1)))) cs).
Proof.
  intros cs H. rewrite calls_run.
  - reflexivity.
  - exact H.
  - intros m B r _ _ _ X. discriminate.
  - intros m r X. discriminate.
Qed.
(** The partial sieve function from an empty table: how many of 1..m no one of the first n primes divides. *)
Theorem C132_phi : forall (p : list nat) (B m : nat), prime_list B p -> (Z.of_nat m < 2 ^ 48)%Z -> (Z.of_nat (length (primes_below B)) < 2 ^ 16)%Z ->
  exists t, phi_rec p (length (primes_below B)) m (fun _ => None) = Some (Z.of_nat (rough_count (primes_below B) m), t).
Proof.
  intros p B m Hp Hm Hn. destruct (phi_run p B _ m (fun _ => None) Hp eq_refl Hm Hn) as (t & E & _); [intros m0 B0 r _ _ _ X; discriminate|]. now exists t.
Qed.
(** The primes up to sqrt(m), which the header asks for, are not enough: the loop over pairs reads one more. Here m = 100. *)
Theorem C132_primes_to_root_refuted : exists (pi : list Z) (p : list nat),
  pi_table 100 pi /\ p = primes_below (10 + 1) /\ prime_pi_deprecated 4 100 pi p 0 (fun _ => None, fun _ => None) = None.
Proof.
  exists (map (fun x => Z.of_nat (pi_of x)) (seq 0 101)), (primes_below 11). split; [|split; [reflexivity|vm_compute; reflexivity]].
  intros x Hx. rewrite nth_error_map. assert (E : nth_error (seq 0 101) x = Some x).
  { rewrite (nth_error_nth' _ 0) by (rewrite seq_length; lia). now rewrite seq_nth by lia. }
  now rewrite E.
Qed.
(** Sixteen bits for n: with more primes a value stored for one pair of arguments is returned for another. *)
Theorem C132_key_refuted : exists (p : list nat) (t : memo) (a b : Z), prime_list 3 p /\
  phi_rec p 1 3 (fun _ => None) = Some (a, t) /\ phi_rec p (Z.to_nat 65537) 2 t = Some (b, t) /\ b = 2%Z /\
  forall ps, In 2 ps -> rough_count ps 2 <> 2.
Proof.
  exists [2], (memo_put (fun _ => None) (phi_key 3 1) 2%Z), 2%Z, 2%Z. split; [exists []; reflexivity|]. split; [reflexivity|]. split; [vm_compute; reflexivity|]. split; [reflexivity|].
  intros ps H2 E. unfold rough_count in E. cbn [seq filter] in E. assert (F : forallb (fun p => negb (2 mod p =? 0)) ps = false).
  { destruct (forallb (fun p => negb (2 mod p =? 0)) ps) eqn:X; [|reflexivity]. rewrite forallb_forall in X. now specialize (X 2 H2). }
  rewrite F in E. destruct (forallb (fun p => negb (1 mod p =? 0)) ps); cbn in E; lia.
Qed.
Definition C132_pi : list Z := map (fun x => Z.of_nat (pi_of x)) (seq 0 21).
Example C132_case : Forall (fun '(cb, m, pi, p, size) => m < 2 \/ meissel_inputs cb m pi p size) [(4, 100, C132_pi, primes_below 12, 0); (3, 30, C132_pi, primes_below 12, 0); (0, 0, [], [], 0)] /\
  pi_calls [(4, 100, C132_pi, primes_below 12, 0); (3, 30, C132_pi, primes_below 12, 0); (0, 0, [], [], 0)] (fun _ => None, fun _ => None) = Some [25; 10; 0]%Z.
Proof.
  assert (T : pi_table 20 C132_pi).
  { intros x Hx. unfold C132_pi. rewrite nth_error_map. assert (E : nth_error (seq 0 21) x = Some x) by (rewrite (nth_error_nth' _ 0) by (rewrite seq_length; lia); now rewrite seq_nth by lia). now rewrite E. }
  split; [|vm_compute; reflexivity]. repeat (apply Forall_cons); [| | |apply Forall_nil].
  - right. split; [cbn; lia|]. split; [reflexivity|]. exists 20, 12, 11. split; [exact T|]. split; [lia|]. split; [cbn; lia|]. split; [lia|]. split; [exists []; reflexivity|]. split; [apply primeb_spec; reflexivity|]. lia.
  - right. split; [cbn; lia|]. split; [reflexivity|]. exists 20, 12, 11. split; [exact T|]. split; [lia|]. split; [cbn; lia|]. split; [lia|]. split; [exists []; reflexivity|]. split; [apply primeb_spec; reflexivity|]. lia.
  - left. lia.
Qed.
Print Assumptions C132_history.
Print Assumptions C132_phi.
Print Assumptions C132_primes_to_root_refuted.
Print Assumptions C132_key_refuted.
