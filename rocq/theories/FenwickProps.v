(** C27: fenwick_tree prefix sums. *)
From Verif Require Import Lib FenwickModel FenwickSpec FenwickProofs.

(** After any history of add/reset calls on fenwick_tree(sz, f, e), none of which leaves the
    vector, get_sum(j, r0) is r0 combined with the fold of all values added at indices <= j. *)
Theorem C27_fenwick_tree :
  forall (T : Type) (f : T -> T -> T) (e : T), comm_monoid f e ->
  forall (sz : nat) (os : list fw_op), exists v,
    fw_run f e (fw_new sz e) os = Some v /\
    forall j r0, j < sz -> fw_get_sum f v j r0 = Some (f r0 (prefix_fold f e (live os) j)).
Proof.
  intros T f e M sz os. destruct (fw_run_spec f e M os (fw_new sz e) []) as (v & E & I & L).
  { apply fw_inv_fresh. }
  exists v. split; [exact E|]. intros j r0 Hj. apply fw_get_spec; [exact M|exact I|].
  rewrite L. unfold fw_new. rewrite repeat_length. lia.
Qed.
Example C27_case : comm_monoid Nat.add 0 /\
  let os := [FAdd 3 5; FAdd 0 2; FReset; FAdd 4 7; FAdd 2 1; FAdd 9 100; FAdd 6 3] in
  (let* v := fw_run Nat.add 0 (fw_new 7 0) os in fw_get_sum Nat.add v 5 1000) = Some 1008 /\
  prefix_fold Nat.add 0 (live os) 5 = 8.
Proof. split; [constructor; intros; lia|]. split; reflexivity. Qed.
Print Assumptions C27_fenwick_tree.
