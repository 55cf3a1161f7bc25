(** Searching a zero of a monotonic function by halving (C161). *)
From Coq Require Import QArith Qabs Lqa Lia.
From Verif Require Import Lib MonoModel MonoSpec.
Open Scope Q_scope.

Lemma Qlt_bool_spec a b : if Qlt_bool a b then a < b else b <= a.
Proof. unfold Qlt_bool. destruct (Qle_bool b a) eqn:E; cbn [negb]; [now apply Qle_bool_iff|]. apply Qnot_le_lt. intros H. apply Qle_bool_iff in H. congruence. Qed.
Lemma near0_spec d v : if near0 d v then within d v 0 else v < - d \/ d < v.
Proof.
  unfold near0, within. destruct (Qle_bool (- d) v) eqn:A; cbn [andb].
  - apply Qle_bool_iff in A. destruct (Qle_bool v d) eqn:B; [apply Qle_bool_iff in B; apply Qabs_Qle_condition; split; lra|]. right. apply Qnot_le_lt. intros H. apply Qle_bool_iff in H. congruence.
  - left. apply Qnot_le_lt. intros H. apply Qle_bool_iff in H. congruence.
Qed.
Lemma two_pow_pos n : 0 < two_pow n.
Proof. induction n; cbn [two_pow]; lra. Qed.

Section Props.
  Variables (p : Q -> Q) (b e epsy epsx : Q).
  Hypothesis Hbe : b <= e.
  Hypothesis Hy : 0 <= epsy.
  Hypothesis Hx : 0 <= epsx.

  Lemma search_loop_ok (up : bool) z : (if up then nondecreasing p b e else nonincreasing p b e) -> b <= z -> z <= e -> p z == 0 ->
    forall iter lo hi mid d, b <= lo -> hi <= e -> lo <= z -> z <= hi -> mid == lo \/ mid == hi -> hi - lo <= d * two_pow iter -> 0 <= d ->
    let x := search_loop p iter up 0 epsy epsx lo hi mid in b <= x <= e /\ (within epsy (p x) 0 \/ within epsx x z \/ within d x z).
  Proof using Hx Hy.
    intros M Bz Ze Pz. induction iter as [|iter IH]; intros lo hi mid d Bl He Lz Zh Hm Hd Pd; cbn [search_loop].
    - cbn [two_pow] in Hd. cbv zeta. split; [destruct Hm; lra|]. right. right. apply Qabs_Qle_condition. destruct Hm; lra.
    - pose proof (Qlt_bool_spec epsx (hi - lo)) as A. destruct (Qlt_bool epsx (hi - lo)).
      2:{ cbv zeta. split; [destruct Hm; lra|]. right. left. apply Qabs_Qle_condition. destruct Hm; lra. }
      cbv zeta. set (m := (lo + hi) / 2). assert (Em : m + m == lo + hi) by (unfold m; field).
      destruct (Qeq_bool m lo) eqn:E1; [apply Qeq_bool_iff in E1; lra|]. destruct (Qeq_bool m hi) eqn:E2; [apply Qeq_bool_iff in E2; lra|]. cbn [orb].
      pose proof (near0_spec epsy (p m)) as N. destruct (near0 epsy (p m)); [split; [lra|now left]|].
      cbn [two_pow] in Hd. destruct up.
      + pose proof (Qlt_bool_spec (p m) 0) as V. destruct (Qlt_bool (p m) 0).
        * apply (IH m hi m d); try lra. destruct (Qlt_le_dec z m) as [Q|Q]; [|exact Q]. assert (p z <= p m) by (apply M; lra). lra.
        * apply (IH lo m m d); try lra. destruct (Qlt_le_dec m z) as [Q|Q]; [|exact Q]. assert (p m <= p z) by (apply M; lra). exfalso. destruct N; lra.
      + pose proof (Qlt_bool_spec 0 (p m)) as V. destruct (Qlt_bool 0 (p m)).
        * apply (IH m hi m d); try lra. destruct (Qlt_le_dec z m) as [Q|Q]; [|exact Q]. assert (p m <= p z) by (apply M; lra). lra.
        * apply (IH lo m m d); try lra. destruct (Qlt_le_dec m z) as [Q|Q]; [|exact Q]. assert (p z <= p m) by (apply M; lra). exfalso. destruct N; lra.
  Qed.
  (** for a zero z: the value at the result is near zero, or the result is near z *)
  Theorem C161_zero : forall (max_iter : Z) z, monotonic p b e -> b <= z -> z <= e -> p z == 0 ->
    let x := monotonic_search p b e 0 epsy epsx max_iter in
    b <= x <= e /\ (within epsy (p x) 0 \/ within epsx x z \/ within ((e - b) / two_pow (Z.to_nat max_iter)) x z).
  Proof using Hbe Hx Hy.
    intros max_iter z M Bz Ze Pz. cbv zeta. unfold monotonic_search. pose proof (near0_spec epsy (p b)) as N. destruct (near0 epsy (p b)); [split; [lra|now left]|].
    pose proof (near0_spec epsy (p e)) as N'. destruct (near0 epsy (p e)); [split; [lra|now left]|].
    pose proof (two_pow_pos (Z.to_nat max_iter)) as T. apply search_loop_ok; try lra.
    - pose proof (Qlt_bool_spec (p e) (p b)) as V. destruct (Qlt_bool (p e) (p b)); cbn [negb]; destruct M as [M|M]; try exact M; exfalso.
      + assert (p b <= p e) by (apply M; lra). lra.
      + assert (p z <= p b) by (apply M; lra). assert (p e <= p z) by (apply M; lra). destruct N, N'; lra.
    - apply Qle_lteq. right. field. lra.
    - apply Qle_shift_div_l; lra.
  Qed.
End Props.

(** the tests of the values are against 0 and not against y: a value y other than 0 is missed *)
Theorem C161_value_refuted : ~ (forall p b e y epsy epsx (max_iter : Z) z, b <= e -> 0 <= epsy -> 0 <= epsx -> monotonic p b e -> b <= z -> z <= e -> p z == y ->
  let x := monotonic_search p b e y epsy epsx max_iter in
  within epsy (p x) y \/ within epsx x z \/ within ((e - b) / two_pow (Z.to_nat max_iter)) x z).
Proof.
  intros H. specialize (H (fun x => x) 0 1 (1#2) 0 0 10%Z (1#2)). cbv zeta in H. destruct H as [H|[H|H]]; try lra; try (left; intros x x' _ A _; exact A); vm_compute in H; congruence.
Qed.

Example C161_case : monotonic (fun x => 2 - x * x) 0 2 /\ (let x := monotonic_search (fun x => 2 - x * x) 0 2 0 0 (1#100) 200 in Qred x) = 181 # 128.
Proof.
  split; [|vm_compute; reflexivity]. right. intros x x' A B _. nra.
Qed.
Print Assumptions C161_zero.
Print Assumptions C161_value_refuted.
