(** C146: strongly connected components. *)
From Coq Require Import Permutation.
From Verif Require Import Lib GraphSpec WalkSpec TarjanSpec ClosProofs DfsProofs TarjanModel TarjanProofs TarjanProofs2.
Open Scope nat_scope.

Lemma nodup_apart {A} (a b : list A) x : NoDup (a ++ b) -> In x a -> ~ In x b.
Proof. intros ND X Y. destruct (in_split x a X) as (c & d & ->). rewrite <- app_assoc in ND. cbn in ND. apply NoDup_remove_2 in ND. apply ND. apply in_or_app. right. apply in_or_app. now right. Qed.

Theorem C146_tarjan_scc {W} (g : list (list (nat * W))) : wf g -> exists r, tarjan_scc g = Some r /\ strong_components g r.
Proof.
  intros Wf. destruct (tarjan_run g Wf) as (r0 & E & ix & lw & cnt & T & All). exists (rev r0). split; [exact E|]. set (r := rev r0) in *. clearbody r. clear E r0.
  pose proof (ti_nd _ _ _ _ _ _ _ T) as ND. cbn in ND. split; [|split].
  - apply NoDup_Permutation; [exact ND|apply seq_NoDup|]. intros v. rewrite in_seq. split; [intros X; apply (ti_lt _ _ _ _ _ _ _ T) in X; lia|intros X; apply All; lia].
  - exact (ti_scc _ _ _ _ _ _ _ T).
  - intros i j c d x y Ei Ej Hx Hy A. destruct (nth_error_split r i Ei) as (a & b & Er & La). destruct (Nat.le_gt_cases i j) as [L|L]; [exact L|]. exfalso.
    assert (Y : In y (concat a)). { apply in_concat. exists d. split; [|exact Hy]. rewrite Er, nth_error_app1 in Ej by lia. eapply nth_error_In; eauto. }
    rewrite Er, concat_app in ND. apply (nodup_apart _ _ y ND Y). cbn. apply in_or_app. destruct (ti_topo _ _ _ _ _ _ _ T a c b Er x y Hx A) as [Z|Z]; [now left|now right].
Qed.
(** two components, a single node behind them, a node alone *)
Example C146_case : let g := plain [[1]; [2]; [0; 3]; [4]; [3; 5]; []; []] in wf g /\ tarjan_scc g = Some [[6]; [2; 1; 0]; [4; 3]; [5]].
Proof. split; [|vm_compute; reflexivity]. intros i e X. do 7 (destruct i as [|i]; [cbn in X; intuition (subst; cbn; lia)|]). destruct i; destruct X. Qed.
Print Assumptions C146_tarjan_scc.
