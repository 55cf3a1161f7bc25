From Coq Require Import Permutation.
From Verif Require Import Lib BaseModel PermModel PermSpec PermProofs.
Open Scope nat_scope.

(** powers *)
Lemma iter_cyc s c i k : cyc_ok s c -> i < length c -> Nat.iter k s (nth i c 0) = nth ((i + k) mod length c) c 0.
Proof.
  intros C Hi. induction k as [|k IH]; [rewrite Nat.add_0_r, Nat.mod_small by lia; reflexivity|].
  change (s (Nat.iter k s (nth i c 0)) = nth ((i + S k) mod length c) c 0). rewrite IH, C by (apply Nat.mod_upper_bound; lia). f_equal. rewrite Nat.add_mod_idemp_l by lia. f_equal. lia.
Qed.
Lemma iter_fix (s : nat -> nat) x k : s x = x -> Nat.iter k s x = x.
Proof. intros H. induction k as [|k IH]; [reflexivity|]. change (s (Nat.iter k s x) = x). now rewrite IH. Qed.
Lemma pow_cycles_run n s T cs : (0 <= T)%Z -> (forall x y, s x = s y -> x = y) -> forall vc u, NoDup (concat cs) -> (forall x, In x (concat cs) -> x < n) -> (forall c, In c cs -> cyc_ok s c) ->
  found (Nat.iter (Z.to_nat T) s) n vc u -> exists vc' u', pow_cycles T cs vc u = Some vc' /\ found (Nat.iter (Z.to_nat T) s) n vc' u' /\ (forall x, In x (concat cs) \/ vis u x -> vis u' x).
Proof.
  intros HT Inj. set (t := Nat.iter (Z.to_nat T) s). assert (Injt : forall x y, t x = t y -> x = y) by (intros x y; apply iter_inj, Inj).
  induction cs as [|cy cs IH]; intros vc u ND B C F; cbn [pow_cycles].
  - exists vc, u. split; [reflexivity|]. split; [exact F|]. intros x [[]|H]; exact H.
  - cbn [concat] in *. destruct (nodup_app_l _ _ ND) as (N1 & N2 & N3).
    destruct (for_range_spec (fun i '(vc', u') => found t n vc' u' /\ (forall x, vis u x -> vis u' x) /\ (forall j, j < i -> vis u' (nth j cy 0)))
      (fun i '(vc, u) => let* '(c, u) := orbit_loop (fun j => nth_error cy j) (fun j => Some (Z.to_nat (Z.rem (Z.of_nat j + T) (Z.of_nat (length cy))))) u i in Some (keep vc c, u)) 0 (length cy) (vc, u)) as ([vc1 u1] & E & F1 & V1 & V2); [lia| | |].
    + split; [exact F|]. split; [auto|lia].
    + intros i [vc1 u1] Hi (F1 & V1 & V2).
      destruct (found_orbit t Injt n vc1 u1 (fun j => nth_error cy j) (fun j => Some (Z.to_nat (Z.rem (Z.of_nat j + T) (Z.of_nat (length cy))))) (fun j => j < length cy) (fun j => nth j cy 0) (fun j => (j + Z.to_nat T) mod length cy) i F1) as (c & u2 & E & F2 & Vi & Vm); [|lia|].
      * intros j Hj. split; [now apply nth_error_nth'|]. split; [apply B, in_or_app; left; now apply nth_In|]. split.
        { f_equal. rewrite Z.rem_mod_nonneg by lia. rewrite <- (Z2Nat.id T) at 1 by lia. rewrite <- Nat2Z.inj_add, <- Nat2Z.inj_mod. apply Nat2Z.id. }
        split; [apply Nat.mod_upper_bound; lia|]. unfold t. rewrite iter_cyc; [reflexivity|apply C; now left|exact Hj].
      * rewrite E. cbn [obind]. eexists. split; [reflexivity|]. split; [exact F2|]. split; [auto|]. intros j Hj. destruct (Nat.eq_dec j i) as [->|]; [exact Vi|apply Vm, V2; lia].
    + rewrite E. cbn [obind]. destruct (IH vc1 u1 N2) as (vc' & u' & E' & F' & V'); [intros x Hx; apply B, in_or_app; now right|intros c Hc; apply C; now right|exact F1|].
      exists vc', u'. split; [exact E'|]. split; [exact F'|]. intros x [H|H]; [|apply V'; right; auto]. apply in_app_or in H as [H|H]; [|apply V'; now left].
      apply V'. right. destruct (In_nth cy x 0 H) as (i & Hi & <-). now apply V2.
Qed.
Lemma pow_pos_run cs n s T : (0 <= T)%Z -> wf cs n -> denotes cs s -> exists vc, pow_cycles T cs [] (fresh n) = Some vc /\ wf vc n /\ denotes vc (Nat.iter (Z.to_nat T) s) /\ (forall c, In c vc -> 2 <= length c).
Proof.
  intros HT W D. pose proof (denotes_permutes _ _ _ W D) as (P1 & P2 & P3). destruct W as (W1 & W2 & W3). pose proof D as (D1 & D2).
  destruct (pow_cycles_run n s T cs HT P3 [] (fresh n) W1 W2 D1 (found_init _ n)) as (vc & u & E & F & V).
  exists vc. split; [exact E|]. apply (found_denotes _ n vc u F). intros x Hx. apply iter_fix, D2. intros H. apply Hx, V. now left.
Qed.

(** inverse *)
Lemma inv_nth (a : nat) c i : i < S (length c) -> nth i (a :: rev c) 0 = nth ((S (length c) - i) mod S (length c)) (a :: c) 0.
Proof.
  intros Hi. destruct i as [|i]; [rewrite Nat.sub_0_r, Nat.mod_same by lia; reflexivity|]. rewrite Nat.mod_small by lia. cbn [nth]. rewrite rev_nth by lia. replace (S (length c) - S i) with (S (length c - S i)) by lia. reflexivity.
Qed.
Lemma inv_cycles_run cs : ~ In [] cs -> exists ci, inv_cycles cs = Some ci /\ ci = map (fun c => match c with [] => [] | a :: c => a :: rev c end) cs.
Proof.
  induction cs as [|c cs IH]; intros H; cbn [inv_cycles]; [now exists []|]. destruct c as [|a c]; [elim H; now left|]. destruct IH as (ci & E & ->); [intros X; apply H; now right|]. rewrite E. cbn [obind]. eexists. split; reflexivity.
Qed.
Definition revc (c : list nat) : list nat := match c with [] => [] | a :: c => a :: rev c end.
Lemma revc_length c : length (revc c) = length c.
Proof. destruct c; cbn; [reflexivity|now rewrite rev_length]. Qed.
Lemma revc_perm c : Permutation (revc c) c.
Proof. destruct c as [|a c]; cbn; [constructor|]. constructor. symmetry. apply Permutation_rev. Qed.
Lemma revc_concat cs : Permutation (concat (map revc cs)) (concat cs).
Proof. induction cs as [|c cs IH]; cbn; [constructor|]. apply Permutation_app; [apply revc_perm|exact IH]. Qed.
Lemma revc_wf cs n : wf cs n -> wf (map revc cs) n.
Proof.
  intros (W1 & W2 & W3). split; [|split].
  - eapply Permutation_NoDup; [symmetry; apply revc_concat|exact W1].
  - intros x Hx. apply W2. eapply Permutation_in; [apply revc_concat|exact Hx].
  - intros H. apply in_map_iff in H as (c & E & Hc). destruct c; [now apply W3|discriminate].
Qed.
Lemma revc_inverse cs s s' : denotes cs s -> denotes (map revc cs) s' -> forall x, s' (s x) = x /\ s (s' x) = x.
Proof.
  intros (D1 & D2) (E1 & E2) x. destruct (in_dec Nat.eq_dec x (concat cs)) as [H|H].
  - apply in_cycle in H as (c & i & Hc & Hi & ->). pose proof (E1 (revc c) (in_map _ _ _ Hc)) as Cr. rewrite (D1 c Hc i Hi).
    destruct c as [|a c]; [cbn in Hi; lia|]. cbn [length] in *. set (L := S (length c)) in *.
    assert (Q : forall k, k < L -> nth k (a :: c) 0 = nth ((L - k) mod L) (revc (a :: c)) 0).
    { intros k Hk. cbn [revc]. rewrite inv_nth by (apply Nat.mod_upper_bound; unfold L; lia). fold L. f_equal. destruct k; [rewrite Nat.sub_0_r, Nat.mod_same, Nat.sub_0_r, Nat.mod_same by (unfold L; lia); reflexivity|]. rewrite (Nat.mod_small (L - S k)) by lia. rewrite Nat.mod_small by lia. lia. }
    assert (St : forall k, k < L -> s' (nth k (a :: c) 0) = nth (if k =? 0 then L - 1 else k - 1) (a :: c) 0).
    { intros k Hk. rewrite (Q k Hk). rewrite Cr by (rewrite revc_length; apply Nat.mod_upper_bound; cbn; unfold L; lia). rewrite revc_length. cbn [length]. fold L.
      destruct (Nat.eqb_spec k 0) as [->|Hk0].
      - rewrite Nat.sub_0_r, Nat.mod_same by lia. rewrite (Q (L - 1)) by lia. f_equal. replace (L - (L - 1)) with (0 + 1) by lia. reflexivity.
      - rewrite (Nat.mod_small (L - k)) by lia. rewrite (Q (k - 1)) by lia. f_equal. f_equal. lia. }
    split.
    + rewrite St by (apply Nat.mod_upper_bound; lia). destruct (Nat.eq_dec (i + 1) L) as [El|El].
      * rewrite El, Nat.mod_same by lia. cbn [Nat.eqb]. f_equal. lia.
      * rewrite Nat.mod_small by lia. destruct (Nat.eqb_spec (i + 1) 0); [lia|]. f_equal. lia.
    + rewrite St by exact Hi. rewrite (D1 (a :: c) Hc) by (cbn [length]; fold L; destruct (i =? 0); lia). cbn [length]. fold L. f_equal. destruct (Nat.eqb_spec i 0) as [->|Hi0]; [replace (L - 1 + 1) with L by lia; apply Nat.mod_same; lia|]. rewrite Nat.mod_small by lia. lia.
  - rewrite (D2 x H). assert (K : ~ In x (concat (map revc cs))) by (intros X; apply H; eapply Permutation_in; [apply revc_concat|exact X]). rewrite (E2 x K). now rewrite (D2 x H).
Qed.
Lemma inv_run cs n s : wf cs n -> denotes cs s -> exists ci, perm_inv (cs, n) = Some (ci, n) /\ wf ci n /\ (forall s', denotes ci s' <-> forall x, s' (s x) = x).
Proof.
  intros W D. unfold perm_inv. cbn [fst snd]. destruct (inv_cycles_run cs) as (ci & E & Ec); [apply W|]. rewrite E. cbn [obind]. exists ci. split; [reflexivity|]. change ci with ci in *. assert (Er : ci = map revc cs) by exact Ec. clear Ec E. subst ci.
  pose proof (revc_wf cs n W) as W'. split; [exact W'|]. intros s'. split; [intros D' x; now apply (revc_inverse cs s s')|].
  intros H. destruct (denotation_exists _ _ W') as (r & Hr). apply (denotes_ext _ r); [exact Hr|]. intros x. destruct (revc_inverse cs s r D Hr x) as (_ & R). rewrite <- R at 2. symmetry. apply H.
Qed.
Lemma pow_run cs n s T : wf cs n -> denotes cs s -> exists q, perm_pow (cs, n) T = Some (q, n) /\ wf q n /\ (forall c, In c q -> 2 <= length c) /\
  ((0 <= T)%Z -> denotes q (Nat.iter (Z.to_nat T) s)) /\ ((T < 0)%Z -> forall s', (forall x, s' (s x) = x) -> denotes q (Nat.iter (Z.to_nat (- T)) s')).
Proof.
  intros W D. unfold perm_pow. destruct (Z.ltb_spec T 0) as [H|H].
  - destruct (inv_run cs n s W D) as (ci & E & Wi & Di). rewrite E. cbn [obind fst snd]. destruct (denotation_exists _ _ Wi) as (r & Hr).
    destruct (pow_pos_run ci n r (- T) ltac:(lia) Wi Hr) as (q & Eq & Wq & Dq & Lq). rewrite Eq. cbn [obind]. exists q. split; [reflexivity|]. split; [exact Wq|]. split; [exact Lq|]. split; [lia|].
    intros _ s' Hs'. apply (denotes_ext _ (Nat.iter (Z.to_nat (- T)) r)); [exact Dq|]. assert (X : forall x, r x = s' x) by (apply (denotation_unique ci); [exact Hr|now apply Di]).
    intros x. generalize (Z.to_nat (- T)). intros k. induction k as [|k IH]; [reflexivity|]. change (r (Nat.iter k r x) = s' (Nat.iter k s' x)). now rewrite IH.
  - cbn [fst snd]. destruct (pow_pos_run cs n s T H W D) as (q & Eq & Wq & Dq & Lq). rewrite Eq. cbn [obind]. exists q. split; [reflexivity|]. split; [exact Wq|]. split; [exact Lq|]. split; [auto|lia].
Qed.

(** transpositions *)
Definition transps (ts : list (nat * nat)) (x : nat) : nat := fold_right (fun '(a, b) y => transp a b y) x ts.
Lemma transp_lt a b x n : a < n -> b < n -> x < n -> transp a b x < n.
Proof. unfold transp. destruct (x =? a), (x =? b); lia. Qed.
Lemma transp_inv a b x : transp a b (transp a b x) = x.
Proof. unfold transp. destruct (Nat.eqb_spec x a), (Nat.eqb_spec x b); subst; repeat match goal with |- context [?u =? ?v] => destruct (Nat.eqb_spec u v) end; congruence. Qed.
Lemma apply_transpositions_run ts : forall line, (forall a b, In (a, b) ts -> a < length line /\ b < length line) -> exists l', apply_transpositions line ts = Some l' /\ length l' = length line /\ forall x, nth_error l' x = nth_error line (transps ts x).
Proof.
  induction ts as [|[a b] ts IH]; intros line B; cbn [apply_transpositions]; [exists line; repeat split|].
  destruct (B a b (or_introl eq_refl)) as [Ha Hb]. destruct (swap_at_run line a b Ha Hb) as (l1 & E1 & L1 & S1). rewrite E1. cbn [obind].
  destruct (IH l1) as (l2 & E2 & L2 & S2); [intros a' b' H; rewrite L1; apply B; now right|]. exists l2. split; [exact E2|]. split; [lia|]. intros x. rewrite S2, S1. reflexivity.
Qed.
Lemma transps_permutes n ts : (forall a b, In (a, b) ts -> a < n /\ b < n) -> permutes n (transps ts).
Proof.
  induction ts as [|[a b] ts IH]; intros B; [repeat split; auto|]. destruct (B a b (or_introl eq_refl)) as [Ha Hb]. destruct IH as (P1 & P2 & P3); [intros a' b' H; apply B; now right|]. cbn [transps fold_right]. split; [|split].
  - intros x Hx. apply transp_lt; auto. now apply P1.
  - intros x Hx. change (transp a b (transps ts x) = x). rewrite P2 by exact Hx. unfold transp. destruct (Nat.eqb_spec x a), (Nat.eqb_spec x b); lia.
  - intros x y E. apply P3. change (transp a b (transps ts x) = transp a b (transps ts y)) in E. rewrite <- (transp_inv a b (transps ts x)), E. apply transp_inv.
Qed.
Lemma cycle_transpositions_apply c : forall a line, apply_transpositions line (cycle_transpositions a c) = apply_cycle line (a :: c).
Proof.
  induction c as [|b c IH]; intros a line; [reflexivity|]. cbn [cycle_transpositions apply_transpositions]. unfold apply_cycle. cbn [length]. rewrite Nat.max_r by lia.
  unfold for_range. replace (S (S (length c)) - 1) with (S (length c)) by lia. cbn [for_n]. cbn [Nat.sub nth_error obind]. destruct (swap_at line a b) as [l1|]; [|reflexivity]. cbn [obind]. rewrite IH.
  unfold apply_cycle, for_range. cbn [length]. rewrite Nat.max_r by lia. replace (S (length c) - 1) with (length c) by lia.
  assert (G : forall k i l, 1 <= i -> for_n k i (fun i line => let* a0 := nth_error (b :: c) (i - 1) in let* b0 := nth_error (b :: c) i in swap_at line a0 b0) l
    = for_n k (S i) (fun i line => let* a0 := nth_error (a :: b :: c) (i - 1) in let* b0 := nth_error (a :: b :: c) i in swap_at line a0 b0) l).
  { induction k as [|k IHk]; intros i l Hi; [reflexivity|]. cbn [for_n]. destruct i as [|i]; [lia|]. replace (S i - 1) with i by lia. replace (S (S i) - 1) with (S i) by lia. change (nth_error (a :: b :: c) (S i)) with (nth_error (b :: c) i). change (nth_error (a :: b :: c) (S (S i))) with (nth_error (b :: c) (S i)).
    destruct (nth_error (b :: c) i) as [x|]; cbn [obind]; [|reflexivity]. destruct (nth_error (b :: c) (S i)) as [y|]; cbn [obind]; [|reflexivity]. destruct (swap_at l x y) as [l'|]; cbn [obind]; [|reflexivity]. apply IHk. lia. }
  apply G. lia.
Qed.
Lemma apply_transpositions_app a b line : apply_transpositions line (a ++ b) = (let* l := apply_transpositions line a in apply_transpositions l b).
Proof. revert line. induction a as [|[x y] a IH]; intros line; cbn [app apply_transpositions]; [reflexivity|]. destruct (swap_at line x y); [apply IH|reflexivity]. Qed.
Lemma cycles_to_transpositions_apply cs : forall line, apply_transpositions line (cycles_to_transpositions cs) = apply_cycles line cs.
Proof.
  induction cs as [|c cs IH]; intros line; [reflexivity|]. cbn [cycles_to_transpositions flat_map apply_cycles]. rewrite apply_transpositions_app. destruct c as [|a c].
  - cbn [apply_transpositions obind]. apply IH.
  - rewrite cycle_transpositions_apply. destruct (apply_cycle line (a :: c)); [apply IH|reflexivity].
Qed.
Lemma cycles_to_transpositions_length cs : length (cycles_to_transpositions cs) = swaps cs.
Proof.
  induction cs as [|c cs IH]; [reflexivity|]. unfold swaps. cbn [cycles_to_transpositions flat_map map list_sum fold_right]. rewrite app_length. unfold cycles_to_transpositions in IH. rewrite IH. unfold swaps, list_sum. f_equal.
  destruct c as [|a c]; [reflexivity|]. cbn [length]. rewrite Nat.sub_succ, Nat.sub_0_r. clear. revert a. induction c as [|b c IH]; intros a; cbn; [reflexivity|]. now rewrite IH.
Qed.
