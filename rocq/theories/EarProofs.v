From Coq Require Import Lia Relations.
From Verif Require Import Lib BicModel BicSpec BicProofs EarSpec.

Local Notation crst := (clos_refl_sym_trans nat).
Lemma crst_mono (R S : nat -> nat -> Prop) : (forall p q, R p q -> S p q) -> forall x y, crst R x y -> crst S x y.
Proof. intros H x y C. induction C; [apply rst_step; auto|apply rst_refl|now apply rst_sym|eapply rst_trans; eauto]. Qed.
Lemma next_app p q l l1 l2 : next_to p q l -> next_to p q (l1 ++ l ++ l2).
Proof. intros (a & b & ->). exists (l1 ++ a), (b ++ l2). rewrite <- !app_assoc. reflexivity. Qed.
Lemma walk_head r : forall h y, In y (h :: r) -> crst (fun p q => next_to p q (h :: r)) h y.
Proof.
  induction r as [|x r IH]; intros h y [->|H]; try apply rst_refl; [destruct H|]. eapply rst_trans; [apply rst_step; exists [], r; reflexivity|]. eapply crst_mono; [|apply (IH x y H)]. cbn beta. intros p q N. apply next_cons. now right.
Qed.
Lemma walk_conn c x y : In x c -> In y c -> crst (fun p q => next_to p q c) x y.
Proof. destruct c as [|h r]; [intros []|]. intros Hx Hy. eapply rst_trans; [apply rst_sym, walk_head; exact Hx|now apply walk_head]. Qed.
Lemma last_in (h : nat) r d : In (last (h :: r) d) (h :: r).
Proof. revert h. induction r as [|x r IH]; intros h; [now left|]. right. apply IH. Qed.
Definition E (cs : list (list nat)) p q := exists c, In c cs /\ next_to p q c.
Lemma ears_conn cs : ears cs -> forall x y, In x (concat cs) -> In y (concat cs) -> crst (E cs) x y.
Proof.
  induction 1 as [h r L S|cs h r He IH S Hh Hl D]; intros x y Hx Hy.
  - cbn [concat] in Hx, Hy. rewrite app_nil_r in Hx, Hy. eapply crst_mono; [|apply (walk_conn (h :: r) x y Hx Hy)]. intros p q N. exists (h :: r). split; [now left|exact N].
  - assert (K : forall z, In z (concat (cs ++ [h :: r])) -> crst (E (cs ++ [h :: r])) h z).
    { intros z Hz. rewrite concat_app in Hz. apply in_app_or in Hz. destruct Hz as [Hz|Hz].
      - eapply crst_mono; [|apply (IH h z Hh Hz)]. intros p q (c & Hc & N). exists c. split; [apply in_or_app; now left|exact N].
      - cbn [concat] in Hz. rewrite app_nil_r in Hz. eapply crst_mono; [|apply (walk_head r h z Hz)]. intros p q N. exists (h :: r). split; [apply in_or_app; right; now left|exact N]. }
    eapply rst_trans; [apply rst_sym, K, Hx|apply K, Hy].
Qed.
(** both ends of an edge of a simple chain are connected to the ends of the chain without the edge *)
Lemma split_ends h r l1 a b l2 : simple_edges (h :: r) -> h :: r = l1 ++ a :: b :: l2 ->
  crst (fun p q => next_to p q (h :: r) /\ ~ same_edge p q a b) h a /\ crst (fun p q => next_to p q (h :: r) /\ ~ same_edge p q a b) b (last (h :: r) h).
Proof.
  intros S Ec. destruct (S l1 a b l2 Ec) as (S1 & S2). split.
  - assert (Hh : In h (l1 ++ [a])) by (destruct l1 as [|x l1]; injection Ec as -> _; now left).
    eapply crst_mono; [|apply (walk_conn (l1 ++ [a]) h a Hh); apply in_or_app; right; now left]. intros p q N. split.
    + rewrite Ec. apply (next_app _ _ _ [] (b :: l2)) in N. cbn [app] in N. rewrite <- app_assoc in N. exact N.
    + intros [(-> & ->)|(-> & ->)]; apply S1; [now left|now right].
  - assert (Hl : In (last (h :: r) h) (b :: l2)). { rewrite Ec. replace (l1 ++ a :: b :: l2) with ((l1 ++ [a]) ++ b :: l2) by (rewrite <- app_assoc; reflexivity). assert (La : forall l (m : list nat) d, m <> [] -> last (l ++ m) d = last m d). { induction l as [|x l IH]; intros m d N; [reflexivity|]. rewrite <- (IH m d N). cbn [app]. destruct (l ++ m) eqn:Q; [apply app_eq_nil in Q; tauto|reflexivity]. } rewrite La by discriminate. apply last_in. }
    eapply crst_mono; [|apply (walk_conn (b :: l2) b _ (or_introl eq_refl) Hl)]. intros p q N. split.
    + rewrite Ec. apply (next_app _ _ _ (l1 ++ [a]) []) in N. rewrite app_nil_r, <- app_assoc in N. exact N.
    + intros [(-> & ->)|(-> & ->)]; apply S2; [now left|now right].
Qed.
Lemma ears_edge cs : ears cs -> forall c a b, In c cs -> next_to a b c -> crst (fun p q => E cs p q /\ ~ same_edge p q a b) a b.
Proof.
  induction 1 as [h r L S|cs h r He IH S Hh Hl D]; intros c a b Hc N.
  - destruct Hc as [<-|[]]. destruct N as (l1 & l2 & Ec). destruct (split_ends h r l1 a b l2 S Ec) as (P1 & P2). rewrite L in P2.
    assert (M : forall p q, next_to p q (h :: r) /\ ~ same_edge p q a b -> E [h :: r] p q /\ ~ same_edge p q a b) by (intros p q (Q1 & Q2); split; [exists (h :: r); split; [now left|exact Q1]|exact Q2]).
    eapply rst_trans; [apply rst_sym, (crst_mono _ _ M), P1|apply rst_sym, (crst_mono _ _ M), P2].
  - apply in_app_or in Hc. destruct Hc as [Hc|[<-|[]]].
    + eapply crst_mono; [|apply (IH c a b Hc N)]. intros p q ((c' & Hc' & N') & Q). split; [exists c'; split; [apply in_or_app; now left|exact N']|exact Q].
    + assert (Al : along (h :: r) a b) by now left. destruct N as (l1 & l2 & Ec). destruct (split_ends h r l1 a b l2 S Ec) as (P1 & P2).
      assert (M : forall p q, next_to p q (h :: r) /\ ~ same_edge p q a b -> E (cs ++ [h :: r]) p q /\ ~ same_edge p q a b) by (intros p q (Q1 & Q2); split; [exists (h :: r); split; [apply in_or_app; right; now left|exact Q1]|exact Q2]).
      eapply rst_trans; [apply rst_sym, (crst_mono _ _ M), P1|]. eapply rst_trans; [|apply rst_sym, (crst_mono _ _ M), P2].
      eapply crst_mono; [|apply (ears_conn cs He _ _ Hh Hl)]. intros p q (c' & Hc' & N'). split; [exists c'; split; [apply in_or_app; now left|exact N']|].
      intros [(-> & ->)|(-> & ->)]; apply (D c' a b Hc' Al); [now left|now right].
Qed.
