From Coq Require Import Permutation.
From Verif Require Import Lib PrimesModel PrimesSpec PrimesProofs PrimesProofs2 PrimesProofs3.
Open Scope nat_scope.

(** a table of prime factors for 2..n *)
Lemma pow_pos p e : 2 <= p -> 0 < p ^ e.
Proof. intros H. pose proof (Nat.pow_nonzero p e). lia. Qed.
Lemma pow_gt_lin p e : 2 <= p -> e < p ^ e.
Proof. intros H. apply Nat.pow_gt_lin_r. lia. Qed.
Lemma divide_out_run n p e : 0 < n -> 2 <= p -> exists n' k, divide_out n p e = Some (n', e + k) /\ n = p ^ k * n' /\ ~ Nat.divide p n'.
Proof.
  intros Hn Hp. unfold divide_out.
  match goal with |- context [loopZ ?fu ?g ?st] => destruct (loopZ_spec g
    (fun '(m, c) => 0 < m /\ exists k, c = e + k /\ n = p ^ k * m) (fun '(m, c) => exists k, c = e + k /\ n = p ^ k * m /\ ~ Nat.divide p m) (fun '(m, _) => Z.of_nat m)) with (fuel := fu) (s := st) as ([m c] & Em & k & -> & E1 & E2) end.
  - intros [m c] (Hm & k & -> & E). unfold divide_step. destruct (Nat.eqb_spec p 0); [lia|]. destruct (m mod p =? 0) eqn:M; cbn [negb]; eexists; (split; [reflexivity|]); cbv beta iota.
    + apply mod_div in M as [u Hu]; [|lia]. subst m. rewrite Nat.div_mul by lia. split; [|nia]. split; [nia|]. exists (k + 1). split; [lia|]. rewrite Nat.pow_add_r, E, Nat.pow_1_r. lia.
    + exists k. split; [reflexivity|]. split; [exact E|]. apply mod_div_false in M; [exact M|lia].
  - intros [m c] _. lia.
  - split; [exact Hn|]. exists 0. cbn. lia.
  - lia.
  - exists m, k. auto.
Qed.
Lemma product_app a b : product (a ++ b) = product a * product b.
Proof. unfold product. induction a as [|[p e] a IH]; cbn; [lia|]. rewrite IH. lia. Qed.
Lemma product_divides vf p e : In (p, e) vf -> 1 <= e -> Nat.divide p (product vf).
Proof.
  induction vf as [|[q f] vf IH]; intros H He; [contradiction|]. unfold product. cbn [fold_right]. fold (product vf). destruct H as [E|H].
  - injection E as <- <-. apply Nat.divide_mul_l. destruct f; [lia|]. cbn. apply Nat.divide_factor_l.
  - apply Nat.divide_mul_r. now apply IH.
Qed.
(** a partial factorisation: [m] is the part still to be factored *)
Definition part (n : nat) (fs : list (nat * nat)) (m : nat) : Prop :=
  0 < m /\ product fs * m = n /\ NoDup (map fst fs) /\ (forall p e, In (p, e) fs -> is_prime p /\ 1 <= e) /\ (forall p, In p (map fst fs) -> ~ Nat.divide p m).
Lemma part_nil n : 0 < n -> part n [] n.
Proof. intros H. split; [exact H|]. split; [cbn; lia|]. split; [constructor|]. split; contradiction. Qed.
Lemma part_one n fs : part n fs 1 -> factorisation n fs.
Proof. intros (_ & H1 & H2 & H3 & _). split; [lia|]. auto. Qed.
Lemma NoDup_snoc {A} (l : list A) x : NoDup l -> ~ In x l -> NoDup (l ++ [x]).
Proof. intros H N. apply NoDup_Add with (a := x) (l := l); [|auto]. rewrite <- (app_nil_r l) at 1. apply Add_app. Qed.
Lemma part_step n fs m p k m' : part n fs m -> is_prime p -> Nat.divide p m -> m = p ^ k * m' -> ~ Nat.divide p m' -> part n (fs ++ [(p, k)]) m' /\ 0 < m' < m /\ 1 <= k.
Proof.
  intros (H0 & H1 & H2 & H3 & H4) P D E N. pose proof (prime_ge p P). assert (Hk : 1 <= k) by (destruct k; [|lia]; cbn in E; rewrite Nat.add_0_r in E; subst; contradiction). pose proof (pow_gt_lin p k ltac:(lia)). assert (Hm' : 0 < m') by nia.
  split; [|split; [nia|exact Hk]]. split; [exact Hm'|]. split; [rewrite product_app; cbn [product fold_right]; rewrite <- H1, E; nia|]. rewrite map_app. cbn [map fst]. split; [|split].
  - apply NoDup_snoc; [exact H2|]. intros I. now apply (H4 p I).
  - intros q e I. apply in_app_or in I as [I|[I|[]]]; [now apply H3|]. injection I as <- <-. auto.
  - intros q I. apply in_app_or in I as [I|[<-|[]]]; [|exact N]. intros D'. apply (H4 q I). rewrite E. now apply Nat.divide_mul_r.
Qed.
Lemma factor_integer_run vf n pf : 0 < n -> pf_table n pf -> exists fs, factor_integer vf n pf = Some (vf ++ fs) /\ factorisation n fs.
Proof.
  intros Hn Ht. unfold factor_integer.
  match goal with |- context [loopZ ?fu ?g ?st] => destruct (loopZ_spec g
    (fun '(m, v) => m <= n /\ exists fs, v = vf ++ fs /\ part n fs m) (fun v => exists fs, v = vf ++ fs /\ factorisation n fs) (fun '(m, _) => Z.of_nat m)) with (fuel := fu) (s := st) as (v & Em & fs & -> & E1) end.
  - intros [m v] (Hm & fs & -> & HP). destruct (Nat.leb_spec m 1) as [H1|H1].
    + eexists. split; [reflexivity|]. exists fs. split; [reflexivity|]. apply part_one. assert (m = 1) as -> by (destruct HP; lia). exact HP.
    + destruct (Ht m ltac:(lia)) as (p & Ep & P & D). rewrite Ep. cbn [obind]. destruct (divide_out_run m p 0) as (m' & k & Ed & E & N); [lia|now apply prime_ge|]. rewrite Ed. cbn [obind]. destruct (part_step _ _ _ _ _ _ HP P D E N) as (HP' & Hm' & _).
      eexists. split; [reflexivity|]. split; [|lia]. split; [lia|]. exists (fs ++ [(p, k)]). split; [now rewrite app_assoc|exact HP'].
  - intros [m v] _. lia.
  - split; [lia|]. exists []. split; [now rewrite app_nil_r|now apply part_nil].
  - lia.
  - exists fs. auto.
Qed.
(** exponent of q in a list of factors *)
Lemma exponent_app a b q : exponent (a ++ b) q = exponent a q + exponent b q.
Proof. unfold exponent. induction a as [|[p e] a IH]; cbn; [reflexivity|]. rewrite IH. destruct (p =? q); lia. Qed.
Lemma factor_map_run mf n pf : 0 < n -> pf_table n pf -> exists mf' fs, factor_integer_to_map mf n pf = Some mf' /\ factorisation n fs /\ forall q, mf' q = mf q + exponent fs q.
Proof.
  intros Hn Ht. unfold factor_integer_to_map.
  match goal with |- context [loopZ ?fu ?g ?st] => destruct (loopZ_spec g
    (fun '(m, v) => m <= n /\ exists fs, (forall q, v q = mf q + exponent fs q) /\ part n fs m) (fun v => exists fs, factorisation n fs /\ (forall q, v q = mf q + exponent fs q)) (fun '(m, _) => Z.of_nat m)) with (fuel := fu) (s := st) as (v & Em & fs & E1 & E2) end.
  - intros [m v] (Hm & fs & Hv & HP). destruct (Nat.leb_spec m 1) as [H1|H1].
    + eexists. split; [reflexivity|]. exists fs. split; [|exact Hv]. apply part_one. assert (m = 1) as -> by (destruct HP; lia). exact HP.
    + destruct (Ht m ltac:(lia)) as (p & Ep & P & D). rewrite Ep. cbn [obind]. destruct (divide_out_run m p 0) as (m' & k & Ed & E & N); [lia|now apply prime_ge|]. rewrite Ed. cbn [obind]. destruct (part_step _ _ _ _ _ _ HP P D E N) as (HP' & Hm' & _).
      eexists. split; [reflexivity|]. split; [|lia]. split; [lia|]. exists (fs ++ [(p, k)]). split; [|exact HP']. intros q. rewrite exponent_app. cbn [exponent fold_right]. rewrite (Nat.eqb_sym p q), Hv. destruct (q =? p); lia.
  - intros [m v] _. lia.
  - split; [lia|]. exists []. split; [intros q; cbn; lia|now apply part_nil].
  - lia.
  - exists v, fs. auto.
Qed.

(** ** the product of several integers *)
Lemma nprod_set l i x l' y : set_nth l i x = Some l' -> nth_error l i = Some y -> nprod l' * y = nprod l * x.
Proof.
  revert i l'. induction l as [|z l IH]; intros i l' E1 E2; [destruct i; discriminate|]. destruct i as [|i]; cbn in E1, E2.
  - injection E1 as <-. injection E2 as <-. cbn. nia.
  - destruct (set_nth l i x) as [r|] eqn:Er; [|discriminate]. injection E1 as <-. cbn [nprod fold_right]. fold (nprod r) (nprod l). specialize (IH i r Er E2). nia.
Qed.
Lemma divide_all_run vn p : (forall x, In x vn -> 0 < x) -> is_prime p -> exists vn' k, divide_all vn p = Some (vn', k) /\ length vn' = length vn /\ nprod vn = p ^ k * nprod vn' /\
  (forall i x, nth_error vn i = Some x -> exists x', nth_error vn' i = Some x' /\ 0 < x' <= x /\ Nat.divide x' x /\ (Nat.divide p x -> x' < x) /\ ~ Nat.divide p x').
Proof.
  intros Hpos P. pose proof (prime_ge p P) as Hp. unfold divide_all.
  match goal with |- context [for_range 0 ?n ?f ?s] => destruct (for_range_spec (fun j '(vn', k) => length vn' = length vn /\ nprod vn = p ^ k * nprod vn' /\
    (forall i x, nth_error vn i = Some x -> exists x', nth_error vn' i = Some x' /\ 0 < x' <= x /\ Nat.divide x' x /\ (i < j -> (Nat.divide p x -> x' < x) /\ ~ Nat.divide p x') /\ (j <= i -> x' = x))) f 0 n s) as ([vn' k] & E & L & Pr & V) end; [lia| | |].
  - split; [reflexivity|]. split; [cbn; lia|]. intros i x Ex. exists x. split; [exact Ex|]. assert (0 < x) by (apply Hpos; eapply nth_error_In; eassumption). split; [lia|]. split; [apply Nat.divide_refl|]. split; lia.
  - intros j [v k] Hj (L & Pr & V). destruct (nth_error_some vn j) as [x Ex]; [lia|]. destruct (V j x Ex) as (x' & Ex' & Hx' & _ & _ & Eq). specialize (Eq (le_n j)). subst x'. rewrite Ex'. cbn [obind].
    destruct (divide_out_run x p k) as (m & c & Ed & Ep & N); [lia|lia|]. rewrite Ed. cbn [obind]. destruct (set_nth_some v j m) as [v' Ev]; [lia|]. rewrite Ev. cbn [obind]. eexists. split; [reflexivity|]. cbv beta iota. split; [now rewrite (set_nth_length _ _ _ _ Ev)|]. pose proof (pow_gt_lin p c ltac:(lia)) as Hc. split.
    + pose proof (nprod_set _ _ _ _ _ Ev Ex') as Q. rewrite Pr, Nat.pow_add_r. assert (nprod v = p ^ c * nprod v'); [|nia]. apply Nat.mul_cancel_r with (p := m); [nia|]. rewrite <- Q, Ep. nia.
    + intros i y Ey. rewrite (set_nth_get _ _ _ _ i Ev). destruct (Nat.eqb_spec j i) as [<-|Ne].
      * rewrite Ex in Ey. injection Ey as <-. exists m. split; [reflexivity|]. split; [nia|]. split; [exists (p ^ c); exact Ep|]. split; [|lia]. intros _. split; [|exact N]. intros D. destruct c; [|nia]. cbn in Ep. rewrite Nat.add_0_r in Ep. subst. contradiction.
      * destruct (V i y Ey) as (y' & A & B & B' & C & D). exists y'. split; [exact A|]. split; [exact B|]. split; [exact B'|]. split; intros Hi; [apply C; lia|apply D; lia].
  - rewrite E. exists vn', k. split; [reflexivity|]. split; [exact L|]. split; [exact Pr|]. intros i x Ex. destruct (V i x Ex) as (x' & A & B & B' & C & _). exists x'. split; [exact A|]. split; [exact B|]. split; [exact B'|]. apply C. apply nth_error_Some. congruence.
Qed.
Definition vpart (n : nat) (fs : list (nat * nat)) (vn : list nat) : Prop :=
  (forall x, In x vn -> 0 < x) /\ product fs * nprod vn = n /\ NoDup (map fst fs) /\ (forall p e, In (p, e) fs -> is_prime p /\ 1 <= e) /\ (forall p x, In p (map fst fs) -> In x vn -> ~ Nat.divide p x).
Lemma vpart_step n fs vn p vn' k i x : vpart n fs vn -> is_prime p -> nth_error vn i = Some x -> Nat.divide p x -> length vn' = length vn -> nprod vn = p ^ k * nprod vn' ->
  (forall i x, nth_error vn i = Some x -> exists x', nth_error vn' i = Some x' /\ 0 < x' <= x /\ Nat.divide x' x /\ (Nat.divide p x -> x' < x) /\ ~ Nat.divide p x') -> vpart n (fs ++ [(p, k)]) vn'.
Proof.
  intros (H1 & H2 & H3 & H4 & H5) P Ex D L Pr V. pose proof (prime_ge p P).
  assert (Back : forall y, In y vn' -> exists j z, nth_error vn j = Some z /\ nth_error vn' j = Some y /\ 0 < y <= z /\ Nat.divide y z /\ ~ Nat.divide p y). { intros y Hy. apply In_nth_error in Hy as (j & Hj). destruct (nth_error_some vn j) as [z Ez]; [rewrite <- L; apply nth_error_Some; congruence|]. destruct (V j z Ez) as (z' & A & B & B' & C & N). assert (z' = y) by congruence. subst. exists j, z. auto. }
  assert (Hk : 1 <= k). { destruct k; [|lia]. exfalso. cbn in Pr. rewrite Nat.add_0_r in Pr. assert (D1 : Nat.divide p (nprod vn)). { clear - Ex D. revert i Ex. induction vn as [|z vn IH]; intros [|i] Ex; try discriminate; cbn in *; [injection Ex as ->; now apply Nat.divide_mul_l|apply Nat.divide_mul_r; now apply (IH i)]. } rewrite Pr in D1. assert (G : forall l, Nat.divide p (nprod l) -> exists y, In y l /\ Nat.divide p y). { clear - P. induction l as [|z l IH]; intros Q; [cbn in Q; apply Nat.divide_1_r in Q; pose proof (prime_ge p P); lia|]. cbn [nprod fold_right] in Q. apply prime_euclid in Q as [Q|Q]; [exists z; split; [now left|exact Q]| |exact P]. destruct (IH Q) as (y & A & B). exists y. split; [now right|exact B]. } destruct (G _ D1) as (y & Hy & Dy). destruct (Back y Hy) as (? & ? & ? & ? & ? & ? & N). contradiction. }
  split; [intros y Hy; destruct (Back y Hy) as (? & ? & ? & ? & ? & ?); lia|]. split; [rewrite product_app; cbn [product fold_right]; rewrite <- H2, Pr; nia|]. rewrite map_app. cbn [map fst]. split; [|split].
  - apply NoDup_snoc; [exact H3|]. intros I. apply (H5 p x I); [eapply nth_error_In; eassumption|exact D].
  - intros q e I. apply in_app_or in I as [I|[I|[]]]; [now apply H4|]. injection I as <- <-. auto.
  - intros q y I Hy. destruct (Back y Hy) as (j & z & Ez & Ey & _ & Dz & N). apply in_app_or in I as [I|[<-|[]]]; [|exact N]. intros Dq. apply (H5 q z I); [eapply nth_error_In; eassumption|]. etransitivity; eassumption.
Qed.

Lemma factor_integers_run vf vn pf : (forall x, In x vn -> 0 < x) -> (forall x, In x vn -> pf_table x pf) -> exists fs, factor_integer_of_product vf vn pf = Some (vf ++ fs) /\ factorisation (nprod vn) fs.
Proof.
  intros Hpos Ht. unfold factor_integer_of_product.
  match goal with |- context [for_range 0 ?n ?f ?s] => destruct (for_range_spec (fun j '(v, w) => length w = length vn /\ (forall i x, nth_error w i = Some x -> exists y, nth_error vn i = Some y /\ x <= y) /\ (forall i, i < j -> nth_error w i = Some 1) /\ exists fs, v = vf ++ fs /\ vpart (nprod vn) fs w) f 0 n s) as ([v w] & E & L & _ & V & fs & -> & HP) end; [lia| | |].
  - split; [reflexivity|]. split; [intros i x Ex; exists x; auto|]. split; [lia|]. exists []. split; [now rewrite app_nil_r|]. split; [exact Hpos|]. split; [cbn; lia|]. split; [constructor|]. split; [contradiction|contradiction].
  - intros j [v w] Hj (L & Hle & V & HF). destruct (nth_error_some w j) as [n0 En0]; [lia|]. rewrite En0. cbn [obind].
    match goal with |- context [loopZ ?fu ?g ?st] => destruct (loopZ_spec g
      (fun '(v, w) => length w = length vn /\ (forall i x, nth_error w i = Some x -> exists y, nth_error vn i = Some y /\ x <= y) /\ (forall i, i < j -> nth_error w i = Some 1) /\ (forall x, nth_error w j = Some x -> x <= n0) /\ exists fs, v = vf ++ fs /\ vpart (nprod vn) fs w)
      (fun '(v, w) => length w = length vn /\ (forall i x, nth_error w i = Some x -> exists y, nth_error vn i = Some y /\ x <= y) /\ (forall i, i < S j -> nth_error w i = Some 1) /\ exists fs, v = vf ++ fs /\ vpart (nprod vn) fs w)
      (fun '(_, w) => Z.of_nat (nth j w 0))) with (fuel := fu) (s := st) as ([v1 w1] & Er & Hr) end.
    + intros [v1 w1] (L1 & Hle1 & V1 & B1 & fs & -> & HP). destruct (nth_error_some w1 j) as [x Ex]; [lia|]. rewrite Ex. cbn [obind]. destruct (Nat.leb_spec x 1) as [H1|H1].
      * eexists. split; [reflexivity|]. cbv beta iota. split; [exact L1|]. split; [exact Hle1|]. split; [|exists fs; auto]. intros i Hi. destruct (Nat.eq_dec i j) as [->|]; [|apply V1; lia]. rewrite Ex. f_equal. destruct HP as (HP & _). specialize (HP x ltac:(eapply nth_error_In; eassumption)). lia.
      * destruct (Hle1 j x Ex) as (y & Ey & Hy). destruct (Ht y ltac:(eapply nth_error_In; eassumption) x ltac:(lia)) as (p & Ep & P & D). rewrite Ep. cbn [obind].
        destruct (divide_all_run w1 p) as (w2 & k & Ed & L2 & Pr & V2); [apply HP|exact P|]. rewrite Ed. cbn [obind]. eexists. split; [reflexivity|]. cbv beta iota.
        assert (V2' : forall i z, nth_error w2 i = Some z -> exists u, nth_error w1 i = Some u /\ 0 < z <= u). { intros i z Ez. destruct (nth_error_some w1 i) as [u Eu]; [rewrite <- L2; apply nth_error_Some; congruence|]. destruct (V2 i u Eu) as (u' & A & B & _). assert (u' = z) by congruence. subst. exists u. auto. }
        destruct (V2 j x Ex) as (x2 & Ex2 & Hx2 & _ & Hlt & _). specialize (Hlt D). split.
        { split; [lia|]. split; [|split; [|split]].
          - intros i z Ez. destruct (V2' i z Ez) as (u & Eu & Hu). destruct (Hle1 i u Eu) as (t & Et & Ht'). exists t. split; [exact Et|lia].
          - intros i Hi. specialize (V1 i Hi). destruct (V2 i 1 V1) as (u & A & B & _). rewrite A. f_equal. lia.
          - intros z Ez. specialize (B1 x Ex). assert (z = x2) by congruence. lia.
          - exists (fs ++ [(p, k)]). split; [now rewrite app_assoc|]. eapply vpart_step; eauto. }
        { rewrite (nth_error_nth _ _ _ Ex2), (nth_error_nth _ _ _ Ex). lia. }
    + intros [v1 w1] _. lia.
    + split; [exact L|]. split; [exact Hle|]. split; [exact V|]. split; [|exact HF]. intros x Ex. assert (x = n0) by congruence. lia.
    + rewrite (nth_error_nth _ _ _ En0). lia.
    + exists (v1, w1). split; [exact Er|]. exact Hr.
  - rewrite E. cbn [obind]. exists fs. split; [reflexivity|]. destruct HP as (_ & H2 & H3 & H4 & _). assert (nprod w = 1). { assert (G : forall x, In x w -> x = 1). { intros x Hx. apply In_nth_error in Hx as (i & Hi). specialize (V i). rewrite <- L in V. rewrite V in Hi; [congruence|apply nth_error_Some; congruence]. } clear - G. induction w as [|x w IH]; [reflexivity|]. cbn [nprod fold_right]. fold (nprod w). rewrite (G x) by now left. rewrite IH; [reflexivity|]. intros y Hy. apply G. now right. } split; [nia|]. auto.
Qed.
