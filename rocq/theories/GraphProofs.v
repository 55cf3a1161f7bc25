From Coq Require Import Permutation Sorted.
From Verif Require Import Lib GraphModel GraphSpec.
Open Scope nat_scope.

Section P.
Context {W : Type}.
Notation edge := (nat * W)%type.
Notation graph := (list (list edge)).
Implicit Types (l : list edge) (g : graph) (e : edge).

Lemma set_nth_mid {A} (a : list A) x b y : set_nth (a ++ x :: b) (length a) y = Some (a ++ y :: b).
Proof. induction a as [|z a IH]; cbn; [reflexivity|]. now rewrite IH. Qed.
Lemma nth_error_mid {A} (a : list A) x b : nth_error (a ++ x :: b) (length a) = Some x.
Proof. induction a; cbn; auto. Qed.
Lemma split_at {A} (g : list A) u x : nth_error g u = Some x -> exists a b, g = a ++ x :: b /\ length a = u.
Proof. apply nth_error_split. Qed.

Lemma swap_pop_run (a : list edge) x b : exists b', swap_pop (a ++ x :: b) (length a) = Some (a ++ b') /\ Permutation b' b.
Proof.
  unfold swap_pop. rewrite nth_error_mid. cbn [obind]. destruct b as [|z b0] using rev_ind.
  - replace (length (a ++ [x]) - 1) with (length a) by (rewrite app_length; cbn; lia). rewrite nth_error_mid. cbn [obind]. rewrite set_nth_mid. cbn [obind]. replace (length (a ++ [x]) - 1) with (length a) by (rewrite app_length; cbn; lia). rewrite set_nth_mid. cbn [obind]. exists []. rewrite removelast_last, app_nil_r. auto.
  - clear IHb0. assert (L : forall w, length (a ++ w :: b0 ++ [z]) - 1 = length (a ++ w :: b0)) by (intros; rewrite !app_length; cbn; rewrite app_length; cbn; lia).
    assert (Q : forall w t, a ++ w :: b0 ++ [t] = (a ++ w :: b0) ++ t :: []) by (intros; rewrite <- app_assoc; reflexivity).
    rewrite L, (Q x z), nth_error_mid. cbn [obind]. rewrite <- Q, set_nth_mid. cbn [obind]. rewrite L, Q, set_nth_mid. cbn [obind]. rewrite removelast_last. exists (z :: b0). split; [reflexivity|]. apply Permutation_cons_append.
Qed.
Lemma sweep_run (hit : nat -> bool) (f : nat -> nat) fuel : forall (a b : list edge), length b < fuel ->
  exists r, sweep fuel hit f (length a) (a ++ b) = Some (a ++ r) /\ Permutation r (rename f (filter (fun e => negb (hit (fst e))) b)).
Proof.
  induction fuel as [|k IH]; intros a b L; [lia|]. cbn [sweep]. destruct b as [|x b].
  - rewrite app_nil_r, Nat.ltb_irrefl. exists []. rewrite app_nil_r. auto.
  - replace (length a <? length (a ++ x :: b)) with true by (symmetry; apply Nat.ltb_lt; rewrite app_length; cbn; lia). rewrite nth_error_mid. cbn [obind]. cbn in L. cbn [filter]. destruct (hit (fst x)); cbn [negb].
    + destruct (swap_pop_run a x b) as (b' & E & P). rewrite E. cbn [obind]. destruct (IH a b') as (r & E2 & P2); [apply Permutation_length in P; lia|]. exists r. split; [exact E2|]. rewrite P2. apply Permutation_map. clear - P. induction P; cbn; repeat match goal with |- context [if ?c then _ else _] => destruct c end; auto using perm_swap. eapply perm_trans; eassumption.
    + rewrite set_nth_mid. cbn [obind]. replace (S (length a)) with (length (a ++ [(f (fst x), snd x)])) by (rewrite app_length; cbn; lia). replace (a ++ (f (fst x), snd x) :: b) with ((a ++ [(f (fst x), snd x)]) ++ b) by (rewrite <- app_assoc; reflexivity).
      destruct (IH (a ++ [(f (fst x), snd x)]) b) as (r & E & P); [lia|]. exists ((f (fst x), snd x) :: r). rewrite E, <- app_assoc. split; [reflexivity|]. cbn. now constructor.
Qed.
Lemma sweep_all (hit : nat -> bool) (f : nat -> nat) l : exists r, sweep (S (length l)) hit f 0 l = Some r /\ Permutation r (rename f (filter (fun e => negb (hit (fst e))) l)).
Proof. destruct (sweep_run hit f (S (length l)) [] l) as (r & E & P); [lia|]. eauto. Qed.
Lemma rename_id l : rename (fun x => x) l = l.
Proof. unfold rename. rewrite <- (map_id l) at 2. apply map_ext. now intros []. Qed.

Lemma out_some g u l : nth_error g u = Some l -> out g u = l.
Proof. intros H. unfold out. now apply nth_error_nth. Qed.
Lemma some_out g u : u < length g -> nth_error g u = Some (out g u).
Proof. intros H. unfold out. now apply nth_error_nth'. Qed.
Lemma set_out g u l : u < length g -> exists g', set_nth g u l = Some g' /\ length g' = length g /\ forall i, out g' i = if i =? u then l else out g i.
Proof.
  intros H. destruct (split_at g u _ (some_out g u H)) as (a & b & E & L). rewrite E. subst u. rewrite set_nth_mid. eexists. split; [reflexivity|]. split; [rewrite !app_length; reflexivity|].
  intros i. unfold out. destruct (Nat.eqb_spec i (length a)) as [->|N]; [rewrite app_nth2, Nat.sub_diag by lia; reflexivity|].
  destruct (Nat.lt_ge_cases i (length a)); [rewrite !app_nth1 by lia; reflexivity|]. rewrite !app_nth2 by lia. destruct (i - length a) eqn:Q; [lia|]. reflexivity.
Qed.
Lemma out_beyond g i : length g <= i -> out g i = [].
Proof. intros. unfold out. now apply nth_overflow. Qed.

Lemma delete_edge_run g u v : u < length g -> exists g', g_delete_edge g u v = Some g' /\ length g' = length g /\
  Permutation (out g' u) (not_to v (out g u)) /\ (forall i, i <> u -> out g' i = out g i).
Proof.
  intros H. unfold g_delete_edge. rewrite (some_out g u H). cbn [obind]. destruct (sweep_all (fun x => x =? v) (fun x => x) (out g u)) as (r & E & P). rewrite E. cbn [obind].
  destruct (set_out g u r H) as (g' & E2 & L & O). exists g'. split; [exact E2|]. split; [exact L|]. split.
  - rewrite O, Nat.eqb_refl. rewrite rename_id in P. exact P.
  - intros i N. rewrite O. destruct (Nat.eqb_spec i u); [contradiction|reflexivity].
Qed.
Lemma each_list_run (f : list edge -> option (list edge)) (R : list edge -> list edge -> Prop) g : (forall l, exists r, f l = Some r /\ R l r) ->
  exists g', each_list f g = Some g' /\ length g' = length g /\ forall i, i < length g -> R (out g i) (out g' i).
Proof.
  intros F. induction g as [|l g IH]; cbn [each_list]; [exists []; repeat split; cbn; intros; lia|].
  destruct (F l) as (r & -> & Q). cbn [obind]. destruct IH as (g' & -> & L & O). cbn [obind]. exists (r :: g'). split; [reflexivity|]. split; [cbn; lia|].
  intros [|i] H; [exact Q|]. cbn in *. apply O. lia.
Qed.
Lemma removelast_out g i : i < length g - 1 -> out (removelast g) i = out g i.
Proof.
  intros H. unfold out. destruct g as [|l g _] using rev_ind; [cbn in H; lia|]. rewrite removelast_last. rewrite app_length in H. cbn in H. rewrite app_nth1 by lia. reflexivity.
Qed.
Lemma removelast_len {A} (g : list A) : length (removelast g) = length g - 1.
Proof. destruct g as [|l g _] using rev_ind; [reflexivity|]. rewrite removelast_last, app_length. cbn. lia. Qed.
Lemma delete_node_run g u : u < length g -> let last := length g - 1 in exists g', g_delete_node g u = Some g' /\ length g' = last /\
  forall i, i < last -> Permutation (out g' i) (rename (fun x => if x =? last then u else x) (not_to u (out g (if i =? u then last else i)))).
Proof.
  intros H last. unfold g_delete_node. fold last. rewrite (some_out g u H), (some_out g last) by (unfold last; lia). cbn [obind].
  destruct (set_out g u (out g last) H) as (g1 & -> & L1 & O1). cbn [obind]. destruct (set_out g1 last (out g u)) as (g2 & -> & L2 & O2); [unfold last; lia|]. cbn [obind].
  destruct (each_list_run (fun l => sweep (S (length l)) (fun x => x =? u) (fun x => if x =? last then u else x) 0 l) (fun l r => Permutation r (rename (fun x => if x =? last then u else x) (not_to u l))) (removelast g2) (sweep_all _ _)) as (g' & E & L & O).
  exists g'. split; [exact E|]. rewrite removelast_len in *. split; [unfold last; lia|]. intros i I. specialize (O i ltac:(unfold last in *; lia)). rewrite removelast_out in O by (unfold last in *; lia). rewrite O2, O1 in O. replace (i =? last) with false in O by (symmetry; apply Nat.eqb_neq; lia). destruct (i =? u); exact O.
Qed.

(** the weights between two nodes *)
Lemma filter_perm {A} (p : A -> bool) (l l' : list A) : Permutation l l' -> Permutation (filter p l) (filter p l').
Proof. intros P. induction P; cbn; repeat match goal with |- context [if ?c then _ else _] => destruct c end; auto using perm_swap. eapply perm_trans; eassumption. Qed.
Lemma between_not_to l v j : j <> v -> filter (fun e => fst e =? j) (not_to v l) = filter (fun e => fst e =? j) l.
Proof.
  intros N. unfold not_to. induction l as [|e l IH]; cbn [filter]; [reflexivity|]. destruct (Nat.eqb_spec (fst e) v) as [E|E]; cbn [negb filter]; rewrite IH; [|reflexivity]. rewrite E. destruct (Nat.eqb_spec v j); [congruence|reflexivity].
Qed.
Lemma between_not_to_same l v : filter (fun e => fst e =? v) (not_to v l) = [].
Proof. unfold not_to. induction l as [|e l IH]; cbn [filter]; [reflexivity|]. destruct (fst e =? v) eqn:E; cbn [negb filter]; rewrite ?E; exact IH. Qed.
Lemma delete_edge_between g u v : u < length g -> exists g', g_delete_edge g u v = Some g' /\ length g' = length g /\ between g' u v = [] /\
  forall i j, (i, j) <> (u, v) -> Permutation (between g' i j) (between g i j).
Proof.
  intros H. destruct (delete_edge_run g u v H) as (g' & E & L & P & O). exists g'. split; [exact E|]. split; [exact L|]. split.
  - unfold between. apply filter_perm with (p := fun e => fst e =? v) in P. rewrite between_not_to_same in P. apply Permutation_sym, Permutation_nil in P. now rewrite P.
  - intros i j N. unfold between. destruct (Nat.eq_dec i u) as [->|NI]; [|rewrite O by exact NI; apply Permutation_refl].
    rewrite (filter_perm _ _ _ P), between_not_to by congruence. apply Permutation_refl.
Qed.
Lemma delete_node_between g u : u < length g -> let last := length g - 1 in let old := fun i => if i =? u then last else i in
  exists g', g_delete_node g u = Some g' /\ length g' = last /\
  (forall i j, i < last -> j < last -> Permutation (between g' i j) (between g (old i) (old j))) /\ (wf g -> wf g').
Proof.
  intros H last old. destruct (delete_node_run g u H) as (g' & E & L & O). fold last in L, O. exists g'. split; [exact E|]. split; [exact L|]. split.
  - intros i j I J. specialize (O i I). unfold between. rewrite (filter_perm _ _ _ O). fold (old i). set (l := out g (old i)). apply Permutation_refl'. assert (OJ : old j <> u) by (unfold old; destruct (Nat.eqb_spec j u); lia). rewrite <- (between_not_to l u (old j) OJ).
    assert (F : Forall (fun e => fst e <> u) (not_to u l)) by (apply Forall_forall; intros e Q; unfold not_to in Q; rewrite filter_In, negb_true_iff, Nat.eqb_neq in Q; apply Q).
    induction F as [|e m Q F IH]; cbn [rename map filter]; [reflexivity|]. cbn [fst]. 
    replace ((if fst e =? last then u else fst e) =? j) with (fst e =? old j); [destruct (fst e =? old j); cbn [map snd]; fold (rename (fun x => if x =? last then u else x) m); now rewrite IH|].
    unfold old in *. destruct (Nat.eqb_spec j u), (Nat.eqb_spec (fst e) last); repeat match goal with |- context [?p =? ?q] => destruct (Nat.eqb_spec p q) end; lia || reflexivity.
  - intros WF i e Q. destruct (Nat.lt_ge_cases i last) as [I|I]; [|rewrite out_beyond in Q by lia; destruct Q]. apply (Permutation_in _ (O i I)) in Q. unfold rename in Q. apply in_map_iff in Q as (e0 & <- & Q). unfold not_to in Q. rewrite filter_In, negb_true_iff, Nat.eqb_neq in Q. destruct Q as (Q & NU). apply WF in Q. cbn [fst]. destruct (Nat.eqb_spec (fst e0) last); unfold last in *; lia.
Qed.
Lemma delete_node_undirected g u : u < length g -> undirected g -> wf g -> exists g', g_delete_node g u = Some g' /\ undirected g'.
Proof.
  intros H U WF. destruct (delete_node_between g u H) as (g' & E & L & B & WF'). exists g'. split; [exact E|]. specialize (WF' WF). intros i j.
  assert (Z : forall i j, length g' <= i \/ length g' <= j -> between g' i j = []).
  { clear i j. intros i j [Q|Q]; unfold between; [rewrite out_beyond by exact Q; reflexivity|]. assert (F : forall e, In e (out g' i) -> (fst e =? j) = false) by (intros e I; apply Nat.eqb_neq; apply WF' in I; lia). clear - F. induction (out g' i) as [|e l IH]; cbn; [reflexivity|]. rewrite (F e) by (now left). apply IH. intros; apply F; now right. }
  destruct (Nat.lt_ge_cases i (length g')), (Nat.lt_ge_cases j (length g')); try (rewrite (Z i j), (Z j i) by lia; apply Permutation_refl).
  rewrite (B i j), (B j i) by lia. apply U.
Qed.
(** building *)
Lemma add_edge_run g u e : u < length g -> exists g', g_add_edge g u e = Some g' /\ length g' = length g /\ forall i, out g' i = if i =? u then out g u ++ [e] else out g i.
Proof. intros H. unfold g_add_edge. rewrite (some_out g u H). cbn [obind]. now apply set_out. Qed.
Lemma add_edge_between g u e : u < length g -> exists g', g_add_edge g u e = Some g' /\ length g' = length g /\
  forall i j, between g' i j = between g i j ++ if (i =? u) && (fst e =? j) then [snd e] else [].
Proof.
  intros H. destruct (add_edge_run g u e H) as (g' & E & L & O). exists g'. split; [exact E|]. split; [exact L|]. intros i j. unfold between. rewrite O. destruct (Nat.eqb_spec i u) as [->|N]; cbn [andb]; [|now rewrite app_nil_r].
  rewrite filter_app, map_app. cbn. destruct (fst e =? j); reflexivity.
Qed.
Lemma add_edge2_run g u v (w : W) : u < length g -> v < length g -> exists g', g_add_edge2 g u (v, w) = Some g' /\ length g' = length g /\
  (forall i j, between g' i j = between g i j ++ (if (i =? u) && (v =? j) then [w] else []) ++ (if (i =? v) && (u =? j) then [w] else [])).
Proof.
  intros U V. unfold g_add_edge2. destruct (add_edge_between g u (v, w) U) as (g1 & -> & L1 & B1). cbn [obind fst snd]. destruct (add_edge_between g1 v (u, w)) as (g2 & E & L2 & B2); [lia|]. exists g2. split; [exact E|]. split; [lia|]. intros i j. rewrite B2, B1, <- app_assoc. reflexivity.
Qed.
Lemma add_edge2_undirected g u v (w : W) : u < length g -> v < length g -> undirected g -> exists g', g_add_edge2 g u (v, w) = Some g' /\ undirected g'.
Proof.
  intros U V D. destruct (add_edge2_run g u v w U V) as (g' & E & _ & B). exists g'. split; [exact E|]. intros i j. rewrite !B. apply Permutation_app; [apply D|]. rewrite Permutation_app_comm. rewrite (Nat.eqb_sym u j), (Nat.eqb_sym v j), (Nat.eqb_sym u i), (Nat.eqb_sym v i), (andb_comm (j =? u)), (andb_comm (j =? v)). apply Permutation_refl.
Qed.
Lemma num_edges_run g : g_num_edges g = length (concat g).
Proof.
  unfold g_num_edges. assert (Q : forall n, fold_left (fun (c : nat) (l : list edge) => c + length l) g n = n + length (concat g)); [|apply Q].
  induction g as [|l g IH]; intros n; cbn; [lia|]. rewrite IH, app_length. lia.
Qed.
(** deduplication *)
Lemma unique_from_ok l : forall x, Sorted (fun a b => fst a <= fst b) l -> Forall (fun e => x <= fst e) l ->
  StronglySorted lt (x :: map fst (unique_from x l)) /\ (forall e, In e (unique_from x l) -> In e l) /\ (forall e, In e l -> fst e = x \/ In (fst e) (map fst (unique_from x l))).
Proof.
  induction l as [|y l IH]; intros x S F; cbn [unique_from].
  - cbn. split; [repeat constructor|]. split; intros e [].
  - apply Forall_cons_iff in F as (F1 & F2). apply Sorted_StronglySorted in S; [|intros ? ? ?; lia]. apply StronglySorted_inv in S as (S & Y). pose proof (StronglySorted_Sorted S) as S'. destruct (Nat.eqb_spec x (fst y)) as [->|N].
    + destruct (IH (fst y) S' Y) as (A & B & C). split; [exact A|]. split; [intros e I; right; auto|]. intros e [<-|I]; auto.
    + destruct (IH (fst y) S' Y) as (A & B & C). cbn [map]. split.
      * constructor; [exact A|]. constructor; [lia|]. apply StronglySorted_inv in A as (_ & A). eapply Forall_impl; [|exact A]. cbn. intros; lia.
      * split; [intros e [<-|I]; [now left|right; auto]|]. intros e [<-|I]; [right; now left|]. destruct (C e I) as [->|Q]; right; [now left|now right].
Qed.
Lemma unique_ok l : Sorted (fun a b => fst a <= fst b) l -> one_each l (unique l).
Proof.
  intros S. destruct l as [|y l]; cbn [unique]; [repeat split; try constructor; intros e []|].
  apply Sorted_StronglySorted in S; [|intros ? ? ?; lia]. apply StronglySorted_inv in S as (S & Y). destruct (unique_from_ok l (fst y) (StronglySorted_Sorted S) Y) as (A & B & C).
  split; [exact A|]. split; [intros e [<-|I]; [now left|right; auto]|]. intros e [<-|I]; [now left|]. destruct (C e I) as [->|Q]; [now left|now right].
Qed.
Lemma one_each_perm l0 l1 l : Permutation l0 l1 -> one_each l0 l -> one_each l1 l.
Proof.
  intros P (A & B & C). split; [exact A|]. split; intros e I; [apply (Permutation_in _ P); auto|apply C; now apply (Permutation_in _ (Permutation_sym P))].
Qed.
Variable srt : list edge -> list edge.
Hypothesis SRT : sorts srt.
Lemma dedup_list l : one_each l (unique (srt l)).
Proof. destruct (SRT l) as (P & S). eapply one_each_perm; [exact P|]. now apply unique_ok. Qed.
Lemma dedup_run g u : u < length g -> exists g', g_deduplicate_edges srt g u = Some g' /\ length g' = length g /\
  one_each (out g u) (out g' u) /\ (forall i, i <> u -> out g' i = out g i).
Proof.
  intros H. unfold g_deduplicate_edges. rewrite (some_out g u H). cbn [obind]. destruct (set_out g u (unique (srt (out g u))) H) as (g' & E2 & L & O). exists g'. split; [exact E2|]. split; [exact L|]. split.
  - rewrite O, Nat.eqb_refl. apply dedup_list.
  - intros i N. rewrite O. destruct (Nat.eqb_spec i u); [contradiction|reflexivity].
Qed.
Lemma dedup_all g : exists g', for_range 0 (length g) (fun i g => g_deduplicate_edges srt g i) g = Some g' /\ length g' = length g /\
  forall i, i < length g -> one_each (out g i) (out g' i).
Proof.
  destruct (for_range_spec (fun k g' => length g' = length g /\ (forall i, i < k -> one_each (out g i) (out g' i)) /\ (forall i, k <= i -> out g' i = out g i))
    (fun i g => g_deduplicate_edges srt g i) 0 (length g) g) as (g' & E & L & O & _).
  - lia.
  - split; [reflexivity|]. split; intros; [lia|reflexivity].
  - intros k g1 K (L & O1 & O2). destruct (dedup_run g1 k ltac:(lia)) as (g2 & E & L2 & D & O). exists g2. split; [exact E|]. split; [lia|]. split.
    + intros i I. destruct (Nat.eq_dec i k) as [->|N]; [|rewrite O by exact N; apply O1; lia]. rewrite <- (O2 k) by lia. exact D.
    + intros i I. rewrite O by lia. apply O2. lia.
  - exists g'. auto.
Qed.

(** contraction *)
Lemma in_not_to v l e : In e (not_to v l) <-> In e l /\ fst e <> v.
Proof. unfold not_to. rewrite filter_In, negb_true_iff, Nat.eqb_neq. reflexivity. Qed.
Lemma in_rename f l j w : In (j, w) (rename f l) <-> exists y, In (y, w) l /\ f y = j.
Proof. unfold rename. rewrite in_map_iff. split; [intros ([y w'] & E & I); cbn in E; injection E as <- <-; eauto|intros (y & I & <-); exists (y, w); auto]. Qed.
Lemma perm_in {A} (l l' : list A) : Permutation l l' -> forall x, In x l <-> In x l'.
Proof. intros P x. split; [apply Permutation_in; exact P|apply Permutation_in; now apply Permutation_sym]. Qed.
Lemma map_out (f : list edge -> list edge) g i : f [] = [] -> out (map f g) i = f (out g i).
Proof. intros E. unfold out. rewrite <- E at 1. apply map_nth. Qed.

Lemma contract_run g u v : u < length g -> v < length g -> u <> v ->
  exists g', g_contract srt g u v = Some g' /\ length g' = length g - 1 /\
    (forall i, i < length g' -> StronglySorted lt (map fst (out g' i))) /\
    (forall i j w, In (j, w) (out g' i) -> exists x y, In (y, w) (out g x) /\ kept u v x y /\ contracted u v (length g - 1) x = i /\ contracted u v (length g - 1) y = j) /\
    (forall x y w, x < length g -> In (y, w) (out g x) -> kept u v x y -> In (contracted u v (length g - 1) y) (map fst (out g' (contracted u v (length g - 1) x)))).
Proof.
  intros U V N. unfold g_contract. destruct (delete_edge_run g u v U) as (g1 & -> & L1 & P1 & O1). cbn [obind]. destruct (delete_edge_run g1 v u) as (g2 & -> & L2 & P2 & O2); [lia|]. cbn [obind].
  replace (u =? v) with false by (symmetry; now apply Nat.eqb_neq). cbn [negb guard obind]. rewrite (some_out g2 u), (some_out g2 v) by lia. cbn [obind].
  destruct (set_out g2 u (out g2 u ++ out g2 v)) as (g3 & -> & L3 & O3); [lia|]. cbn [obind]. set (g4 := map _ g3). assert (L4 : length g4 = length g) by (unfold g4; rewrite map_length; lia).
  destruct (delete_node_run g4 v) as (g5 & -> & L5 & O5); [lia|]. cbn [obind]. destruct (dedup_all g5) as (g6 & E & L6 & O6). rewrite E. rewrite L4 in *. set (last := length g - 1) in *.
  exists g6. split; [reflexivity|]. split; [lia|]. split; [intros i I; apply O6; lia|].
  (* the edges before renaming *)
  assert (I2 : forall i e, i <> u -> i <> v -> out g2 i = out g i) by (intros; rewrite O2, O1; auto).
  assert (Iu : forall e, In e (out g2 u) <-> In e (out g u) /\ fst e <> v) by (intros e; rewrite (O2 u) by exact N; rewrite (perm_in _ _ P1); apply in_not_to).
  assert (Iv : forall e, In e (out g2 v) <-> In e (out g v) /\ fst e <> u) by (intros e; rewrite (perm_in _ _ P2), in_not_to, O1 by auto; reflexivity).
  set (r := fun x => if x =? v then u else x).
  assert (I3 : forall i e, i <> v -> In e (out g3 i) <-> exists x, r x = i /\ In e (out g x) /\ kept u v x (fst e)).
  { intros i e NV. rewrite O3. unfold r, kept. destruct (Nat.eqb_spec i u) as [->|NU].
    - rewrite in_app_iff, Iu, Iv. split.
      + intros [(A & B)|(A & B)]; [exists u|exists v]; rewrite ?Nat.eqb_refl; [replace (u =? v) with false by (symmetry; now apply Nat.eqb_neq)|]; (split; [reflexivity|]; split; [exact A|]; lia).
      + intros (x & Q & A & B & C). destruct (Nat.eqb_spec x v) as [EX|NX]; [right; rewrite EX in *|left; rewrite Q in *]; split; auto.
    - rewrite (I2 i e) by assumption. split.
      + intros A. exists i. replace (i =? v) with false by (symmetry; now apply Nat.eqb_neq). split; [reflexivity|]. split; [exact A|lia].
      + intros (x & Q & A & _). destruct (Nat.eqb_spec x v); [congruence|]. now rewrite Q in A. }
  assert (I4 : forall i, out g4 i = rename r (out g3 i)) by (intros i; unfold g4; rewrite map_out by reflexivity; reflexivity).
  assert (RV : forall x, r x <> v) by (intros x; unfold r; destruct (Nat.eqb_spec x v); congruence).
  assert (I5 : forall i j w, i < last -> In (j, w) (out g5 i) <-> exists x y, In (y, w) (out g x) /\ kept u v x y /\ contracted u v last x = i /\ contracted u v last y = j).
  { intros i j w I. rewrite (perm_in _ _ (O5 i I)), in_rename. set (o := if i =? v then last else i).
    assert (LV : v <= last) by (unfold last; lia).
    assert (OV : o <> v) by (unfold o; destruct (Nat.eqb_spec i v); lia).
    assert (CO : forall x, contracted u v last x = i <-> r x = o).
    { intros x. unfold contracted. fold (r x). cbv zeta. specialize (RV x). unfold o. destruct (Nat.eqb_spec (r x) last), (Nat.eqb_spec i v); lia. }
    split.
    - intros (y1 & A & B). apply in_not_to in A as (A & _). rewrite I4 in A. apply in_rename in A as (y & A & <-). apply (I3 o (y, w) OV) in A as (x & Q & A & K). exists x, y. split; [exact A|]. split; [exact K|]. split; [now apply CO|exact B].
    - intros (x & y & A & K & Q & B). exists (r y). split; [|exact B]. apply in_not_to. split; [|apply RV]. rewrite I4. apply in_rename. exists y. split; [|reflexivity]. apply (I3 o (y, w) OV). exists x. split; [now apply CO|auto]. }
  split.
  - intros i j w A. destruct (Nat.lt_ge_cases i last) as [I|I]; [|rewrite out_beyond in A by lia; destruct A]. apply I5; [exact I|]. destruct (O6 i ltac:(lia)) as (_ & B & _). now apply B.
  - intros x y w X A K. set (i := contracted u v last x). assert (I : i < last).
    { unfold i, contracted. cbv zeta. destruct (Nat.eqb_spec x v); repeat match goal with |- context [?p =? ?q] => destruct (Nat.eqb_spec p q) end; unfold last in *; lia. }
    destruct (O6 i ltac:(lia)) as (_ & _ & B). apply (B (contracted u v last y, w)). apply I5; [exact I|]. exists x, y. auto.
Qed.
End P.
