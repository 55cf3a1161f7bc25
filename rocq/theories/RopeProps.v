(** C30: a rope is a sequence with insertion and erasure at any position, for every outcome of the random generator. *)
From Verif Require Import Lib BstModel BstSpec BstProofs BstProofs9 BstProofs11 BstProofs12 TreapModel TreapSpec TreapProofs2 TreapProofs4 RopeModel RopeSpec RopeProofs SearchModel SearchSpec SearchProofs.
Open Scope nat_scope.

Section C30.
Context {V : Type}.
Notation entry := (nat * V * Z)%type.
Notation heap := (heap (V := V)).
Implicit Types (h : heap) (es : list entry).

(** the constructor from a range *)
Theorem C30_construct h (l : list (V * Z)) : Forall (fun x => 0 <= snd x)%Z l ->
  exists h' m es, rope_new h l = Some (h', m) /\ rope_rep h' m es /\ items es = map fst l /\ (forall n2 es2, bst_rep h n2 es2 -> bst_rep h' n2 es2 /\ apart m es n2 es2).
Proof.
  intros Z. unfold rope_new. pose proof (init_rope h) as H. destruct (bst_init h) as (h0, m). destruct H as (R & _ & O & _). rewrite fill_run. destruct (runs_run m _ h0 [] R (fill_allowed l Z _)) as (h1 & es & -> & R1 & T1 & _ & O1). cbn [obind].
  exists h1, m, es. split; [reflexivity|]. split; [exact R1|]. split; [rewrite T1; exact (fill_effect l [])|]. intros n2 es2 Q. destruct (O _ _ Q) as (Q1 & Q2). exact (O1 _ _ Q1 Q2).
Qed.
(** size, empty, at and operator [] *)
Theorem C30_read h nil es : rope_rep h nil es ->
  bst_size h nil = Some (Z.of_nat (length (items es))) /\ (bst_empty h nil = Some true <-> items es = []) /\
  (forall pos v, (0 <= pos)%Z -> nth_error (items es) (Z.to_nat pos) = Some v -> rope_at h nil pos = Some v).
Proof.
  intros R. pose proof R as (R0 & U & _). destruct (sizes h nil es R0) as (E1 & E2 & _). rewrite E1, E2, (uc_total es U). unfold items. rewrite map_length. split; [reflexivity|]. split.
  - destruct es; cbn [map]; split; intros; congruence.
  - intros pos v P N. rewrite (at_run h nil es pos R); [exact N|]. assert (L : Z.to_nat pos < length (items es)) by (apply nth_error_Some; unfold items; congruence). unfold items in L. rewrite map_length in L. lia.
Qed.
(** insert at a position (the end for positions outside), push_back, insert at an iterator; the nodes of the other elements, hence their iterators, are kept *)
Theorem C30_insert h nil es pos v z : rope_rep h nil es -> (0 <= z)%Z ->
  exists h', rope_insert h nil pos v z = Some h' /\ rope_becomes h h' nil es (ins pos (next h, v, 1%Z) es) /\ items (ins pos (next h, v, 1%Z) es) = ins pos v (items es).
Proof. intros R Z. destruct (insert_run' h nil es pos v z R Z) as (h' & E & B). exists h'. split; [exact E|]. split; [exact B|apply ins_map]. Qed.
Theorem C30_push_back h nil es v z : rope_rep h nil es -> (0 <= z)%Z -> exists h', rope_push_back h nil v z = Some h' /\ rope_becomes h h' nil es (es ++ [(next h, v, 1%Z)]).
Proof. exact (push_run h nil es v z). Qed.
Theorem C30_insert_at h nil (a b : list entry) v z : rope_rep h nil (a ++ b) -> (0 <= z)%Z -> exists h', rope_insert_at h nil (first_it nil b) v z = Some h' /\ rope_becomes h h' nil (a ++ b) (a ++ (next h, v, 1%Z) :: b).
Proof. exact (insert_at_run h nil a b v z). Qed.
(** erase at a position, at an iterator, of a range of positions, of a range of iterators *)
Theorem C30_erase h nil es pos : rope_rep h nil es -> exists h', rope_erase h nil pos = Some h' /\ rope_becomes h h' nil es (del pos es) /\ items (del pos es) = del pos (items es).
Proof. intros R. destruct (erase_pos_run h nil es pos R) as (h' & E & B). exists h'. split; [exact E|]. split; [exact B|apply del_map]. Qed.
Theorem C30_erase_at h nil (a b : list entry) e : rope_rep h nil (a ++ e :: b) -> exists h', rope_erase_at h nil (eid e) = Some h' /\ rope_becomes h h' nil (a ++ e :: b) (a ++ b).
Proof. intros R. destruct (erase_it_run h nil a e b R) as (h' & E & _ & B). eauto. Qed.
Theorem C30_erase_range h nil es (b e : Z) : rope_rep h nil es -> (0 <= b <= e)%Z ->
  exists h', rope_erase_range h nil b e = Some h' /\ rope_becomes h h' nil es (cut b e es) /\ items (cut b e es) = cut b e (items es).
Proof. intros R H. destruct (erase_range_run h nil es b e R H) as (h' & E & B). exists h'. split; [exact E|]. split; [exact B|apply cut_map]. Qed.
Theorem C30_erase_range_at h nil (a m b : list entry) : rope_rep h nil (a ++ m ++ b) ->
  exists h', rope_erase_range_at h nil (first_it nil (m ++ b)) (first_it nil b) = Some h' /\ rope_becomes h h' nil (a ++ m ++ b) (a ++ b).
Proof. exact (range_at_run h nil a m b). Qed.
(** r[pos] = v *)
Theorem C30_assign h nil es pos v : rope_rep h nil es -> (0 <= pos < Z.of_nat (length es))%Z ->
  exists h' es', rope_set h nil pos v = Some h' /\ rope_becomes h h' nil es es' /\ ids es' = ids es /\ items es' = put pos v (items es).
Proof.
  intros R H. destruct (set_run h nil es pos v R H) as (h' & e & E & N & B). exists h', (put pos (eid e, v, 1%Z) es). split; [exact E|]. split; [exact B|]. split; [|unfold items; rewrite put_map; reflexivity].
  destruct (pos_split es pos ltac:(lia)) as (a & b & -> & ->). destruct b as [|x b]; [rewrite app_nil_r in H; lia|]. rewrite Nat2Z.id, nth_error_app2, Nat.sub_diag in N by lia. injection N as ->. rewrite put_app. unfold ids. rewrite !map_app. reflexivity.
Qed.
(** random access iterators: for the iterator at index i, dereferencing, ++, --, differences, comparison, it + off (end() outside) *)
Theorem C30_iterator h nil (a b c : list entry) x y : rope_rep h nil (a ++ x :: b ++ y :: c) ->
  let es := a ++ x :: b ++ y :: c in
  gval h (eid x) = Some (evl x) /\ rope_diff h (eid y) (eid x) = Some (Z.of_nat (length b) + 1)%Z /\ rope_diff h nil (eid x) = Some (Z.of_nat (length (x :: b ++ y :: c))) /\
  rope_before h (eid x) (eid y) = Some true /\ rope_before h (eid y) (eid x) = Some false /\ rope_before h (eid x) (eid x) = Some false /\ rope_before h (eid x) nil = Some true /\
  inorder_next h (eid x) = Some (first_it nil (b ++ y :: c)) /\ inorder_prev h (eid y) = Some (last_it nil (a ++ x :: b)) /\
  (forall off, inorder_add h (eid x) off = Some (if (0 <=? Z.of_nat (length a) + off)%Z then first_it nil (skipn (Z.to_nat (Z.of_nat (length a) + off)) es) else nil)).
Proof.
  intros (R & U & _) es. pose proof (uc_total _ U) as TT. destruct (iterators h nil a x (b ++ y :: c) R) as (N1 & _ & P1 & V1 & _ & A1).
  assert (R' := R). assert (EE : a ++ x :: b ++ y :: c = (a ++ x :: b) ++ y :: c) by (rewrite <- app_assoc; reflexivity). rewrite EE in R'. destruct (iterators h nil _ y c R') as (_ & N2 & P2 & _). destruct (iterators_end h nil _ R) as (_ & _ & P3 & _).
  assert (U' := U). rewrite EE in U'. apply uc_app in U' as (U1 & _). pose proof (uc_total _ U1) as T1. apply uc_app in U1 as (U1 & _). pose proof (uc_total _ U1) as T0.
  unfold rope_before, rope_diff. rewrite P1, P2, P3. cbn [obind]. rewrite TT, T1, T0, !app_length. cbn [length]. rewrite !app_length. cbn [length].
  repeat split; auto; try (f_equal; lia); try (f_equal; first [apply Z.ltb_lt; lia|apply Z.ltb_ge; lia]).
  intros off. rewrite A1, T0. f_equal. destruct (Z.leb_spec 0 (Z.of_nat (length a) + off)) as [H|H]; [|apply at_pos_out; [exact U|lia]].
    destruct (Z_le_dec (Z.of_nat (length a) + off) (Z.of_nat (length es))) as [H1|H1].
    + fold es. fold es in U. destruct (pos_split es _ (conj H H1)) as (p & q & E & Ep). rewrite Ep, E, Nat2Z.id, skipn_app, Nat.sub_diag, skipn_all. cbn [app skipn]. apply at_pos_uc. rewrite <- E. exact U.
    + rewrite at_pos_out by (auto; fold es; lia). rewrite skipn_all2 by lia. reflexivity.
Qed.
(** operator == and operator <, for a value type with a total order *)
Theorem C30_compare (eqb ltb : V -> V -> bool) : (forall x y, eqb x y = true <-> x = y) -> (forall x y, x <> y -> ltb x y = true \/ ltb y x = true) -> (forall x y, ltb x y = true -> ltb y x = false) ->
  forall h n1 n2 es1 es2, rope_rep h n1 es1 -> rope_rep h n2 es2 -> exists b1 b2,
  rope_eq eqb ltb h n1 n2 = Some b1 /\ (b1 = true <-> items es1 = items es2) /\ rope_lt eqb ltb h n1 n2 = Some b2 /\ (b2 = true <-> lex (fun x y => ltb x y = true) (items es1) (items es2)).
Proof.
  intros E T S h n1 n2 es1 es2 (R1 & _) (R2 & _). unfold rope_eq, rope_lt. rewrite (cmp_run eqb ltb h n1 n2 es1 es2 R1 R2). cbn [obind]. exists (compare eqb ltb (items es1) (items es2) None =? 0)%Z, (compare eqb ltb (items es1) (items es2) None <? 0)%Z. split; [reflexivity|]. rewrite Z.eqb_eq.
  destruct (compare_spec eqb E ltb T S (items es1) (items es2) None) as (Q1 & Q2 & Q3). split; [exact Q1|]. split; [reflexivity|]. rewrite Z.ltb_lt, <- Q2. split; [|lia].
  assert (C : forall l1 l2, (compare eqb ltb l1 l2 None = -1 \/ compare eqb ltb l1 l2 None = 0 \/ compare eqb ltb l1 l2 None = 1)%Z).
  { clear. induction l1 as [|x l1 IH]; intros [|y l2]; cbn [compare]; auto. destruct (negb (eqb x y)); [destruct (ltb x y); auto|apply IH]. }
  specialize (C (items es1) (items es2)). lia.
Qed.
(** copies *)
Theorem C30_copy h nil es : rope_rep h nil es -> exists h' nil' es', bst_copy h nil = Some (h', nil') /\ rope_rep h' nil' es' /\ items es' = items es /\
  (forall n2 es2, bst_rep h n2 es2 -> bst_rep h' n2 es2 /\ apart nil' es' n2 es2).
Proof.
  intros (R & U & HO). destruct (treap_copy_run (fun x : V => x) h nil es R HO) as (h' & n' & es' & E & R' & M & O). destruct (copy_run h nil es R) as (h'' & n'' & es'' & E' & R'' & _ & KO & _). rewrite E in E'. injection E' as <- <-.
  assert (X : items es' = items es /\ map ecn es' = map ecn es). { unfold strip in M. split; [apply (f_equal (map evl)) in M|apply (f_equal (map ecn)) in M]; rewrite !map_map in M; exact M. } destruct X as (X1 & X2).
  exists h', n', es'. split; [exact E|]. split; [split; [exact R'|split; [|exact O]]|split; [exact X1|]].
  - cbn in *. rewrite Forall_forall in *. intros e He. apply (in_map ecn) in He. rewrite X2 in He. apply in_map_iff in He as (e' & <- & He). auto.
  - intros n2 es2 Q. destruct (KO _ _ Q) as (Q1 & Q2). split; [exact Q1|]. assert (ID : forall p, In p (ids es') <-> In p (ids es'')).
    { assert (forall (x y : list entry), bst_rep h' n' x -> bst_rep h' n' y -> x = y) as UN; [|rewrite (UN _ _ R' R''); tauto].
      clear. intros x y Rx Ry. assert (G : forall (b b' a : list entry), bst_rep h' n' (a ++ b) -> bst_rep h' n' (a ++ b') -> first_it n' b = first_it n' b' -> b = b').
      { induction b as [|e b IH]; intros [|e' b'] a R1 R2 F; cbn [first_it] in F; auto.
        - exfalso. apply rep_nodup in R2. apply NoDup_cons_iff in R2 as (R2 & _). apply R2. unfold ids. rewrite map_app, in_app_iff. right. left. congruence.
        - exfalso. apply rep_nodup in R1. apply NoDup_cons_iff in R1 as (R1 & _). apply R1. unfold ids. rewrite map_app, in_app_iff. right. left. congruence.
        - destruct (iterators _ _ _ _ _ R1) as (N1 & _ & _ & V1 & C1 & _). destruct (iterators _ _ _ _ _ R2) as (N2 & _ & _ & V2 & C2 & _). rewrite F in N1, V1, C1. assert (e = e') as <- by (destruct e as [[? ?] ?], e' as [[? ?] ?]; cbn in *; congruence). f_equal. apply (IH b' (a ++ [e])); [rewrite <- app_assoc; exact R1|rewrite <- app_assoc; exact R2|congruence]. }
      apply (G x y []); auto. destruct (sizes _ _ _ Rx) as (_ & _ & B1 & _). destruct (sizes _ _ _ Ry) as (_ & _ & B2 & _). congruence. }
    intros p [H|H] Hp; [apply (Q2 p); [now left|exact Hp]|apply (Q2 p); [right; now apply ID|exact Hp]].
Qed.
(** every history, for every sequence of random numbers, and the destruction after it: nothing fails, the elements are those of the list
    operations, other trees are kept and nothing is leaked *)
Theorem C30_history h (ops : list (rope_op V)) : all_allowed ops [] ->
  let '(h0, m) := bst_init h in
  exists h1 es h2, rope_runs m ops h0 = Some h1 /\ rope_rep h1 m es /\ items es = fold_left (fun l o => rope_effect o l) ops [] /\
    (forall n2 es2, bst_rep h n2 es2 -> bst_rep h1 n2 es2 /\ apart m es n2 es2) /\
    bst_destroy h1 m = Some h2 /\ (forall p, live h2 p = true -> live h p = true) /\ (forall n2 es2, bst_rep h n2 es2 -> bst_rep h2 n2 es2).
Proof.
  intros C. pose proof (init_rope h) as H. destruct (bst_init h) as (h0, m). destruct H as (R & _ & O & L).
  destruct (runs_run m ops h0 [] R C) as (h1 & es & E1 & R1 & T1 & L1 & O1). destruct (destroy_run h1 m es (proj1 R1)) as (h2 & E2 & L2 & O2).
  assert (KO : forall n2 es2, bst_rep h n2 es2 -> bst_rep h1 n2 es2 /\ apart m es n2 es2) by (intros n2 es2 Q; destruct (O _ _ Q) as (Q1 & Q2); exact (O1 _ _ Q1 Q2)).
  exists h1, es, h2. split; [exact E1|split; [exact R1|split; [exact T1|split; [exact KO|split; [exact E2|split]]]]].
  - intros p Hp. apply L2 in Hp as (Hp & N). apply L1 in Hp as [(Hp & _)|Hp]; [|contradiction]. apply L in Hp as [Hp| ->]; [exact Hp|exfalso; apply N; now left].
  - intros n2 es2 Q. destruct (KO _ _ Q) as (Q1 & Q2). exact (O2 _ _ Q1 Q2).
Qed.
End C30.

(** a concrete rope *)
Definition case_rope : list (rope_op Z) := [RPush 10 5; RPush 20 3; RInsert 1 30 4; RInsert 0 40 9; RPush 50 1; RInsert 2 60 7; RErase 1; REraseRange 2 4; RSet 1 70]%Z.
Example C30_case : all_allowed case_rope [] /\ fold_left (fun l o => rope_effect o l) case_rope [] = [40; 70; 50]%Z /\
  (let '(h0, m) := bst_init (heap_new (V := Z)) in
   exists h, rope_runs m case_rope h0 = Some h /\ bst_size h m = Some 3%Z /\ rope_at h m 0 = Some 40%Z /\ rope_at h m 1 = Some 70%Z /\ rope_at h m 2 = Some 50%Z /\ rope_eq Z.eqb Z.ltb h m m = Some true).
Proof.
  split; [cbn; repeat split; lia|split; [reflexivity|]]. cbn beta iota delta [bst_init]. eexists. split; [vm_compute; reflexivity|]. repeat split; vm_compute; reflexivity.
Qed.

Print Assumptions C30_construct.
Print Assumptions C30_read.
Print Assumptions C30_insert.
Print Assumptions C30_push_back.
Print Assumptions C30_insert_at.
Print Assumptions C30_erase.
Print Assumptions C30_erase_at.
Print Assumptions C30_erase_range.
Print Assumptions C30_erase_range_at.
Print Assumptions C30_assign.
Print Assumptions C30_iterator.
Print Assumptions C30_compare.
Print Assumptions C30_copy.
Print Assumptions C30_history.
