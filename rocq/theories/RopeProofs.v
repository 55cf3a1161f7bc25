(** Ropes: proofs. *)
From Verif Require Import Lib BstModel BstSpec BstProofs BstProofs2 BstProofs3 BstProofs4 BstProofs5 BstProofs8 BstProofs9 BstProofs10 BstProofs11 BstProofs12 BstProofs13 TreapModel TreapSpec TreapProofs TreapProofs2 TreapProofs3 TreapProofs4 RopeModel RopeSpec SearchModel.
Open Scope nat_scope.

Section P.
Context {V : Type}.
Notation entry := (nat * V * Z)%type.
Notation heap := (heap (V := V)).
Notation tree := (tree V).
Implicit Types (h : heap) (es a b m : list entry).

Lemma uc_total es : unit_counts STORE es -> total es = Z.of_nat (length es).
Proof. cbn. induction 1 as [|e es E _ IH]; [reflexivity|]. cbn [total fold_right length]. change (fold_right _ _ es) with (total es). rewrite IH, E. lia. Qed.
Lemma uc_app a b : unit_counts STORE (a ++ b) <-> unit_counts STORE a /\ unit_counts STORE b.
Proof. cbn. apply Forall_app. Qed.
Lemma at_pos_uc nil a b : unit_counts STORE (a ++ b) -> at_pos nil (Z.of_nat (length a)) (a ++ b) = first_it nil b.
Proof.
  revert b. induction a as [|e a IH]; intros b U.
  - destruct b as [|e b]; [reflexivity|]. cbn in *. apply Forall_cons_iff in U as (U & _). rewrite U. reflexivity.
  - cbn [app at_pos length]. cbn in U. apply Forall_cons_iff in U as (E & U). rewrite E. destruct (Z.ltb_spec (Z.of_nat (S (length a))) 0); [lia|]. destruct (Z.ltb_spec (Z.of_nat (S (length a))) 1); [lia|].
    replace (Z.of_nat (S (length a)) - 1)%Z with (Z.of_nat (length a)) by lia. apply IH, U.
Qed.
Lemma at_pos_out nil k es : unit_counts STORE es -> (k < 0 \/ Z.of_nat (length es) <= k)%Z -> at_pos nil k es = nil.
Proof.
  intros U. revert k. cbn in U. induction U as [|e es E _ IH]; intros k H; [reflexivity|]. cbn [at_pos length] in *. destruct (Z.ltb_spec k 0); [reflexivity|]. rewrite E. destruct (Z.ltb_spec k 1); [lia|]. apply IH. lia.
Qed.
Lemma pos_split {A} (l : list A) pos : (0 <= pos <= Z.of_nat (length l))%Z -> exists a b : list A, l = a ++ b /\ pos = Z.of_nat (length a).
Proof. intros H. exists (firstn (Z.to_nat pos) l), (skipn (Z.to_nat pos) l). rewrite firstn_skipn, firstn_length. split; [reflexivity|lia]. Qed.
Lemma ins_app {A} (x : A) (a b : list A) : ins (Z.of_nat (length a)) x (a ++ b) = a ++ x :: b.
Proof.
  unfold ins. rewrite app_length. destruct (Z.leb_spec 0 (Z.of_nat (length a))); [|lia]. destruct (Z.leb_spec (Z.of_nat (length a)) (Z.of_nat (length a + length b))); [|lia]. cbn [andb]. rewrite Nat2Z.id, firstn_app, skipn_app, Nat.sub_diag, firstn_all, skipn_all. cbn. now rewrite app_nil_r.
Qed.
Lemma ins_out {A} (x : A) l pos : ~ (0 <= pos <= Z.of_nat (length l))%Z -> ins pos x l = l ++ [x].
Proof. intros H. unfold ins. destruct (Z.leb_spec 0 pos); [|reflexivity]. destruct (Z.leb_spec pos (Z.of_nat (length l))); [lia|reflexivity]. Qed.
Lemma cut_app {A} (a m b : list A) : cut (Z.of_nat (length a)) (Z.of_nat (length (a ++ m))) (a ++ m ++ b) = a ++ b.
Proof. unfold cut. rewrite !Nat2Z.id, firstn_app, Nat.sub_diag, firstn_all, app_assoc, skipn_app, Nat.sub_diag, skipn_all. cbn. now rewrite app_nil_r. Qed.
Lemma put_app {A} (x y : A) (a b : list A) : put (Z.of_nat (length a)) x (a ++ y :: b) = a ++ x :: b.
Proof. unfold put. rewrite Nat2Z.id, firstn_app, Nat.sub_diag, firstn_all. replace (length a + 1) with (length (a ++ [y])) by (rewrite app_length; reflexivity). replace (a ++ y :: b) with ((a ++ [y]) ++ b) by (rewrite <- app_assoc; reflexivity). rewrite skipn_app, Nat.sub_diag, skipn_all. cbn. now rewrite app_nil_r. Qed.
Lemma ins_map {A B} (f : A -> B) pos x l : map f (ins pos x l) = ins pos (f x) (map f l).
Proof. unfold ins. rewrite map_length. destruct (_ && _); rewrite map_app; [cbn [map]; rewrite firstn_map, skipn_map|]; reflexivity. Qed.
Lemma cut_map {A B} (f : A -> B) (b e : Z) l : map f (cut b e l) = cut b e (map f l).
Proof. unfold cut. rewrite map_app, firstn_map, skipn_map. reflexivity. Qed.
Lemma del_map {A B} (f : A -> B) pos l : map f (del pos l) = del pos (map f l).
Proof. unfold del. rewrite map_length. destruct (_ && _); [apply cut_map|reflexivity]. Qed.
Lemma put_map {A B} (f : A -> B) pos x l : map f (put pos x l) = put pos (f x) (map f l).
Proof. unfold put. rewrite map_app. cbn [map]. rewrite firstn_map, skipn_map. reflexivity. Qed.

Lemma insert_at_run h nil a b v z : rope_rep h nil (a ++ b) -> (0 <= z)%Z -> exists h', rope_insert_at h nil (first_it nil b) v z = Some h' /\ rope_becomes h h' nil (a ++ b) (a ++ (next h, v, 1%Z) :: b).
Proof.
  intros (R & U & H) Z. destruct (treap_before_run STORE h nil a b v 1 z R ltac:(lia) Z) as (h' & E & B & _ & _ & O). unfold rope_insert_at. rewrite E. cbn [obind]. exists h'. split; [reflexivity|]. split; [|exact B].
  split; [exact (proj1 B)|split; [|apply O, H]]. apply uc_app in U as (U1 & U2). apply uc_app. split; [exact U1|constructor; [reflexivity|exact U2]].
Qed.
Lemma insert_run' h nil es pos v z : rope_rep h nil es -> (0 <= z)%Z -> exists h', rope_insert h nil pos v z = Some h' /\ rope_becomes h h' nil es (ins pos (next h, v, 1%Z) es).
Proof.
  intros R Z. pose proof R as (R0 & U & _). unfold rope_insert. destruct (sizes h nil es R0) as (_ & _ & _ & K). rewrite K. cbn [obind].
  destruct (Z_le_dec 0 pos) as [H0|H0]; [destruct (Z_le_dec pos (Z.of_nat (length es))) as [H1|H1]|].
  - destruct (pos_split es pos (conj H0 H1)) as (a & b & -> & ->). rewrite at_pos_uc by exact U. rewrite ins_app. now apply insert_at_run.
  - rewrite at_pos_out by (auto; lia). rewrite ins_out by lia. change nil with (first_it nil (@Datatypes.nil entry)) at 2. rewrite <- (app_nil_r es) in R. destruct (insert_at_run h nil es [] v z R Z) as (h' & E & B). exists h'. rewrite app_nil_r in B. auto.
  - rewrite at_pos_out by (auto; lia). rewrite ins_out by lia. change nil with (first_it nil (@Datatypes.nil entry)) at 2. rewrite <- (app_nil_r es) in R. destruct (insert_at_run h nil es [] v z R Z) as (h' & E & B). exists h'. rewrite app_nil_r in B. auto.
Qed.
Lemma push_run h nil es v z : rope_rep h nil es -> (0 <= z)%Z -> exists h', rope_push_back h nil v z = Some h' /\ rope_becomes h h' nil es (es ++ [(next h, v, 1%Z)]).
Proof.
  intros R Z. pose proof R as (R0 & U & _). unfold rope_push_back. destruct (sizes h nil es R0) as (-> & _). cbn [obind]. rewrite (uc_total es U). destruct (insert_run' h nil es (Z.of_nat (length es)) v z R Z) as (h' & E & B). exists h'. split; [exact E|].
  rewrite <- (app_nil_r es) in B at 3. rewrite ins_app in B. exact B.
Qed.
Lemma erase_it_run h nil a e b : rope_rep h nil (a ++ e :: b) -> exists h', rope_erase_at h nil (eid e) = Some h' /\ next h' = next h /\ rope_becomes h h' nil (a ++ e :: b) (a ++ b).
Proof.
  intros (R & U & H). destruct (treap_erase_at_run STORE h nil a e b 1 R ltac:(lia) U) as (h' & it & E & B & N & _ & O). unfold rope_erase_at. rewrite E. cbn [obind]. exists h'. split; [reflexivity|]. split; [exact N|]. split; [|exact B].
  split; [exact (proj1 B)|split; [|apply O; auto]]. apply uc_app in U as (U1 & U2). apply uc_app. split; [exact U1|exact (Forall_inv_tail U2)].
Qed.
Lemma erase_end h nil es : bst_rep h nil es -> rope_erase_at h nil nil = Some h.
Proof. intros R. destruct (rep_tok _ _ _ R) as (t & T & _). unfold rope_erase_at, treap_erase_at, retrace_down. rewrite Nat.eqb_refl. cbn [obind]. unfold erase_node. rewrite (tok_nil_nil _ _ _ _ T). reflexivity. Qed.
Lemma erase_pos_run h nil es pos : rope_rep h nil es -> exists h', rope_erase h nil pos = Some h' /\ rope_becomes h h' nil es (del pos es).
Proof.
  intros R. pose proof R as (R0 & U & _). unfold rope_erase. destruct (sizes h nil es R0) as (_ & _ & _ & K). rewrite K. cbn [obind]. unfold del.
  destruct (Z.leb_spec 0 pos) as [H0|H0]; [destruct (Z.ltb_spec pos (Z.of_nat (length es))) as [H1|H1]|]; cbn [andb].
  - destruct (pos_split es pos ltac:(lia)) as (a & b & -> & ->). destruct b as [|e b]; [rewrite app_nil_r in H1; lia|]. rewrite at_pos_uc by exact U. cbn [first_it]. destruct (erase_it_run h nil a e b R) as (h' & E & _ & B). exists h'. split; [exact E|].
    replace (cut _ _ _) with (a ++ b); [exact B|]. rewrite <- (cut_app a [e] b). rewrite app_length. cbn [app length]. f_equal. lia.
  - rewrite at_pos_out by (auto; lia). exists h. split; [exact (erase_end h nil es R0)|]. split; [exact R|apply becomes_refl, R0].
  - rewrite at_pos_out by (auto; lia). exists h. split; [exact (erase_end h nil es R0)|]. split; [exact R|apply becomes_refl, R0].
Qed.
Lemma ids_sub a (e : entry) b : incl (ids (a ++ b)) (ids (a ++ e :: b)).
Proof. intros p. unfold ids. rewrite !map_app, !in_app_iff. cbn [map In]. tauto. Qed.
Lemma range_loop nil b m : forall a h fuel, rope_rep h nil (a ++ m ++ b) -> length m < fuel ->
  exists h', while fuel (fun '(h, i) => if i =? first_it nil b then Some (inr h) else let* i' := inorder_next h i in let* h := rope_erase_at h nil i in Some (inl (h, i'))) (h, first_it nil (m ++ b)) = Some h' /\
    rope_becomes h h' nil (a ++ m ++ b) (a ++ b).
Proof.
  induction m as [|e m IH]; intros a h fuel R L; (destruct fuel as [|fuel]; [cbn in L; lia|]); cbn [while].
  - cbn [app]. rewrite Nat.eqb_refl. exists h. split; [reflexivity|]. split; [exact R|apply becomes_refl, R].
  - cbn [app first_it]. pose proof R as (R0 & U & _). assert (N : (eid e =? first_it nil b) = false).
    { apply Nat.eqb_neq. intros E. pose proof (rep_nodup _ _ _ R0) as ND. unfold ids in ND. rewrite map_app in ND. cbn [app map] in ND. rewrite map_app in ND. apply NoDup_cons_iff in ND as (N1 & N2). destruct b as [|x b]; cbn [first_it] in E.
      - apply N1. rewrite <- E, in_app_iff. right. now left.
      - apply NoDup_remove_2 in N2. apply N2. rewrite E, !in_app_iff. right. right. now left. }
    rewrite N. cbn [app] in R0. destruct (iterators _ _ _ _ _ R0) as (-> & _). cbn [obind]. destruct (erase_it_run h nil a e (m ++ b) R) as (h1 & -> & _ & R1 & B1). cbn [obind].
    destruct (IH a h1 fuel R1 ltac:(cbn in L; lia)) as (h2 & E2 & R2 & B2). exists h2. split; [exact E2|]. split; [exact R2|]. apply (becomes_trans _ _ _ _ _ _ _ B1 B2); [apply ids_sub|exact R0].
Qed.
Lemma rep_len h nil es : bst_rep h nil es -> length es < loops h.
Proof. intros R. destruct (rep_tok _ _ _ R) as (t & T & Et & _). pose proof (tok_tid_len _ _ _ T) as L. unfold tids, ids in L. rewrite Et, map_length in L. unfold loops. lia. Qed.
Lemma range_at_run h nil a m b : rope_rep h nil (a ++ m ++ b) -> exists h', rope_erase_range_at h nil (first_it nil (m ++ b)) (first_it nil b) = Some h' /\ rope_becomes h h' nil (a ++ m ++ b) (a ++ b).
Proof. intros R. apply (range_loop nil b m a h (loops h) R). pose proof (rep_len _ _ _ (proj1 R)) as L. rewrite !app_length in L. lia. Qed.
Lemma erase_range_run h nil es (b e : Z) : rope_rep h nil es -> (0 <= b <= e)%Z -> exists h', rope_erase_range h nil b e = Some h' /\ rope_becomes h h' nil es (cut b e es).
Proof.
  intros R H. pose proof R as (R0 & U & _). unfold rope_erase_range. destruct (sizes h nil es R0) as (_ & _ & _ & K). rewrite !K. cbn [obind].
  destruct (Z_le_dec b (Z.of_nat (length es))) as [Hb|Hb]; [destruct (Z_le_dec e (Z.of_nat (length es))) as [He|He]|].
  - destruct (pos_split es b ltac:(lia)) as (a & r & -> & ->). destruct (pos_split r (e - Z.of_nat (length a)) ltac:(rewrite app_length in He; lia)) as (m & c & -> & Q). rewrite at_pos_uc by exact U.
    replace e with (Z.of_nat (length (a ++ m))) in * by (rewrite app_length; lia). rewrite cut_app. assert (X : at_pos nil (Z.of_nat (length (a ++ m))) (a ++ m ++ c) = first_it nil c) by (rewrite app_assoc in *; now apply at_pos_uc). rewrite X. apply range_at_run, R.
  - destruct (pos_split es b ltac:(lia)) as (a & m & -> & ->). rewrite at_pos_uc by exact U. rewrite (at_pos_out nil e) by (auto; lia). rewrite <- (app_nil_r m) in R. destruct (range_at_run h nil a m [] R) as (h' & E & B). exists h'. rewrite !app_nil_r in *. split; [exact E|].
    unfold cut. rewrite Nat2Z.id, firstn_app, Nat.sub_diag, firstn_all, skipn_all2 by lia. cbn. rewrite !app_nil_r. exact B.
  - rewrite !at_pos_out by (auto; lia). rewrite <- (app_nil_r es) in R. destruct (range_at_run h nil es [] [] R) as (h' & E & B). exists h'. split; [exact E|]. cbn [app] in B. rewrite app_nil_r in B. unfold cut. rewrite firstn_all2, skipn_all2 by lia. rewrite app_nil_r. exact B.
Qed.
Lemma at_run h nil es pos : rope_rep h nil es -> (0 <= pos < Z.of_nat (length es))%Z -> rope_at h nil pos = nth_error (items es) (Z.to_nat pos).
Proof.
  intros (R & U & _) H. unfold rope_at. destruct (sizes h nil es R) as (_ & _ & _ & K). rewrite K. cbn [obind]. destruct (pos_split es pos ltac:(lia)) as (a & b & -> & ->). rewrite at_pos_uc by exact U.
  destruct b as [|e b]; [rewrite app_nil_r in H; lia|]. cbn [first_it]. destruct (iterators _ _ _ _ _ R) as (_ & _ & _ & -> & _). unfold items. rewrite Nat2Z.id, map_app, nth_error_app2 by (rewrite map_length; lia). rewrite map_length, Nat.sub_diag. reflexivity.
Qed.
Lemma sval_tok h nil k l p v c (b : Z) r w : tok h nil k (Node l p v c b r) -> let h' := with_val h (upd (val h) p (Some w)) in
  tok h' nil k (Node l p w c b r) /\ (forall x, out nil (Node l p v c b r) k x -> same h h' x).
Proof.
  intros H h'. pose proof H as (A1 & A2 & A3 & A4 & A5). cbn [recs] in A2. apply Forall_cons_iff in A2 as (N & A2). apply Forall_app in A2 as (Al & Ar).
  destruct N as (N1 & N2 & N3 & N4 & N5 & N6 & N7). cbn [nid npar nl nr ns nb nv] in *.
  assert (O : forall x, Nat.b2n (nil =? x) + (occ x (tids l) + (Nat.b2n (p =? x) + occ x (tids r)) + occ x (cids k)) <= 1) by (intros x; specialize (A4 x); rewrite tids_node, occ_app in A4; cbn [occ] in A4; lia).
  assert (SS : forall x, x <> p -> same h h' x) by (intros x Nx; unfold same, h'; cbn; rewrite upd_ne by auto; auto 10).
  assert (Op := O p). rewrite Nat.eqb_refl in Op. cbn [Nat.b2n] in Op.
  assert (TE : total (entries (Node l p w c b r)) = total (entries (Node l p v c b r))) by (cbn [entries]; rewrite !total_app; reflexivity).
  split.
  - split; [|split; [|split; [|split]]].
    + apply (nil_same h); [|exact A1]. apply SS. intros E. rewrite <- E in Op. rewrite Nat.eqb_refl in Op. cbn in Op. lia.
    + cbn [recs]. constructor; [|apply Forall_app; split].
      * unfold node_ok. cbn [nid npar nl nr ns nb nv]. rewrite TE. unfold h'. cbn [with_val live par lft rgt siz bal val]. rewrite upd_eq. auto 10.
      * apply (recs_same h); [|exact Al]. intros x Hx. apply SS. intros ->. lia.
      * apply (recs_same h); [|exact Ar]. intros x Hx. apply SS. intros ->. lia.
    + assert (TS : tsz (Node l p w c b r) = tsz (Node l p v c b r)) by exact TE. rewrite TS. apply (crecs_same h); [|exact A3]. intros x Hx. apply SS. intros ->. lia.
    + intros x. specialize (A4 x). rewrite tids_node in *. exact A4.
    + intros x. specialize (A5 x). rewrite tids_node in *. exact A5.
  - intros x Hx. apply SS. intros ->. unfold out in Hx. rewrite tids_node, occ_app in Hx. cbn [occ] in Hx. rewrite Nat.eqb_refl in Hx. cbn in Hx. lia.
Qed.
Lemma set_run h nil es pos v : rope_rep h nil es -> (0 <= pos < Z.of_nat (length es))%Z ->
  exists h' e, rope_set h nil pos v = Some h' /\ nth_error es (Z.to_nat pos) = Some e /\ rope_becomes h h' nil es (put pos (eid e, v, 1%Z) es).
Proof.
  intros (R & U & HO) H. unfold rope_set. destruct (sizes h nil es R) as (_ & _ & _ & K). rewrite K. cbn [obind]. destruct (pos_split es pos ltac:(lia)) as (a & b & -> & ->). rewrite at_pos_uc by exact U.
  destruct b as [|e b]; [rewrite app_nil_r in H; lia|]. cbn [first_it]. destruct (iterators _ _ _ _ _ R) as (_ & _ & _ & -> & _). cbn [obind].
  destruct (rep_zip _ _ _ _ _ R) as (k & l & bl & r & T & Ea & Eb & P). assert (Q : ecn e = 1%Z) by (apply uc_app in U as (_ & U); exact (Forall_inv U)).
  destruct (sval_tok h nil k l _ _ _ bl r v T) as (T' & S). set (h' := with_val h (upd (val h) (eid e) (Some v))) in *. exists h', e. split; [reflexivity|]. split; [rewrite Nat2Z.id, nth_error_app2, Nat.sub_diag by lia; reflexivity|]. rewrite put_app.
  assert (E1 : entries (plug k (Node l (eid e) (evl e) (ecn e) bl r)) = a ++ e :: b) by (rewrite entries_plug; cbn [entries]; rewrite Ea, Eb, <- !app_assoc; destruct e as [[? ?] ?]; reflexivity).
  assert (E2 : entries (plug k (Node l (eid e) v (ecn e) bl r)) = a ++ (eid e, v, 1%Z) :: b) by (rewrite entries_plug; cbn [entries]; rewrite Ea, Eb, Q, <- !app_assoc; reflexivity).
  assert (ID : ids (a ++ (eid e, v, 1%Z) :: b) = ids (a ++ e :: b)) by (unfold ids; rewrite !map_app; reflexivity).
  assert (B : becomes h h' nil (a ++ e :: b) (a ++ (eid e, v, 1%Z) :: b)).
  { rewrite <- E1, <- E2. refine (becomes_same h h' nil _ _ _ _ T _ T' _ S eq_refl eq_refl _); [rewrite E1; exact P| |rewrite E1, E2; exact ID]. rewrite E2. unfold pos_counts in *. rewrite Forall_app in *. destruct P as (P1 & P2). split; [exact P1|]. apply Forall_cons_iff in P2 as (_ & P2). constructor; [cbn; lia|exact P2]. }
  split; [|exact B]. split; [exact (proj1 B)|split]; [apply uc_app in U as (U1 & U2); apply uc_app; split; [exact U1|constructor; [reflexivity|exact (Forall_inv_tail U2)]]|]. intros p Hp. rewrite ID in Hp. exact (HO p Hp).
Qed.
Lemma init_rope h : let '(h', m) := bst_init h in rope_rep h' m [] /\ becomes h' h' m [] [] /\ (forall n2 es2, bst_rep h n2 es2 -> bst_rep h' n2 es2 /\ apart m [] n2 es2) /\ (forall p, live h' p = true <-> live h p = true \/ p = m).
Proof.
  pose proof (init_run h) as H. destruct (bst_init h) as (h', m). destruct H as (E & R & O & _ & L & _). split; [split; [exact R|split; [constructor|intros p []]]|]. split; [apply becomes_refl, R|]. split; [exact O|]. intros p. rewrite L. unfold upd. destruct (Nat.eqb_spec p m); intuition congruence.
Qed.
Lemma step_run nil o h es : rope_rep h nil es -> rope_allowed o (items es) -> exists h' es', rope_run nil o h = Some h' /\ rope_becomes h h' nil es es' /\ items es' = rope_effect o (items es).
Proof.
  intros R A. unfold items in *. destruct o as [pos v z|v z|pos|b e|pos v]; cbn [rope_allowed rope_run rope_effect] in *.
  - destruct (insert_run' h nil es pos v z R A) as (h' & E & B). eexists _, _. split; [exact E|]. split; [exact B|]. apply ins_map.
  - destruct (push_run h nil es v z R A) as (h' & E & B). eexists _, _. split; [exact E|]. split; [exact B|]. apply map_app.
  - destruct (erase_pos_run h nil es pos R) as (h' & E & B). eexists _, _. split; [exact E|]. split; [exact B|]. apply del_map.
  - destruct (erase_range_run h nil es b e R A) as (h' & E & B). eexists _, _. split; [exact E|]. split; [exact B|]. apply cut_map.
  - rewrite map_length in A. destruct (set_run h nil es pos v R A) as (h' & x & E & _ & B). eexists _, _. split; [exact E|]. split; [exact B|]. rewrite put_map. reflexivity.
Qed.
Lemma runs_run nil ops : forall h es, rope_rep h nil es -> all_allowed ops (items es) ->
  exists h' es', rope_runs nil ops h = Some h' /\ rope_rep h' nil es' /\ items es' = fold_left (fun l o => rope_effect o l) ops (items es) /\
    (forall p, live h' p = true -> (live h p = true /\ ~ In p (ids es)) \/ In p (nil :: ids es')) /\ others_kept h h' nil es es'.
Proof.
  induction ops as [|o ops IH]; intros h es R A.
  - exists h, es. cbn [rope_runs fold_left]. destruct (becomes_refl h nil es (proj1 R)) as (_ & O & M). split; [reflexivity|split; [exact R|split; [reflexivity|split; [|exact O]]]]. intros p Hp. apply M, Hp.
  - cbn [rope_runs fold_left all_allowed] in *. destruct A as (A1 & A2). destruct (step_run nil o h es R A1) as (h1 & es1 & -> & (R1 & _ & O1 & M1) & T1). cbn [obind]. rewrite <- T1 in A2. destruct (IH h1 es1 R1 A2) as (h2 & es2 & E2 & R2 & T2 & L2 & O2). exists h2, es2. split; [exact E2|].
    split; [exact R2|split; [rewrite T2, T1; reflexivity|split]].
    + intros p Hp. destruct (L2 p Hp) as [(Hp' & N)|Hp']; [|now right]. apply M1 in Hp' as [Hp'|[Hp'|Hp']]; [now left|right; now left|contradiction].
    + intros n2 e2 R' A'. destruct (O1 _ _ R' A') as (R3 & A3). exact (O2 _ _ R3 A3).
Qed.
Lemma fill_run nil l : forall h, rope_fill h nil l = rope_runs nil (map (fun x : V * Z => RPush (fst x) (snd x)) l) h.
Proof. induction l as [|(v, z) l IH]; intros h; [reflexivity|]. cbn [rope_fill map rope_runs rope_run fst snd]. destruct (rope_push_back h nil v z); [apply IH|reflexivity]. Qed.
Lemma fill_allowed (l : list (V * Z)) : Forall (fun x => 0 <= snd x)%Z l -> forall s, all_allowed (map (fun x => RPush (fst x) (snd x)) l) s.
Proof. induction 1 as [|x l Z _ IH]; intros s; cbn [map all_allowed rope_allowed]; [exact I|]. split; [exact Z|apply IH]. Qed.
Lemma fill_effect (l : list (V * Z)) : forall s, fold_left (fun s o => rope_effect o s) (map (fun x => RPush (fst x) (snd x)) l) s = s ++ map fst l.
Proof. induction l as [|x l IH]; intros s; cbn [map fold_left rope_effect]; [now rewrite app_nil_r|]. rewrite IH, <- app_assoc. reflexivity. Qed.
Lemma cmp_loop (eqb ltb : V -> V -> bool) h n1 n2 es1 es2 : bst_rep h n1 es1 -> bst_rep h n2 es2 -> forall b1 a1 a2 b2 fuel, es1 = a1 ++ b1 -> es2 = a2 ++ b2 -> length b1 < fuel ->
  while fuel (fun '(b1, b2) =>
    if negb (b1 =? n1) && negb (b2 =? n2) then
      let* v1 := gval h b1 in let* v2 := gval h b2 in
      if negb (eqb v1 v2) then Some (inr (if ltb v1 v2 then (-1)%Z else 1%Z)) else
      let* b1 := inorder_next h b1 in let* b2 := inorder_next h b2 in Some (inl (b1, b2))
    else Some (inr (if negb (b2 =? n2) then (-1)%Z else if negb (b1 =? n1) then 1%Z else 0%Z))) (first_it n1 b1, first_it n2 b2) = Some (compare eqb ltb (items b1) (items b2) None).
Proof.
  intros R1 R2. induction b1 as [|e1 b1 IH]; intros a1 a2 b2 fuel E1 E2 L; (destruct fuel as [|fuel]; [cbn in L; lia|]); cbn [while]; rewrite (it_end n1 h es1 a1 _ R1 E1), (it_end n2 h es2 a2 _ R2 E2).
  - destruct b2; reflexivity.
  - destruct b2 as [|e2 b2]; [reflexivity|]. cbn [negb andb first_it]. pose proof R1 as R1'. rewrite E1 in R1'. pose proof R2 as R2'. rewrite E2 in R2'. destruct (iterators _ _ _ _ _ R1') as (N1 & _ & _ & V1 & _). destruct (iterators _ _ _ _ _ R2') as (N2 & _ & _ & V2 & _).
    rewrite V1, V2. cbn [obind items map compare]. destruct (eqb (evl e1) (evl e2)); cbn [negb]; [|reflexivity]. rewrite N1, N2. cbn [obind option_map].
    apply (IH (a1 ++ [e1]) (a2 ++ [e2])); [rewrite <- app_assoc; exact E1|rewrite <- app_assoc; exact E2|cbn in L; lia].
Qed.
Lemma cmp_run (eqb ltb : V -> V -> bool) h n1 n2 es1 es2 : bst_rep h n1 es1 -> bst_rep h n2 es2 -> rope_compare eqb ltb h n1 n2 = Some (compare eqb ltb (items es1) (items es2) None).
Proof.
  intros R1 R2. destruct (sizes _ _ _ R1) as (_ & _ & B1 & _). destruct (sizes _ _ _ R2) as (_ & _ & B2 & _). unfold rope_compare. rewrite B1, B2. cbn [obind].
  apply (cmp_loop eqb ltb h n1 n2 es1 es2 R1 R2 es1 [] [] es2); auto. exact (rep_len _ _ _ R1).
Qed.
End P.
