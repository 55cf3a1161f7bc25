(** Binary search trees: queries. *)
From Verif Require Import Lib BstModel BstSpec BstProofs.
From Coq Require Import Permutation.
Open Scope nat_scope.

Lemma app_split {A} : forall (l1 l2 a b : list A) e, l1 ++ e :: l2 = a ++ b ->
  (exists a', a = l1 ++ e :: a' /\ l2 = a' ++ b) \/ (exists b', l1 = a ++ b' /\ b = b' ++ e :: l2).
Proof.
  induction l1 as [|x l1 IH]; intros l2 a b e E.
  - destruct a as [|y a]; cbn in E.
    + right. exists []. auto.
    + injection E as <- ->. left. exists a. auto.
  - destruct a as [|y a]; cbn in E.
    + right. exists (x :: l1). auto.
    + injection E as <- E. destruct (IH _ _ _ _ E) as [(a' & -> & ->)|(b' & -> & ->)]; [left|right]; eexists; split; reflexivity.
Qed.

Section P.
Context {V K : Type}.
Variable key : V -> K.
Variable cmp : K -> K -> bool.
Notation tree := (tree V).
Notation entry := (nat * V * Z)%type.
Notation heap := (heap (V := V)).
Implicit Types (h : heap) (t : tree).

Ltac node H :=
  let G := fresh "G" in pose proof (tok_get _ _ _ _ _ _ _ _ _ H) as G; destruct G as (Gp & Gl & Gr & Gs & Gb & Gv);
  let S := fresh "S" in pose proof (tok_siz _ _ _ _ _ _ _ _ _ H) as S; destruct S as (Sl & Sr);
  pose proof (tok_is_nil _ _ _ _ _ _ _ _ _ H) as Gn.

Lemma Forall_mid {A} (P : A -> Prop) (a : list A) e (b : list A) : Forall P (a ++ e :: b) -> P e.
Proof. intro H. apply Forall_app in H as (_ & H). now inversion H. Qed.
Lemma first_it_app nil (b : list entry) e b' : first_it nil (b ++ e :: b') = first_it (eid e) b.
Proof. destruct b; reflexivity. Qed.
Lemma first_it_nonempty n1 n2 (b : list entry) : b <> [] -> first_it n1 b = first_it n2 b.
Proof. destruct b; [congruence|reflexivity]. Qed.

(** the loops that walk down *)
Lemma lower_loop h nil q : forall t k fuel res (a b : list entry), tok h nil k t -> length (tids t) < fuel ->
  entries t = a ++ b -> Forall (fun e => less key cmp q e = true) a -> Forall (fun e => less key cmp q e = false) b ->
  while fuel (fun '(ptr, res) =>
    let* n := is_nil h ptr in if (n : bool) then Some (inr res) else
    let* v := gval h ptr in
    if cmp (key v) q then let* r := grgt h ptr in Some (inl (r, res)) else let* l := glft h ptr in Some (inl (l, ptr))) (rt nil t, res) = Some (first_it res b).
Proof.
  induction t as [|l IHl p v c bb r IHr]; intros k fuel res a b H HF E Ha Hb; (destruct fuel as [|fuel]; [lia|]).
  - cbn [rt while]. rewrite (tok_nil_nil _ _ _ _ H). cbn [obind]. cbn in E. symmetry in E. apply app_eq_nil in E as (-> & ->). reflexivity.
  - rewrite tlen_node in HF. cbn [rt while]. node H. rewrite Gn. cbn [obind]. rewrite Gv. cbn [obind]. cbn [entries] in E.
    destruct (app_split _ _ _ _ _ E) as [(a' & -> & E2)|(b' & E2 & ->)].
    + apply Forall_mid in Ha as He. unfold less in He. cbn in He. rewrite He, Gr. cbn [obind].
      apply Forall_app in Ha as (_ & Ha). inversion Ha; subst. eapply IHr; [eapply tok_right; eauto|lia|exact E2|auto|auto].
    + apply Forall_mid in Hb as He. unfold less in He. cbn in He. rewrite He, Gl. cbn [obind]. rewrite first_it_app.
      apply Forall_app in Hb as (Hb & _). eapply IHl; [eapply tok_left; eauto|lia|exact E2|auto|auto].
Qed.
Lemma upper_loop h nil q : forall t k fuel res (a b : list entry), tok h nil k t -> length (tids t) < fuel ->
  entries t = a ++ b -> Forall (fun e => greater key cmp q e = false) a -> Forall (fun e => greater key cmp q e = true) b ->
  while fuel (fun '(ptr, res) =>
    let* n := is_nil h ptr in if (n : bool) then Some (inr res) else
    let* v := gval h ptr in
    if cmp q (key v) then let* l := glft h ptr in Some (inl (l, ptr)) else let* r := grgt h ptr in Some (inl (r, res))) (rt nil t, res) = Some (first_it res b).
Proof.
  induction t as [|l IHl p v c bb r IHr]; intros k fuel res a b H HF E Ha Hb; (destruct fuel as [|fuel]; [lia|]).
  - cbn [rt while]. rewrite (tok_nil_nil _ _ _ _ H). cbn [obind]. cbn in E. symmetry in E. apply app_eq_nil in E as (-> & ->). reflexivity.
  - rewrite tlen_node in HF. cbn [rt while]. node H. rewrite Gn. cbn [obind]. rewrite Gv. cbn [obind]. cbn [entries] in E.
    destruct (app_split _ _ _ _ _ E) as [(a' & -> & E2)|(b' & E2 & ->)].
    + apply Forall_mid in Ha as He. unfold greater in He. cbn in He. rewrite He, Gr. cbn [obind].
      apply Forall_app in Ha as (_ & Ha). inversion Ha; subst. eapply IHr; [eapply tok_right; eauto|lia|exact E2|auto|auto].
    + apply Forall_mid in Hb as He. unfold greater in He. cbn in He. rewrite He, Gl. cbn [obind]. rewrite first_it_app.
      apply Forall_app in Hb as (Hb & _). eapply IHl; [eapply tok_left; eauto|lia|exact E2|auto|auto].
Qed.
Lemma count_less_loop h nil q : forall t k fuel s (a b : list entry), tok h nil k t -> length (tids t) < fuel ->
  entries t = a ++ b -> Forall (fun e => less key cmp q e = true) a -> Forall (fun e => less key cmp q e = false) b ->
  while fuel (fun '(ptr, c) =>
    let* n := is_nil h ptr in if (n : bool) then Some (inr c) else
    let* v := gval h ptr in
    if cmp (key v) q then let* s := gsiz h ptr in let* r := grgt h ptr in let* sr := gsiz h r in Some (inl (r, (c + (s - sr))%Z))
    else let* l := glft h ptr in Some (inl (l, c))) (rt nil t, s) = Some (s + total a)%Z.
Proof.
  induction t as [|l IHl p v c bb r IHr]; intros k fuel s a b H HF E Ha Hb; (destruct fuel as [|fuel]; [lia|]).
  - cbn [rt while]. rewrite (tok_nil_nil _ _ _ _ H). cbn [obind]. cbn in E. symmetry in E. apply app_eq_nil in E as (-> & ->). cbn. f_equal. lia.
  - rewrite tlen_node in HF. cbn [rt while]. node H. rewrite Gn. cbn [obind]. rewrite Gv. cbn [obind]. cbn [entries] in E.
    destruct (app_split _ _ _ _ _ E) as [(a' & -> & E2)|(b' & E2 & ->)].
    + apply Forall_mid in Ha as He. unfold less in He. cbn in He. rewrite He, Gs, Gr. cbn [obind]. rewrite Sr. cbn [obind].
      apply Forall_app in Ha as (_ & Ha). inversion Ha; subst.
      rewrite (IHr _ fuel (s + (tsz (Node l p v c bb r) - tsz r))%Z a' b (tok_right _ _ _ _ _ _ _ _ _ H)); [|lia|auto|auto|auto].
      f_equal. rewrite total_app, total_cons, tsz_node. unfold tsz, ecn. cbn. lia.
    + apply Forall_mid in Hb as He. unfold less in He. cbn in He. rewrite He, Gl. cbn [obind].
      apply Forall_app in Hb as (Hb & _). eapply IHl; [eapply tok_left; eauto|lia|exact E2|auto|auto].
Qed.
Lemma count_le_loop h nil q : forall t k fuel s (a b : list entry), tok h nil k t -> length (tids t) < fuel ->
  entries t = a ++ b -> Forall (fun e => greater key cmp q e = false) a -> Forall (fun e => greater key cmp q e = true) b ->
  while fuel (fun '(ptr, c) =>
    let* n := is_nil h ptr in if (n : bool) then Some (inr c) else
    let* v := gval h ptr in
    if cmp q (key v) then let* l := glft h ptr in Some (inl (l, c))
    else let* s := gsiz h ptr in let* r := grgt h ptr in let* sr := gsiz h r in Some (inl (r, (c + (s - sr))%Z))) (rt nil t, s) = Some (s + total a)%Z.
Proof.
  induction t as [|l IHl p v c bb r IHr]; intros k fuel s a b H HF E Ha Hb; (destruct fuel as [|fuel]; [lia|]).
  - cbn [rt while]. rewrite (tok_nil_nil _ _ _ _ H). cbn [obind]. cbn in E. symmetry in E. apply app_eq_nil in E as (-> & ->). cbn. f_equal. lia.
  - rewrite tlen_node in HF. cbn [rt while]. node H. rewrite Gn. cbn [obind]. rewrite Gv. cbn [obind]. cbn [entries] in E.
    destruct (app_split _ _ _ _ _ E) as [(a' & -> & E2)|(b' & E2 & ->)].
    + apply Forall_mid in Ha as He. unfold greater in He. cbn in He. rewrite He, Gs, Gr. cbn [obind]. rewrite Sr. cbn [obind].
      apply Forall_app in Ha as (_ & Ha). inversion Ha; subst.
      rewrite (IHr _ fuel (s + (tsz (Node l p v c bb r) - tsz r))%Z a' b (tok_right _ _ _ _ _ _ _ _ _ H)); [|lia|auto|auto|auto].
      f_equal. rewrite total_app, total_cons, tsz_node. unfold tsz, ecn. cbn. lia.
    + apply Forall_mid in Hb as He. unfold greater in He. cbn in He. rewrite He, Gl. cbn [obind].
      apply Forall_app in Hb as (Hb & _). eapply IHl; [eapply tok_left; eauto|lia|exact E2|auto|auto].
Qed.
Lemma find_loop d h nil q : forall t k fuel res (a m b : list entry), tok h nil k t -> length (tids t) < fuel ->
  entries t = a ++ m ++ b -> Forall (fun e => less key cmp q e = true) a -> Forall (fun e => equiv key cmp q e = true) m ->
  Forall (fun e => less key cmp q e = false /\ greater key cmp q e = true) b -> (d = STORE \/ length m <= 1) ->
  while fuel (fun '(ptr, res) =>
    let* n := is_nil h ptr in if (n : bool) then Some (inr res) else
    let* v := gval h ptr in
    if cmp (key v) q then let* r := grgt h ptr in Some (inl (r, res)) else
    if cmp q (key v) then let* l := glft h ptr in Some (inl (l, res)) else
    match d with STORE => let* l := glft h ptr in Some (inl (l, ptr)) | _ => Some (inr ptr) end) (rt nil t, res) = Some (first_it res m).
Proof.
  induction t as [|l IHl p v c bb r IHr]; intros k fuel res a m b H HF E Ha Hm Hb Hd; (destruct fuel as [|fuel]; [lia|]).
  - cbn [rt while]. rewrite (tok_nil_nil _ _ _ _ H). cbn [obind]. cbn in E. symmetry in E. apply app_eq_nil in E as (-> & E). apply app_eq_nil in E as (-> & ->). reflexivity.
  - rewrite tlen_node in HF. cbn [rt while]. node H. rewrite Gn. cbn [obind]. rewrite Gv. cbn [obind]. cbn [entries] in E.
    destruct (app_split _ _ _ _ _ E) as [(a' & -> & E2)|(b' & E2 & E3)].
    + apply Forall_mid in Ha as He. unfold less in He. cbn in He. rewrite He, Gr. cbn [obind].
      apply Forall_app in Ha as (_ & Ha). inversion Ha; subst. eapply IHr; [eapply tok_right; eauto|lia|exact E2|auto|auto|auto|auto].
    + symmetry in E3. destruct (app_split _ _ _ _ _ E3) as [(m' & -> & E4)|(b2 & -> & ->)].
      * apply Forall_mid in Hm as He. unfold equiv in He. cbn in He. apply andb_true_iff in He as (He1 & He2). apply negb_true_iff in He1, He2. rewrite He1, He2.
        assert (Hs : d = STORE \/ b' = [] /\ d <> STORE).
        { destruct d; auto; right; split; try discriminate; (destruct Hd as [Hd|Hd]; [discriminate|]); rewrite app_length in Hd; cbn in Hd; destruct b'; auto; cbn in Hd; lia. }
        rewrite first_it_app. destruct Hs as [->|(-> & Hs)].
        -- rewrite Gl. cbn [obind]. apply Forall_app in Hm as (Hm & _). eapply (IHl _ fuel p a b' []); [eapply tok_left; eauto|lia|rewrite app_nil_r; exact E2|auto|auto|auto|auto].
        -- destruct d; try reflexivity. congruence.
      * apply Forall_mid in Hb as He. unfold less, greater in He. cbn in He. destruct He as (He1 & He2). rewrite He1, He2, Gl. cbn [obind].
        apply Forall_app in Hb as (Hb & _). eapply IHl; [eapply tok_left; eauto|lia|exact E2|auto|auto|auto|auto].
Qed.
Lemma at_pos_neg nil k (es : list entry) : (k < 0)%Z -> at_pos nil k es = nil.
Proof. intros H. destruct es as [|e es]; [reflexivity|]. cbn. destruct (Z.ltb_spec k 0); [reflexivity|lia]. Qed.
Lemma total_pos (es : list entry) : pos_counts es -> (0 <= total es)%Z.
Proof. induction 1; [cbn; lia|]. rewrite total_cons. lia. Qed.
Lemma at_pos_app nil (a : list entry) : forall k b, pos_counts a -> at_pos nil k (a ++ b) = if (k <? total a)%Z then at_pos nil k a else at_pos nil (k - total a) b.
Proof.
  induction a as [|e a IH]; intros k b H.
  - cbn. destruct (Z.ltb_spec k 0); [now apply at_pos_neg|]. f_equal. lia.
  - inversion H as [|? ? H1 H2]; subst. pose proof (total_pos a H2). cbn [app at_pos]. rewrite total_cons.
    destruct (Z.ltb_spec k 0).
    + destruct (Z.ltb_spec k (ecn e + total a)); [reflexivity|lia].
    + destruct (Z.ltb_spec k (ecn e)).
      * destruct (Z.ltb_spec k (ecn e + total a)); [reflexivity|lia].
      * rewrite IH by auto. destruct (Z.ltb_spec (k - ecn e) (total a)); destruct (Z.ltb_spec k (ecn e + total a)); try lia. f_equal. lia.
Qed.
Lemma kth_loop h nil : forall t k fuel n, tok h nil k t -> length (tids t) < fuel -> pos_counts (entries t) ->
  while fuel (fun '(ptr, k) =>
    let* n := is_nil h ptr in
    if (n : bool) then Some (inr ptr) else
    let* l := glft h ptr in let* sl := gsiz h l in
    if (k <? sl)%Z then Some (inl (l, k)) else
    let* s := gsiz h ptr in let* r := grgt h ptr in let* sr := gsiz h r in
    let k := (k - (s - sr))%Z in
    if (0 <=? k)%Z then Some (inl (r, k)) else Some (inr ptr)) (rt nil t, n) = Some (at_pos nil n (entries t)).
Proof.
  induction t as [|l IHl p v c bb r IHr]; intros k fuel n H HF HP; (destruct fuel as [|fuel]; [lia|]).
  - cbn [rt while]. rewrite (tok_nil_nil _ _ _ _ H). reflexivity.
  - rewrite tlen_node in HF. cbn [rt while]. node H. rewrite Gn. cbn [obind]. rewrite Gl. cbn [obind]. rewrite Sl. cbn [obind]. cbn [entries] in HP |- *.
    apply Forall_app in HP as (P1 & P2). inversion P2 as [|? ? P3 P4]; subst. cbn in P3. rewrite at_pos_app by exact P1. fold (tsz l).
    destruct (Z.ltb_spec n (tsz l)) as [L|L].
    + apply (IHl _ fuel n (tok_left _ _ _ _ _ _ _ _ _ H)); [lia|exact P1].
    + rewrite Gs, Gr. cbn [obind]. rewrite Sr. cbn [obind]. rewrite tsz_node. cbn [at_pos]. unfold ecn at 1 2, eid at 1. cbn [fst snd].
      destruct (Z.ltb_spec (n - tsz l) 0); [lia|].
      destruct (Z.leb_spec 0 (n - (tsz l + (c + tsz r) - tsz r))); destruct (Z.ltb_spec (n - tsz l) c); try lia; [|reflexivity].
      replace (n - (tsz l + (c + tsz r) - tsz r))%Z with (n - tsz l - c)%Z by lia.
      apply (IHr _ fuel _ (tok_right _ _ _ _ _ _ _ _ _ H)); [lia|exact P4].
Qed.

(** next and previous *)
Lemma rt_ne h nil k t f : tok h nil (f :: k) t -> t <> Leaf -> (rt nil t =? rt nil (fs f)) = false.
Proof.
  intros (_ & _ & _ & H & _) N. apply Nat.eqb_neq. intro E. specialize (H (rt nil t)). cbn [cids occ] in H. rewrite occ_app in H.
  destruct (rt_in nil t) as [(-> & _)|E1]; [congruence|]. destruct (rt_in nil (fs f)) as [(_ & E2)|E2].
  - rewrite E2 in E. rewrite E in H, E1. rewrite Nat.eqb_refl in H. cbn in H. lia.
  - rewrite <- E in E2. lia.
Qed.
Lemma leftmost_loop h nil : forall l k fuel p v c b r, tok h nil k (Node l p v c b r) -> length (tids l) < fuel ->
  while fuel (fun ptr => let* ch := glft h ptr in let* n := is_nil h ch in Some (if negb n then inl ch else inr ptr)) p = Some (first_it nil (entries (Node l p v c b r))).
Proof.
  induction l as [|l1 IH q w d e r1 _]; intros k fuel p v c b r H HF; (destruct fuel as [|fuel]; [cbn in HF; lia|]).
  - cbn [while]. node H. rewrite Gl. cbn [obind rt]. rewrite (tok_nil_nil _ _ _ _ H). reflexivity.
  - cbn [while]. node H. rewrite Gl. cbn [obind rt]. pose proof (tok_left _ _ _ _ _ _ _ _ _ H) as H2. rewrite (tok_is_nil _ _ _ _ _ _ _ _ _ H2). cbn [obind negb].
    rewrite tlen_node in HF. rewrite (IH _ fuel q w d e r1 H2) by lia. cbn [entries]. rewrite !first_it_app. reflexivity.
Qed.
Lemma next_up_loop h nil : forall k t fuel, tok h nil k t -> t <> Leaf -> length k < fuel ->
  while fuel (fun ch => let* ptr := gpar h ch in let* l := glft h ptr in Some (if negb (ch =? l) then inl ptr else inr ptr)) (rt nil t) = Some (first_it nil (cright k)).
Proof.
  induction k as [|f k IH]; intros t fuel H N HF; (destruct fuel as [|fuel]; [cbn in HF; lia|]); (destruct t as [|l p v c b r]; [congruence|]); cbn [while rt]; node H; rewrite Gp; cbn [obind ctop].
  - destruct (tok_nil _ _ _ _ H) as (_ & -> & _). cbn [obind croot rt]. rewrite Nat.eqb_refl. reflexivity.
  - assert (H2 : tok h nil k (up f (Node l p v c b r))) by (eapply tok_move; [|exact H]; reflexivity).
    pose proof (rt_ne _ _ _ _ _ H N) as NE. pose proof H2 as H3. unfold up in H3.
    assert (Gf : glft h (fp f) = Some (if fl f then p else rt nil (fs f))) by (destruct (fl f); apply (tok_get _ _ _ _ _ _ _ _ _ H3)).
    rewrite Gf. cbn [obind cright]. destruct (fl f) eqn:F.
    + rewrite Nat.eqb_refl. reflexivity.
    + cbn [rt] in NE. rewrite NE. cbn [negb]. rewrite <- (IH (up f (Node l p v c b r)) fuel H2).
      * rewrite rt_up. reflexivity.
      * unfold up. rewrite F. discriminate.
      * cbn in HF. lia.
Qed.
Lemma last_it_app nil (a : list entry) e a' : last_it nil (a ++ e :: a') = last_it (eid e) a'.
Proof. unfold last_it. rewrite rev_app_distr. cbn [rev]. rewrite <- app_assoc. cbn [app]. now rewrite first_it_app. Qed.
Lemma last_it_nonempty n1 n2 (b : list entry) : b <> [] -> last_it n1 b = last_it n2 b.
Proof. intro H. apply first_it_nonempty. intro E. apply H. rewrite <- (rev_involutive b), E. reflexivity. Qed.
Lemma last_it_app2 nil (a b : list entry) : b <> [] -> last_it nil (a ++ b) = last_it nil b.
Proof. intro H. destruct b as [|e b _] using rev_ind; [congruence|]. rewrite app_assoc, !last_it_app. reflexivity. Qed.
Lemma first_it_app2 nil (a b : list entry) : a <> [] -> first_it nil (a ++ b) = first_it nil a.
Proof. destruct a; [congruence|reflexivity]. Qed.
Lemma rightmost_loop h nil : forall r k fuel l p v c b, tok h nil k (Node l p v c b r) -> length (tids r) < fuel ->
  while fuel (fun ptr => let* ch := grgt h ptr in let* n := is_nil h ch in Some (if negb n then inl ch else inr ptr)) p = Some (last_it nil (entries (Node l p v c b r))).
Proof.
  induction r as [|l1 _ q w d e r1 IH]; intros k fuel l p v c b H HF; (destruct fuel as [|fuel]; [cbn in HF; lia|]).
  - cbn [while]. node H. rewrite Gr. cbn [obind rt]. rewrite (tok_nil_nil _ _ _ _ H). cbn [obind negb entries]. rewrite last_it_app. reflexivity.
  - cbn [while]. node H. rewrite Gr. cbn [obind rt]. pose proof (tok_right _ _ _ _ _ _ _ _ _ H) as H2. rewrite (tok_is_nil _ _ _ _ _ _ _ _ _ H2). cbn [obind negb].
    rewrite tlen_node in HF. rewrite (IH _ fuel l1 q w d e H2) by lia. cbn [entries]. rewrite !last_it_app. reflexivity.
Qed.
Lemma prev_up_loop h nil : forall k t fuel, tok h nil k t -> t <> Leaf -> length k < fuel ->
  while fuel (fun ch => let* ptr := gpar h ch in let* r := grgt h ptr in Some (if negb (ch =? r) then inl ptr else inr ptr)) (rt nil t) = Some (last_it nil (cleft k)).
Proof.
  induction k as [|f k IH]; intros t fuel H N HF; (destruct fuel as [|fuel]; [cbn in HF; lia|]); (destruct t as [|l p v c b r]; [congruence|]); cbn [while rt]; node H; rewrite Gp; cbn [obind ctop].
  - destruct (tok_nil _ _ _ _ H) as (_ & _ & -> & _). cbn [obind croot rt]. rewrite Nat.eqb_refl. reflexivity.
  - assert (H2 : tok h nil k (up f (Node l p v c b r))) by (eapply tok_move; [|exact H]; reflexivity).
    pose proof (rt_ne _ _ _ _ _ H N) as NE. pose proof H2 as H3. unfold up in H3.
    assert (Gf : grgt h (fp f) = Some (if fl f then rt nil (fs f) else p)) by (destruct (fl f); apply (tok_get _ _ _ _ _ _ _ _ _ H3)).
    rewrite Gf. cbn [obind cleft]. destruct (fl f) eqn:F.
    + cbn [rt] in NE. rewrite NE. cbn [negb]. rewrite <- (IH (up f (Node l p v c b r)) fuel H2).
      * rewrite rt_up. reflexivity.
      * unfold up. rewrite F. discriminate.
      * cbn in HF. lia.
    + rewrite Nat.eqb_refl. cbn [negb]. rewrite last_it_app2 by (destruct (entries (fs f)); discriminate). rewrite last_it_app. reflexivity.
Qed.
Lemma entries_nonempty l p v c b r : entries (Node (V := V) l p v c b r) <> [].
Proof. cbn. destruct (entries l); discriminate. Qed.
Lemma next_node h nil k l p v c b r : tok h nil k (Node l p v c b r) -> inorder_next h p = Some (first_it nil (entries r ++ cright k)).
Proof.
  intro H. unfold inorder_next, loops. pose proof (tok_len _ _ _ _ H) as L. rewrite tlen_node in L. node H. rewrite Gr. cbn [obind].
  destruct r as [|rl q w d e rr].
  - cbn [rt]. rewrite (tok_nil_nil _ _ _ _ H). cbn [obind entries app].
    rewrite <- (next_up_loop h nil k _ (next h + 2) H); [reflexivity|discriminate|lia].
  - pose proof (tok_right _ _ _ _ _ _ _ _ _ H) as H2. cbn [rt]. rewrite (tok_is_nil _ _ _ _ _ _ _ _ _ H2). cbn [obind]. rewrite tlen_node in L.
    rewrite (leftmost_loop _ _ _ _ (next h + 2) _ _ _ _ _ H2) by lia. now rewrite first_it_app2 by apply entries_nonempty.
Qed.
Lemma next_nil h nil t : tok h nil [] t -> inorder_next h nil = Some (first_it nil (entries t)).
Proof.
  intro H. unfold inorder_next, loops. pose proof (tok_len _ _ _ _ H) as L. destruct (tok_nil _ _ _ _ H) as (Np & Nl & Nr & _). rewrite Nr. cbn [obind croot].
  destruct t as [|l p v c b r].
  - cbn [rt]. rewrite (tok_nil_nil _ _ _ _ H). cbn [obind entries]. rewrite Nat.add_comm. cbn [Nat.add while]. rewrite Np. cbn [obind]. rewrite Nl. cbn [obind croot rt]. rewrite Nat.eqb_refl. reflexivity.
  - cbn [rt]. rewrite (tok_is_nil _ _ _ _ _ _ _ _ _ H). cbn [obind]. rewrite tlen_node in L. rewrite (leftmost_loop _ _ _ _ (next h + 2) _ _ _ _ _ H) by lia. reflexivity.
Qed.
Lemma prev_node h nil k l p v c b r : tok h nil k (Node l p v c b r) -> inorder_prev h p = Some (last_it nil (cleft k ++ entries l)).
Proof.
  intro H. unfold inorder_prev, loops. pose proof (tok_len _ _ _ _ H) as L. rewrite tlen_node in L. node H. rewrite Gl. cbn [obind].
  destruct l as [|rl q w d e rr].
  - cbn [rt]. rewrite (tok_nil_nil _ _ _ _ H). cbn [obind entries]. rewrite app_nil_r.
    rewrite <- (prev_up_loop h nil k _ (next h + 2) H); [reflexivity|discriminate|lia].
  - pose proof (tok_left _ _ _ _ _ _ _ _ _ H) as H2. cbn [rt]. rewrite (tok_is_nil _ _ _ _ _ _ _ _ _ H2). cbn [obind]. rewrite tlen_node in L.
    rewrite (rightmost_loop _ _ _ _ (next h + 2) _ _ _ _ _ H2) by lia. now rewrite last_it_app2 by apply entries_nonempty.
Qed.
Lemma prev_nil h nil t : tok h nil [] t -> inorder_prev h nil = Some (last_it nil (entries t)).
Proof.
  intro H. unfold inorder_prev, loops. pose proof (tok_len _ _ _ _ H) as L. destruct (tok_nil _ _ _ _ H) as (Np & Nl & Nr & _). rewrite Nl. cbn [obind croot].
  destruct t as [|l p v c b r].
  - cbn [rt]. rewrite (tok_nil_nil _ _ _ _ H). cbn [obind entries]. rewrite Nat.add_comm. cbn [Nat.add while]. rewrite Np. cbn [obind]. rewrite Nr. cbn [obind croot rt]. rewrite Nat.eqb_refl. reflexivity.
  - cbn [rt]. rewrite (tok_is_nil _ _ _ _ _ _ _ _ _ H). cbn [obind]. rewrite tlen_node in L. rewrite (rightmost_loop _ _ _ _ (next h + 2) _ _ _ _ _ H) by lia. reflexivity.
Qed.

(** positions *)
Lemma total_snoc (a x : list entry) (p : nat) (v : V) c : total (a ++ x ++ [(p, v, c)]) = (total a + (total x + c))%Z.
Proof. rewrite !total_app, total_cons. unfold ecn. cbn. lia. Qed.
Lemma pos_loop h nil : forall k t fuel s, tok h nil k t -> t <> Leaf -> length k < fuel ->
  while fuel (fun '(ptr, k, was_right) =>
    let* n := is_nil h ptr in
    if (n : bool) then Some (inr (k, ptr)) else
    let* k := (if (was_right : bool) then let* s := gsiz h ptr in let* r := grgt h ptr in let* sr := gsiz h r in Some (k + (s - sr))%Z else Some k) in
    let* q := gpar h ptr in let* r := grgt h q in Some (inl (q, k, r =? ptr))) (ctop nil k, s, match k with [] => true | f :: _ => negb (fl f) end) = Some ((s + total (cleft k))%Z, nil).
Proof.
  induction k as [|f k IH]; intros t fuel s H N HF; (destruct fuel as [|fuel]; [cbn in HF; lia|]); cbn [while ctop].
  - rewrite (tok_nil_nil _ _ _ _ H). cbn. repeat f_equal. lia.
  - assert (H2 : tok h nil k (up f t)) by (eapply tok_move; [|exact H]; reflexivity).
    assert (N2 : up f t <> Leaf) by (unfold up; destruct (fl f); discriminate).
    pose proof (rt_ne _ _ _ _ _ H N) as NE. pose proof H2 as H3. unfold up in H3.
    assert (En : is_nil h (fp f) = Some false) by (destruct (fl f); apply (tok_is_nil _ _ _ _ _ _ _ _ _ H3)). rewrite En. cbn [obind].
    assert (Gf : gpar h (fp f) = Some (ctop nil k)) by (destruct (fl f); apply (tok_get _ _ _ _ _ _ _ _ _ H3)).
    assert (Es : (if negb (fl f) then let* s0 := gsiz h (fp f) in let* r := grgt h (fp f) in let* sr := gsiz h r in Some (s + (s0 - sr))%Z else Some s)
       = Some (if fl f then s else s + (tsz (fs f) + fc f))%Z).
    { destruct (fl f); [reflexivity|]. cbn [negb]. node H3. rewrite Gs, Gr. cbn [obind]. rewrite Sr. cbn [obind]. rewrite tsz_node. f_equal. lia. }
    rewrite Es. cbn [obind]. rewrite Gf. cbn [obind].
    assert (Gq : exists r, grgt h (ctop nil k) = Some r /\ (k <> [] -> (r =? fp f) = match k with [] => true | g :: _ => negb (fl g) end)).
    { destruct k as [|g k].
      - destruct (tok_nil _ _ _ _ H2) as (_ & _ & E & _). cbn [ctop]. eexists. split; [exact E|congruence].
      - assert (H4 : tok h nil k (up g (up f t))) by (eapply tok_move; [|exact H2]; reflexivity). unfold up at 1 in H4. pose proof (rt_ne _ _ _ _ _ H2 N2) as NE2. rewrite rt_up in NE2. cbn [ctop].
        destruct (fl g); node H4; eexists; (split; [exact Gr|]); intros _; [rewrite Nat.eqb_sym; exact NE2|rewrite rt_up; apply Nat.eqb_refl]. }
    destruct Gq as (r & -> & Er). cbn [obind].
    assert (IHH := IH (up f t) fuel (if fl f then s else s + (tsz (fs f) + fc f))%Z H2 N2 ltac:(cbn in HF; lia)).
    destruct k as [|g k].
    + destruct fuel as [|fuel]; [cbn in HF; lia|]. cbn [while ctop]. rewrite (tok_nil_nil _ _ _ _ H). cbn [obind cleft].
      destruct (fl f); cbn [app]; [cbn; repeat f_equal; lia|]. rewrite total_app. unfold tsz, ecn. cbn. repeat f_equal. lia.
    + rewrite (Er ltac:(discriminate)). rewrite IHH. cbn [cleft]. destruct (fl f); [reflexivity|]. rewrite (total_snoc (match fl g with true => cleft k | false => _ end)). unfold tsz. do 2 f_equal. lia.
Qed.
Lemma pos_node h nil k l p v c b r : tok h nil k (Node l p v c b r) -> inorder_pos h p = Some (total (cleft k ++ entries l), nil).
Proof.
  intros H. unfold inorder_pos, loops. pose proof (tok_len _ _ _ _ H) as L. rewrite tlen_node in L. node H. rewrite Gl. cbn [obind]. rewrite Sl. cbn [obind].
  replace (next h + 2) with (S (next h + 1)) by lia. cbn [while]. rewrite Gn. cbn [obind]. rewrite Gp. cbn [obind].
  assert (N : Node l p v c b r <> Leaf) by discriminate.
  assert (Gq : exists r0, grgt h (ctop nil k) = Some r0 /\ (k <> [] -> (r0 =? p) = match k with [] => true | g :: _ => negb (fl g) end)).
  { destruct k as [|g k].
    - destruct (tok_nil _ _ _ _ H) as (_ & _ & E & _). cbn [ctop]. eexists. split; [exact E|congruence].
    - assert (H4 : tok h nil k (up g (Node l p v c b r))) by (eapply tok_move; [|exact H]; reflexivity). unfold up at 1 in H4. pose proof (rt_ne _ _ _ _ _ H N) as NE2. cbn [rt] in NE2. cbn [ctop].
      clear - H4 NE2. destruct (fl g); node H4; eexists; (split; [exact Gr|]); intros _; [rewrite Nat.eqb_sym; exact NE2|apply Nat.eqb_refl]. }
  destruct Gq as (r0 & -> & Er). cbn [obind]. assert (IHH := pos_loop h nil k _ (next h + 1) (tsz l) H N ltac:(lia)).
  destruct k as [|g k].
  - rewrite Nat.add_1_r. cbn [while ctop]. rewrite (tok_nil_nil _ _ _ _ H). reflexivity.
  - rewrite (Er ltac:(discriminate)), IHH. rewrite total_app. unfold tsz. do 2 f_equal. lia.
Qed.
Lemma pos_nil h nil t : tok h nil [] t -> inorder_pos h nil = Some (total (entries t), nil).
Proof.
  intros H. unfold inorder_pos, loops. destruct (tok_nil _ _ _ _ H) as (_ & -> & _). cbn [obind croot]. rewrite (tok_rt_siz _ _ _ _ H). cbn [obind].
  replace (next h + 2) with (S (S (next h))) by lia. cbn [while]. rewrite (tok_nil_nil _ _ _ _ H). reflexivity.
Qed.
End P.
