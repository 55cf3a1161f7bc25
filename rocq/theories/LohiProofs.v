From Verif Require Import Lib LohiModel LohiSpec.
Open Scope nat_scope.

Section Cells.
Context {T : Type}.
Variable dflt : T.
(** a pair of entries stands for the content of a key *)
Definition cell (c : option nat) (v : option T) (x : option T) (er : Prop) : Prop :=
  c = Some (size1 x) /\ exists w, v = Some w /\ (forall y, x = Some y -> w = y) /\ (x = None -> ~ er -> w = dflt).
Lemma get_set {A} (l : list A) i x : i < length l -> exists l', set_nth l i x = Some l' /\ length l' = length l /\ forall j, nth_error l' j = if i =? j then Some x else nth_error l j.
Proof. intros H. destruct (set_nth_some l i x H) as (l' & E). exists l'. split; [exact E|]. split; [apply (set_nth_length _ _ _ _ E)|]. intros j. apply (set_nth_get _ _ _ _ j E). Qed.
Lemma lt_of_some {A} (l : list A) i x : nth_error l i = Some x -> i < length l.
Proof. intros H. apply nth_error_Some. congruence. Qed.

(** one step of a structure on the cells of a key: what both maps have in common. cnt and tbl are the lists, i the index of the key *)
Definition cells_ok (cnt : list nat) (tbl : list T) (i : nat) (x : option T) (er : Prop) : Prop := cell (nth_error cnt i) (nth_error tbl i) x er.
Lemma cells_lt cnt tbl i x er : cells_ok cnt tbl i x er -> i < length cnt /\ i < length tbl.
Proof. intros (A & w & B & _). split; eapply lt_of_some; eassumption. Qed.

(** * lohi_map *)
Definition linv (s : @lohi T) (m : fmap) (er : list nat) : Prop :=
  (forall k, k <= lmax s -> cells_ok (lcnt s) (ltbl s) k (m k) (In k er)) /\ (forall k, lmax s < k -> lhi s k = m k).
Lemma linv_new ml : linv (lohi_new dflt ml) (fun _ => None) [].
Proof.
  split; [|reflexivity]. intros k Hk. cbn in *. split; cbn.
  - apply nth_error_repeat. lia.
  - exists dflt. split; [apply nth_error_repeat; lia|]. split; [discriminate|reflexivity].
Qed.
(** changing the entries of one low key *)
Lemma linv_low s m er k c t x er' : linv s m er -> k <= lmax s -> (forall j, nth_error c j = if k =? j then Some (size1 x) else nth_error (lcnt s) j) ->
  (exists w, (forall j, nth_error t j = if k =? j then Some w else nth_error (ltbl s) j) /\ (forall y, x = Some y -> w = y) /\ (x = None -> ~ In k er' -> w = dflt)) -> (forall j, In j er -> In j er') -> (forall j, j <> k -> In j er' -> In j er) ->
  linv {| lmax := lmax s; lcnt := c; ltbl := t; lhi := lhi s |} (put m k x) er'.
Proof.
  intros (I1 & I2) Hk Hc (w & Ht & Hw & Hd) He He2. split; cbn [lmax lcnt ltbl lhi].
  - intros j Hj. unfold cells_ok. rewrite Hc, Ht. unfold put. destruct (Nat.eqb_spec k j) as [<-|N].
    + split; [reflexivity|]. eauto.
    + destruct (I1 j Hj) as (A & u & B & C & D). split; [exact A|]. exists u. split; [exact B|]. split; [exact C|]. intros H1 H2. apply D; auto.
  - intros j Hj. unfold put. destruct (Nat.eqb_spec k j); [lia|now apply I2].
Qed.
Lemma linv_high s m er k x er' : linv s m er -> lmax s < k -> (forall j, j <> k -> In j er <-> In j er') -> linv {| lmax := lmax s; lcnt := lcnt s; ltbl := ltbl s; lhi := upd (lhi s) k x |} (put m k x) er'.
Proof.
  intros (I1 & I2) Hk He. split; cbn [lmax lcnt ltbl lhi].
  - intros j Hj. unfold put. destruct (Nat.eqb_spec k j); [lia|]. destruct (I1 j Hj) as (A & u & B & C & D). split; [exact A|]. exists u. split; [exact B|]. split; [exact C|]. intros H1 H2. apply D; auto. rewrite He by lia. exact H2.
  - intros j Hj. unfold put, upd. destruct (Nat.eqb_spec k j); [reflexivity|now apply I2].
Qed.
Lemma same_get {A} (l : list A) k x : nth_error l k = Some x -> forall j, nth_error l j = if k =? j then Some x else nth_error l j.
Proof. intros H j. destruct (Nat.eqb_spec k j) as [<-|]; auto. Qed.
Lemma linv_ext s m m' er er' : linv s m er -> (forall k, m k = m' k) -> (forall j, In j er -> In j er') -> linv s m' er'.
Proof.
  intros (I1 & I2) H He. split.
  - intros k Hk. rewrite <- H. destruct (I1 k Hk) as (A & u & B & C & D). split; [exact A|]. exists u. split; [exact B|]. split; [exact C|]. intros H1 H2. apply D; auto.
  - intros k Hk. rewrite <- H. now apply I2.
Qed.
Lemma put_same (m : fmap (T := T)) k x : m k = x -> forall j, put m k x j = m j.
Proof. intros H j. unfold put. destruct (Nat.eqb_spec k j) as [<-|]; auto. Qed.

Lemma lohi_step_ok s m er o : linv s m er -> match o with MRead k => m k <> None \/ ~ In k er \/ lmax s < k | _ => True end ->
  exists s', lohi_step dflt s o = Some (s', snd (map_step dflt m o)) /\ lmax s' = lmax s /\ linv s' (fst (map_step dflt m o)) (match o with MErase k => k :: er | _ => er end).
Proof.
  intros I H. pose proof I as (I1 & I2). unfold lohi_step. destruct o as [k v|k v|k|k]; cbn [map_step].
  - unfold lohi_insert. destruct (Nat.leb_spec k (lmax s)) as [C|C].
    + destruct (I1 k C) as (A & u & B & D & E). destruct (cells_lt _ _ _ _ _ (I1 k C)) as (L1 & L2). rewrite A. cbn [obind]. destruct (m k) as [x|] eqn:Em; cbn [size1 Nat.eqb negb obind].
      * exists s. auto.
      * destruct (get_set (ltbl s) k v L2) as (t & -> & T1 & T2). destruct (get_set (lcnt s) k 1 L1) as (c & -> & C1 & C2). cbn [obind]. eexists. split; [reflexivity|]. split; [reflexivity|]. apply (linv_low s m er); auto. exists v. split; [exact T2|]. split; [intros y [= ->]; reflexivity|discriminate].
    + rewrite (I2 k C). destruct (m k) as [x|] eqn:Em; cbn [obind].
      * exists s. auto.
      * eexists. split; [reflexivity|]. split; [reflexivity|]. apply (linv_high s m er); [exact I|exact C|tauto].
  - unfold lohi_put, lohi_index. destruct (Nat.leb_spec k (lmax s)) as [C|C].
    + destruct (I1 k C) as (A & u & B & D & E). destruct (cells_lt _ _ _ _ _ (I1 k C)) as (L1 & L2). destruct (get_set (lcnt s) k 1 L1) as (c & -> & C1 & C2). cbn [obind]. rewrite B. cbn [obind lmax ltbl lcnt lhi]. destruct (Nat.leb_spec k (lmax s)); [|lia]. destruct (get_set (ltbl s) k v L2) as (t & -> & T1 & T2). cbn [obind fst snd]. eexists. split; [reflexivity|]. split; [reflexivity|]. apply (linv_low s m er); auto. exists v. split; [exact T2|]. split; [intros y [= ->]; reflexivity|discriminate].
    + cbn [fst snd]. destruct (lhi s k) as [y|] eqn:Ey; cbn [obind lmax ltbl lcnt lhi]; destruct (Nat.leb_spec k (lmax s)); try lia; cbn [obind]; (eexists; split; [reflexivity|]; split; [reflexivity|]).
      * apply (linv_high s m er); [exact I|exact C|tauto].
      * apply linv_ext with (m := put (put m k (Some dflt)) k (Some v)) (er := er); [|intros j; unfold put; destruct (k =? j); reflexivity|auto].
        apply (linv_high {| lmax := lmax s; lcnt := lcnt s; ltbl := ltbl s; lhi := upd (lhi s) k (Some dflt) |} (put m k (Some dflt)) er k (Some v) er); [|exact C|tauto]. apply (linv_high s m er); [exact I|exact C|tauto].
  - unfold lohi_index. destruct (Nat.leb_spec k (lmax s)) as [C|C].
    + destruct (I1 k C) as (A & u & B & D & E). destruct (cells_lt _ _ _ _ _ (I1 k C)) as (L1 & L2). destruct (get_set (lcnt s) k 1 L1) as (c & -> & C1 & C2). cbn [obind]. rewrite B. cbn [obind].
      assert (X : linv {| lmax := lmax s; lcnt := c; ltbl := ltbl s; lhi := lhi s |} (put m k (Some u)) er). { apply (linv_low s m er); auto. exists u. split; [now apply same_get|]. split; [intros y [= ->]; reflexivity|discriminate]. }
      destruct (m k) as [x|] eqn:Em.
      * specialize (D x eq_refl). subst u. cbn [fst snd]. eexists. split; [reflexivity|]. split; [reflexivity|]. apply linv_ext with (m := put m k (Some x)) (er := er); [exact X|now apply put_same|auto].
      * assert (u = dflt). { apply E; [reflexivity|]. destruct H as [H|[H|H]]; [congruence|exact H|lia]. } subst u. cbn [fst snd]. eexists. split; [reflexivity|]. split; [reflexivity|]. exact X.
    + rewrite (I2 k C). destruct (m k) as [x|] eqn:Em; cbn [obind fst snd].
      * exists s. auto.
      * eexists. split; [reflexivity|]. split; [reflexivity|]. apply (linv_high s m er); [exact I|exact C|tauto].
  - unfold lohi_erase. cbn [fst snd]. destruct (Nat.leb_spec k (lmax s)) as [C|C].
    + destruct (I1 k C) as (A & u & B & D & E). destruct (cells_lt _ _ _ _ _ (I1 k C)) as (L1 & L2). rewrite A. cbn [obind]. destruct (get_set (lcnt s) k 0 L1) as (c & -> & C1 & C2). cbn [obind]. eexists. split; [reflexivity|]. split; [reflexivity|]. apply (linv_low s m er); auto; [exists u|intros j Hj; now right|intros j Hj [->|Hj2]; [congruence|exact Hj2]]. split; [now apply same_get|]. split; [discriminate|]. intros _ Hn. exfalso. apply Hn. now left.
    + rewrite (I2 k C). cbn [obind]. eexists. split; [reflexivity|]. split; [reflexivity|]. apply (linv_high s m er); [exact I|exact C|]. intros j Hj. split; [intros Hi; now right|intros [->|Hi]; [congruence|exact Hi]].
Qed.
Lemma lohi_run_ok os : forall s m er, linv s m er -> covered dflt (fun _ => True) (fun k => lmax s < k) m er os ->
  exists s' er', run_ops (lohi_step dflt) s os = Some (s', snd (map_run dflt m os)) /\ lmax s' = lmax s /\ linv s' (fst (map_run dflt m os)) er'.
Proof.
  induction os as [|o os IH]; intros s m er I C; cbn [run_ops map_run].
  - exists s, er. auto.
  - destruct C as (_ & C1 & C2). destruct (lohi_step_ok s m er o I C1) as (s1 & E1 & M1 & J). rewrite E1. cbn [obind]. destruct (map_step dflt m o) as (m1, r) eqn:Em. cbn [fst snd] in *. rewrite <- M1 in C2. destruct (IH s1 m1 _ J C2) as (s2 & er2 & E2 & M2 & J2). rewrite E2. cbn [obind]. destruct (map_run dflt m1 os) as (m2, rs). cbn [fst snd] in *. exists s2, er2. split; [reflexivity|]. split; [congruence|exact J2].
Qed.

(** * sqrt_map *)
Lemma quot_inj mk k1 k2 ml : ml < k1 -> ml < k2 -> sqrt_key ml mk k1 -> sqrt_key ml mk k2 -> mk / k1 = mk / k2 -> k1 = k2.
Proof.
  assert (X : forall k, ml < k -> sqrt_key ml mk k -> mk / (mk / k) = k). { intros k Hk [H|(j & Hj & Ek)]; [lia|]. assert (K : 0 < k) by lia. pose proof (Nat.mul_div_le mk j ltac:(lia)) as A. rewrite <- Ek in A. assert (Ji : j <= mk / k) by (apply Nat.div_le_lower_bound; lia). pose proof (Nat.mul_div_le mk k ltac:(lia)) as B. apply Nat.le_antisymm; [rewrite Ek at 2; apply Nat.div_le_compat_l; lia|apply Nat.div_le_lower_bound; lia]. }
  intros H1 H2 S1 S2 E. rewrite <- (X k1 H1 S1), <- (X k2 H2 S2). now rewrite E.
Qed.
Definition sinv (s : @sqm T) (m : fmap) (er : list nat) : Prop :=
  0 < sml s /\ forall k, sqrt_key (sml s) (smk s) k -> if k <=? sml s then cells_ok (scl s) (stl s) k (m k) (In k er) else cells_ok (sch s) (sth s) (hidx s k) (m k) (In k er).
Lemma cell_ext c v x (er er' : Prop) : cell c v x er -> (er -> er') -> cell c v x er'.
Proof. intros (A & u & B & C & D) H. split; [exact A|]. exists u. split; [exact B|]. split; [exact C|]. intros H1 H2. apply D; auto. Qed.
Lemma sinv_new ml mk mk0 : 0 < ml -> exists s, sqm_new dflt ml mk mk0 = Some s /\ sml s = ml /\ smk s = mk /\ sinv s (fun _ => None) [].
Proof.
  intros H. unfold sqm_new, sqm_reset_max. cbn [sml]. destruct (Nat.eqb_spec ml 0); [lia|]. eexists. split; [reflexivity|]. split; [reflexivity|]. split; [reflexivity|]. split; [exact H|]. cbn [sml smk scl stl sch sth]. unfold hidx. cbn [smk]. intros k Hk. destruct (Nat.leb_spec k ml) as [C|C].
  - split; [apply nth_error_repeat; lia|]. exists dflt. split; [apply nth_error_repeat; lia|]. split; [discriminate|reflexivity].
  - assert (B : mk / k < mk / ml + 1) by (pose proof (Nat.div_le_compat_l mk ml k ltac:(lia)); lia). split; [now apply nth_error_repeat|]. exists dflt. split; [|split; [discriminate|reflexivity]]. unfold vresize. rewrite firstn_nil. cbn [app length]. apply nth_error_repeat. lia.
Qed.
Lemma sinv_reset s m er mk : sinv s m er -> exists s', sqm_reset_max dflt s mk = Some s' /\ sml s' = sml s /\ smk s' = mk /\ sinv s' (fun k => if k <=? sml s then m k else None) (er ++ seq (sml s + 1) mk).
Proof.
  intros (S1 & S2). unfold sqm_reset_max. destruct (Nat.eqb_spec (sml s) 0); [lia|]. eexists. split; [reflexivity|]. split; [reflexivity|]. split; [reflexivity|]. split; [exact S1|]. cbn [sml smk scl stl sch sth]. unfold hidx. cbn [smk]. intros k Hk. destruct (Nat.leb_spec k (sml s)) as [C|C].
  - specialize (S2 k (or_introl C)). destruct (Nat.leb_spec k (sml s)); [|lia]. eapply cell_ext; [exact S2|]. intros Hi. apply in_or_app. now left.
  - assert (B : mk / k < mk / sml s + 1) by (pose proof (Nat.div_le_compat_l mk (sml s) k ltac:(lia)); lia). split; [now apply nth_error_repeat|]. assert (Lv : length (vresize dflt (sth s) (mk / sml s + 1)) = mk / sml s + 1) by (unfold vresize; rewrite app_length, firstn_length, repeat_length; lia). destruct (nth_error (vresize dflt (sth s) (mk / sml s + 1)) (mk / k)) as [w|] eqn:Ew; [|apply nth_error_None in Ew; lia]. exists w. split; [reflexivity|]. split; [discriminate|]. intros _ Hn. exfalso. apply Hn. apply in_or_app. right. apply in_seq. destruct Hk as [Hk|(j & Hj & ->)]; [lia|]. assert (mk / j <= mk) by (apply Nat.div_le_upper_bound; nia). lia.
Qed.
(** updating the entries of one key *)
Lemma sinv_low s m er k c t x er' : sinv s m er -> k <= sml s -> (forall j, nth_error c j = if k =? j then Some (size1 x) else nth_error (scl s) j) ->
  (exists w, (forall j, nth_error t j = if k =? j then Some w else nth_error (stl s) j) /\ (forall y, x = Some y -> w = y) /\ (x = None -> ~ In k er' -> w = dflt)) -> (forall j, In j er -> In j er') -> sinv (put_cl (put_tl s t) c) (put m k x) er'.
Proof.
  intros (S1 & S2) Hk Hc (w & Ht & Hw & Hd) He. split; [exact S1|]. cbn [sml smk scl stl sch sth put_cl put_tl]. intros j Hj. specialize (S2 j Hj). unfold put. destruct (Nat.leb_spec j (sml s)) as [C|C].
  - unfold cells_ok. rewrite Hc, Ht. destruct (Nat.eqb_spec k j) as [<-|N]; [split; eauto|]. eapply cell_ext; [exact S2|auto].
  - destruct (Nat.eqb_spec k j); [lia|]. eapply cell_ext; [exact S2|auto].
Qed.
Lemma sinv_high s m er k c t x er' : sinv s m er -> sml s < k -> sqrt_key (sml s) (smk s) k -> (forall j, nth_error c j = if hidx s k =? j then Some (size1 x) else nth_error (sch s) j) ->
  (exists w, (forall j, nth_error t j = if hidx s k =? j then Some w else nth_error (sth s) j) /\ (forall y, x = Some y -> w = y) /\ (x = None -> ~ In k er' -> w = dflt)) -> (forall j, In j er -> In j er') -> sinv (put_ch (put_th s t) c) (put m k x) er'.
Proof.
  intros (S1 & S2) Hk Sk Hc (w & Ht & Hw & Hd) He. split; [exact S1|]. cbn [sml smk scl stl sch sth put_ch put_th]. intros j Hj. specialize (S2 j Hj). unfold put. destruct (Nat.leb_spec j (sml s)) as [C|C].
  - destruct (Nat.eqb_spec k j); [lia|]. eapply cell_ext; [exact S2|auto].
  - unfold cells_ok. change (hidx (put_ch (put_th s t) c) j) with (hidx s j). rewrite Hc, Ht. destruct (Nat.eqb_spec (hidx s k) (hidx s j)) as [E|N].
    + assert (k = j) by (apply (quot_inj (smk s) k j (sml s)); auto). subst j. rewrite !Nat.eqb_refl. split; [reflexivity|]. exists w. auto.
    + destruct (Nat.eqb_spec k j) as [->|]; [congruence|]. eapply cell_ext; [exact S2|auto].
Qed.
Lemma sinv_ext s m m' er er' : sinv s m er -> (forall k, m k = m' k) -> (forall j, In j er -> In j er') -> sinv s m' er'.
Proof.
  intros (S1 & S2) H He. split; [exact S1|]. intros k Hk. specialize (S2 k Hk). rewrite <- H. destruct (k <=? sml s); (eapply cell_ext; [exact S2|auto]).
Qed.
Lemma put_tl_id (s : @sqm T) : put_tl s (stl s) = s. Proof. now destruct s. Qed.
Lemma put_th_id (s : @sqm T) : put_th s (sth s) = s. Proof. now destruct s. Qed.

Lemma sqm_step_ok s m er o : sinv s m er -> sqrt_key (sml s) (smk s) (key_of o) -> match o with MRead k => m k <> None \/ ~ In k er \/ False | _ => True end ->
  exists s', sqm_step s o = Some (s', snd (map_step dflt m o)) /\ sml s' = sml s /\ smk s' = smk s /\ sinv s' (fst (map_step dflt m o)) (match o with MErase k => k :: er | _ => er end).
Proof.
  intros I K H. pose proof I as (I1 & I2). unfold sqm_step. specialize (I2 _ K). destruct o as [k v|k v|k|k]; cbn [map_step key_of] in *.
  - unfold sqm_insert. destruct (Nat.leb_spec k (sml s)) as [C|C].
    + destruct I2 as (A & u & B & D & E). pose proof (lt_of_some _ _ _ A) as L1. pose proof (lt_of_some _ _ _ B) as L2. rewrite A. cbn [obind]. destruct (m k) as [x|] eqn:Em; cbn [size1 Nat.eqb negb obind]; [exists s; auto|].
      destruct (get_set (stl s) k v L2) as (t & -> & T1 & T2). destruct (get_set (scl s) k 1 L1) as (c & -> & C1 & C2). cbn [obind fst snd]. eexists. split; [reflexivity|]. split; [reflexivity|]. split; [reflexivity|]. apply (sinv_low s m er); auto. exists v. split; [exact T2|]. split; [intros y [= ->]; reflexivity|discriminate].
    + destruct I2 as (A & u & B & D & E). pose proof (lt_of_some _ _ _ A) as L1. pose proof (lt_of_some _ _ _ B) as L2. rewrite A. cbn [obind]. destruct (m k) as [x|] eqn:Em; cbn [size1 Nat.eqb negb obind]; [exists s; auto|].
      destruct (get_set (sth s) (hidx s k) v L2) as (t & -> & T1 & T2). destruct (get_set (sch s) (hidx s k) 1 L1) as (c & -> & C1 & C2). cbn [obind fst snd]. eexists. split; [reflexivity|]. split; [reflexivity|]. split; [reflexivity|]. apply (sinv_high s m er); auto. exists v. split; [exact T2|]. split; [intros y [= ->]; reflexivity|discriminate].
  - unfold sqm_put, sqm_index, sqm_el_set. cbn [fst snd]. destruct (Nat.leb_spec k (sml s)) as [C|C].
    + destruct I2 as (A & u & B & D & E). pose proof (lt_of_some _ _ _ A) as L1. pose proof (lt_of_some _ _ _ B) as L2. destruct (get_set (scl s) k 1 L1) as (c & -> & C1 & C2). cbn [obind]. rewrite B. cbn [obind]. change (sml (put_cl s c)) with (sml s). change (stl (put_cl s c)) with (stl s). destruct (Nat.leb_spec k (sml s)); [|lia]. destruct (get_set (stl s) k v L2) as (t & -> & T1 & T2). cbn [obind]. eexists. split; [reflexivity|]. split; [reflexivity|]. split; [reflexivity|].
      apply (sinv_low s m er k c t (Some v) er); auto. exists v. split; [exact T2|]. split; [intros y [= ->]; reflexivity|discriminate].
    + destruct I2 as (A & u & B & D & E). pose proof (lt_of_some _ _ _ A) as L1. pose proof (lt_of_some _ _ _ B) as L2. destruct (get_set (sch s) (hidx s k) 1 L1) as (c & -> & C1 & C2). cbn [obind]. rewrite B. cbn [obind]. change (sml (put_ch s c)) with (sml s). change (sth (put_ch s c)) with (sth s). change (hidx (put_ch s c) k) with (hidx s k). destruct (Nat.leb_spec k (sml s)); [lia|]. destruct (get_set (sth s) (hidx s k) v L2) as (t & -> & T1 & T2). cbn [obind]. eexists. split; [reflexivity|]. split; [reflexivity|]. split; [reflexivity|].
      apply (sinv_high s m er k c t (Some v) er); auto. exists v. split; [exact T2|]. split; [intros y [= ->]; reflexivity|discriminate].
  - unfold sqm_index. destruct (Nat.leb_spec k (sml s)) as [C|C].
    + destruct I2 as (A & u & B & D & E). pose proof (lt_of_some _ _ _ A) as L1. pose proof (lt_of_some _ _ _ B) as L2. destruct (get_set (scl s) k 1 L1) as (c & -> & C1 & C2). cbn [obind]. rewrite B. cbn [obind].
      assert (X : sinv (put_cl s c) (put m k (Some u)) er). { rewrite <- (put_tl_id s) at 1. apply (sinv_low s m er k c (stl s) (Some u) er); auto. exists u. split; [now apply same_get|]. split; [intros y [= ->]; reflexivity|discriminate]. }
      destruct (m k) as [x|] eqn:Em.
      * specialize (D x eq_refl). subst u. cbn [fst snd]. eexists. split; [reflexivity|]. split; [reflexivity|]. split; [reflexivity|]. apply sinv_ext with (m := put m k (Some x)) (er := er); [exact X|now apply put_same|auto].
      * assert (u = dflt) by (apply E; [reflexivity|destruct H as [H|[H|[]]]; [congruence|exact H]]). subst u. cbn [fst snd]. eexists. split; [reflexivity|]. split; [reflexivity|]. split; [reflexivity|]. exact X.
    + destruct I2 as (A & u & B & D & E). pose proof (lt_of_some _ _ _ A) as L1. pose proof (lt_of_some _ _ _ B) as L2. destruct (get_set (sch s) (hidx s k) 1 L1) as (c & -> & C1 & C2). cbn [obind]. rewrite B. cbn [obind].
      assert (X : sinv (put_ch s c) (put m k (Some u)) er). { rewrite <- (put_th_id s) at 1. apply (sinv_high s m er k c (sth s) (Some u) er); auto. exists u. split; [now apply same_get|]. split; [intros y [= ->]; reflexivity|discriminate]. }
      destruct (m k) as [x|] eqn:Em.
      * specialize (D x eq_refl). subst u. cbn [fst snd]. eexists. split; [reflexivity|]. split; [reflexivity|]. split; [reflexivity|]. apply sinv_ext with (m := put m k (Some x)) (er := er); [exact X|now apply put_same|auto].
      * assert (u = dflt) by (apply E; [reflexivity|destruct H as [H|[H|[]]]; [congruence|exact H]]). subst u. cbn [fst snd]. eexists. split; [reflexivity|]. split; [reflexivity|]. split; [reflexivity|]. exact X.
  - unfold sqm_erase. cbn [fst snd]. destruct (Nat.leb_spec k (sml s)) as [C|C].
    + destruct I2 as (A & u & B & D & E). pose proof (lt_of_some _ _ _ A) as L1. rewrite A. cbn [obind]. destruct (get_set (scl s) k 0 L1) as (c & -> & C1 & C2). cbn [obind]. eexists. split; [reflexivity|]. split; [reflexivity|]. split; [reflexivity|]. rewrite <- (put_tl_id s) at 1. apply (sinv_low s m er k c (stl s) None (k :: er)); auto; [|intros j Hj; now right]. exists u. split; [now apply same_get|]. split; [discriminate|]. intros _ Hn. exfalso. apply Hn. now left.
    + destruct I2 as (A & u & B & D & E). pose proof (lt_of_some _ _ _ A) as L1. rewrite A. cbn [obind]. destruct (get_set (sch s) (hidx s k) 0 L1) as (c & -> & C1 & C2). cbn [obind]. eexists. split; [reflexivity|]. split; [reflexivity|]. split; [reflexivity|]. rewrite <- (put_th_id s) at 1. apply (sinv_high s m er k c (sth s) None (k :: er)); auto; [|intros j Hj; now right]. exists u. split; [now apply same_get|]. split; [discriminate|]. intros _ Hn. exfalso. apply Hn. now left.
Qed.
Lemma sqm_run_ok os : forall s m er, sinv s m er -> covered dflt (sqrt_key (sml s) (smk s)) (fun _ => False) m er os ->
  exists s' er', run_ops sqm_step s os = Some (s', snd (map_run dflt m os)) /\ sml s' = sml s /\ smk s' = smk s /\ sinv s' (fst (map_run dflt m os)) er'.
Proof.
  induction os as [|o os IH]; intros s m er I C; cbn [run_ops map_run].
  - exists s, er. auto.
  - destruct C as (C0 & C1 & C2). destruct (sqm_step_ok s m er o I C0 C1) as (s1 & E1 & M1 & M1' & J). rewrite E1. cbn [obind]. destruct (map_step dflt m o) as (m1, r) eqn:Em. cbn [fst snd] in *. rewrite <- M1, <- M1' in C2. destruct (IH s1 m1 _ J C2) as (s2 & er2 & E2 & M2 & M2' & J2). rewrite E2. cbn [obind]. destruct (map_run dflt m1 os) as (m2, rs). cbn [fst snd] in *. exists s2, er2. split; [reflexivity|]. split; [congruence|]. split; [congruence|exact J2].
Qed.
End Cells.
