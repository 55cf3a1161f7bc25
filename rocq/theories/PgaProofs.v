(** The classes of pga.h as elements of the algebra: sums, products and duals. *)
From Coq Require Import ZArith List PeanoNat Lia Ring_theory Ring.
From Verif Require Import Lib RingSpec GaSpec PgaModel PgaSpec.
Import ListNotations.

Section P.
  Context {T : Type} (zero one : T) (add mul sub : T -> T -> T) (opp : T -> T).
  Hypothesis Rth : ring_theory zero one add mul sub opp (@eq T).
  Add Ring R : Rth.
  Notation blade := (@blade T).
  Notation vec := (@vec T).
  Notation ga := (nat -> T).
  Notation elem := (elem zero add opp).
  Notation plus := (plus zero add).
  Notation minus := (minus zero sub).
  Notation signed := (signed zero opp).
  Notation vzero := (vzero zero).
  Local Infix "==" := (ga_eq 4) (at level 70).

  Lemma ga_refl (f : ga) : f == f.
  Proof using. intros m _. reflexivity. Qed.
  Lemma ga_sym (f g : ga) : f == g -> g == f.
  Proof using. intros H m L. symmetry. auto. Qed.
  Lemma ga_trans (f g h : ga) : f == g -> g == h -> f == h.
  Proof using. intros H K m L. rewrite H by auto. auto. Qed.

  (** ** coefficients *)
  Definition ds (o : option T) : T := match o with Some s => s | None => zero end.
  Definition dv (o : option vec) : vec := match o with Some s => s | None => vzero end.
  Definition d1 (o : option (T * vec)) : T * vec := match o with Some s => s | None => (zero, vzero) end.

  (** the coefficients of a multivector with the given fields *)
  Definition tabf (s : T) (E e : vec) (p : T) (u w : T * vec) (m : nat) : T :=
    match m with
    | 0 => s | 1 => fst u | 2 => vx (snd u) | 4 => vy (snd u) | 8 => vz (snd u)
    | 3 => vx e | 5 => vy e | 9 => vz e
    | 12 => vx E | 10 => opp (vy E) | 6 => vz E
    | 14 => fst w | 13 => opp (vx (snd w)) | 11 => vy (snd w) | 7 => opp (vz (snd w))
    | 15 => p
    | _ => zero
    end.
  Definition tab (a : blade) : ga :=
    tabf (ds (get0 a)) (dv (get2E a)) (dv (get2e a)) (ds (get4 a)) (d1 (get1 a)) (d1 (get3 a)).

  Ltac sixteen tac :=
    match goal with |- forall m, m < 2 ^ 4 -> _ => idtac | |- _ == _ => unfold ga_eq end;
    let m := fresh "m" in let L := fresh "L" in
    intros m L; change (2 ^ 4) with 16 in L;
    do 16 (destruct m as [|m]; [clear L; tac|]); exfalso; lia.

  Lemma elem_tab a : elem a == tab a.
  Proof using Rth.
    destruct a; sixteen ltac:(cbv; ring).
  Qed.

  Lemma tabf_add s E e p u w s' E' e' p' u' w' m : m < 16 ->
    tabf (add s s') (vadd add E E') (vadd add e e') (add p p') (add1 add u u') (add1 add w w') m
    = add (tabf s E e p u w m) (tabf s' E' e' p' u' w' m).
  Proof using Rth.
    intro L. do 16 (destruct m as [|m]; [cbv; ring|]). lia.
  Qed.
  Lemma tabf_sub s E e p u w s' E' e' p' u' w' m : m < 16 ->
    tabf (sub s s') (vsub sub E E') (vsub sub e e') (sub p p') (sub1 sub u u') (sub1 sub w w') m
    = sub (tabf s E e p u w m) (tabf s' E' e' p' u' w' m).
  Proof using Rth.
    intro L. do 16 (destruct m as [|m]; [cbv; ring|]). lia.
  Qed.

  Lemma combine_ok s E e p u w :
    exists c, combine_mv zero (combine024 zero s E e p) (combine13 u w) = Some c /\
      forall m, tab c m = tabf (ds s) (dv E) (dv e) (ds p) (d1 u) (d1 w) m.
  Proof using.
    destruct s, E, e, p, u as [[]|], w as [[]|]; (eexists; split; [reflexivity|]); reflexivity.
  Qed.

  Lemma ds_add a b : ds (oadd add a b) = add (ds a) (ds b).
  Proof using Rth. destruct a, b; cbn; ring. Qed.
  Lemma vec_eq (a b : vec) : vx a = vx b -> vy a = vy b -> vz a = vz b -> a = b.
  Proof using. destruct a, b; cbn. congruence. Qed.
  Lemma dv_add a b : dv (oadd (vadd add) a b) = vadd add (dv a) (dv b).
  Proof using Rth. destruct a, b; apply vec_eq; cbn; ring. Qed.
  Lemma d1_add a b : d1 (oadd (add1 add) a b) = add1 add (d1 a) (d1 b).
  Proof using Rth.
    destruct a as [[]|], b as [[]|]; cbn; unfold add1; cbn; f_equal; try ring; apply vec_eq; cbn; ring.
  Qed.

  Lemma plus_ok a b : exists c, plus a b = Some c /\ elem c == ga_add add (elem a) (elem b).
  Proof using Rth.
    assert (Za : forall b, plus Zero b = Some b) by reflexivity.
    assert (Zb : forall a, plus a Zero = Some a) by (intros []; reflexivity).
    assert (Hz : forall m, elem Zero m = zero) by reflexivity.
    destruct (is_zero_class a) eqn:Ea.
    { destruct a; try discriminate. exists b. split; [apply Za|].
      intros m L. unfold ga_add. rewrite Hz. ring. }
    destruct (is_zero_class b) eqn:Eb.
    { destruct b; try discriminate. exists a. split; [apply Zb|].
      intros m L. unfold ga_add. rewrite Hz. ring. }
    destruct (combine_ok (oadd add (get0 a) (get0 b)) (oadd (vadd add) (get2E a) (get2E b))
                (oadd (vadd add) (get2e a) (get2e b)) (oadd add (get4 a) (get4 b))
                (oadd (add1 add) (get1 a) (get1 b)) (oadd (add1 add) (get3 a) (get3 b))) as (c & E & H).
    exists c. split. { destruct a; try discriminate; destruct b; try discriminate; exact E. }
    intros m L. rewrite (elem_tab c) by exact L. rewrite H. unfold ga_add.
    rewrite (elem_tab a), (elem_tab b) by exact L. unfold tab.
    rewrite !ds_add, !dv_add, !d1_add. apply tabf_add. exact L.
  Qed.

  Lemma ds_sub a b c : osub sub a b = Some c -> ds c = sub (ds a) (ds b).
  Proof using Rth. destruct a, b; cbn; intros [= <-]; cbn; ring. Qed.
  Lemma dv_sub a b c : osub (vsub sub) a b = Some c -> dv c = vsub sub (dv a) (dv b).
  Proof using Rth. destruct a, b; cbn; intros [= <-]; apply vec_eq; cbn; ring. Qed.
  Lemma d1_sub a b c : osub (sub1 sub) a b = Some c -> d1 c = sub1 sub (d1 a) (d1 b).
  Proof using Rth.
    destruct a as [[]|], b as [[]|]; cbn; intros [= <-]; cbn; unfold sub1; cbn; f_equal; try ring; apply vec_eq; cbn; ring.
  Qed.
  Definition has {A} (o : option A) : bool := match o with Some _ => true | None => false end.
  Lemma osub_some {A} (f : A -> A -> A) a b : (exists c, osub f a b = Some c) <-> implb (has b) (has a) = true.
  Proof using.
    destruct a, b; cbn; (split; [intros H; destruct H; (reflexivity || discriminate)|intros H; try discriminate H; eauto]).
  Qed.

  Lemma minus_unfold a b : is_zero_class a = false -> is_zero_class b = false ->
    minus a b = (let* s := osub sub (get0 a) (get0 b) in
        let* E := osub (vsub sub) (get2E a) (get2E b) in
        let* e := osub (vsub sub) (get2e a) (get2e b) in
        let* p := osub sub (get4 a) (get4 b) in
        let* x := osub (sub1 sub) (get1 a) (get1 b) in
        let* y := osub (sub1 sub) (get3 a) (get3 b) in
        combine_mv zero (combine024 zero s E e p) (combine13 x y)).
  Proof using. intros Ha Hb. destruct a; try discriminate; destruct b; try discriminate; reflexivity. Qed.

  Lemma minus_ok a b : covers a b = true ->
    exists c, minus a b = Some c /\ elem c == ga_sub sub (elem a) (elem b).
  Proof using Rth.
    assert (Hz : forall m, elem Zero m = zero) by reflexivity.
    intro C.
    destruct (is_zero_class b) eqn:Eb.
    { destruct b; try discriminate. exists a. split; [destruct a; reflexivity|].
      intros m L. unfold ga_sub. rewrite Hz. ring. }
    destruct (is_zero_class a) eqn:Ea.
    { destruct a; try discriminate. destruct b; discriminate. }
    rewrite minus_unfold by assumption.
    unfold covers in C. rewrite !Bool.andb_true_iff in C. destruct C as [[[[[C0 C1] C2] C3] C4] C5].
    apply (osub_some sub) in C0. apply (osub_some (sub1 sub)) in C1. apply (osub_some (vsub sub)) in C2.
    apply (osub_some (vsub sub)) in C3. apply (osub_some (sub1 sub)) in C4. apply (osub_some sub) in C5.
    destruct C0 as [c0 C0], C1 as [c1 C1], C2 as [c2 C2], C3 as [c3 C3], C4 as [c4 C4], C5 as [c5 C5].
    rewrite C0, C1, C2, C3, C4, C5. cbn.
    destruct (combine_ok c0 c2 c3 c5 c1 c4) as (c & E & H).
    exists c. split; [exact E|].
    intros m L. rewrite (elem_tab c) by exact L. rewrite H. unfold ga_sub.
    rewrite (elem_tab a), (elem_tab b) by exact L. unfold tab.
    rewrite (ds_sub _ _ _ C0), (ds_sub _ _ _ C5), (dv_sub _ _ _ C2), (dv_sub _ _ _ C3), (d1_sub _ _ _ C1), (d1_sub _ _ _ C4).
    apply tabf_sub. exact L.
  Qed.
  Lemma minus_none a b : covers a b = false -> minus a b = None.
  Proof using. destruct a, b; intro C; try discriminate C; reflexivity. Qed.

  (** ** bilinear products *)
  Notation prod := (ga_product zero add mul opp 4).
  Lemma prod_ext s f f' g g' : f == f' -> g == g' -> prod s f g == prod s f' g'.
  Proof using.
    intros F G m L. unfold ga_product.
    assert (H : forall A, A < 16 -> Nat.lxor A m < 16).
    { intros A LA. change (2 ^ 4) with 16 in L. revert A LA.
      assert (X : forallb (fun x => forallb (fun y => Nat.lxor x y <? 16) (seq 0 16)) (seq 0 16) = true)
        by (vm_compute; reflexivity).
      intros A LA. rewrite forallb_forall in X. specialize (X A). rewrite forallb_forall in X.
      apply Nat.ltb_lt. apply X; apply in_seq; lia. }
    assert (K : forall k, k <= 16 ->
      rsum zero add k (fun A => signed (s A (Nat.lxor A m)) (mul (f A) (g (Nat.lxor A m)))) =
      rsum zero add k (fun A => signed (s A (Nat.lxor A m)) (mul (f' A) (g' (Nat.lxor A m))))).
    { induction k; intro Lk; cbn; [reflexivity|]. rewrite IHk by lia.
      rewrite (F k), (G (Nat.lxor k m)); [reflexivity|apply H; lia|cbn; lia]. }
    apply K. cbn. lia.
  Qed.
  Lemma prod_add_l s f f' g m : prod s (ga_add add f f') g m = add (prod s f g m) (prod s f' g m).
  Proof using Rth.
    unfold ga_product. induction (2 ^ 4) as [|k IH]; cbn [rsum]; [ring|]. rewrite IH. unfold ga_add.
    destruct (s k (Nat.lxor k m)); cbn [GaSpec.signed]; ring.
  Qed.
  Lemma prod_add_r s f g g' m : prod s f (ga_add add g g') m = add (prod s f g m) (prod s f g' m).
  Proof using Rth.
    unfold ga_product. induction (2 ^ 4) as [|k IH]; cbn [rsum]; [ring|]. rewrite IH. unfold ga_add.
    destruct (s k (Nat.lxor k m)); cbn [GaSpec.signed]; ring.
  Qed.
  Lemma prod_opp_l s f g m : prod s (ga_opp opp f) g m = opp (prod s f g m).
  Proof using Rth.
    unfold ga_product. induction (2 ^ 4) as [|k IH]; cbn [rsum]; [ring|]. rewrite IH. unfold ga_opp.
    destruct (s k (Nat.lxor k m)); cbn [GaSpec.signed]; ring.
  Qed.
  Lemma prod_scale_l s f g t m : prod s (ga_scale mul f t) g m = mul (prod s f g m) t.
  Proof using Rth.
    unfold ga_product. induction (2 ^ 4) as [|k IH]; cbn [rsum]; [ring|]. rewrite IH. unfold ga_scale.
    destruct (s k (Nat.lxor k m)); cbn [GaSpec.signed]; ring.
  Qed.
  Lemma prod_scale_r s f g t m : prod s f (ga_scale mul g t) m = mul (prod s f g m) t.
  Proof using Rth.
    unfold ga_product. induction (2 ^ 4) as [|k IH]; cbn [rsum]; [ring|]. rewrite IH. unfold ga_scale.
    destruct (s k (Nat.lxor k m)); cbn [GaSpec.signed]; ring.
  Qed.

  (** ** distribution over the fields of composite classes *)
  Fixpoint depth_le (d : nat) (a : blade) : bool :=
    match parts a with
    | None => true
    | Some (x, y) => match d with O => false | S d => (depth_le d x && depth_le d y)%bool end
    end.
  Lemma depth_3 a : depth_le 3 a = true.
  Proof using. destruct a; reflexivity. Qed.
  Lemma parts_elem a x y : parts a = Some (x, y) -> elem a == ga_add add (elem x) (elem y).
  Proof using Rth.
    intros E m L. unfold ga_add. rewrite (elem_tab a), (elem_tab x), (elem_tab y) by exact L.
    change (2 ^ 4) with 16 in L.
    destruct a; try discriminate; injection E as <- <-;
      (do 16 (destruct m as [|m]; [cbv; ring|])); lia.
  Qed.
  Definition bilinear (P : ga -> ga -> ga) : Prop :=
    (forall f f' g g', f == f' -> g == g' -> P f g == P f' g') /\
    (forall f f' g, P (ga_add add f f') g == ga_add add (P f g) (P f' g)) /\
    (forall f g g', P f (ga_add add g g') == ga_add add (P f g) (P f g')).
  Definition good (P : ga -> ga -> ga) (op : blade -> blade -> option blade) (d d' : nat) : Prop :=
    forall a b, depth_le d a = true -> depth_le d' b = true ->
      exists c, op a b = Some c /\ elem c == P (elem a) (elem b).
  Lemma good_l P op d d' : bilinear P -> good P op d d' -> good P (lift_l zero add op) (S d) d'.
  Proof using Rth.
    intros (X & L & _) G a b Da Db. unfold lift_l. destruct (parts a) as [[x y]|] eqn:E.
    - assert (D : depth_le d x = true /\ depth_le d y = true).
      { cbn [depth_le] in Da. rewrite E in Da. apply Bool.andb_true_iff in Da. exact Da. }
      destruct (G x b (proj1 D) Db) as (u & Eu & Hu). destruct (G y b (proj2 D) Db) as (v & Ev & Hv).
      destruct (plus_ok u v) as (c & Ec & Hc). exists c. rewrite Eu, Ev. cbn. split; [exact Ec|].
      intros m Lm. rewrite Hc by exact Lm. unfold ga_add at 1. rewrite Hu, Hv by exact Lm.
      rewrite (X _ (ga_add add (elem x) (elem y)) _ (elem b) (parts_elem a x y E) (ga_refl _)) by exact Lm.
      rewrite L by exact Lm. reflexivity.
    - apply G; [|exact Db]. destruct d; cbn [depth_le]; rewrite E; reflexivity.
  Qed.
  Lemma good_r P op d d' : bilinear P -> good P op d d' -> good P (lift_r zero add op) d (S d').
  Proof using Rth.
    intros (X & _ & L) G a b Da Db. unfold lift_r. destruct (parts b) as [[x y]|] eqn:E.
    - assert (D : depth_le d' x = true /\ depth_le d' y = true).
      { cbn [depth_le] in Db. rewrite E in Db. apply Bool.andb_true_iff in Db. exact Db. }
      destruct (G a x Da (proj1 D)) as (u & Eu & Hu). destruct (G a y Da (proj2 D)) as (v & Ev & Hv).
      destruct (plus_ok u v) as (c & Ec & Hc). exists c. rewrite Eu, Ev. cbn. split; [exact Ec|].
      intros m Lm. rewrite Hc by exact Lm. unfold ga_add at 1. rewrite Hu, Hv by exact Lm.
      rewrite (X _ (elem a) _ (ga_add add (elem x) (elem y)) (ga_refl _) (parts_elem b x y E)) by exact Lm.
      rewrite L by exact Lm. reflexivity.
    - apply G; [exact Da|]. destruct d'; cbn [depth_le]; rewrite E; reflexivity.
  Qed.
  Lemma product_ok P prim : bilinear P -> good P prim 0 0 ->
    forall a b, exists c, product zero add prim a b = Some c /\ elem c == P (elem a) (elem b).
  Proof using Rth.
    intros B G a b. unfold product.
    assert (H : good P (lift_r zero add (lift_r zero add (lift_r zero add (lift_l zero add (lift_l zero add (lift_l zero add prim)))))) 3 3).
    { do 3 (apply good_r; [exact B|]). do 3 (apply good_l; [exact B|]). exact G. }
    apply H; apply depth_3.
  Qed.
  Lemma prod_bilinear s : bilinear (prod s).
  Proof using Rth.
    split; [|split].
    - intros. apply prod_ext; assumption.
    - intros f f' g m _. apply prod_add_l.
    - intros f g g' m _. apply prod_add_r.
  Qed.

  (** reduces the claim about two primitive values to 16 identities *)
  Lemma by_tab s a b c : (forall m, m < 16 -> tab c m = prod s (tab a) (tab b) m) ->
    elem c == prod s (elem a) (elem b).
  Proof using Rth.
    intros H m L. rewrite (elem_tab c) by exact L. rewrite H by exact L. symmetry.
    apply prod_ext; [apply elem_tab|apply elem_tab|exact L].
  Qed.
End P.
Ltac prim_cases :=
  intros a b Da Db;
  destruct a; try discriminate Da; destruct b; try discriminate Db;
  clear Da Db;
  (eexists; split; [reflexivity|]).
