(** C24: the lazy segment tree answers every query as the plain array would. *)
From Verif Require Import Lib SegTreeModel LazySegModel LazySegSpec LazySegProofs.
From Coq Require Import ZArith.

(** For every element type, every functors meeting the documented contract, every initial
    contents and every history of range updates, range queries and restores: nothing
    fails, the i-th answer summarises exactly the elements the plain array has in the
    queried segment at that moment, and reading the restored leaves gives the plain array. *)
Theorem C24_lazy_segment_tree :
  forall (T X : Type) (up : T -> T -> T -> T) (down : T -> T -> T -> T * T * T) (id : T)
         (R : T -> list X -> Prop) (pend : T -> X -> X) (lv : T -> X) (ts : list T),
    lazy_contract up down id R pend lv ->
    Forall (fun t => R t [lv t]) ts ->
    exists cap v0,
      lst_from up id ts = Some v0 /\ lst_size v0 = cap /\
      length ts <= cap /\ (cap < 2 * length ts \/ cap = 1) /\
      forall os qs ys,
        hist R pend lv (map lv ts ++ repeat (lv id) (cap - length ts)) os qs ys ->
        exists answers v,
          lst_run up down v0 os = Some (answers, v) /\
          Forall2 R answers qs /\
          forall b e, b < e <= cap -> exists v', lst_restore down v b e = Some v' /\
            forall i, b <= i < e -> exists t, lst_at v' i = Some t /\ nth_error ys i = Some (lv t).
Proof.
  intros T X up down id R pend lv ts C HT.
  destruct (from_spec up down id R pend lv ts C HT) as (h & v0 & E & H1 & H2 & HR).
  exists (2 ^ h), v0. split; [exact E|].
  split; [exact (proj1 (LRep_size id R pend lv h v0 _ HR))|].
  split; [exact H1|]. split; [destruct H2 as [H2|H2]; [now left|right; now subst h]|].
  intros os qs ys HH.
  destruct (run_spec up down id R pend lv C h os v0 _ qs ys HR HH) as (rs & v & Er & Hrs & HV).
  exists rs, v. split; [exact Er|]. split; [exact Hrs|].
  intros b e Hbe. destruct (restore_spec up down id R pend lv C h v ys b e HV Hbe) as (v' & Ev & _ & Hi).
  exists v'. auto.
Qed.

(** Range-add, range-sum: a node is (sum, number of elements, pending addend). *)
  Local Open Scope Z_scope.
  Definition nd : Type := Z * Z * Z.
  Definition nsum (t : nd) := fst (fst t).
  Definition ncnt (t : nd) := snd (fst t).
  Definition nadd (t : nd) := snd t.
  Definition up (p l r : nd) : nd := (nsum l + nsum r, ncnt l + ncnt r, nadd p).
  Definition down (p l r : nd) : nd * nd * nd :=
    let a := nadd p in
    ((nsum p, ncnt p, 0), (nsum l + a * ncnt l, ncnt l, nadd l + a), (nsum r + a * ncnt r, ncnt r, nadd r + a)).
  Definition id : nd := (0, 0, 0).
  Fixpoint osum (xs : list (option Z)) : Z := match xs with [] => 0 | Some x :: l => x + osum l | None :: l => osum l end.
  Fixpoint ocnt (xs : list (option Z)) : Z := match xs with [] => 0 | Some x :: l => 1 + ocnt l | None :: l => ocnt l end.
  Definition R (t : nd) (xs : list (option Z)) : Prop := nsum t = osum xs /\ ncnt t = ocnt xs.
  Definition plus (a : Z) (x : option Z) : option Z := option_map (fun x => x + a) x.
  Definition pend (t : nd) := plus (nadd t).
  Definition lv (t : nd) : option Z := if ncnt t =? 0 then None else Some (nsum t).
  Definition add (a : Z) (t : nd) : nd * bool := ((nsum t + a * ncnt t, ncnt t, nadd t + a), true).
  (** an update that insists on being applied element by element *)
  Definition add1 (a : Z) (t : nd) : nd * bool := if ncnt t <=? 1 then add a t else (t, false).

  Lemma osum_app xs ys : osum (xs ++ ys) = osum xs + osum ys.
  Proof. induction xs as [|[x|] xs IH]; cbn [map app osum ocnt plus option_map]; lia. Qed.
  Lemma ocnt_app xs ys : ocnt (xs ++ ys) = ocnt xs + ocnt ys.
  Proof. induction xs as [|[x|] xs IH]; cbn [map app osum ocnt plus option_map]; lia. Qed.
  Lemma osum_plus a xs : osum (map (plus a) xs) = osum xs + a * ocnt xs.
  Proof. induction xs as [|[x|] xs IH]; cbn [map app osum ocnt plus option_map]; lia. Qed.
  Lemma ocnt_plus a xs : ocnt (map (plus a) xs) = ocnt xs.
  Proof. induction xs as [|[x|] xs IH]; cbn [map app osum ocnt plus option_map]; lia. Qed.
  Lemma R_plus t a k xs : R t xs -> R (nsum t + a * ncnt t, ncnt t, k) (map (plus a) xs).
  Proof. intros [H1 H2]. split; [rewrite osum_plus; cbn; rewrite H1, H2|rewrite ocnt_plus]; auto. Qed.
  Lemma plus_plus a c x : plus (a + c) x = plus c (plus a x).
  Proof. destruct x as [x|]; cbn; [f_equal; lia|reflexivity]. Qed.
  Lemma lv_plus t a k : R t [lv t] -> lv (nsum t + a * ncnt t, ncnt t, k) = plus a (lv t).
  Proof.
    unfold R, lv. cbn [ncnt nsum fst snd]. destruct (Z.eqb_spec (ncnt t) 0) as [E|E]; [reflexivity|].
    intros [_ H]. cbn [ocnt] in H. rewrite H. cbn [plus option_map]. f_equal. lia.
  Qed.

  Lemma contract : lazy_contract up down id R pend lv.
  Proof.
    constructor.
    - intros [x|]; cbn; [f_equal; lia|reflexivity].
    - split; reflexivity.
    - split; reflexivity.
    - intros p l r H. exact H.
    - intros p l r xs ys _ [H1 H2] [H3 H4]. split; cbn; [rewrite osum_app|rewrite ocnt_app]; lia.
    - intros p l r p' l' r' E. injection E as <- <- <-. repeat apply conj.
      + intros [x|]; cbn; [f_equal; lia|reflexivity].
      + intros xs [H1 H2]; split; assumption.
      + intros xs H. now apply R_plus.
      + intros xs H. now apply R_plus.
      + intros x. apply plus_plus.
      + intros x. apply plus_plus.
      + apply lv_plus.
      + apply lv_plus.
  Qed.
  Lemma add_ok a : update_contract R pend lv (add a) (plus a).
  Proof.
    constructor.
    - intros t t' E. injection E as <-. split; [intros xs H; now apply R_plus|]. split; [intros x; apply plus_plus|apply lv_plus].
    - discriminate.
    - reflexivity.
  Qed.
  Lemma add1_ok a : update_contract R pend lv (add1 a) (plus a).
  Proof.
    constructor.
    - intros t t' E. unfold add1 in E. destruct (ncnt t <=? 1); [|discriminate].
      injection E as <-. split; [intros xs H; now apply R_plus|]. split; [intros x; apply plus_plus|apply lv_plus].
    - intros t t' E. unfold add1 in E. destruct (ncnt t <=? 1); [discriminate|]. congruence.
    - intros t [_ H]. unfold add1. replace (ncnt t <=? 1) with true; [reflexivity|].
      symmetry. apply Z.leb_le. rewrite H. destruct (lv t); cbn; lia.
  Qed.
  Local Close Scope Z_scope.

  Definition start : list nd := [(1,1,0); (2,1,0); (3,1,0); (4,1,0); (5,1,0)]%Z.
  Definition ops : list (lop nd) := [LUpdate 1 5 (add 10%Z); LGet 0 3; LUpdate 2 4 (add1 100%Z); LGet 0 8; LRestore 0 8].

  Example C24_case :
    lazy_contract up down id R pend lv /\ Forall (fun t => R t [lv t]) start /\
    (exists qs ys, hist R pend lv (map lv start ++ repeat (lv id) 3) ops qs ys /\
       qs = [[Some 1; Some 12; Some 13]; [Some 1; Some 12; Some 113; Some 114; Some 15; None; None; None]]%Z) /\
    (let* v := lst_from up id start in
     let* '(rs, v) := lst_run up down v ops in
     let* x := lst_at v 3 in Some (map nsum rs, nsum x)) = Some ([26; 255]%Z, 114%Z).
  Proof.
    split; [exact contract|]. split; [repeat constructor|]. split; [|reflexivity].
    do 2 eexists. split.
    - eapply h_update; [apply add_ok|cbn; lia|]. eapply h_get; [cbn; lia|].
      eapply h_update; [apply add1_ok|cbn; lia|]. eapply h_get; [cbn; lia|].
      eapply h_restore; [cbn; lia|]. apply h_nil.
    - reflexivity.
  Qed.
Print Assumptions C24_lazy_segment_tree.
