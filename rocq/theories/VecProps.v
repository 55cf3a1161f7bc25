(** C165: vectors of two, three and any number of elements. *)
From Coq Require Import ZArith Lia List.
From Verif Require Import Lib VecModel VecSpec VecProofs.
Import ListNotations.
Open Scope Z_scope.

(** The comparisons are the lexicographic order, which is total. *)
Theorem C165_order : forall n a b, length a = n -> length b = n ->
  exists e l m, nd_eq n a b = Some e /\ nd_lt n a b = Some l /\ nd_le n a b = Some m /\
    (e = true <-> a = b) /\ (l = true <-> lex_lt a b) /\ (m = true <-> a = b \/ lex_lt a b) /\
    (a = b /\ ~ lex_lt a b /\ ~ lex_lt b a \/ a <> b /\ lex_lt a b /\ ~ lex_lt b a \/ a <> b /\ ~ lex_lt a b /\ lex_lt b a).
Proof.
  intros n a b Ha Hb. destruct (cmp_ok n a b Ha Hb) as (c & E & C0 & C1 & C2). unfold nd_eq, nd_lt, nd_le. rewrite E. cbn [obind]. eexists _, _, _. split; [reflexivity|]. split; [reflexivity|]. split; [reflexivity|].
  rewrite Z.eqb_eq, Z.ltb_lt, Z.leb_le, <- C0, <- C1, <- C2. lia.
Qed.
Theorem C165_order_2d_3d :
  (forall u v : v2, (v2_eq u v = true <-> u = v) /\ (v2_lt u v = true <-> lex_lt [fst u; snd u] [fst v; snd v]) /\ (v2_le u v = true <-> u = v \/ v2_lt u v = true)) /\
  (forall u v : v3, (v3_eq u v = true <-> u = v) /\
     (v3_lt u v = true <-> lex_lt [fst (fst u); snd (fst u); snd u] [fst (fst v); snd (fst v); snd v]) /\ (v3_le u v = true <-> u = v \/ v3_lt u v = true)).
Proof.
  split.
  - intros (a, b) (c, d). unfold v2_eq, v2_lt, v2_le, v2_lt. cbn [fst snd]. rewrite andb_true_iff, !Z.eqb_eq. split; [split; [intros (-> & ->); reflexivity|intros Q; injection Q; auto]|]. split.
    + assert (F := lex_nil_l []). rewrite !lex_cons. destruct (Z.eqb_spec a c) as [->|N]; cbn [negb]; rewrite Z.ltb_lt; [|intuition lia]. split; [intros; right; auto|intros [Q|(_ & [Q|(_ & Q)])]; [lia|exact Q|contradiction]].
    + rewrite negb_true_iff. assert (P : (a, b) = (c, d) <-> a = c /\ b = d) by (split; [intros Q; injection Q; auto|intros (-> & ->); reflexivity]). rewrite P. destruct (Z.eqb_spec a c), (Z.eqb_spec c a); try lia; cbn [negb]; rewrite Z.ltb_ge, Z.ltb_lt; lia.
  - intros ((a, b), c) ((x, y), z). unfold v3_eq, v3_lt, v3_le, v3_lt. cbn [fst snd]. rewrite !andb_true_iff, !Z.eqb_eq. split; [split; [intros ((-> & ->) & ->); reflexivity|intros Q; injection Q; auto]|]. split.
    + assert (F := lex_nil_l []). rewrite !lex_cons. destruct (Z.eqb_spec a x) as [->|N]; cbn [negb]; [|rewrite Z.ltb_lt; intuition lia]. destruct (Z.eqb_spec b y) as [->|N2]; cbn [negb]; rewrite Z.ltb_lt; intuition lia.
    + rewrite negb_true_iff. assert (P : (a, b, c) = (x, y, z) <-> a = x /\ b = y /\ c = z) by (split; [intros Q; injection Q; auto|intros (-> & -> & ->); reflexivity]). rewrite P. destruct (Z.eqb_spec a x), (Z.eqb_spec x a); try lia; destruct (Z.eqb_spec b y), (Z.eqb_spec y b); try lia; cbn [negb]; rewrite ?Z.ltb_ge, ?Z.ltb_lt; lia.
Qed.
(** Every operator works element by element, and with a scalar that is not an
    element of the vector on every element with its value. *)
Theorem C165_elements : forall o n a, length a = n ->
  (forall b, length b = n -> (o = Div \/ o = Mod -> ~ List.In 0 b) ->
     exists r, nd_assign o n a b = Some r /\ length r = n /\ forall i, (i < n)%nat -> nth i r 0 = value o (nth i a 0) (nth i b 0)) /\
  (forall t, (o = Div \/ o = Mod -> t <> 0) -> nd_scalar o n a (Out t) = Some (map (fun x => value o x t) a)) /\
  nd_abs2 n a = Some (fold_right Z.add 0 (map (fun x => x * x) a)).
Proof. intros o n a Ha. split; [|split]; [intros b Hb Hd; now apply assign_ok|intros t Ht; now apply scalar_out_ok|now apply abs2_ok]. Qed.
(** With one of its own elements, the elements after it are combined with its new value. *)
Theorem C165_scalar_alias : forall o n a j, length a = n -> (j < n)%nat -> let p := nth j a 0 in
  (o = Div \/ o = Mod -> p <> 0) -> (o = Mod -> S j = n) ->
  exists r, nd_scalar o n a (VecModel.In j) = Some r /\ length r = n /\
    forall i, (i < n)%nat -> nth i r 0 = value o (nth i a 0) (if (i <=? j)%nat then p else value o p p).
Proof. intros o n a j Ha Hj p Hp Hq. now apply scalar_in_ok. Qed.
(** so that v -= v[0] or v /= v[0] is not v - v[0] or v / v[0], and v %= v[0] divides by zero *)
Theorem C165_scalar_alias_refuted :
  (exists n a j t, length a = n /\ nth_error a j = Some t /\ nd_scalar Sub n a (VecModel.In j) <> nd_scalar Sub n a (Out t)) /\
  (exists n a j t, length a = n /\ nth_error a j = Some t /\ t <> 0 /\ nd_scalar Div n a (VecModel.In j) <> nd_scalar Div n a (Out t)) /\
  (exists n a j t, length a = n /\ nth_error a j = Some t /\ t <> 0 /\ nd_scalar Mod n a (VecModel.In j) = None).
Proof.
  split; [|split]; exists 2%nat, [2; 6], O, 2; repeat split; try discriminate.
Qed.
(** Products in the plane: the cross product is zero exactly for parallel vectors
    and changes its sign with the order, a rotation is undone by irot up to the
    squared length, and turns by a right angle give orthogonal vectors. *)
Theorem C165_plane : forall o u v r : v2,
  (v2_cross u v = 0 <-> parallel [fst u; snd u] [fst v; snd v]) /\
  v2_cross u v = - v2_cross v u /\ v2_dot u v = v2_dot v u /\
  v2_dot u v * v2_dot u v + v2_cross u v * v2_cross u v = v2_abs2 u * v2_abs2 v /\
  v2_irot (v2_rot u r) r = v2_scale u (v2_abs2 r) /\ v2_rot (v2_irot u r) r = v2_scale u (v2_abs2 r) /\
  v2_abs2 (v2_rot u r) = v2_abs2 u * v2_abs2 r /\
  v2_dot u (v2_perp u) = 0 /\ v2_cross u (v2_perp u) = v2_abs2 u /\
  v2_cross3 o u v = v2_cross3 u v o /\ v2_cross3 o u v = - v2_cross3 o v u /\ v2_cross3 o u v = v2_cross u v + v2_cross v o + v2_cross o u.
Proof.
  intros (p, q) (a, b) (c, d) (e, f). split; [apply v2_par|]. unfold v2_cross3, v2_cross, v2_dot, v2_abs2, v2_irot, v2_rot, v2_scale, v2_perp, v2_sub. cbn [fst snd].
  repeat split; try ring; f_equal; ring.
Qed.
(** Products in space. *)
Theorem C165_space : forall a b c x y z : Z, let u := (a, b, c) in let v := (x, y, z) in
  (v3_cross u v = (0, 0, 0) <-> parallel [a; b; c] [x; y; z]) /\
  v3_dot u (v3_cross u v) = 0 /\ v3_dot v (v3_cross u v) = 0 /\
  v3_dot u v * v3_dot u v + v3_abs2 (v3_cross u v) = v3_abs2 u * v3_abs2 v /\
  v3_cross (1, 0, 0) (0, 1, 0) = (0, 0, 1) /\ (v3_abs2 u = 0 <-> u = (0, 0, 0)).
Proof.
  intros a b c x y z u v. split; [apply v3_par|]. unfold u, v, v3_dot, v3_cross, v3_abs2. split; [ring|]. split; [ring|]. split; [ring|]. split; [reflexivity|].
  split; [|intros E; injection E as -> -> ->; reflexivity]. intros E. assert (a = 0) by nia. assert (b = 0) by nia. assert (c = 0) by nia. subst. reflexivity.
Qed.

(** [3; 1; 4] is less than [3; 2; 0], and [6; 3; 4] *= its second element *)
Example C165_case : nd_lt 3 [3; 1; 4] [3; 2; 0] = Some true /\ lex_lt [3; 1; 4] [3; 2; 0] /\ nd_scalar Mul 3 [6; 3; 4] (VecModel.In 1) = Some [18; 9; 36] /\ v2_cross (2, 4) (3, 6) = 0.
Proof. repeat split. exists 1%nat, 1, 2. repeat split; lia. Qed.
Print Assumptions C165_order.
Print Assumptions C165_order_2d_3d.
Print Assumptions C165_elements.
Print Assumptions C165_scalar_alias.
Print Assumptions C165_scalar_alias_refuted.
Print Assumptions C165_plane.
Print Assumptions C165_space.
