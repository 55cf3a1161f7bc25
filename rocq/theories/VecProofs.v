From Coq Require Import Lia ZArithRing.
From Verif Require Import Lib VecModel VecSpec.
Open Scope Z_scope.

Lemma lex_nil_l b : ~ lex_lt [] b.
Proof. intros (k & x & y & _ & H & _). now destruct k. Qed.
Lemma lex_cons x a y b : lex_lt (x :: a) (y :: b) <-> x < y \/ x = y /\ lex_lt a b.
Proof.
  split.
  - intros ([|k] & p & q & F & E1 & E2 & L); cbn in *; [left; congruence|]. injection F as -> F. right. split; [reflexivity|]. exists k, p, q. auto.
  - intros [L|(-> & k & p & q & F & E1 & E2 & L)]; [exists O, x, y; repeat split; auto|]. exists (S k), p, q. cbn. rewrite F. auto.
Qed.
Lemma cmp_from_ok : forall n pre1 pre2 a b, length pre1 = length pre2 -> length a = n -> length b = n ->
  exists c, cmp_from n (length pre1) (pre1 ++ a) (pre2 ++ b) = Some c /\ (c = 0 <-> a = b) /\ (c < 0 <-> lex_lt a b) /\ (0 < c <-> lex_lt b a).
Proof.
  induction n as [|n IH]; intros p1 p2 a b HP Ha Hb.
  - destruct a, b; try discriminate. exists 0. cbn. split; [reflexivity|]. split; [tauto|]. split; (split; [lia|]); intros F; now apply lex_nil_l in F.
  - destruct a as [|x a], b as [|y b]; try discriminate. cbn [cmp_from]. assert (N1 : nth_error (p1 ++ x :: a) (length p1) = Some x) by (rewrite nth_error_app2, Nat.sub_diag by lia; reflexivity). assert (N2 : nth_error (p2 ++ y :: b) (length p1) = Some y) by (rewrite HP, nth_error_app2, Nat.sub_diag by lia; reflexivity). rewrite N1, N2. cbn [obind].
    assert (LC := lex_cons x a y b). assert (LD := lex_cons y b x a).
    injection Ha as Ha. injection Hb as Hb. destruct (Z.ltb_spec x y) as [L|L]; [exists (-1); split; [reflexivity|]|destruct (Z.ltb_spec y x) as [M|M]; [exists 1; split; [reflexivity|]|]].
    + split; [split; [lia|intros E; injection E; lia]|]. rewrite LC, LD. split; split; try lia; intros [Q|(Q & _)]; lia.
    + split; [split; [lia|intros E; injection E; lia]|]. rewrite LC, LD. split; split; try lia; intros [Q|(Q & _)]; lia.
    + assert (x = y) by lia. subst y. destruct (IH (p1 ++ [x]) (p2 ++ [x]) a b) as (c & E & C0 & C1 & C2); [rewrite !app_length; cbn; lia|auto|auto|]. rewrite <- !app_assoc in E. cbn [app] in E. rewrite app_length in E. cbn [length] in E. rewrite Nat.add_1_r in E. exists c. split; [exact E|].
      split; [rewrite C0; split; [intros ->; reflexivity|intros Q; now injection Q]|]. rewrite LC, LD. split; [rewrite C1|rewrite C2]; (split; [tauto|intros [Q|(_ & Q)]; [lia|exact Q]]).
Qed.
Lemma cmp_ok n a b : length a = n -> length b = n -> exists c, cmp n a b = Some c /\ (c = 0 <-> a = b) /\ (c < 0 <-> lex_lt a b) /\ (0 < c <-> lex_lt b a).
Proof. intros Ha Hb. exact (cmp_from_ok n [] [] a b eq_refl Ha Hb). Qed.

(** a loop that writes each element from its old value and one value *)
Lemma each_ok n a (rd : nat -> list Z -> option Z) o (g : nat -> Z) :
  length a = n -> (forall i a', (i < n)%nat -> length a' = n -> (forall j, (j < i)%nat -> nth_error a' j = Some (g j)) -> (forall j, (i <= j)%nat -> nth_error a' j = nth_error a j) -> exists y, rd i a' = Some y /\ forall x, nth_error a i = Some x -> run o x y = Some (g i)) ->
  exists r, for_range 0 n (fun i a => let* x := nth_error a i in let* y := rd i a in let* z := run o x y in set_nth a i z) a = Some r /\ length r = n /\ forall i, (i < n)%nat -> nth_error r i = Some (g i).
Proof.
  intros Ha Hr. edestruct (for_range_spec (fun i (t : list Z) => length t = n /\ (forall j, (j < i)%nat -> nth_error t j = Some (g j)) /\ forall j, (i <= j)%nat -> nth_error t j = nth_error a j)
    (fun i a => let* x := nth_error a i in let* y := rd i a in let* z := run o x y in set_nth a i z) 0 n a) as (r & E & L & D & _).
  - lia.
  - split; [exact Ha|]. split; [intros; lia|auto].
  - intros i t (_ & Hi) (Lt & Dn & Un). destruct (nth_error a i) as [x|] eqn:Ex; [|apply nth_error_None in Ex; lia]. rewrite (Un i), Ex by lia. cbn [obind]. destruct (Hr i t Hi Lt Dn Un) as (y & Ey & Ry). rewrite Ey. cbn [obind]. rewrite (Ry x Ex). cbn [obind].
    destruct (set_nth_some t i (g i)) as (t' & Et); [lia|]. exists t'. split; [exact Et|]. split; [rewrite (set_nth_length _ _ _ _ Et); exact Lt|]. split; intros j Hj; rewrite (set_nth_get _ _ _ _ j Et); destruct (Nat.eqb_spec i j) as [->|N]; try reflexivity; try lia; [apply Dn; lia|apply Un; lia].
  - exists r. auto.
Qed.
Lemma sum_snoc_sq l x : fold_right Z.add 0 (map (fun x => x * x) (l ++ [x])) = fold_right Z.add 0 (map (fun x => x * x) l) + x * x.
Proof. induction l as [|y l IH]; cbn; [lia|]. rewrite IH. lia. Qed.
Lemma abs2_ok n a : length a = n -> nd_abs2 n a = Some (fold_right Z.add 0 (map (fun x => x * x) a)).
Proof.
  intros Ha. unfold nd_abs2. edestruct (for_range_spec (fun i r => r = fold_right Z.add 0 (map (fun x => x * x) (firstn i a))) (fun i r => let* x := nth_error a i in Some (r + x * x)) 0 n 0) as (r & E & R); [lia|reflexivity| |].
  - intros i t (_ & Hi) ->. destruct (nth_error a i) as [x|] eqn:Ex; [|apply nth_error_None in Ex; lia]. eexists. split; [reflexivity|]. cbn beta. rewrite <- sum_snoc_sq. f_equal. f_equal.
    clear - Ex. revert i Ex. induction a as [|y a IH]; intros [|i] Ex; cbn in *; try discriminate; [injection Ex as ->; reflexivity|]. f_equal. now apply IH.
  - rewrite firstn_all2 in R by lia. rewrite E, R. reflexivity.
Qed.

Lemma run_value o x y : (o = Div \/ o = Mod -> y <> 0) -> run o x y = Some (value o x y).
Proof. intros H. destruct o; cbn; try reflexivity; destruct (Z.eqb_spec y 0) as [E|E]; auto; exfalso; apply H; auto. Qed.
Lemma assign_ok o n a b : length a = n -> length b = n -> (o = Div \/ o = Mod -> ~ List.In 0 b) ->
  exists r, nd_assign o n a b = Some r /\ length r = n /\ forall i, (i < n)%nat -> nth i r 0 = value o (nth i a 0) (nth i b 0).
Proof.
  intros Ha Hb Hd. destruct (each_ok n a (fun i _ => nth_error b i) o (fun i => value o (nth i a 0) (nth i b 0)) Ha) as (r & E & L & R).
  - intros i a' Hi La _ _. destruct (nth_error b i) as [y|] eqn:Ey; [|apply nth_error_None in Ey; lia]. exists y. split; [reflexivity|]. intros x Ex. rewrite (nth_error_nth _ _ 0 Ex), (nth_error_nth _ _ 0 Ey). apply run_value. intros Q Z0. apply (Hd Q). rewrite <- Z0. now apply nth_error_In in Ey.
  - exists r. split; [exact E|]. split; [exact L|]. intros i Hi. now apply nth_error_nth, R.
Qed.
Lemma scalar_out_ok o n a t : length a = n -> (o = Div \/ o = Mod -> t <> 0) -> nd_scalar o n a (Out t) = Some (map (fun x => value o x t) a).
Proof.
  intros Ha Hd. destruct (each_ok n a (fun i _ => Some t) o (fun i => value o (nth i a 0) t) Ha) as (r & E & L & R).
  - intros i a' Hi La _ _. exists t. split; [reflexivity|]. intros x Ex. rewrite (nth_error_nth _ _ 0 Ex). now apply run_value.
  - unfold nd_scalar, deref. rewrite E. f_equal. apply (nth_ext _ _ (value o 0 t) (value o 0 t)); [rewrite map_length; lia|]. intros i Hi. rewrite (map_nth (fun x => value o x t)). apply nth_error_nth, R. lia.
Qed.
Lemma scalar_in_ok o n a j : length a = n -> (j < n)%nat -> let p := nth j a 0 in let q := value o p p in (o = Div \/ o = Mod -> p <> 0) -> (o = Mod -> S j = n) ->
  exists r, nd_scalar o n a (VecModel.In j) = Some r /\ length r = n /\ forall i, (i < n)%nat -> nth i r 0 = value o (nth i a 0) (if (i <=? j)%nat then p else q).
Proof.
  intros Ha Hj p q Hp Hq. destruct (each_ok n a (fun i a' => nth_error a' j) o (fun i => value o (nth i a 0) (if (i <=? j)%nat then p else q)) Ha) as (r & E & L & R).
  - intros i a' Hi La Dn Un. destruct (Nat.leb_spec i j) as [Q|Q].
    + exists p. split; [rewrite (Un j Q); apply nth_error_nth'; lia|]. intros x Ex. rewrite (nth_error_nth _ _ 0 Ex). now apply run_value.
    + exists q. split; [rewrite (Dn j Q), Nat.leb_refl; reflexivity|]. intros x Ex. rewrite (nth_error_nth _ _ 0 Ex). apply run_value. intros [->| ->]; [|specialize (Hq eq_refl); lia]. unfold q. cbn. rewrite Z.quot_same by (apply Hp; auto). lia.
  - exists r. split; [exact E|]. split; [exact L|]. intros i Hi. now apply nth_error_nth, R.
Qed.
Lemma prod0 s c : s * c = 0 -> s <> 0 -> c = 0.
Proof. nia. Qed.
Lemma v2_par (u v : v2) : v2_cross u v = 0 <-> parallel [fst u; snd u] [fst v; snd v].
Proof.
  destruct u as (a, b), v as (c, d). unfold v2_cross, parallel. cbn [fst snd map]. split.
  - intros E. destruct (Z.eq_dec a 0) as [->|A]; [destruct (Z.eq_dec b 0) as [->|B0]|].
    + exists 1, 0. split; [left; lia|]. f_equal; lia.
    + exists d, b. split; [right; exact B0|]. f_equal; [lia|f_equal; lia].
    + exists c, a. split; [right; exact A|]. f_equal; [lia|f_equal; lia].
  - intros (s & t & N & E). injection E as E1 E2. destruct N as [N|N].
    + apply (prod0 s); [|exact N]. replace (s * (a * d - b * c)) with ((s * a) * d - (s * b) * c) by ring. rewrite E1, E2. ring.
    + apply (prod0 t); [|exact N]. replace (t * (a * d - b * c)) with (a * (t * d) - b * (t * c)) by ring. rewrite <- E1, <- E2. ring.
Qed.
Lemma v3_par a b c x y z : v3_cross (a, b, c) (x, y, z) = (0, 0, 0) <-> parallel [a; b; c] [x; y; z].
Proof.
  unfold v3_cross, parallel. cbn [map]. split.
  - intros E. injection E as E1 E2 E3. destruct (Z.eq_dec a 0) as [->|A]; [destruct (Z.eq_dec b 0) as [->|B0]; [destruct (Z.eq_dec c 0) as [->|C0]|]|].
    + exists 1, 0. split; [left; lia|]. reflexivity.
    + exists z, c. split; [right; exact C0|]. f_equal; [lia|f_equal; [lia|f_equal; lia]].
    + exists y, b. split; [right; exact B0|]. f_equal; [lia|f_equal; [lia|f_equal; lia]].
    + exists x, a. split; [right; exact A|]. f_equal; [lia|f_equal; [lia|f_equal; lia]].
  - intros (s & t & N & E). injection E as E1 E2 E3.
    assert (K : forall p q p' q', s * p = t * p' -> s * q = t * q' -> p * q' - q * p' = 0).
    { intros p q p' q' P Q. destruct N as [N|N].
      + apply (prod0 s); [|exact N]. replace (s * (p * q' - q * p')) with ((s * p) * q' - (s * q) * p') by ring. rewrite P, Q. ring.
      + apply (prod0 t); [|exact N]. replace (t * (p * q' - q * p')) with (p * (t * q') - q * (t * p')) by ring. rewrite <- P, <- Q. ring. }
    rewrite (K b c y z E2 E3), (K c a z x E3 E1), (K a b x y E1 E2). reflexivity.
Qed.
