From Coq Require Import Permutation Sorted.
From Verif Require Import Lib GraphSpec WalkSpec TarjanSpec ClosModel ClosProofs DfsModel DfsProofs TarjanModel.
Open Scope nat_scope.

Definition fupd (f : nat -> Z) (v : nat) (c : Z) : nat -> Z := fun x => if x =? v then c else f x.
Lemma fupd_eq f v c : fupd f v c v = c. Proof. unfold fupd. now rewrite Nat.eqb_refl. Qed.
Lemma fupd_ne f v c x : x <> v -> fupd f v c x = f x. Proof. unfold fupd. intros H. now destruct (Nat.eqb_spec x v). Qed.
Definition dec (ix : nat -> Z) (l : list nat) : Prop := StronglySorted (fun a b => (ix b < ix a)%Z) l.
Lemma dec_split ix a u b : dec ix (a ++ u :: b) -> (forall x, In x a -> (ix u < ix x)%Z) /\ (forall x, In x b -> (ix x < ix u)%Z) /\ dec ix b.
Proof.
  induction a as [|y a IH]; cbn; intros D.
  - inversion D as [|? ? D' F]; subst. rewrite Forall_forall in F. split; [easy|]. split; [exact F|exact D'].
  - inversion D as [|? ? D' F]; subst. destruct (IH D') as (H1 & H2 & H3). split; [|now split]. intros x [<-|X]; [|now apply H1]. rewrite Forall_forall in F. apply F. apply in_or_app. right. now left.
Qed.
Lemma dec_ext ix ix' l : (forall x, In x l -> ix' x = ix x) -> dec ix l -> dec ix' l.
Proof.
  intros H D. induction D as [|a l D IH F]; constructor.
  - apply IH. intros x X. apply H. now right.
  - rewrite Forall_forall in *. intros x X. rewrite (H a), (H x); [now apply F|now right|now left].
Qed.

Section T.
  Context {W : Type}.
  Variable g : list (list (nat * W)).
  Hypothesis Wf : wf g.
  Notation n := (length g).
  Notation stack := (list (nat * nat)).
  Notation path := (map (@fst nat nat)).
  Lemma reach_trans x y z : reach g x y -> reach g y z -> reach g x z.
  Proof using Type. intros [->|A] [->|B]; [now left|now right|now right|right; now apply (walk_app g x y)]. Qed.
  Lemma reach_arc x y : arc g x y -> reach g x y. Proof using Type. intros. right. now constructor. Qed.
  (** an edge from z to y that has been looked at *)
  Definition scan (stk : stack) (z y : nat) : Prop := exists j e, nth_error (out g z) j = Some e /\ fst e = y /\ forall i, In (z, i) stk -> j < i.
  Lemma scan_arc stk z y : scan stk z y -> arc g z y.
  Proof using Type. intros (j & (v, w) & E & <- & _). exists w. eapply nth_error_In; eauto. Qed.
  Lemma arc_scan stk z y : (forall i, In (z, i) stk -> i = length (out g z)) -> arc g z y -> scan stk z y.
  Proof using Type. intros H (w & A). apply In_nth_error in A as (j & E). exists j, (y, w). split; [exact E|]. split; [reflexivity|]. intros i Hi. rewrite (H i Hi). apply nth_error_Some. congruence. Qed.

  Record TI (ix lw : nat -> Z) (stk : stack) (sta : list nat) (R : list (list nat)) (cnt : Z) : Prop := {
    ti_nd : NoDup (sta ++ concat R);
    ti_lt : forall v, In v (sta ++ concat R) -> v < n /\ (0 <= ix v < cnt)%Z;
    ti_un : forall v, v < n -> ~ In v (sta ++ concat R) -> ix v = (-1)%Z;
    ti_dec : dec ix sta;
    ti_chain : chain g (path stk);
    ti_pdec : dec ix (path stk);
    ti_sub : forall v, In v (path stk) -> In v sta;
    ti_len : forall u i, In (u, i) stk -> i <= length (out g u);
    ti_scan : forall z y, In z sta -> scan stk z y -> In y (sta ++ concat R);
    ti_down : forall p x, In p (path stk) -> In x sta -> (ix p <= ix x)%Z -> reach g p x;
    ti_up : forall x, In x sta -> exists p, In p (path stk) /\ (ix p <= ix x)%Z /\ reach g x p;
    ti_low : forall x, In x (path stk) -> (lw x <= ix x)%Z /\ exists y, In y sta /\ reach g x y /\ lw x = ix y;
    ti_bound : forall z y p, In z sta -> In y sta -> scan stk z y -> In p (path stk) -> (ix p <= ix z)%Z ->
      (forall q, In q (path stk) -> (ix q <= ix z)%Z -> (ix q <= ix p)%Z) -> (lw p <= ix y)%Z;
    ti_topo : forall A c B, R = A ++ c :: B -> forall x y, In x c -> arc g x y -> In y c \/ In y (concat B);
    ti_scc : forall c, In c R -> c <> [] /\ forall x, In x c -> forall y, In y c <-> reach g x y /\ reach g y x
  }.

  Lemma ti_inj ix lw stk sta R cnt : TI ix lw stk sta R cnt -> forall x y, In x sta -> In y sta -> ix x = ix y -> x = y.
  Proof using Type.
    intros T x y Hx Hy E. destruct (in_split x sta Hx) as (a & b & Es). pose proof (ti_dec _ _ _ _ _ _ T) as D. rewrite Es in D. destruct (dec_split _ _ _ _ D) as (H1 & H2 & _).
    rewrite Es in Hy. apply in_app_or in Hy as [Y|[Y|Y]]; [specialize (H1 y Y); lia|exact Y|specialize (H2 y Y); lia].
  Qed.

  (** lower low[u] *)
  Lemma T_low ix lw stk sta R cnt u y : TI ix lw stk sta R cnt -> In u (path stk) -> In y sta -> reach g u y -> TI ix (fupd lw u (Z.min (lw u) (ix y))) stk sta R cnt.
  Proof using Type.
    intros [A1 A2 A3 A4 A5 A6 A7 A8 A9 A10 A11 A12 A13 A14 A15] Hu Hy Ru. constructor; auto.
    - intros x Hx. destruct (A12 x Hx) as (L & z & Z1 & Z2 & Z3). destruct (Nat.eq_dec x u) as [->|N]; [rewrite fupd_eq|rewrite fupd_ne by exact N; eauto].
      split; [lia|]. destruct (Z.min_spec (lw u) (ix y)) as [(_ & ->)|(_ & ->)]; eauto.
    - intros z y0 p Z1 Z2 Z3 Hp L M. specialize (A13 z y0 p Z1 Z2 Z3 Hp L M). destruct (Nat.eq_dec p u) as [->|N]; [rewrite fupd_eq; lia|now rewrite fupd_ne by exact N].
  Qed.

  (** advance a frame *)
  Lemma T_adv ix lw pre u i e rest sta R cnt : TI ix lw (pre ++ (u, i) :: rest) sta R cnt -> nth_error (out g u) i = Some e ->
    In (fst e) (sta ++ concat R) -> (In (fst e) sta -> (lw u <= ix (fst e))%Z) -> TI ix lw (pre ++ (u, S i) :: rest) sta R cnt.
  Proof using Type.
    intros T Ee Hv Hl. pose proof T as [A1 A2 A3 A4 A5 A6 A7 A8 A9 A10 A11 A12 A13 A14 A15].
    assert (EP : path (pre ++ (u, S i) :: rest) = path (pre ++ (u, i) :: rest)) by (rewrite !map_app; reflexivity).
    assert (Pu : In u (path (pre ++ (u, i) :: rest))) by (rewrite map_app; apply in_or_app; right; now left).
    assert (SC : forall z y, scan (pre ++ (u, S i) :: rest) z y -> scan (pre ++ (u, i) :: rest) z y \/ (z = u /\ y = fst e)).
    { intros z y (j & e' & E & Ey & H). destruct (Nat.eq_dec z u) as [->|N].
      - destruct (Nat.eq_dec j i) as [->|Nj]; [right; split; [reflexivity|]; congruence|]. left. exists j, e'. split; [exact E|]. split; [exact Ey|]. intros k Hk. apply in_app_or in Hk as [X|[X|X]].
        + apply H. apply in_or_app. now left.
        + injection X as <-. specialize (H (S i)). assert (j < S i) by (apply H; apply in_or_app; right; now left). lia.
        + apply H. apply in_or_app. right. now right.
      - left. exists j, e'. split; [exact E|]. split; [exact Ey|]. intros k Hk. apply H. apply in_app_or in Hk as [X|[X|X]]; apply in_or_app; [now left|congruence|right; now right]. }
    constructor; rewrite ?EP; auto.
    - intros x k X. apply in_app_or in X as [X|[X|X]]; [apply A8; apply in_or_app; now left| |apply A8; apply in_or_app; right; now right]. injection X as <- <-. apply nth_error_Some. congruence.
    - intros z y Hz S0. destruct (SC z y S0) as [S1|(-> & ->)]; [now apply (A9 z)|exact Hv].
    - intros z y p Z1 Z2 S0 Hp L M. destruct (SC z y S0) as [S1|(-> & ->)]; [now apply (A13 z y p)|]. specialize (M u Pu ltac:(lia)). assert (p = u) as ->; [|now apply Hl].
      apply (ti_inj _ _ _ _ _ _ T); auto. lia.
  Qed.

  (** visit a new node *)
  Lemma T_push ix lw stk sta R cnt v : TI ix lw stk sta R cnt -> v < n -> ~ In v (sta ++ concat R) -> (0 <= cnt)%Z ->
    match path stk with [] => True | u :: _ => arc g u v end ->
    TI (fupd ix v cnt) (fupd lw v cnt) ((v, 0) :: stk) (v :: sta) R (cnt + 1).
  Proof using Type.
    intros [A1 A2 A3 A4 A5 A6 A7 A8 A9 A10 A11 A12 A13 A14 A15] Lv NI C0 Hu.
    assert (Ns : forall x, In x sta -> x <> v) by (intros x X ->; apply NI; apply in_or_app; now left).
    assert (NR : forall x, In x (concat R) -> x <> v) by (intros x X ->; apply NI; apply in_or_app; now right).
    assert (Np : forall x, In x (path stk) -> x <> v) by auto.
    assert (Es : forall x, In x sta -> fupd ix v cnt x = ix x) by (intros; apply fupd_ne; auto).
    assert (Ep : forall x, In x (path stk) -> fupd ix v cnt x = ix x) by auto.
    assert (Cs : forall x, In x sta -> (0 <= ix x < cnt)%Z) by (intros x X; apply A2; apply in_or_app; now left).
    assert (SC : forall z y, z <> v -> scan ((v, 0) :: stk) z y -> scan stk z y).
    { intros z y N (j & e & E & Ey & H). exists j, e. split; [exact E|]. split; [exact Ey|]. intros i Hi. apply H. now right. }
    assert (SV : forall y, ~ scan ((v, 0) :: stk) v y). { intros y (j & e & E & Ey & H). specialize (H 0 (or_introl eq_refl)). lia. }
    constructor; cbn [path map fst].
    - cbn. now constructor.
    - intros x X. cbn in X. destruct X as [<-|X]; [rewrite fupd_eq; split; [exact Lv|lia]|]. destruct (A2 x X) as (L & B). rewrite fupd_ne; [split; [exact L|lia]|]. intros ->. contradiction.
    - intros x Lx X. rewrite fupd_ne; [apply A3; [exact Lx|]; intros Y; apply X; now right|]. intros ->. apply X. now left.
    - constructor; [now apply (dec_ext ix)|]. apply Forall_forall. intros x X. rewrite fupd_eq, (Es x X). now apply Cs.
    - destruct (path stk) as [|u r]; [exact I|]. split; assumption.
    - constructor; [now apply (dec_ext ix)|]. apply Forall_forall. intros x X. rewrite fupd_eq, (Ep x X). now apply Cs, A7.
    - intros x [<-|X]; [now left|right; auto].
    - intros u i [X|X]; [injection X as <- <-; lia|now apply A8].
    - intros z y [<-|Hz] S0; [now apply SV in S0|]. right. apply (A9 z); auto.
    - intros p x [<-|Hp] [<-|Hx] L; [now left| | |].
      + rewrite fupd_eq, (Es x Hx) in L. specialize (Cs x Hx). lia.
      + destruct stk as [|(u, i) r]; [easy|]. cbn [map fst] in *. destruct Hp as [<-|Hp]; [now apply reach_arc|]. right. apply (walk_snoc g p u); [|exact Hu]. exact (chain_walk g _ A5 p Hp u eq_refl).
      + rewrite (Ep p Hp), (Es x Hx) in L. now apply A10.
    - intros x [<-|Hx]; [exists v; split; [now left|]; split; [lia|now left]|]. destruct (A11 x Hx) as (p & P1 & P2 & P3). exists p. split; [now right|]. rewrite (Ep p P1), (Es x Hx). auto.
    - intros x [<-|Hx]; [rewrite !fupd_eq; split; [lia|]; exists v; rewrite fupd_eq; split; [now left|]; split; [now left|reflexivity]|].
      destruct (A12 x Hx) as (L & y & Y1 & Y2 & Y3). rewrite (Ep x Hx), fupd_ne by auto. split; [exact L|]. exists y. rewrite (Es y Y1). split; [now right|auto].
    - intros z y p [<-|Hz] Hy S0 Hp L M; [now apply SV in S0|]. apply SC in S0; [|auto]. destruct Hy as [<-|Hy]; [destruct (NI (A9 z v Hz S0))|].
      rewrite (Es z Hz) in *. destruct Hp as [<-|Hp]; [rewrite fupd_eq in L; specialize (Cs z Hz); lia|]. rewrite (Ep p Hp) in *. rewrite fupd_ne, (Es y Hy) by auto.
      apply (A13 z y p); auto. intros q Hq Lq. specialize (M q (or_intror Hq)). rewrite (Ep q Hq) in M. auto.
    - exact A14.
    - exact A15.
  Qed.

  Lemma top_max ix u r : dec ix (u :: r) -> forall q, In q (u :: r) -> (ix q <= ix u)%Z.
  Proof using Type. intros D q [<-|Q]; [lia|]. inversion D as [|? ? _ F]; subst. rewrite Forall_forall in F. specialize (F q Q). lia. Qed.

  (** leave a node that is not the first of its component *)
  Lemma T_drop ix lw u x j r sta R cnt : TI ix lw ((u, length (out g u)) :: (x, j) :: r) sta R cnt -> (lw u < ix u)%Z -> (lw x <= lw u)%Z -> TI ix lw ((x, j) :: r) sta R cnt.
  Proof using Type.
    intros T Lu Lx. pose proof T as [A1 A2 A3 A4 A5 A6 A7 A8 A9 A10 A11 A12 A13 A14 A15]. set (rest := (x, j) :: r) in *. cbn [map fst] in *.
    pose proof (top_max _ _ _ A6) as TM. assert (Dr : dec ix (path rest)) by now inversion A6. assert (Fu : forall q, In q (path rest) -> (ix q < ix u)%Z) by (inversion A6 as [|? ? _ F]; subst; now rewrite Forall_forall in F).
    assert (SC : forall z y, scan rest z y -> scan ((u, length (out g u)) :: rest) z y).
    { intros z y (k & e & E & Ey & H). exists k, e. split; [exact E|]. split; [exact Ey|]. intros i [X|X]; [|now apply H]. injection X as <- <-. apply nth_error_Some. congruence. }
    constructor; auto.
    - exact (proj2 A5).
    - intros v X. apply A7. now right.
    - intros v i X. apply A8. now right.
    - intros z y Hz S0. apply (A9 z); auto.
    - intros p v Hp. apply A10. now right.
    - intros v Hv. destruct (A11 v Hv) as (p & [<-|P1] & P2 & P3); [|now exists p].
      destruct (A12 u (or_introl eq_refl)) as (_ & y & Y1 & Y2 & Y3). destruct (A11 y Y1) as (p & [<-|Q1] & Q2 & Q3); [lia|]. exists p. split; [exact Q1|]. split; [lia|]. now apply (reach_trans v u), (reach_trans u y).
    - intros v Hv. apply A12. now right.
    - intros z y p Hz Hy S0 Hp L M. apply SC in S0. destruct (Z.le_gt_cases (ix u) (ix z)) as [G|G].
      + assert (lw u <= ix y)%Z by (apply (A13 z y u); auto; now left). assert (p = x) as ->; [|lia].
        pose proof (top_max ix x (path r) Dr p Hp). specialize (M x (or_introl eq_refl)). specialize (Fu x (or_introl eq_refl)). apply (ti_inj _ _ _ _ _ _ T); [apply A7; now right|apply A7; right; now left|lia].
      + apply (A13 z y p); auto; [now right|]. intros q [<-|Q] Lq; [lia|now apply M].
  Qed.

  (** leave the first node of a component *)
  Lemma T_pop ix lw u rest sa sta R cnt : TI ix lw ((u, length (out g u)) :: rest) (sa ++ u :: sta) R cnt -> lw u = ix u -> TI ix lw rest sta ((sa ++ [u]) :: R) cnt.
  Proof using Type.
    intros T Lu. pose proof T as [A1 A2 A3 A4 A5 A6 A7 A8 A9 A10 A11 A12 A13 A14 A15]. cbn [map fst] in *. set (c := sa ++ [u]) in *.
    destruct (dec_split _ _ _ _ A4) as (Ha & Hb & Dr). pose proof (top_max _ _ _ A6) as TM.
    assert (Fu : forall q, In q (path rest) -> (ix q < ix u)%Z) by (inversion A6 as [|? ? _ F]; subst; now rewrite Forall_forall in F).
    assert (Pc : forall v, In v c <-> In v (sa ++ u :: sta) /\ (ix u <= ix v)%Z).
    { intros v. unfold c. rewrite !in_app_iff. cbn. split.
      - intros [X|[<-|[]]]; [specialize (Ha v X); split; [now left|lia]|split; [right; now left|lia]].
      - intros ([X|[X|X]] & L); [now left|right; now left|specialize (Hb v X); lia]. }
    assert (Pr : forall v, In v sta <-> In v (sa ++ u :: sta) /\ (ix v < ix u)%Z).
    { intros v. rewrite in_app_iff. cbn. split; [intros X; split; [right; now right|now apply Hb]|]. intros ([X|[<-|X]] & L); [specialize (Ha v X); lia|lia|exact X]. }
    assert (PE : Permutation ((sa ++ u :: sta) ++ concat R) (sta ++ concat (c :: R))).
    { cbn. unfold c. replace (sa ++ u :: sta) with ((sa ++ [u]) ++ sta) by (now rewrite <- app_assoc). rewrite <- app_assoc. apply Permutation_app_swap_app. }
    assert (PI : forall v, In v ((sa ++ u :: sta) ++ concat R) <-> In v (sta ++ concat (c :: R))) by (intros; split; apply Permutation_in; [exact PE|now symmetry]).
    assert (Iu : In u (sa ++ u :: sta)) by (apply in_or_app; right; now left).
    assert (SC : forall z y, z <> u -> scan rest z y -> scan ((u, length (out g u)) :: rest) z y).
    { intros z y N (k & e & E & Ey & H). exists k, e. split; [exact E|]. split; [exact Ey|]. intros i [X|X]; [congruence|now apply H]. }
    assert (CL : forall z y, In z c -> arc g z y -> In y c \/ In y (concat R)).
    { intros z y Hz A. apply Pc in Hz as (Hz & Lz). assert (S0 : scan ((u, length (out g u)) :: rest) z y).
      { apply arc_scan; [|exact A]. intros i [X|X]; [congruence|]. exfalso. assert (In z (path rest)) as Y by (apply in_map_iff; now exists (z, i)). specialize (Fu z Y). lia. }
      pose proof (A9 z y Hz S0) as V. apply in_app_or in V as [V|V]; [|now right]. left. apply Pc. split; [exact V|]. rewrite <- Lu. apply (A13 z y u); auto. now left. }
    assert (RC : forall x y, In x (concat R) -> reach g x y -> In y (concat R)).
    { assert (O : forall x y, In x (concat R) -> arc g x y -> In y (concat R)).
      { intros x y X A. apply in_concat in X as (d & D1 & D2). destruct (in_split d R D1) as (r1 & r2 & ER). destruct (A14 r1 d r2 ER x y D2 A) as [Y|Y]; rewrite ER; rewrite concat_app; apply in_or_app; right; cbn; apply in_or_app; [now left|now right]. }
      intros x y X [<-|H]; [exact X|]. induction H as [x y A|x v y A _ IH]; [now apply (O x)|]. apply IH. now apply (O x). }
    assert (CR : forall x y, In x c -> reach g x y -> In y c \/ In y (concat R)).
    { intros x y X [<-|H]; [now left|]. assert (G : In x c \/ In x (concat R)) by now left. clear X. induction H as [x y A|x v y A _ IH].
      - destruct G as [G|G]; [now apply (CL x)|right; apply (RC x); [exact G|now apply reach_arc]].
      - apply IH. destruct G as [G|G]; [now apply (CL x)|right; apply (RC x); [exact G|now apply reach_arc]]. }
    assert (Dj : forall v, In v (sa ++ u :: sta) -> ~ In v (concat R)).
    { clear - A1. intros v X Y. destruct (in_split v _ X) as (a & b & E). rewrite E, <- app_assoc in A1. cbn in A1. apply NoDup_remove_2 in A1. apply A1. apply in_or_app. right. apply in_or_app. now right. }
    assert (UP : forall x, In x c -> reach g x u).
    { intros x X. pose proof (proj1 (Pc x) X) as (Hx & Lx). destruct (A11 x Hx) as (p & P1 & P2 & P3). destruct (CR x p X P3) as [Y|Y].
      - apply Pc in Y as (_ & Y). pose proof (TM p P1). assert (p = u) as <-; [|exact P3]. apply (ti_inj _ _ _ _ _ _ T); [now apply A7|exact Iu|lia].
      - destruct (Dj p (A7 p P1) Y). }
    assert (DN : forall x, In x c -> reach g u x). { intros x X. apply Pc in X as (Hx & Lx). apply A10; auto. now left. }
    constructor; auto.
    - now apply (Permutation_NoDup PE).
    - intros v X. apply A2. now apply PI.
    - intros v L X. apply A3; [exact L|]. intros Y. apply X. now apply PI.
    - destruct rest as [|(x, j) r]; [exact I|]. exact (proj2 A5).
    - now inversion A6.
    - intros v X. apply Pr. split; [apply A7; now right|now apply Fu].
    - intros v i X. apply A8. now right.
    - intros z y Hz S0. apply PI. apply Pr in Hz as (Hz & Lz). apply (A9 z); [exact Hz|]. apply SC; [intros ->; lia|exact S0].
    - intros p x Hp Hx. apply A10; [now right|now apply Pr].
    - intros x Hx. apply Pr in Hx as (Hx & Lx). destruct (A11 x Hx) as (p & [<-|P1] & P2 & P3); [lia|]. now exists p.
    - intros x Hx. destruct (A12 x (or_intror Hx)) as (L & y & Y1 & Y2 & Y3). split; [exact L|]. exists y. split; [|auto]. apply Pr. split; [exact Y1|]. specialize (Fu x Hx). lia.
    - intros z y p Hz Hy S0 Hp L M. apply Pr in Hz as (Hz & Lz). apply Pr in Hy as (Hy & Ly). apply (A13 z y p); auto; [apply SC; [intros ->; lia|exact S0]|now right|]. intros q [<-|Q] Lq; [lia|now apply M].
    - intros A d B E x y X Ar. destruct A as [|d' A]; cbn in E; injection E as <- E.
      + subst B. now apply (CL x).
      + now apply (A14 A d B E x).
    - intros d [<-|D]; [|now apply A15]. split; [unfold c; destruct sa; discriminate|]. intros x X y. split.
      + intros Y. split; [apply (reach_trans x u); auto|apply (reach_trans y u); auto].
      + intros (R1 & R2). destruct (CR x y X R1) as [Y|Y]; [exact Y|]. exfalso. pose proof (RC y x Y R2) as Z0. apply (Dj x); [now apply Pc in X|exact Z0].
  Qed.
End T.
