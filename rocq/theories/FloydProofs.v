From Verif Require Import Lib GraphSpec WalkSpec ClosModel ClosProofs FloydModel.
Open Scope nat_scope.

(** ** tables *)
Definition square (n : nat) (t : table) : Prop := length t = n /\ forall i r, nth_error t i = Some r -> length r = n.
Lemma t_get_some n t i j : square n t -> i < n -> j < n -> exists e, t_get t i j = Some e.
Proof. intros (L & H) Hi Hj. unfold t_get. destruct (nth_error_some t i ltac:(lia)) as (r & Er). rewrite Er. cbn [obind]. apply nth_error_some. rewrite (H i r Er). exact Hj. Qed.
Lemma t_set_some n t i j e : square n t -> i < n -> j < n ->
  exists t', t_set t i j e = Some t' /\ square n t' /\ forall x y, t_get t' x y = if (i =? x) && (j =? y) then Some e else t_get t x y.
Proof.
  intros (L & H) Hi Hj. unfold t_set. destruct (nth_error_some t i ltac:(lia)) as (r & Er). rewrite Er. cbn [obind].
  destruct (set_nth_some r j e ltac:(rewrite (H i r Er); lia)) as (r' & Er'). rewrite Er'. cbn [obind]. destruct (set_nth_some t i r' ltac:(lia)) as (t' & Et). exists t'. split; [exact Et|]. split.
  - split; [rewrite (set_nth_length _ _ _ _ Et); exact L|]. intros x q Hq. rewrite (set_nth_get _ _ _ _ x Et) in Hq. destruct (i =? x); [injection Hq as <-; rewrite (set_nth_length _ _ _ _ Er'); now apply (H i)|now apply (H x)].
  - intros x y. unfold t_get. rewrite (set_nth_get _ _ _ _ x Et). destruct (Nat.eqb_spec i x) as [<-|N]; cbn [andb]; [|reflexivity]. rewrite Er. cbn [obind]. apply (set_nth_get _ _ _ _ y Er').
Qed.

(** ** walks and paths *)
Section G.
  Variable g : wgraph.
  Hypothesis Wf : wf g.
  Notation n := (length g).
  Lemma edge_lt u v a : In (v, a) (out g u) -> u < n /\ v < n.
  Proof using Wf. intros H. apply (arc_lt g Wf). now exists a. Qed.
  Lemma ww_lt u v w : wwalk g u v w -> u < n /\ v < n.
  Proof using Wf. induction 1 as [u H|u x v a w H _ IH]; [auto|]. split; [exact (proj1 (edge_lt _ _ _ H))|apply IH]. Qed.
  Lemma ww_app u x v a b : wwalk g u x a -> wwalk g x v b -> wwalk g u v (a + b).
  Proof using. induction 1 as [u H|u y x c a H _ IH]; intros Hb; [now rewrite Z.add_0_l|]. rewrite <- Z.add_assoc. econstructor; eauto. Qed.
  Lemma ww_arc u v a : In (v, a) (out g u) -> wwalk g u v a.
  Proof using Wf. intros H. replace a with (a + 0)%Z by lia. econstructor; [exact H|]. constructor. exact (proj2 (edge_lt _ _ _ H)). Qed.
  Lemma wp_ww u l v w : wpath g u l v w -> wwalk g u v w.
  Proof using Wf. induction 1; [now apply ww_arc|econstructor; eauto]. Qed.
  Lemma wp_split u l1 x l2 v w : wpath g u (l1 ++ x :: l2) v w -> exists w1 w2, wpath g u l1 x w1 /\ wpath g x l2 v w2 /\ w = (w1 + w2)%Z.
  Proof using.
    revert u w. induction l1 as [|y l1 IH]; intros u w H; inversion H as [|? ? ? ? a w' Ha Hw]; subst.
    - exists a, w'. split; [now constructor|]. auto.
    - destruct (IH y w' Hw) as (w1 & w2 & P1 & P2 & ->). exists (a + w1)%Z, w2. split; [econstructor; eauto|]. split; [exact P2|lia].
  Qed.
  Hypothesis Nn : no_negative_cycle g.
  Lemma simple u v w : wwalk g u v w -> u <> v -> exists l w', wpath g u l v w' /\ NoDup (u :: l ++ [v]) /\ (w' <= w)%Z.
  Proof using Wf Nn.
    induction 1 as [u H|u x v a w Ha Hw IH]; intros N; [congruence|].
    destruct (Nat.eq_dec x v) as [->|Nx].
    { exists [], a. split; [now constructor|]. split; [repeat constructor; [intros [X|[]]; congruence|intros []]|]. apply Nn in Hw. lia. }
    destruct (IH Nx) as (l & w' & P & ND & Le). destruct (Nat.eq_dec x u) as [->|Nu].
    { exists l, w'. split; [exact P|]. split; [exact ND|]. pose proof (Nn u a (ww_arc _ _ _ Ha)). lia. }
    destruct (in_dec Nat.eq_dec u l) as [I|I].
    - apply in_split in I as (l1 & l2 & ->). destruct (wp_split x l1 u l2 v w' P) as (w1 & w2 & P1 & P2 & ->). exists l2, w2. split; [exact P2|]. split.
      + rewrite <- app_assoc in ND. change (x :: l1 ++ (u :: l2) ++ [v]) with ((x :: l1) ++ u :: l2 ++ [v]) in ND. clear -ND. revert ND. generalize (x :: l1). intros q. induction q as [|y q IH]; intros ND; [exact ND|]. inversion ND. auto.
      + pose proof (Nn u (a + w1)%Z) as Q. assert (wwalk g u u (a + w1)) by (econstructor; [exact Ha|now apply (wp_ww _ l1)]). apply Q in H. lia.
    - exists (x :: l), (a + w')%Z. split; [econstructor; eauto|]. split; [|lia]. cbn [app]. constructor; [|exact ND]. cbn. rewrite in_app_iff. cbn. intros [X|[X|[X|[]]]]; congruence.
  Qed.

  (** ** the invariant *)
  Variable inf : Z.
  Hypothesis Bl : below g inf.
  (** the entry is a walk whose first step is [a]; without one it is inf *)
  Definition entry_ok (u v : nat) (e : entry) : Prop :=
    match e with
    | (None, d) => d = inf /\ u <> v
    | (Some a, d) => u = v /\ a = u /\ d = 0%Z \/ u <> v /\ exists c w, In (a, c) (out g u) /\ wwalk g a v w /\ d = (c + w)%Z
    end.
  Definition best (k u v : nat) (e : entry) : Prop :=
    forall l w, wpath g u l v w -> NoDup (u :: l ++ [v]) -> Forall (fun x => x < k) l -> fst e <> None /\ (snd e <= w)%Z.
  Lemma entry_walk u v a d : u < n -> entry_ok u v (Some a, d) -> wwalk g u v d.
  Proof using. intros Hu [(<- & _ & ->)|(_ & c & w & H & Hw & ->)]; [now constructor|econstructor; eauto]. Qed.
  Lemma best_mono k u v e e' : best k u v e -> (fst e <> None -> fst e' <> None) -> (snd e' <= snd e)%Z -> best k u v e'.
  Proof using. intros H H1 H2 l w P ND F. destruct (H l w P ND F). split; [auto|lia]. Qed.
  Definition ok_at (t : table) (P : nat -> nat -> entry -> Prop) : Prop := forall u v e, u < n -> v < n -> t_get t u v = Some e -> P u v e.

  (** during round i, entries (x, y) before (u, v) are best for i+1, the others for i *)
  Definition RInv (i u v : nat) (t : table) : Prop := square n t /\ ok_at t entry_ok /\
    ok_at t (fun x y e => best i x y e /\ (x < u \/ x = u /\ y < v -> best (S i) x y e)).
  Lemma relax_run i u v t : i < n -> u < n -> v < n -> RInv i u v t -> exists t', fw_relax i u v t = Some t' /\ RInv i u (S v) t'.
  Proof using Wf Nn Bl.
    intros Hi Hu Hv (Sq & Ok & B). unfold fw_relax.
    destruct (t_get_some n t u i Sq Hu Hi) as ((a, da) & Ea). rewrite Ea. cbn [obind]. destruct (t_get_some n t i v Sq Hi Hv) as ((b, db) & Eb). rewrite Eb. cbn [obind].
    destruct (t_get_some n t u v Sq Hu Hv) as ((c, d) & Ec). rewrite Ec. cbn [obind].
    pose proof (Ok u i _ Hu Hi Ea) as Oa. pose proof (Ok i v _ Hi Hv Eb) as Ob. pose proof (Ok u v _ Hu Hv Ec) as Oc.
    destruct (B u i _ Hu Hi Ea) as (Ba & _). destruct (B i v _ Hi Hv Eb) as (Bb & _). destruct (B u v _ Hu Hv Ec) as (Bc & _).
    (* a simple path of intermediate nodes up to i is one below i or splits at i *)
    assert (Sp : forall l w, wpath g u l v w -> NoDup (u :: l ++ [v]) -> Forall (fun x => x < S i) l ->
      (c <> None /\ (d <= w)%Z) \/ (a <> None /\ b <> None /\ (da + db <= w)%Z)).
    { intros l w P ND F. destruct (in_dec Nat.eq_dec i l) as [I|I].
      - right. apply in_split in I as (l1 & l2 & ->). destruct (wp_split u l1 i l2 v w P) as (w1 & w2 & P1 & P2 & ->).
        rewrite <- app_assoc in ND. cbn [app] in ND. change (u :: l1 ++ i :: l2 ++ [v]) with ((u :: l1) ++ i :: l2 ++ [v]) in ND.
        pose proof (NoDup_remove_2 _ _ _ ND) as Ni. rewrite Forall_app in F. destruct F as (F1 & F2). inversion F2 as [|? ? _ F2']; subst.
        assert (Lt : forall l, ~ In i l -> Forall (fun x => x < S i) l -> Forall (fun x => x < i) l).
        { intros q Nq Fq. rewrite Forall_forall in *. intros x Hx. specialize (Fq x Hx). assert (x <> i) by congruence. lia. }
        destruct (Ba l1 w1 P1) as (Q1 & Q2).
        { change (u :: l1 ++ [i]) with ((u :: l1) ++ [i]). clear -ND. revert ND. generalize (u :: l1) (l2 ++ [v]). intros p q ND. induction p as [|y p IH]; cbn in *; [constructor; [intros []|constructor]|]. inversion ND as [|? ? Hy Hp]; subst. constructor; [|now apply IH]. intros X. apply Hy. rewrite in_app_iff in *. cbn in *. tauto. }
        { apply Lt; [|exact F1]. intros X. apply Ni. rewrite in_app_iff. left. now right. }
        destruct (Bb l2 w2 P2) as (Q3 & Q4).
        { clear -ND. revert ND. generalize (u :: l1). intros q. induction q as [|y q IH]; intros ND; [exact ND|]. inversion ND. auto. }
        { apply Lt; [|exact F2']. intros X. apply Ni. rewrite !in_app_iff. right. now left. }
        cbn [fst snd] in *. split; [exact Q1|]. split; [exact Q3|]. lia.
      - left. apply (Bc l w P ND). rewrite Forall_forall in *. intros x Hx. specialize (F x Hx). assert (x <> i) by congruence. lia. }
    assert (Keep : forall t', square n t' -> ok_at t' entry_ok -> (forall x y e', x < n -> y < n -> t_get t' x y = Some e' -> exists e, t_get t x y = Some e /\ (fst e <> None -> fst e' <> None) /\ (snd e' <= snd e)%Z) ->
      (forall e', t_get t' u v = Some e' -> best (S i) u v e') -> RInv i u (S v) t').
    { intros t' Sq' Ok' Mono Huv. split; [exact Sq'|]. split; [exact Ok'|]. intros x y e' Hx Hy He'. destruct (Mono x y e' Hx Hy He') as (e & He & M1 & M2). destruct (B x y e Hx Hy He) as (B1 & B2). split; [now apply (best_mono i x y e)|].
      intros Q. destruct (Nat.eq_dec x u) as [->|Nx]; [destruct (Nat.eq_dec y v) as [->|Ny]; [now apply Huv|]|]; apply (best_mono (S i) _ _ e); auto; apply B2; lia. }
    assert (Same : (forall l w, wpath g u l v w -> NoDup (u :: l ++ [v]) -> Forall (fun x => x < S i) l -> c <> None /\ (d <= w)%Z) -> RInv i u (S v) t).
    { intros H. apply Keep; auto; [intros x y e' _ _ E'; exists e'; split; [exact E'|split; [auto|lia]]|]. intros e' E'. rewrite Ec in E'. injection E' as <-. exact H. }
    destruct a as [a|]; [destruct b as [b|]|].
    - destruct (Z.ltb_spec (da + db) d) as [Lt|Ge].
      + destruct (t_set_some n t u v (Some a, da + db)%Z Sq Hu Hv) as (t' & Et & Sq' & G). exists t'. split; [exact Et|]. apply Keep; auto.
        * intros x y e Hx Hy. rewrite G. destruct (Nat.eqb_spec u x) as [<-|_]; [destruct (Nat.eqb_spec v y) as [<-|_]|]; cbn [andb]; [|now apply Ok|now apply Ok].
          intros Q. injection Q as <-. pose proof (entry_walk _ _ _ _ Hu Oa) as Wa. pose proof (entry_walk _ _ _ _ Hi Ob) as Wb. pose proof (ww_app _ _ _ _ _ Wa Wb) as Wc. cbn [entry_ok].
          destruct (Nat.eq_dec u v) as [<-|Nuv].
          { exfalso. apply Nn in Wc. destruct c as [c|]; cbn [entry_ok] in Oc; [destruct Oc as [(_ & _ & ->)|(X & _)]; [lia|congruence]|destruct Oc; congruence]. }
          right. split; [exact Nuv|]. cbn [entry_ok] in Oa. destruct Oa as [(-> & -> & ->)|(_ & q & w & Hq & Hw & ->)].
          -- (* u = i *) rewrite Ec in Eb. injection Eb as -> ->. lia.
          -- exists q, (w + db)%Z. split; [exact Hq|]. split; [now apply (ww_app _ i)|lia].
        * intros x y e' Hx Hy. rewrite G. destruct (Nat.eqb_spec u x) as [<-|_]; [destruct (Nat.eqb_spec v y) as [<-|_]|]; cbn [andb]; intros Q; [|exists e'; split; [exact Q|split; [auto|lia]]|exists e'; split; [exact Q|split; [auto|lia]]].
          injection Q as <-. exists (c, d). split; [exact Ec|]. cbn. split; [congruence|lia].
        * intros e'. rewrite G, !Nat.eqb_refl. cbn [andb]. intros Q. injection Q as <-. intros l w P ND F. cbn. split; [congruence|]. destruct (Sp l w P ND F) as [(_ & X)|(_ & _ & X)]; lia.
      + exists t. split; [reflexivity|]. apply Same. intros l w P ND F. destruct (Sp l w P ND F) as [X|(_ & _ & X)]; [exact X|]. split; [|lia].
        intros ->. cbn [entry_ok] in Oc. destruct Oc as (-> & _). pose proof (Bl u l v w P ND). lia.
    - exists t. split; [reflexivity|]. apply Same. intros l w P ND F. destruct (Sp l w P ND F) as [X|(_ & X & _)]; [exact X|congruence].
    - exists t. split; [reflexivity|]. apply Same. intros l w P ND F. destruct (Sp l w P ND F) as [X|(X & _)]; [exact X|congruence].
  Qed.
  Lemma rounds_run t : square n t -> ok_at t entry_ok -> ok_at t (best 0) ->
    exists t', for_range 0 n (fun i => for_range 0 n (fun u => for_range 0 n (fun v => fw_relax i u v))) t = Some t' /\ square n t' /\ ok_at t' entry_ok /\ ok_at t' (best n).
  Proof using Wf Nn Bl.
    intros Sq Ok B. destruct (for_range_spec (fun i t => square n t /\ ok_at t entry_ok /\ ok_at t (best i)) (fun i => for_range 0 n (fun u => for_range 0 n (fun v => fw_relax i u v))) 0 n t) as (t' & E & H); [lia|auto| |exists t'; auto].
    intros i t1 Hi (Sq1 & Ok1 & B1).
    destruct (for_range_spec (fun u t => RInv i u 0 t) (fun u => for_range 0 n (fun v => fw_relax i u v)) 0 n t1) as (t2 & E2 & Sq2 & Ok2 & B2).
    - lia.
    - split; [exact Sq1|]. split; [exact Ok1|]. intros x y e Hx Hy He. split; [now apply B1|lia].
    - intros u t2 Hu H2. destruct (for_range_spec (fun v t => RInv i u v t) (fun v => fw_relax i u v) 0 n t2) as (t3 & E3 & Sq3 & Ok3 & B3); [lia|exact H2|intros v t3 Hv H3; apply relax_run; auto; lia|].
      exists t3. split; [exact E3|]. split; [exact Sq3|]. split; [exact Ok3|]. intros x y e Hx Hy He. destruct (B3 x y e Hx Hy He) as (P & Q). split; [exact P|]. intros R. apply Q. lia.
    - exists t2. split; [exact E2|]. split; [exact Sq2|]. split; [exact Ok2|]. intros x y e Hx Hy He. apply (B2 x y e Hx Hy He). lia.
  Qed.
  (** ** the initial table *)
  Definition Init (i : nat) (t : table) : Prop := square n t /\
    (forall u v, i <= u -> u < n -> v < n -> t_get t u v = Some (None, inf)) /\ (forall u v e, u < i -> u < n -> v < n -> t_get t u v = Some e -> entry_ok u v e /\ best 0 u v e).
  Lemma init_run : exists t, for_range 0 n (fw_init g) (repeat (repeat (None, inf) n) n) = Some t /\ square n t /\ ok_at t entry_ok /\ ok_at t (best 0).
  Proof using Wf Nn Bl.
    destruct (for_range_spec Init (fw_init g) 0 n (repeat (repeat (None, inf) n) n)) as (t & E & Sq & _ & H).
    - lia.
    - assert (R : forall i r, nth_error (repeat (repeat (@None nat, inf) n) n) i = Some r -> r = repeat (None, inf) n) by (intros i r X; apply nth_error_In in X; now apply repeat_spec in X).
      split; [|split; [|lia]].
      + split; [apply repeat_length|]. intros i r X. rewrite (R i r X). apply repeat_length.
      + intros u v _ Hu Hv. unfold t_get. destruct (nth_error_some (repeat (repeat (@None nat, inf) n) n) u ltac:(rewrite repeat_length; lia)) as (r & Er). rewrite Er. cbn [obind]. rewrite (R u r Er). destruct (nth_error_some (repeat (@None nat, inf) n) v ltac:(rewrite repeat_length; lia)) as (e & Ee). rewrite Ee. apply nth_error_In, repeat_spec in Ee. now subst.
    - intros i t Hi (Sq & Hn & Ho). unfold fw_init. destruct (t_set_some n t i i (Some i, 0%Z) Sq ltac:(lia) ltac:(lia)) as (t1 & E1 & Sq1 & G1). rewrite E1. cbn [obind]. destruct (nth_error_some g i ltac:(lia)) as (l & El). rewrite El. cbn [obind]. pose proof (out_nth g i l El) as Ol.
      destruct (for_each_spec (fun pre t => square n t /\ (forall u v, u <> i -> t_get t u v = t_get t1 u v) /\
        (forall v e, v < n -> t_get t i v = Some e -> entry_ok i v e /\ (forall w, In (v, w) pre -> v <> i -> fst e <> None /\ (snd e <= w)%Z) /\ (i <> v -> fst e <> None -> In (v, snd e) (out g i)))) (fw_edge i) l t1) as (t2 & E2 & Sq2 & H2 & H3).
      + split; [exact Sq1|]. split; [reflexivity|]. intros v e Hv. rewrite G1, Nat.eqb_refl. cbn [andb]. destruct (Nat.eqb_spec i v) as [<-|N].
        * intros Q. injection Q as <-. split; [now left|]. split; [intros w []|congruence].
        * rewrite (Hn i v) by lia. intros Q. injection Q as <-. split; [now split|]. split; [intros w []|intros _ X; now destruct X].
      + intros pre (v, w) post t2 Epre (Sq2 & H2 & H3). unfold fw_edge. assert (A : In (v, w) (out g i)) by (rewrite Ol, Epre; apply in_elt). destruct (edge_lt _ _ _ A) as (_ & Lv).
        destruct (t_get_some n t2 i v Sq2 ltac:(lia) Lv) as ((a, x) & Ea). rewrite Ea. cbn [obind]. destruct (t_set_some n t2 i v (Some v, Z.min x w) Sq2 ltac:(lia) Lv) as (t3 & E3 & Sq3 & G3). exists t3. split; [exact E3|]. split; [exact Sq3|]. split.
        * intros y z N. rewrite G3. destruct (Nat.eqb_spec i y); [congruence|]. cbn [andb]. now apply H2.
        * intros y e Hy. rewrite G3, Nat.eqb_refl. cbn [andb]. destruct (H3 v _ Lv Ea) as (Oa & Pa & Ia). destruct (Nat.eqb_spec v y) as [<-|N].
          -- intros Q. injection Q as <-. destruct (Nat.eq_dec i v) as [<-|Niv].
             ++ assert (x = 0%Z) by (destruct a as [a|]; cbn [entry_ok] in Oa; [destruct Oa as [(_ & _ & ->)|(X & _)]; [reflexivity|congruence]|destruct Oa; congruence]). subst x. pose proof (Nn i w (ww_arc _ _ _ A)). split; [cbn [entry_ok]; left; repeat split; lia|]. split; [intros w' _ X|intros X]; congruence.
             ++ split.
                ** cbn [entry_ok]. right. split; [exact Niv|]. destruct (Z.min_spec x w) as [(Lt & ->)|(Le & ->)].
                   --- destruct a as [a|]; cbn [entry_ok] in Oa; [|destruct Oa as (-> & _); assert (ND : NoDup (i :: [] ++ [v])) by (repeat constructor; [intros [X|[]]; congruence|intros []]); pose proof (Bl i [] v w (wp_arc _ _ _ _ A) ND); lia].
                       exists x, 0%Z. split; [apply Ia; [exact Niv|cbn; congruence]|]. split; [now constructor|lia].
                   --- exists w, 0%Z. split; [exact A|]. split; [now constructor|lia].
                ** split; [|intros _ _; cbn [snd]; destruct (Z.min_spec x w) as [(Lt & ->)|(Le & ->)]; [|exact A]; apply Ia; [exact Niv|]; cbn [fst]; intros ->; destruct Oa as (-> & _); assert (ND : NoDup (i :: [] ++ [v])) by (repeat constructor; [intros [X|[]]; congruence|intros []]); pose proof (Bl i [] v w (wp_arc _ _ _ _ A) ND); lia].
                   intros w' Hw' _. cbn [fst snd]. split; [congruence|]. rewrite in_app_iff in Hw'. destruct Hw' as [Hw'|[Q|[]]]; [destruct (Pa w' Hw' ltac:(congruence)) as (_ & Q); cbn in Q; lia|injection Q as <-; lia].
          -- intros Q. destruct (H3 y e Hy Q) as (O & P & Q'). split; [exact O|]. split; [|exact Q']. intros w' Hw' Ny. rewrite in_app_iff in Hw'. destruct Hw' as [Hw'|[X|[]]]; [now apply P|congruence].
      + exists t2. split; [exact E2|]. split; [exact Sq2|]. split.
        * intros u v L1 L2 L3. rewrite H2 by lia. rewrite G1. destruct (Nat.eqb_spec i u); [lia|]. cbn [andb]. apply Hn; lia.
        * intros u v e L1 L2 L3. destruct (Nat.eq_dec u i) as [->|N].
          -- intros Q. destruct (H3 v e L3 Q) as (O & P & _). split; [exact O|]. intros q w Pq ND F. destruct q as [|y q]; [|inversion F; lia]. inversion Pq; subst. apply P; [assumption|]. inversion ND as [|? ? X _]. intros ->. apply X. now left.
          -- rewrite H2 by exact N. rewrite G1. destruct (Nat.eqb_spec i u); [congruence|]. cbn [andb]. apply Ho; lia.
    - exists t. split; [exact E|]. split; [exact Sq|]. split; intros u v e Hu Hv He; now apply (H u v e Hu Hu Hv).
  Qed.
  Lemma floyd_run : exists t, floyd_warshall g inf = Some t /\ square n t /\ ok_at t entry_ok /\ ok_at t (best n).
  Proof using Wf Nn Bl.
    unfold floyd_warshall. destruct init_run as (t & E & Sq & O & B). rewrite E. cbn [obind]. exact (rounds_run t Sq O B).
  Qed.
  Lemma final u v e : u < n -> v < n -> entry_ok u v e -> best n u v e ->
    match e with
    | (None, d) => d = inf /\ forall w, ~ wwalk g u v w
    | (Some a, d) => shortest g u v d /\ (u = v -> a = u) /\ (u <> v -> exists c, In (a, c) (out g u) /\ shortest g a v (d - c))
    end.
  Proof using Wf Nn.
    intros Hu Hv O B. assert (Pn : forall x l y w, wpath g x l y w -> Forall (fun z => z < n) l).
    { induction 1 as [|x z l y a w Ha _ IH]; constructor; [exact (proj2 (edge_lt _ _ _ Ha))|exact IH]. }
    destruct e as ([a|], d).
    - assert (Sh : shortest g u v d).
      { split; [now apply (entry_walk u v a)|]. intros w Hw. destruct (Nat.eq_dec u v) as [<-|N].
        - apply Nn in Hw. cbn in O. destruct O as [(_ & _ & ->)|(X & _)]; [exact Hw|congruence].
        - destruct (simple u v w Hw N) as (l & w' & P & ND & Le). destruct (B l w' P ND (Pn _ _ _ _ P)) as (_ & Q). cbn in Q. lia. }
      split; [exact Sh|]. split; [intros ->; cbn in O; destruct O as [(_ & -> & _)|(X & _)]; congruence|]. intros N. cbn in O. destruct O as [(X & _)|(_ & c & w & Hc & Hw & ->)]; [congruence|]. exists c. split; [exact Hc|].
      replace (c + w - c)%Z with w by lia. split; [exact Hw|]. intros w' Hw'. pose proof (proj2 Sh (c + w')%Z (ww_cons g u a v c w' Hc Hw')). lia.
    - cbn in O. destruct O as (-> & N). split; [reflexivity|]. intros w Hw. destruct (simple u v w Hw N) as (l & w' & P & ND & Le). destruct (B l w' P ND (Pn _ _ _ _ P)) as (X & _). now apply X.
  Qed.
End G.
