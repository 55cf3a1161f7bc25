From Coq Require Import Lia.
From Verif Require Import Lib TokModel TokSpec.

Section Tok.
  Variable A : Type.
  Variables space delim : A -> bool.
  Local Notation every := (every A).

  Lemma skip_app b l : every space b -> skip_ws A space (b ++ l) = skip_ws A space l.
  Proof using. induction b as [|c b IH]; intros H; [reflexivity|]. cbn. rewrite (H c) by now left. apply IH. intros x Hx. apply H. now right. Qed.
  Lemma get_app P w l : every P w -> get_while A P (w ++ l) = let '(s, rest, ok) := get_while A P l in (w ++ s, rest, ok).
  Proof using.
    induction w as [|c w IH]; intros H; cbn; [destruct (get_while A P l) as ((s, r), o); reflexivity|]. rewrite (H c) by now left. rewrite IH by (intros x Hx; apply H; now right). now destruct (get_while A P l) as ((s, r), o).
  Qed.
  Lemma get_stop P l : (exists c r, l = c :: r /\ P c = false) -> get_while A P l = ([], l, true).
  Proof using. intros (c & r & -> & E). cbn. now rewrite E. Qed.
  Lemma get_len P l : forall s r o, get_while A P l = (s, r, o) -> l = s ++ r /\ every P s /\ (o = true -> exists c r', r = c :: r' /\ P c = false).
  Proof using.
    induction l as [|c l IH]; cbn; intros s r o E; [injection E as <- <- <-; split; [reflexivity|split; [intros ? []|discriminate]]|]. destruct (P c) eqn:Pc.
    - destruct (get_while A P l) as ((s', r'), o') eqn:G. injection E as <- <- <-. destruct (IH _ _ _ eq_refl) as (-> & Q & R). split; [reflexivity|]. split; [|exact R]. intros x [->|Hx]; auto.
    - injection E as <- <- <-. split; [reflexivity|]. split; [intros ? []|]. intros _. eauto.
  Qed.
  Lemma skip_len l : exists b, l = b ++ skip_ws A space l /\ every space b.
  Proof using. induction l as [|c l (b & E & H)]; cbn; [exists []; split; [reflexivity|intros ? []]|]. destruct (space c) eqn:S; [|exists []; split; [reflexivity|intros ? []]]. exists (c :: b). split; [cbn; now f_equal|]. intros x [->|Hx]; auto. Qed.
  Local Notation P := (fun c => negb (delim c)).

  (** the loop ends on every text *)
  Lemma total : forall fuel l v, length l < fuel -> exists r, tokens_loop A space fuel P delim l v = Some (v ++ r) /\ r <> [] /\ forall t, In t r -> every P t.
  Proof using.
    induction fuel as [|fuel IH]; intros l v Hf; [lia|]. cbn [tokens_loop]. unfold read_token. destruct (skip_len l) as (b & El & _). destruct (get_while A P (skip_ws A space l)) as ((t, r1), o1) eqn:G1. destruct (get_len _ _ _ _ _ G1) as (E1 & Q1 & R1).
    destruct o1; [|exists [t]; split; [reflexivity|split; [discriminate|intros x [<-|[]]; exact Q1]]]. destruct (R1 eq_refl) as (c & r' & -> & Dc). apply negb_false_iff in Dc.
    destruct (skip_len (c :: r')) as (b2 & E2 & _). destruct (get_while A delim (skip_ws A space (c :: r'))) as ((d, r2), o2) eqn:G2. destruct (get_len _ _ _ _ _ G2) as (E3 & Q3 & R3).
    destruct o2; [|exists [t]; split; [reflexivity|split; [discriminate|intros x [<-|[]]; exact Q1]]]. destruct (R3 eq_refl) as (c2 & r2' & -> & Dc2).
    assert (L : length (c2 :: r2') < length (c :: r')).
    { rewrite E2, E3, !app_length. destruct b2 as [|x b2]; [|cbn; lia]. destruct d as [|x d]; [|cbn; lia]. cbn [app] in E2, E3. rewrite <- E2 in E3. injection E3 as -> _. congruence. }
    assert (L2 : length (c :: r') <= length l) by (rewrite El, E1, !app_length; lia).
    destruct (IH (c2 :: r2') (v ++ [t])) as (r & E & N & H); [lia|]. exists (t :: r). split; [rewrite E, <- app_assoc; reflexivity|]. split; [discriminate|]. intros x [<-|Hx]; auto.
  Qed.
  (** delimiters that are not blanks *)
  Lemma fields_ok : (forall c, delim c = true -> space c = false) ->
    forall fs f0 tail fuel v, field A space delim f0 -> (forall f, In f fs -> sep_field A space delim f) -> every delim tail -> length fs < fuel ->
    tokens_loop A space fuel P delim (text A f0 fs tail) v = Some (v ++ words A f0 fs).
  Proof using.
    intros Hsp. induction fs as [|(s, f1) fs IH]; intros (b, w) tail fuel v (F1 & F2 & F3) Hfs Ht Hfuel; (destruct fuel as [|fuel]; [cbn in Hfuel; lia|]); cbn [fst snd] in *; unfold text; cbn [map concat fst snd tokens_loop]; unfold read_token; rewrite (skip_app b _ F1).
    - cbn [app]. assert (K : skip_ws A space (w ++ tail) = w ++ tail). { destruct w as [|c w]; [|cbn; now rewrite (F3 c w eq_refl)]. destruct tail as [|c t]; [reflexivity|]. cbn. now rewrite (Hsp c (Ht c (or_introl eq_refl))). }
      rewrite K, (get_app P w tail F2). destruct tail as [|c t].
      + cbn. rewrite app_nil_r. reflexivity.
      + rewrite (get_stop P (c :: t)) by (exists c, t; split; [reflexivity|now rewrite (Ht c (or_introl eq_refl))]). cbn [skip_ws]. rewrite (Hsp c (Ht c (or_introl eq_refl))). rewrite <- (app_nil_r (c :: t)). rewrite (get_app delim (c :: t) [] Ht). cbn. rewrite app_nil_r. reflexivity.
    - destruct (Hfs (s, f1) (or_introl eq_refl)) as (S1 & S2 & S3 & S4). cbn [fst snd] in S1, S2, S3, S4. rewrite <- !app_assoc. set (more := fst f1 ++ snd f1 ++ concat (map (fun f => fst f ++ fst (snd f) ++ snd (snd f)) fs) ++ tail).
      destruct s as [|c s]; [congruence|]. assert (Dc := S2 c (or_introl eq_refl)).
      assert (K : skip_ws A space (w ++ (c :: s) ++ more) = w ++ (c :: s) ++ more). { destruct w as [|x w]; [cbn; now rewrite (Hsp c Dc)|cbn; now rewrite (F3 x w eq_refl)]. }
      rewrite K, (get_app P w _ F2). rewrite (get_stop P) by (exists c, (s ++ more); split; [reflexivity|now rewrite Dc]). cbn [app skip_ws]. rewrite (Hsp c Dc). change (c :: s ++ more) with ((c :: s) ++ more). rewrite (get_app delim (c :: s) more S2).
      rewrite (get_stop delim more).
      + unfold more. change (fst f1 ++ snd f1 ++ concat (map (fun f => fst f ++ fst (snd f) ++ snd (snd f)) fs) ++ tail) with (text A f1 fs tail). rewrite (IH f1 tail fuel); [|exact S3|intros f Hf; apply Hfs; now right|exact Ht|cbn in Hfuel; lia]. rewrite app_nil_r, <- app_assoc. reflexivity.
      + unfold more. destruct f1 as (b1, w1). cbn [fst snd] in *. destruct S3 as (T1 & T2 & _). cbn [fst snd] in T1, T2. destruct b1 as [|x b1].
        * destruct w1 as [|x w1]; [cbn in S4; congruence|]. cbn. exists x, (w1 ++ concat (map (fun f => fst f ++ fst (snd f) ++ snd (snd f)) fs) ++ tail). split; [reflexivity|]. assert (Q := T2 x (or_introl eq_refl)). now apply negb_true_iff in Q.
        * cbn. eexists x, _. split; [reflexivity|]. assert (Q := T1 x (or_introl eq_refl)). destruct (delim x) eqn:Dx; [|reflexivity]. rewrite (Hsp x Dx) in Q. discriminate.
  Qed.
  (** delimiters that are the blanks *)
  Lemma blanks_ok : (forall c, delim c = space c) ->
    forall ws b w tail fuel v, every space b -> w <> [] -> every P w -> (forall x, In x ws -> fst x <> [] /\ every space (fst x) /\ snd x <> [] /\ every P (snd x)) -> every space tail -> length ws < fuel ->
    tokens_loop A space fuel P delim (b ++ w ++ concat (map (fun x => fst x ++ snd x) ws) ++ tail) v = Some (v ++ w :: map snd ws).
  Proof using.
    intros Hd. assert (Sk : forall w l, w <> [] -> every P w -> skip_ws A space (w ++ l) = w ++ l). { intros [|c w] l N H; [congruence|]. cbn. assert (Q := H c (or_introl eq_refl)). cbn beta in Q. rewrite Hd in Q. apply negb_true_iff in Q. now rewrite Q. }
    assert (Bd : forall c, space c = true -> negb (delim c) = false) by (intros c E; now rewrite Hd, E).
    induction ws as [|(s, w1) ws IH]; intros b w tail fuel v Hb Nw Hw Hws Ht Hfuel; (destruct fuel as [|fuel]; [cbn in Hfuel; lia|]); cbn [map concat fst snd tokens_loop]; unfold read_token; rewrite (skip_app b _ Hb), (Sk w _ Nw Hw), (get_app P w _ Hw).
    - cbn [app]. destruct tail as [|c t]; [cbn; rewrite app_nil_r; reflexivity|]. rewrite (get_stop P (c :: t)) by (exists c, t; split; [reflexivity|apply Bd, Ht; now left]). rewrite <- (app_nil_r (c :: t)). rewrite (skip_app _ [] Ht). cbn. rewrite app_nil_r. reflexivity.
    - destruct (Hws (s, w1) (or_introl eq_refl)) as (S1 & S2 & S3 & S4). cbn [fst snd] in *. rewrite <- !app_assoc. destruct s as [|c s]; [congruence|]. rewrite (get_stop P ((c :: s) ++ _)) by (eexists c, _; split; [reflexivity|apply Bd, S2; now left]).
      rewrite (skip_app (c :: s) _ S2), (Sk w1 _ S3 S4). rewrite (get_stop delim (w1 ++ _)).
      + specialize (IH [] w1 tail fuel (v ++ [w ++ []])). cbn [app] in IH. rewrite IH; [|intros ? []|exact S3|exact S4|intros x Hx; apply Hws; now right|exact Ht|cbn in Hfuel; lia]. rewrite app_nil_r, <- app_assoc. reflexivity.
      + destruct w1 as [|x w1]; [congruence|]. eexists x, _. split; [reflexivity|]. assert (Q := S4 x (or_introl eq_refl)). now apply negb_true_iff in Q.
  Qed.
  (** a character that is neither in a token nor a delimiter *)
  Lemma stuck (P' D : A -> bool) c l : space c = false -> P' c = false -> D c = false -> forall fuel v, tokens_loop A space fuel P' D (c :: l) v = None.
  Proof using. intros S1 P1 D1. induction fuel as [|fuel IH]; intros v; [reflexivity|]. cbn [tokens_loop]. unfold read_token. cbn [skip_ws]. rewrite S1. cbn [get_while]. rewrite P1. cbn [skip_ws]. rewrite S1. cbn [get_while]. rewrite D1. apply IH. Qed.
End Tok.
