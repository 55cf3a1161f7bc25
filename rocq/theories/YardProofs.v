From Verif Require Import Lib YardModel YardSpec.
Open Scope nat_scope.

Fixpoint expr_ind' (P : expr -> Prop) (Hv : forall i, P (EVal i)) (Hpre : forall o e, P e -> P (EPre o e)) (Hpost : forall o e, P e -> P (EPost o e))
  (Hbin : forall o l r, P l -> P r -> P (EBin o l r)) (Hpar : forall e, P e -> P (EPar e)) (Hcall : forall f args, Forall P args -> P (ECall f args)) (e : expr) : P e :=
  let rec := expr_ind' P Hv Hpre Hpost Hbin Hpar Hcall in
  match e with
  | EVal i => Hv i
  | EPre o e => Hpre o e (rec e)
  | EPost o e => Hpost o e (rec e)
  | EBin o l r => Hbin o l r (rec l) (rec r)
  | EPar e => Hpar e (rec e)
  | ECall f args => Hcall f args ((fix go (l : list expr) : Forall P l := match l with [] => Forall_nil _ | x :: l => Forall_cons _ (rec x) (go l) end) args)
  end.

Section P.
Variable ops : list op_desc.
Notation before := (before ops). Notation not_before := (not_before ops). Notation precise := (precise ops). Notation has_arity := (has_arity ops).

Lemma before_less o s : before o s -> exists a b, nth_error ops o = Some a /\ nth_error ops s = Some b /\ op_less a b = true.
Proof.
  intros (a & b & A & B & H). exists a, b. split; [exact A|split; [exact B|]]. unfold op_less. destruct (Z.eqb_spec (prec a) (prec b)) as [E|E]; cbn [negb].
  - destruct H as [H|(_ & ->)]; [lia|reflexivity].
  - apply Z.ltb_lt. lia.
Qed.
Lemma not_before_less o s : not_before o s -> exists a b, nth_error ops o = Some a /\ nth_error ops s = Some b /\ op_less a b = false.
Proof.
  intros (a & b & A & B & H). exists a, b. split; [exact A|split; [exact B|]]. unfold op_less. destruct (Z.eqb_spec (prec a) (prec b)) as [E|E]; cbn [negb].
  - destruct H as [H|(_ & ->)]; [lia|reflexivity].
  - apply Z.ltb_ge. lia.
Qed.
(** what the operators on top of the stack become *)
Fixpoint pending (e : expr) : list postfix :=
  match e with
  | EBin o l r => pending r ++ [PFun o 2]
  | EPre o e => pending e ++ [PFun o 1]
  | EPost o _ => [PFun o 1]
  | _ => []
  end.
Fixpoint out (e : expr) : list postfix :=
  match e with
  | EBin o l r => polish l ++ out r
  | EPre o e => out e
  | EPost o e => polish e
  | e => polish e
  end.
Lemma out_pending e : polish e = out e ++ pending e.
Proof. induction e; cbn [polish out pending]; rewrite ?app_nil_r; auto. - now rewrite IHe, <- app_assoc. - now rewrite IHe2, <- !app_assoc. Qed.
(** popping all pending operators *)
Lemma pop_pending id (e : expr) : precise e -> (match id with None => True | Some o => Forall (before o) (open_right e) end) ->
  forall res stk, pop_operators ops id res (map Operator (rev (open_right e)) ++ stk) = pop_operators ops id (res ++ pending e) stk.
Proof.
  assert (ST : forall o k res stk, has_arity o k -> (match id with None => True | Some i => before i o end) ->
    pop_operators ops id res (Operator o :: stk) = pop_operators ops id (res ++ [PFun o (match k with UNARY => 1 | BINARY => 2 end)]) stk).
  { intros o k res stk (d & D & K) B. cbn [pop_operators]. assert (G : (match id with None => Some true | Some i => let* a := nth_error ops i in let* b := nth_error ops o in Some (op_less a b) end) = Some true).
    { destruct id as [i|]; [|reflexivity]. destruct (before_less _ _ B) as (a & b & E1 & E2 & E3). rewrite E1, E2. cbn [obind]. rewrite E3. reflexivity. }
    rewrite G. cbn [obind]. rewrite D. cbn [obind]. unfold op_args. rewrite K. reflexivity. }
  intros P. induction P as [i|o e A P IH F|o e A P IH F|o l r A P1 IH1 P2 IH2 F1 F2|e P IH|f args N P IH]; intros H res stk; cbn [open_right rev map app pending]; rewrite ?app_nil_r; auto.
  - rewrite map_app, <- app_assoc. cbn [map app]. cbn [open_right] in H. rewrite IH by (destruct id; [apply Forall_inv_tail in H; exact H|exact I]). rewrite (ST o UNARY _ _ A) by (destruct id; [apply Forall_inv in H; exact H|exact I]). rewrite <- app_assoc. reflexivity.
  - cbn [open_right] in H. apply (ST o UNARY _ _ A). destruct id; [apply Forall_inv in H; exact H|exact I].
  - rewrite map_app, <- app_assoc. cbn [map app]. cbn [open_right] in H. rewrite IH2 by (destruct id; [apply Forall_inv_tail in H; exact H|exact I]). rewrite (ST o BINARY _ _ A) by (destruct id; [apply Forall_inv in H; exact H|exact I]). rewrite <- app_assoc. reflexivity.
Qed.
(** what may be on the stack below an expression *)
Definition fits (stk : list infix) (e : expr) : Prop :=
  match stk with Operator s :: _ => Forall (fun o => not_before o s) (open_left e) | Function _ :: _ => False | _ => True end.
Lemma pop_stop o stk res : (match stk with Operator s :: _ => not_before o s | _ => True end) -> pop_operators ops (Some o) res stk = Some (res, stk).
Proof. destruct stk as [|[| s | | | |] stk]; cbn [pop_operators]; auto. intros H. destruct (not_before_less _ _ H) as (a & b & -> & -> & E). cbn [obind]. rewrite E. reflexivity. Qed.
Lemma pop_none_stop stk res : (match stk with Operator s :: _ => False | _ => True end) -> pop_operators ops None res stk = Some (res, stk).
Proof. destruct stk as [|[| s | | | |] stk]; cbn [pop_operators]; auto. contradiction. Qed.
Lemma loop_app t1 : forall t2 res stk, yard_loop ops (t1 ++ t2) res stk = (let* '(res, stk) := yard_loop ops t1 res stk in yard_loop ops t2 res stk).
Proof. induction t1 as [|t t1 IH]; intros t2 res stk; [reflexivity|]. cbn [app yard_loop]. destruct (yard_step ops t res stk) as [(res', stk')|]; [apply IH|reflexivity]. Qed.
Lemma fits_sub stk e e' : incl (open_left e') (open_left e) -> fits stk e -> fits stk e'.
Proof. destruct stk as [|[| s | | | |] stk]; cbn; auto. intros I. rewrite !Forall_forall. auto. Qed.
Definition runs e := forall res stk, precise e -> fits stk e -> yard_loop ops (written e) res stk = Some (res ++ out e, map Operator (rev (open_right e)) ++ stk).
Lemma runs_pop e stk res id : precise e -> match id with None => True | Some o => Forall (before o) (open_right e) end ->
  pop_operators ops id (res ++ out e) (map Operator (rev (open_right e)) ++ stk) = pop_operators ops id (res ++ polish e) stk.
Proof. intros P H. rewrite pop_pending by auto. rewrite out_pending, app_assoc. reflexivity. Qed.
Lemma precise_pre o e : precise (EPre o e) -> has_arity o UNARY /\ precise e /\ Forall (fun s => not_before s o) (open_left e).
Proof. intros P. inversion P; auto. Qed.
Lemma precise_post o e : precise (EPost o e) -> has_arity o UNARY /\ precise e /\ Forall (before o) (open_right e).
Proof. intros P. inversion P; auto. Qed.
Lemma precise_bin o l r : precise (EBin o l r) -> has_arity o BINARY /\ precise l /\ precise r /\ Forall (before o) (open_right l) /\ Forall (fun s => not_before s o) (open_left r).
Proof. intros P. inversion P; auto. Qed.
Lemma precise_par e : precise (EPar e) -> precise e.
Proof. intros P. inversion P; auto. Qed.
Lemma precise_call f args : precise (ECall f args) -> args <> [] /\ forall e, In e args -> precise e.
Proof. intros P. inversion P; auto. Qed.
Lemma fits_op o stk e : fits stk e -> In o (open_left e) -> match stk with Operator s :: _ => not_before o s | _ => True end.
Proof. destruct stk as [|[| s | | | |] stk]; cbn; auto. rewrite Forall_forall. auto. Qed.
(** the arguments of a call, or the expressions of a list *)
Lemma args_run (args : list expr) : args <> [] -> Forall runs args -> (forall e, In e args -> precise e) -> forall res stk, match stk with Function _ :: _ => False | Operator _ :: _ => False | _ => True end ->
  exists res' stk', yard_loop ops (separated (map written args)) res stk = Some (res', stk') /\ pop_operators ops None res' stk' = Some (res ++ flat_map polish args, repeat Separator (length args - 1) ++ stk).
Proof.
  induction args as [|e args IH]; intros N R P res stk ST; [congruence|]. apply Forall_cons_iff in R as (R & Rs).
  assert (F : fits stk e) by (destruct stk as [|[| s | | | |] stk]; cbn; auto; contradiction). assert (Pe : precise e) by (apply P; now left). assert (S' : match stk with Operator s :: _ => False | _ => True end) by (destruct stk as [|[]]; auto).
  destruct args as [|e' args].
  - cbn [map separated]. rewrite (R res stk Pe F). eexists _, _. split; [reflexivity|]. rewrite (runs_pop e stk res None Pe I). rewrite pop_none_stop by exact S'. cbn [flat_map length Nat.sub repeat app]. rewrite app_nil_r. reflexivity.
  - remember (e' :: args) as es eqn:Ees. assert (SE : separated (map written (e :: es)) = written e ++ Separator :: separated (map written es)) by (rewrite Ees; reflexivity). rewrite SE, loop_app, (R res stk Pe F). cbn [obind yard_loop yard_step].
    rewrite (runs_pop e stk res None Pe I). rewrite pop_none_stop by exact S'. cbn [obind].
    destruct (IH ltac:(rewrite Ees; discriminate) Rs ltac:(intros x Hx; apply P; now right) (res ++ polish e) (Separator :: stk) I) as (res' & stk' & E1 & E2). rewrite E1. eexists _, _. split; [reflexivity|]. rewrite E2. cbn [flat_map length]. rewrite app_assoc.
    f_equal. f_equal. replace (S (length es) - 1) with (S (length es - 1)) by (rewrite Ees; cbn; lia). rewrite <- (Nat.add_1_r (length es - 1)), repeat_app, <- app_assoc. reflexivity.
Qed.
Lemma pop_seps n : forall k stk, match stk with Separator :: _ => False | _ => True end -> pop_separators k (repeat Separator n ++ stk) = (k + n, stk).
Proof.
  induction n as [|n IH]; intros k stk S; cbn [repeat app pop_separators].
  - destruct stk as [|[] stk]; cbn [pop_separators]; try (now rewrite Nat.add_0_r); contradiction.
  - rewrite IH by exact S. f_equal. lia.
Qed.
Lemma run_all e : runs e.
Proof.
  induction e as [i|o e IH|o e IH|o l r IHl IHr|e IH|f args IH] using expr_ind'; intros res stk P F.
  - reflexivity.
  - apply precise_pre in P as (A & P & B). cbn [written yard_loop yard_step]. rewrite pop_stop by (apply (fits_op o stk _ F); now left). cbn [obind]. rewrite IH by auto. cbn [out open_right rev]. rewrite map_app, <- app_assoc. reflexivity.
  - apply precise_post in P as (A & P & B). cbn [written]. rewrite loop_app, IH by (auto; refine (fits_sub stk _ _ _ F); intros x Hx; cbn [open_left]; rewrite in_app_iff; auto). cbn [obind yard_loop yard_step].
    rewrite (runs_pop e stk res (Some o) P B). rewrite pop_stop by (apply (fits_op o stk _ F); cbn [open_left]; rewrite in_app_iff; right; now left). reflexivity.
  - apply precise_bin in P as (A & P1 & P2 & B1 & B2). cbn [written]. rewrite loop_app, IHl by (auto; refine (fits_sub stk _ _ _ F); intros x Hx; cbn [open_left]; rewrite in_app_iff; auto). cbn [obind yard_loop yard_step].
    rewrite (runs_pop l stk res (Some o) P1 B1). rewrite pop_stop by (apply (fits_op o stk _ F); cbn [open_left]; rewrite in_app_iff; right; now left). cbn [obind]. rewrite IHr by auto. cbn [out open_right rev]. rewrite map_app, <- !app_assoc. reflexivity.
  - apply precise_par in P. cbn [written yard_loop yard_step obind]. rewrite loop_app, IH by (auto; exact I). cbn [obind yard_loop yard_step]. rewrite (runs_pop e (LPar :: stk) res None P I). cbn [pop_operators obind pop_separators]. cbn [out open_right rev map app]. destruct stk as [|[] stk]; try reflexivity. contradiction.
  - apply precise_call in P as (N & P). cbn [written yard_loop yard_step obind]. rewrite loop_app. destruct (args_run args N IH P res (LPar :: Function f :: stk) I) as (res' & stk' & E1 & E2). rewrite E1. cbn [obind yard_loop yard_step]. rewrite E2. cbn [obind]. rewrite pop_seps by exact I.
    cbn [out polish open_right rev map app obind]. rewrite <- app_assoc. f_equal. f_equal. f_equal. f_equal. f_equal. f_equal. destruct args; [congruence|cbn; lia].
Qed.
Lemma convert_run es : (forall e, In e es -> precise e) -> infix_to_postfix ops (separated (map written es)) = Some (flat_map polish es).
Proof.
  intros P. unfold infix_to_postfix. destruct es as [|e es]; [reflexivity|]. destruct (args_run (e :: es) ltac:(discriminate) ltac:(apply Forall_forall; intros; apply run_all) P [] [] I) as (res & stk & -> & E). cbn [obind]. rewrite E. reflexivity.
Qed.

(** every readable sequence of tokens has a precise tree *)
Lemma before_dec o s : o < length ops -> s < length ops -> before o s \/ not_before o s.
Proof.
  intros Ho Hs. destruct (nth_error ops o) as [a|] eqn:A; [|apply nth_error_None in A; lia]. destruct (nth_error ops s) as [b|] eqn:B; [|apply nth_error_None in B; lia].
  destruct (Z.lt_trichotomy (prec a) (prec b)) as [H|[H|H]]; [left; exists a, b; auto| |right; exists a, b; auto]. destruct (asc a) eqn:E; [left|right]; exists a, b; auto.
Qed.
Lemma before_trans x y z : before x y -> before y z -> before x z.
Proof. intros (a & b & A & B & H) (b' & c & B' & C & H'). rewrite B in B'. injection B' as <-. exists a, c. split; [exact A|split; [exact C|]]. destruct H as [H|(H & L)], H' as [H'|(H' & L')]; [left; lia|left; lia|left; lia|right; split; [lia|exact L]]. Qed.
Lemma before_not x y z : before x y -> not_before x z -> not_before y z.
Proof. intros (a & b & A & B & H) (a' & c & A' & C & H'). rewrite A in A'. injection A' as <-. exists b, c. split; [exact B|split; [exact C|]]. destruct H as [H|(H & L)], H' as [H'|(H' & L')]; [left; lia|left; lia|left; lia|congruence]. Qed.
Definition lessb (o s : nat) : bool := match nth_error ops o, nth_error ops s with Some a, Some b => op_less a b | _, _ => false end.
Lemma lessb_before o s : o < length ops -> s < length ops -> if lessb o s then before o s else not_before o s.
Proof.
  intros Ho Hs. destruct (before_dec o s Ho Hs) as [H|H]; unfold lessb; [destruct (before_less _ _ H) as (a & b & -> & -> & ->)|destruct (not_before_less _ _ H) as (a & b & -> & -> & ->)]; exact H.
Qed.
Lemma arity_len o k : has_arity o k -> o < length ops.
Proof. intros (a & A & _). apply nth_error_Some. congruence. Qed.
(** R with a prefix operator, or a binary operator and its left operand, in front of it *)
Fixpoint front (o : nat) (N : expr -> expr) (R : expr) : expr :=
  match R with EBin u a b => if lessb u o then EBin u (front o N a) b else N R | _ => N R end.
Lemma open_left_tight s e : precise e -> forall u, (forall x, In x (open_right e) -> before u x) -> not_before u s -> prefix_tight ops -> s < length ops -> Forall (fun x => not_before x s) (open_left e).
Proof.
  intros P. induction P as [i|o e A P IH F|o e A P IH F|o l r A P1 IH1 P2 IH2 F1 F2|e P IH|f args N P IH]; intros u H NB PT Hs; cbn [open_left]; try (apply Forall_nil).
  - constructor; [|constructor]. apply PT; auto.
  - apply Forall_app. assert (NO : not_before o s) by (apply (before_not u); [apply H; now left|exact NB]). split; [|constructor; [exact NO|constructor]]. apply (IH o); auto. now apply Forall_forall.
  - apply Forall_app. assert (NO : not_before o s) by (apply (before_not u); [apply H; now left|exact NB]). split; [|constructor; [exact NO|constructor]]. apply (IH1 o); auto. now apply Forall_forall.
Qed.
Lemma root_tight s e : precise e -> prefix_tight ops -> s < length ops -> (forall x, match e with EBin u _ _ | EPost u _ => x = u | _ => False end -> not_before x s) -> Forall (fun x => not_before x s) (open_left e).
Proof.
  intros P PT Hs H. destruct e as [i|o e|o e|o l r|e|f args]; cbn [open_left]; try (apply Forall_nil).
  - apply precise_pre in P as (A & _). constructor; [apply PT; auto|constructor].
  - apply precise_post in P as (A & P & B). apply Forall_app. split; [|constructor; [apply H; reflexivity|constructor]]. apply (open_left_tight s e P o); auto. now apply Forall_forall.
  - apply precise_bin in P as (A & P1 & P2 & B1 & B2). apply Forall_app. split; [|constructor; [apply H; reflexivity|constructor]]. apply (open_left_tight s l P1 o); auto. now apply Forall_forall.
Qed.
Fixpoint no_post (e : expr) : bool :=
  match e with EPost _ _ => false | EBin _ l r => no_post l && no_post r | EPre _ e => no_post e | _ => true end.
Lemma front_ok o N w : prefix_tight ops -> o < length ops ->
  (forall R, written (N R) = w ++ written R) -> (forall R, open_right (N R) = o :: open_right R) -> (forall R, no_post R = true -> no_post (N R) = true) ->
  (forall R, precise R -> Forall (fun s => not_before s o) (open_left R) -> precise (N R)) ->
  forall R, precise R -> no_post R = true -> precise (front o N R) /\ written (front o N R) = w ++ written R /\ no_post (front o N R) = true /\
    (forall x, In x (open_right (front o N R)) -> x = o \/ In x (open_right R)) .
Proof.
  intros PT Ho HW HR HN HP.
  assert (BASE : forall R, precise R -> no_post R = true -> (forall x, match R with EBin u _ _ | EPost u _ => x = u | _ => False end -> not_before x o) ->
    precise (N R) /\ written (N R) = w ++ written R /\ no_post (N R) = true /\ (forall x, In x (open_right (N R)) -> x = o \/ In x (open_right R))).
  { intros R P Q H. split; [apply HP; [exact P|now apply root_tight]|]. split; [apply HW|]. split; [auto|]. intros x. rewrite HR. intros [Hx|Hx]; auto. }
  induction R as [i|u e IH|u e IH|u a IHa b IHb|e IH|f args]; intros P Q; cbn [front]; try (apply BASE; [exact P|exact Q|intros x []]).
  - discriminate.
  - pose proof P as P'. apply precise_bin in P' as (A & P1 & P2 & B1 & B2). cbn [no_post] in Q. apply andb_prop in Q as (Q1 & Q2). pose proof (lessb_before u o (arity_len _ _ A) Ho) as LB. destruct (lessb u o).
    + destruct (IHa P1 Q1) as (I1 & I2 & I3 & I4). split; [|split; [|split]].
      * constructor; auto. apply Forall_forall. intros x Hx. apply I4 in Hx as [->|Hx]; [exact LB|]. rewrite Forall_forall in B1. auto.
      * cbn [written]. rewrite I2, <- app_assoc. reflexivity.
      * cbn [no_post]. rewrite I3, Q2. reflexivity.
      * cbn [open_right]. intros x Hx. now right.
    + apply BASE; [exact P|cbn [no_post]; rewrite Q1, Q2; reflexivity|]. intros x ->. exact LB.
Qed.
(** tokens of e, then o, then R *)
Fixpoint lead (e : expr) (o : nat) (R : expr) : expr :=
  match e with
  | EBin o1 l r => lead l o1 (lead r o R)
  | EPre o1 e => front o1 (EPre o1) (lead e o R)
  | e => front o (EBin o e) R
  end.
Fixpoint arrange (e : expr) : expr :=
  match e with
  | EVal i => EVal i
  | EPre o e => front o (EPre o) (arrange e)
  | EPost o e => EPost o e
  | EBin o l r => lead (arrange l) o (arrange r)
  | EPar e => EPar (arrange e)
  | ECall f args => ECall f (map arrange args)
  end.
Lemma front_pre o R : prefix_tight ops -> has_arity o UNARY -> precise R -> no_post R = true -> precise (front o (EPre o) R) /\ written (front o (EPre o) R) = Operator o :: written R /\ no_post (front o (EPre o) R) = true.
Proof.
  intros PT A P Q. destruct (front_ok o (EPre o) [Operator o] PT (arity_len _ _ A)) with (R := R) as (H1 & H2 & H3 & _); auto. intros R' P' F. now constructor.
Qed.
Lemma front_bin o a R : prefix_tight ops -> has_arity o BINARY -> precise a -> open_right a = [] -> no_post a = true -> precise R -> no_post R = true ->
  precise (front o (EBin o a) R) /\ written (front o (EBin o a) R) = written a ++ Operator o :: written R /\ no_post (front o (EBin o a) R) = true.
Proof.
  intros PT A Pa Oa Na P Q. destruct (front_ok o (EBin o a) (written a ++ [Operator o]) PT (arity_len _ _ A)) with (R := R) as (H1 & H2 & H3 & _); auto.
  - intros R'. cbn [written]. rewrite <- app_assoc. reflexivity.
  - intros R' Q'. cbn [no_post]. rewrite Na, Q'. reflexivity.
  - intros R' P' F. constructor; auto. rewrite Oa. constructor.
  - split; [exact H1|split; [|exact H3]]. rewrite H2, <- app_assoc. reflexivity.
Qed.
Lemma lead_ok e : prefix_tight ops -> precise e -> no_post e = true -> forall o R, has_arity o BINARY -> precise R -> no_post R = true ->
  precise (lead e o R) /\ written (lead e o R) = written e ++ Operator o :: written R /\ no_post (lead e o R) = true.
Proof.
  intros PT. induction e as [i|u e IH|u e IH|u a IHa b IHb|e IH|f args]; intros P Q o R A PR QR; cbn [lead].
  - now apply front_bin.
  - apply precise_pre in P as (A' & P & _). destruct (IH P Q o R A PR QR) as (I1 & I2 & I3). destruct (front_pre u _ PT A' I1 I3) as (J1 & J2 & J3). split; [exact J1|split; [|exact J3]]. rewrite J2, I2. reflexivity.
  - discriminate.
  - apply precise_bin in P as (A' & P1 & P2 & _). cbn [no_post] in Q. apply andb_prop in Q as (Q1 & Q2). destruct (IHb P2 Q2 o R A PR QR) as (I1 & I2 & I3). destruct (IHa P1 Q1 u _ A' I1 I3) as (J1 & J2 & J3). split; [exact J1|split; [|exact J3]]. rewrite J2, I2. cbn [written]. rewrite <- app_assoc. reflexivity.
  - now apply front_bin.
  - now apply front_bin.
Qed.
Lemma arrange_ok e : prefix_tight ops -> readable ops e -> precise (arrange e) /\ written (arrange e) = written e /\ no_post (arrange e) = true.
Proof.
  intros PT. induction e as [i|o e IH|o e IH|o l r IHl IHr|e IH|f args IH] using expr_ind'; intros H; inversion H; subst; cbn [arrange].
  - split; [constructor|auto].
  - destruct (IH ltac:(auto)) as (I1 & I2 & I3). destruct (front_pre o _ PT ltac:(eassumption) I1 I3) as (J1 & J2 & J3). split; [exact J1|split; [|exact J3]]. rewrite J2, I2. reflexivity.
  - destruct (IHl ltac:(auto)) as (I1 & I2 & I3). destruct (IHr ltac:(auto)) as (K1 & K2 & K3). destruct (lead_ok _ PT I1 I3 o _ ltac:(eassumption) K1 K3) as (J1 & J2 & J3). split; [exact J1|split; [|exact J3]]. rewrite J2, I2, K2. reflexivity.
  - destruct (IH ltac:(auto)) as (I1 & I2 & I3). split; [constructor; exact I1|split; [|reflexivity]]. cbn [written]. rewrite I2. reflexivity.
  - rewrite Forall_forall in IH. assert (Q : forall e, In e args -> precise (arrange e) /\ written (arrange e) = written e) by (intros e He; destruct (IH e He ltac:(auto)) as (I1 & I2 & _); auto).
    split; [|split; [|reflexivity]].
    + constructor; [destruct args; [congruence|discriminate]|]. intros e He. apply in_map_iff in He as (e' & <- & He). apply Q, He.
    + cbn [written]. rewrite map_map. do 2 f_equal. f_equal. f_equal. apply map_ext_in. intros e He. apply Q, He.
Qed.
End P.

Section V.
Context {T : Type}.
Variable vals : list T.
Variable evs : list (list T -> option T).
Lemma eval_app t1 : forall t2 stk, eval_loop vals evs (t1 ++ t2) stk = (let* stk := eval_loop vals evs t1 stk in eval_loop vals evs t2 stk).
Proof. induction t1 as [|t t1 IH]; intros t2 stk; [reflexivity|]. cbn [app eval_loop]. destruct (eval_step vals evs t stk); [apply IH|reflexivity]. Qed.
Lemma eval_fun f n stk args : length args = n -> eval_step vals evs (PFun f n) (stk ++ args) = (let* r := apply_to evs f args in Some (stk ++ [r])).
Proof.
  intros <-. cbn [eval_step]. rewrite app_length. replace (length args <=? length stk + length args) with true by (symmetry; apply Nat.leb_le; lia). replace (length stk + length args - length args) with (length stk) by lia.
  rewrite skipn_app, firstn_app, Nat.sub_diag, skipn_all, firstn_all. cbn [app skipn firstn]. rewrite app_nil_r. unfold apply_to. destruct (nth_error evs f); reflexivity.
Qed.
Lemma all_some_len {A} (l : list (option A)) r : all_some l = Some r -> length r = length l.
Proof. revert r. induction l as [|[a|] l IH]; intros r; cbn [all_some obind]; try discriminate; [intros [= <-]; reflexivity|]. destruct (all_some l) as [r'|]; [|discriminate]. cbn [obind]. intros [= <-]. cbn. now rewrite (IH r'). Qed.
Lemma list_run (args : list expr) : Forall (fun e => forall stk, eval_loop vals evs (polish e) stk = (let* r := value vals evs e in Some (stk ++ [r]))) args ->
  forall stk, eval_loop vals evs (flat_map polish args) stk = (let* l := all_some (map (value vals evs) args) in Some (stk ++ l)).
Proof.
  induction 1 as [|e args H _ IH]; intros stk; cbn [flat_map map all_some]; [cbn; now rewrite app_nil_r|]. rewrite eval_app, H. destruct (value vals evs e) as [v|]; [|reflexivity]. cbn [obind]. rewrite IH. destruct (all_some _) as [l|]; [|reflexivity]. cbn [obind]. rewrite <- app_assoc. reflexivity.
Qed.
Lemma eval_run e : forall stk, eval_loop vals evs (polish e) stk = (let* r := value vals evs e in Some (stk ++ [r])).
Proof.
  induction e as [i|o e IH|o e IH|o l r IHl IHr|e IH|f args IH] using expr_ind'; intros stk; cbn [polish value].
  - cbn [eval_loop eval_step]. destruct (nth_error vals i); reflexivity.
  - rewrite eval_app, IH. destruct (value vals evs e) as [v|]; [|reflexivity]. cbn [obind eval_loop]. rewrite (eval_fun o 1 stk [v] eq_refl). destruct (apply_to evs o [v]); reflexivity.
  - rewrite eval_app, IH. destruct (value vals evs e) as [v|]; [|reflexivity]. cbn [obind eval_loop]. rewrite (eval_fun o 1 stk [v] eq_refl). destruct (apply_to evs o [v]); reflexivity.
  - rewrite eval_app, IHl. destruct (value vals evs l) as [v|]; [|reflexivity]. cbn [obind]. rewrite eval_app, IHr. destruct (value vals evs r) as [w|]; [|reflexivity]. cbn [obind eval_loop]. rewrite <- app_assoc. cbn [app]. rewrite (eval_fun o 2 stk [v; w] eq_refl). destruct (apply_to evs o [v; w]); reflexivity.
  - apply IH.
  - rewrite eval_app, (list_run args IH). destruct (all_some (map (value vals evs) args)) as [l|] eqn:E; [|reflexivity]. cbn [obind eval_loop]. apply all_some_len in E. rewrite map_length in E. rewrite (eval_fun f _ stk l E). destruct (apply_to evs f l); reflexivity.
Qed.
Lemma eval_all es : evaluate_postfix vals evs (flat_map polish es) = all_some (map (value vals evs) es).
Proof. unfold evaluate_postfix. rewrite list_run by (apply Forall_forall; intros e _; apply eval_run). destruct (all_some _); reflexivity. Qed.
End V.

(** polish notation determines the tree up to parentheses *)
Lemma polish_bare e : polish (bare e) = polish e.
Proof.
  induction e as [i|o e IH|o e IH|o l r IHl IHr|e IH|f args IH] using expr_ind'; cbn [bare polish]; rewrite ?IH, ?IHl, ?IHr; auto. rewrite map_length. f_equal. induction IH as [|e args H _ IH']; [reflexivity|]. cbn [map flat_map]. rewrite H, IH'. reflexivity.
Qed.
Lemma guarded_precise ops e : readable ops e -> precise ops (guarded e) /\ polish (guarded e) = polish e.
Proof.
  induction e as [i|o e IH|o e IH|o l r IHl IHr|e IH|f args IH] using expr_ind'; intros H; inversion H; subst; cbn [guarded polish].
  - split; [constructor|reflexivity].
  - destruct (IH ltac:(auto)) as (I1 & I2). rewrite I2. split; [|reflexivity]. repeat constructor; auto.
  - destruct (IHl ltac:(auto)) as (I1 & I2). destruct (IHr ltac:(auto)) as (I3 & I4). rewrite I2, I4. split; [|reflexivity]. repeat constructor; auto.
  - destruct (IH ltac:(auto)) as (I1 & I2). rewrite I2. split; [|reflexivity]. repeat constructor; auto.
  - rewrite Forall_forall in IH. rewrite map_length. split.
    + constructor; [destruct args; [congruence|discriminate]|]. intros e He. apply in_map_iff in He as (x & <- & Hx). apply IH; auto.
    + f_equal. rewrite flat_map_concat_map, map_map, flat_map_concat_map. f_equal. apply map_ext_in. intros e He. apply IH; auto.
Qed.
