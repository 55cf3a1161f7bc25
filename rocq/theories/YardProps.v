(** C49: the shunting-yard parser converts every expression to its postfix notation, and the evaluator computes its value. *)
From Verif Require Import Lib YardModel YardSpec YardProofs.
Open Scope nat_scope.

(** every list of expressions, of any size and depth, for every operator table: the result is the postfix notation *)
Theorem C49_convert ops es : (forall e, In e es -> precise ops e) -> infix_to_postfix ops (separated (map written es)) = Some (flat_map polish es).
Proof. exact (convert_run ops es). Qed.
(** the evaluation computes the values, and fails exactly if one of them is undefined *)
Theorem C49_evaluate {T} (vals : list T) evs es : evaluate_postfix vals evs (flat_map polish es) = all_some (map (value vals evs) es).
Proof. exact (eval_all vals evs es). Qed.
Theorem C49_convert_and_evaluate {T} (vals : list T) evs ops es : (forall e, In e es -> precise ops e) ->
  (let* ps := infix_to_postfix ops (separated (map written es)) in evaluate_postfix vals evs ps) = all_some (map (value vals evs) es).
Proof. intros P. rewrite (convert_run ops es P). apply eval_all. Qed.
(** a sequence of tokens has at most one meaning *)
Theorem C49_unambiguous {T} (vals : list T) evs ops e1 e2 : precise ops e1 -> precise ops e2 -> written e1 = written e2 -> polish e1 = polish e2 /\ value vals evs e1 = value vals evs e2.
Proof.
  intros P1 P2 W. assert (Q : polish e1 = polish e2).
  { assert (C : forall e, precise ops e -> infix_to_postfix ops (written e) = Some (polish e)).
    { intros e P. pose proof (convert_run ops [e]) as C. cbn [map separated flat_map] in C. rewrite app_nil_r in C. apply C. intros x [<-|[]]. exact P. }
    pose proof (C e1 P1) as C1. rewrite W, (C e2 P2) in C1. congruence. }
  split; [exact Q|]. pose proof (eval_run vals evs e1 []) as E1. pose proof (eval_run vals evs e2 []) as E2. rewrite Q, E2 in E1. destruct (value vals evs e1), (value vals evs e2); cbn in E1; congruence.
Qed.
(** every sequence of tokens that can be read as an expression at all is read as the one given by the precedences, if no operator binds before a following prefix operator *)
Theorem C49_every_sequence ops e : prefix_tight ops -> readable ops e -> exists e', precise ops e' /\ written e' = written e /\ infix_to_postfix ops (written e) = Some (polish e').
Proof.
  intros PT R. destruct (arrange_ok ops e PT R) as (P & W & _). exists (arrange ops e). split; [exact P|split; [exact W|]]. rewrite <- W. pose proof (convert_run ops [arrange ops e]) as C. cbn [map separated flat_map] in C. rewrite app_nil_r in C. apply C. intros x [<-|[]]. exact P.
Qed.
(** every expression can be written with parentheses so that it is read back *)
Theorem C49_parentheses ops e : readable ops e -> infix_to_postfix ops (written (guarded e)) = Some (polish e).
Proof.
  intros R. destruct (guarded_precise ops e R) as (P & Q). rewrite <- Q. pose proof (convert_run ops [guarded e]) as C. cbn [map separated flat_map] in C. rewrite app_nil_r in C. apply C. intros x [<-|[]]. exact P.
Qed.

(** a prefix operator that binds weaker than the operator before it: a * - b pops * before its second operand is there *)
Theorem C49_prefix_refuted : exists ops e, readable ops e /\ (forall e', readable ops e' -> written e' = written e -> e' = e) /\ infix_to_postfix ops (written e) <> Some (polish e).
Proof.
  exists [OpDesc 5 RIGHT UNARY; OpDesc 11 LEFT BINARY]%Z, (EBin 1 (EVal 0) (EPre 0 (EVal 1))). split; [repeat (constructor || eexists)|]. split; [|vm_compute; discriminate].
  assert (NE : forall e, written e <> []) by (induction e; cbn [written]; try discriminate; intros H; apply app_eq_nil in H as (H & H'); discriminate).
  assert (V : forall e i, written e = [Operand i] -> e = EVal i).
  { intros e i. destruct e; cbn [written]; intros H; try discriminate; [congruence| |]; destruct (written _) as [|x [|y l]] eqn:E; try discriminate; now apply NE in E. }
  intros e' R H. destruct e' as [i|o e'|o e'|o l r|e'|f args]; cbn [written] in H; try discriminate.
  - inversion R.
  - destruct (written l) as [|x l'] eqn:El; [now apply NE in El|]. injection H as -> H. destruct l' as [|y l'].
    + injection H as -> H. apply V in El as ->. destruct r as [i|o e'|o e'|o a b|e'|f args]; cbn [written] in H; try discriminate.
      * injection H as -> H. apply V in H as ->. reflexivity.
      * inversion R. match goal with X : readable _ (EPost _ _) |- _ => inversion X end.
      * exfalso. apply (f_equal (@length _)) in H. rewrite app_length in H. cbn [length] in H. pose proof (NE a) as Na. pose proof (NE b) as Nb. destruct (written a), (written b); cbn [length] in H; congruence || lia.
    + injection H as -> H. destruct l' as [|z l'].
      * exfalso. injection H as -> H. inversion R as [| |? ? ? (a & A & K)| |]. cbn in A. injection A as <-. discriminate K.
      * exfalso. apply (f_equal (@length _)) in H. cbn [app length] in H. rewrite app_length in H. cbn [length] in H. pose proof (NE r) as Nr. destruct (written r); cbn [length] in H; congruence || lia.
Qed.
(** a call without arguments gets one argument, and its evaluation reads below the stack *)
Theorem C49_no_arguments_refuted {T} (vals : list T) evs ops f : infix_to_postfix ops [Function f; LPar; RPar] = Some [PFun f 1] /\ evaluate_postfix vals evs [PFun f 1] = None.
Proof. split; reflexivity. Qed.

(** - 2 * (7 - 3 - 1) / f(4, 5), then 6 + 8, with the table of basic_math *)
Definition case_yard : list expr :=
  [EBin 2 (EBin 1 (EPre 0 (EVal 0)) (EPar (EBin 4 (EBin 4 (EVal 1) (EVal 2)) (EVal 3)))) (ECall 5 [EVal 4; EVal 5]); EBin 3 (EVal 6) (EVal 7)].
Definition case_evs : list (list Z -> option Z) :=
  let f2 g l := match l with [a; b] => Some (g a b) | _ => None end in
  [fun l => match l with [a] => Some (- a)%Z | _ => None end; f2 Z.mul; f2 Z.quot; f2 Z.add; f2 Z.sub; f2 (fun a b => a + b - 6)%Z].
Example C49_case : (forall e, In e case_yard -> precise basic_operators e) /\ (forall e, In e case_yard -> readable basic_operators e) /\ prefix_tight basic_operators /\
  separated (map written case_yard) = [Operator 0; Operand 0; Operator 1; LPar; Operand 1; Operator 4; Operand 2; Operator 4; Operand 3; RPar; Operator 2; Function 5; LPar; Operand 4; Separator; Operand 5; RPar; Separator; Operand 6; Operator 3; Operand 7] /\
  (let* ps := infix_to_postfix basic_operators (separated (map written case_yard)) in evaluate_postfix [2; 7; 3; 1; 4; 5; 6; 8]%Z case_evs ps) = Some ([Z.quot (- 2 * (7 - 3 - 1)) (4 + 5 - 6); 6 + 8])%Z.
Proof.
  assert (A : forall o, o < 5 -> has_arity basic_operators o (if o =? 0 then UNARY else BINARY)) by (intros o H; destruct o as [|[|[|[|[|]]]]]; [..|lia]; eexists; split; reflexivity).
  assert (A0 := A 0 ltac:(lia)). assert (A1 := A 1 ltac:(lia)). assert (A2 := A 2 ltac:(lia)). assert (A3 := A 3 ltac:(lia)). assert (A4 := A 4 ltac:(lia)). cbn [Nat.eqb] in *.
  split; [|split; [|split; [|split]]].
  - intros e [<-|[<-|[]]].
    + repeat match goal with |- precise _ _ => constructor end; auto; cbn [open_left open_right app]; repeat constructor; try discriminate; try (eexists _, _; split; [reflexivity|split; [reflexivity|cbn; (left; lia) || (right; split; [lia|reflexivity])]]).
      intros e [<-|[<-|[]]]; constructor.
    + repeat match goal with |- precise _ _ => constructor end; auto; cbn; constructor.
  - intros e [<-|[<-|[]]]; repeat match goal with |- readable _ _ => constructor end; auto; try discriminate. intros e [<-|[<-|[]]]; constructor.
  - intros o s (a & Ho & K) Hs. destruct o as [|[|[|[|[|o]]]]]; cbn in Ho; try (injection Ho as <-; discriminate K); [|destruct o; discriminate]. injection Ho as <-. destruct s as [|[|[|[|[|s]]]]]; cbn in Hs; [..|lia]; eexists _, _; (split; [reflexivity|split; [reflexivity|cbn; (left; lia) || (right; split; [lia|reflexivity])]]).
  - reflexivity.
  - reflexivity.
Qed.

Print Assumptions C49_convert.
Print Assumptions C49_evaluate.
Print Assumptions C49_convert_and_evaluate.
Print Assumptions C49_unambiguous.
Print Assumptions C49_every_sequence.
Print Assumptions C49_parentheses.
Print Assumptions C49_prefix_refuted.
Print Assumptions C49_no_arguments_refuted.
