(** Shunting-yard parser (algorithm/parser/shunting_yard.h). Identifiers are natural numbers; the id -1 of pop_operators is None.
    The result None is an access outside a table. The stacks have their top at the head of the list, the result vectors are in order.
    The example tables (151-341) are not modelled apart from the operators of basic_math; identifiers are int in the code. *)
From Verif Require Import Lib.
Open Scope nat_scope.

(** infix_token: 14-19; postfix_token: 24-34 *)
Inductive infix := Operand (id : nat) | Operator (id : nat) | LPar | RPar | Function (id : nat) | Separator.
Inductive postfix := PVal (id : nat) | PFun (id num_args : nat).
(** operator_desc: 42-58 *)
Inductive assoc := LEFT | RIGHT.
Inductive arity := UNARY | BINARY.
Record op_desc := OpDesc { prec : Z; asc : assoc; ary : arity }.
Definition op_less (a b : op_desc) : bool :=
  if negb (prec a =? prec b)%Z then (prec a <? prec b)%Z else match asc a with LEFT => true | RIGHT => false end.
Definition op_args (a : op_desc) : nat := match ary a with UNARY => 1 | BINARY => 2 end.

Section Convert.
Variable operators : list op_desc.
(** pop_operators: 82-89 *)
Fixpoint pop_operators (id : option nat) (res : list postfix) (stk : list infix) : option (list postfix * list infix) :=
  match stk with
  | Operator s :: stk' =>
      let* go := match id with
                 | None => Some true
                 | Some i => let* a := nth_error operators i in let* b := nth_error operators s in Some (op_less a b)
                 end in
      if (go : bool) then let* d := nth_error operators s in pop_operators id (res ++ [PFun s (op_args d)]) stk' else Some (res, stk)
  | _ => Some (res, stk)
  end.
(** the separators on top of the stack: 104-106 *)
Fixpoint pop_separators (n : nat) (stk : list infix) : nat * list infix :=
  match stk with Separator :: stk => pop_separators (n + 1) stk | _ => (n, stk) end.
(** one token: 91-122 *)
Definition yard_step (t : infix) (res : list postfix) (stk : list infix) : option (list postfix * list infix) :=
  match t with
  | Operand i => Some (res ++ [PVal i], stk)
  | Operator i => let* '(res, stk) := pop_operators (Some i) res stk in Some (res, t :: stk)
  | LPar => Some (res, t :: stk)
  | RPar =>
      let* '(res, stk) := pop_operators None res stk in
      let '(n, stk) := pop_separators 1 stk in
      let stk := match stk with LPar :: stk => stk | _ => stk end in
      match stk with Function f :: stk => Some (res ++ [PFun f n], stk) | _ => Some (res, stk) end
  | Function _ => Some (res, t :: stk)
  | Separator => let* '(res, stk) := pop_operators None res stk in Some (res, t :: stk)
  end.
Fixpoint yard_loop (ts : list infix) (res : list postfix) (stk : list infix) : option (list postfix * list infix) :=
  match ts with [] => Some (res, stk) | t :: ts => let* '(res, stk) := yard_step t res stk in yard_loop ts res stk end.
(** infix_to_postfix: 75-127 *)
Definition infix_to_postfix (ts : list infix) : option (list postfix) :=
  let* '(res, stk) := yard_loop ts [] [] in let* '(res, _) := pop_operators None res stk in Some res.
End Convert.

Section Evaluate.
Context {T : Type}.
Variable operand_values : list T.
(** an evaluator gets the pointer to its arguments, here the list of them; its result is None when it is undefined *)
Variable evaluators : list (list T -> option T).
(** evaluate_postfix: 138-158 *)
Definition eval_step (t : postfix) (stk : list T) : option (list T) :=
  match t with
  | PVal i => let* v := nth_error operand_values i in Some (stk ++ [v])
  | PFun f n =>
      if n <=? length stk then
        let pos := length stk - n in
        let* ev := nth_error evaluators f in let* r := ev (skipn pos stk) in Some (firstn pos stk ++ [r])
      else None
  end.
Fixpoint eval_loop (ts : list postfix) (stk : list T) : option (list T) :=
  match ts with [] => Some stk | t :: ts => let* stk := eval_step t stk in eval_loop ts stk end.
Definition evaluate_postfix (ts : list postfix) : option (list T) := eval_loop ts [].
End Evaluate.

(** basic_math::operators: 167-176 (NEG, MUL, DIV, ADD, SUB) *)
Definition basic_operators : list op_desc :=
  [OpDesc 20 RIGHT UNARY; OpDesc 11 LEFT BINARY; OpDesc 11 LEFT BINARY; OpDesc 10 LEFT BINARY; OpDesc 10 LEFT BINARY]%Z.
