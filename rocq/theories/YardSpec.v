(** Expressions: syntax trees, how they are written, what they mean, and when a tree is the one that the precedences give. *)
From Verif Require Import Lib YardModel.
Open Scope nat_scope.

(** operands, prefix, postfix and binary operators, parentheses, calls *)
Inductive expr :=
| EVal (i : nat) | EPre (o : nat) (e : expr) | EPost (o : nat) (e : expr) | EBin (o : nat) (l r : expr) | EPar (e : expr) | ECall (f : nat) (args : list expr).

(** infix notation *)
Fixpoint separated (l : list (list infix)) : list infix :=
  match l with [] => [] | [x] => x | x :: l => x ++ Separator :: separated l end.
Fixpoint written (e : expr) : list infix :=
  match e with
  | EVal i => [Operand i]
  | EPre o e => Operator o :: written e
  | EPost o e => written e ++ [Operator o]
  | EBin o l r => written l ++ Operator o :: written r
  | EPar e => LPar :: written e ++ [RPar]
  | ECall f args => Function f :: LPar :: separated (map written args) ++ [RPar]
  end.
(** postfix notation *)
Fixpoint polish (e : expr) : list postfix :=
  match e with
  | EVal i => [PVal i]
  | EPre o e | EPost o e => polish e ++ [PFun o 1]
  | EBin o l r => polish l ++ polish r ++ [PFun o 2]
  | EPar e => polish e
  | ECall f args => flat_map polish args ++ [PFun f (length args)]
  end.
(** value *)
Section Value.
Context {T : Type}.
Variable operand_values : list T.
Variable evaluators : list (list T -> option T).
Definition apply_to (f : nat) (args : list T) : option T := let* ev := nth_error evaluators f in ev args.
Fixpoint all_some {A} (l : list (option A)) : option (list A) := match l with [] => Some [] | x :: l => let* a := x in let* r := all_some l in Some (a :: r) end.
Fixpoint value (e : expr) : option T :=
  match e with
  | EVal i => nth_error operand_values i
  | EPre o e | EPost o e => let* a := value e in apply_to o [a]
  | EBin o l r => let* a := value l in let* b := value r in apply_to o [a; b]
  | EPar e => value e
  | ECall f args => let* l := all_some (map value args) in apply_to f l
  end.
End Value.

Section Prec.
Variable operators : list op_desc.
(** s binds before o when it stands to the left of o: it has the higher precedence, or the same one and o associates to the left *)
Definition before (o s : nat) : Prop :=
  exists a b, nth_error operators o = Some a /\ nth_error operators s = Some b /\ ((prec a < prec b)%Z \/ (prec a = prec b /\ asc a = LEFT)).
Definition not_before (o s : nat) : Prop :=
  exists a b, nth_error operators o = Some a /\ nth_error operators s = Some b /\ ((prec b < prec a)%Z \/ (prec a = prec b /\ asc a = RIGHT)).
Definition has_arity (o : nat) (k : arity) : Prop := exists a, nth_error operators o = Some a /\ ary a = k.
(** the operators of e, outside parentheses, whose operand reaches the right end of e; those that something to the left of e could disturb *)
Fixpoint open_right (e : expr) : list nat :=
  match e with EBin o _ r => o :: open_right r | EPre o e => o :: open_right e | EPost o _ => [o] | _ => [] end.
Fixpoint open_left (e : expr) : list nat :=
  match e with EBin o l _ => open_left l ++ [o] | EPost o e => open_left e ++ [o] | EPre o _ => [o] | _ => [] end.
(** the tree is the one given by precedence and associativity: every operator binds after the operators of its left operand and not after those of its
    right operand *)
Inductive precise : expr -> Prop :=
| p_val i : precise (EVal i)
| p_pre o e : has_arity o UNARY -> precise e -> Forall (fun s => not_before s o) (open_left e) -> precise (EPre o e)
| p_post o e : has_arity o UNARY -> precise e -> Forall (before o) (open_right e) -> precise (EPost o e)
| p_bin o l r : has_arity o BINARY -> precise l -> precise r -> Forall (before o) (open_right l) -> Forall (fun s => not_before s o) (open_left r) -> precise (EBin o l r)
| p_par e : precise e -> precise (EPar e)
| p_call f args : args <> [] -> (forall e, In e args -> precise e) -> precise (ECall f args).
(** any way to read the tokens: arities are right, no postfix operators; it may ignore the precedences *)
Inductive readable : expr -> Prop :=
| r_val i : readable (EVal i)
| r_pre o e : has_arity o UNARY -> readable e -> readable (EPre o e)
| r_bin o l r : has_arity o BINARY -> readable l -> readable r -> readable (EBin o l r)
| r_par e : readable e -> readable (EPar e)
| r_call f args : args <> [] -> (forall e, In e args -> readable e) -> readable (ECall f args).
(** no operator binds before a prefix operator that follows it *)
Definition prefix_tight : Prop := forall o s, has_arity o UNARY -> s < length operators -> not_before o s.
End Prec.
(** a tree with parentheses everywhere, and a tree without its parentheses *)
Fixpoint guarded (e : expr) : expr :=
  match e with
  | EVal i => EVal i
  | EPre o e => EPre o (EPar (guarded e))
  | EPost o e => EPost o (EPar (guarded e))
  | EBin o l r => EBin o (EPar (guarded l)) (EPar (guarded r))
  | EPar e => EPar (guarded e)
  | ECall f args => ECall f (map guarded args)
  end.
Fixpoint bare (e : expr) : expr :=
  match e with
  | EVal i => EVal i
  | EPre o e => EPre o (bare e)
  | EPost o e => EPost o (bare e)
  | EBin o l r => EBin o (bare l) (bare r)
  | EPar e => bare e
  | ECall f args => ECall f (map bare args)
  end.
