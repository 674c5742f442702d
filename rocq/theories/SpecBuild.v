(** * Specification: the grammar of the optimising parser

    The default build simplifies while it reads: the operands of operators and
    signs, the insides of parentheses and the arguments of functions are each
    replaced by their simplification as soon as they have been read, and what
    may come next depends on the outcome.  This is that grammar, with the
    simplification left open: [closes raw t] says that the part read as [raw]
    is replaced by [t].  Nothing here mentions the parser's functions. *)
From Coq Require Import ZArith NArith List String Ascii Bool.
From Verif Require Import F64 Syntax Builtins Context Parser SpecChars SpecTokens SpecTree SpecGrammar.
Import ListNotations.
Local Open Scope nat_scope.

Section Build.
  Variable pejmdas : bool.
  Variable ctx : context.
  Variable closes : element -> element -> Prop.

  (** [run p ts raw q n]: [ts] is an operand followed by operators binding
      tighter than [p], each with its own right operand.  [raw] groups them to
      the left; its operands are simplified, itself it is not.  [q] is the
      strongest operator that may come next.  [n]: the last operand has been
      read as a single number. *)
  Inductive run : nat -> list token -> element -> nat -> bool -> Prop :=
  | B_operand : forall p ts t q, piece ts t q -> run p ts t q (bare_number t)
  | B_operator : forall p ts l q n tok op ts' raw r q' n',
      run p ts l q n -> operator_token tok op -> p < strength op -> strength op <= q ->
      run (strength op) ts' raw q' n' -> closes raw r ->
      run p (ts ++ tok :: ts') (BinOp op l r) (Nat.min (strength op) q') (bare_number raw)
  | B_implicit : forall p ts l q n ts' raw r q' n',
      let j := implicit_strength pejmdas in
      run p ts l q n -> may_follow l ts' -> p < j ->
      (* a number directly after an operand read as a number multiplies all of [l] *)
      (j <= q \/ (n = true /\ exists s ts'', ts' = TNum s :: ts'')) ->
      run j ts' raw q' n' -> closes raw r ->
      run p (ts ++ ts') (BinOp Times l r) (Nat.min j q') (bare_number raw)
  with piece : list token -> element -> nat -> Prop :=
  | B_plain : forall ts t, part ts t -> piece ts t 4
  | B_bang : forall ts t, part ts t -> piece (ts ++ [TSym "!"]) (UnOp Factorial t) 5
  | B_sign : forall c op ts raw t q n, sign_op c op -> run 3 ts raw q n -> closes raw t ->
      piece (TSym c :: ts) (UnOp op t) 3
  with part : list token -> element -> Prop :=
  | B_number : forall s v, literal_value s = Some v -> part [TNum s] (Number v)
  | B_constant : forall s v, stands_for ctx s = I_Constant v -> part [TId s] (Number v)
  | B_variable : forall s x, stands_for ctx s = I_Variable x -> part [TId s] (Var x)
  | B_call : forall s f ts args, stands_for ctx s = I_Function f -> parts ts args -> arity_ok f args ->
      part (TId s :: TSym "(" :: ts ++ [TSym ")"]) (Call f args)
  | B_paren : forall ts raw t q n, run 0 ts raw q n -> closes raw t ->
      part (TSym "(" :: ts ++ [TSym ")"]) t
  with parts : list token -> list element -> Prop :=
  | B_last : forall ts raw t q n, run 0 ts raw q n -> closes raw t -> parts ts [t]
  | B_more : forall ts raw t q n ts' l, run 0 ts raw q n -> closes raw t -> parts ts' l ->
      parts (ts ++ TSym "," :: ts') (t :: l).

  (** reading the tokens [ts] builds the expression [t] *)
  Definition builds (ts : list token) (t : element) : Prop := exists raw q n, run 0 ts raw q n /\ closes raw t.
End Build.
