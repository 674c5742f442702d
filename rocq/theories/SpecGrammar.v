(** * Specification: the expression grammar

    Two descriptions over token sequences.  [sentence] is the documented
    grammar, one nonterminal per precedence level.  [derives] is an equivalent
    description as operator chains; with its flag [quirks] on it also has the
    two productions that the implementation has beyond the documented grammar.
    Neither mentions the parser's functions. *)
From Coq Require Import ZArith NArith List String Ascii Bool.
From Verif Require Import F64 Syntax Builtins Context Parser SpecChars SpecTokens SpecTree.
Import ListNotations.
Local Open Scope nat_scope.

(** What a name stands for: the context first, then the built-ins. *)
Definition stands_for (ctx : context) (name : string) : identifier :=
  match sget name (ctx_symbols ctx) with
  | Some (S_Variable v) => I_Constant v
  | Some (S_Function f) => I_Function f
  | None => identifier_from_str name
  end.

(** The value of a number token. *)
Definition literal_value (text : string) : option f64 :=
  parse_f64 (strip_underscores (list_ascii_of_string text)).

Definition arity_ok (f : function) (args : list element) : Prop :=
  match fn_nb_args f with None => True | Some n => List.length args = n end.

Definition bare_number (e : element) : bool := match e with Number _ => true | _ => false end.

(** May these tokens follow an operand directly (implicit product)?  They start
    with a lower case name, an opening parenthesis, or a digit — the last only
    if the operand is not itself a number. *)
Definition may_follow (left : element) (ts : list token) : Prop :=
  match ts with
  | TId s :: _ => a_small (token_byte (TId s)) = true
  | TSym c :: _ => c = "("%char
  | TNum s :: _ => a_digit (token_byte (TNum s)) = true /\ bare_number left = false
  | [] => False
  end.

Definition sign_op (c : ascii) (op : operator) : Prop :=
  (c = "+"%char /\ op = Plus) \/ (c = "-"%char /\ op = Minus).

Definition mul_op (c : ascii) (op : operator) : Prop :=
  (c = "*"%char /\ op = Times) \/ (c = "/"%char /\ op = Divide) \/ (c = "%"%char /\ op = Modulo).

(** ** The documented grammar *)
Section Documented.
  Variable pejmdas : bool.
  Variable ctx : context.

  (** number | constant | variable | f(args) | (sum) *)
  Inductive prim : list token -> element -> Prop :=
  | P_number : forall s v, literal_value s = Some v -> prim [TNum s] (Number v)
  | P_constant : forall s v, stands_for ctx s = I_Constant v -> prim [TId s] (Number v)
  | P_variable : forall s x, stands_for ctx s = I_Variable x -> prim [TId s] (Var x)
  | P_call : forall s f ts args, stands_for ctx s = I_Function f -> args_of ts args -> arity_ok f args ->
      prim (TId s :: TSym "(" :: ts ++ [TSym ")"]) (Call f args)
  | P_paren : forall ts t, sum ts t -> prim (TSym "(" :: ts ++ [TSym ")"]) t
  (** sum, sum, ... *)
  with args_of : list token -> list element -> Prop :=
  | A_last : forall ts t, sum ts t -> args_of ts [t]
  | A_more : forall ts t ts' l, sum ts t -> args_of ts' l -> args_of (ts ++ TSym "," :: ts') (t :: l)
  (** prim | prim ! *)
  with postfix : list token -> element -> Prop :=
  | F_prim : forall ts t, prim ts t -> postfix ts t
  | F_bang : forall ts t, prim ts t -> postfix (ts ++ [TSym "!"]) (UnOp Factorial t)
  (** postfix | power ^ postfix *)
  with power : list token -> element -> Prop :=
  | W_postfix : forall ts t, postfix ts t -> power ts t
  | W_power : forall ts l ts' r, power ts l -> postfix ts' r ->
      power (ts ++ TSym "^" :: ts') (BinOp Power l r)
  (** power | sign signed | power ^ sign signed *)
  with signed : list token -> element -> Prop :=
  | S_power : forall ts t, power ts t -> signed ts t
  | S_sign : forall c op ts t, sign_op c op -> signed ts t -> signed (TSym c :: ts) (UnOp op t)
  | S_power_sign : forall ts l c op ts' t, power ts l -> sign_op c op -> signed ts' t ->
      signed (ts ++ TSym "^" :: TSym c :: ts') (BinOp Power l (UnOp op t))
  (** the operands of explicit products.  pemdas: signed; pejmdas: signed | factor signed *)
  with factor : list token -> element -> Prop :=
  | K_signed : forall ts t, signed ts t -> factor ts t
  | K_implicit : forall ts l ts' r, pejmdas = true -> factor ts l -> signed ts' r -> may_follow l ts' ->
      factor (ts ++ ts') (BinOp Times l r)
  (** factor | term * factor | term / factor | term % factor, and for pemdas: term signed *)
  with term : list token -> element -> Prop :=
  | T_factor : forall ts t, factor ts t -> term ts t
  | T_mul : forall ts l c op ts' r, term ts l -> mul_op c op -> factor ts' r ->
      term (ts ++ TSym c :: ts') (BinOp op l r)
  | T_implicit : forall ts l ts' r, pejmdas = false -> term ts l -> signed ts' r -> may_follow l ts' ->
      term (ts ++ ts') (BinOp Times l r)
  (** term | sum + term | sum - term *)
  with sum : list token -> element -> Prop :=
  | U_term : forall ts t, term ts t -> sum ts t
  | U_add : forall ts l c op ts' r, sum ts l -> sign_op c op -> term ts' r ->
      sum (ts ++ TSym c :: ts') (BinOp op l r).

  Definition sentence (ts : list token) (t : element) : Prop := sum ts t.
End Documented.

(** ** The same as operator chains *)
Definition operator_token (t : token) (op : operator) : Prop :=
  match t with TSym c => operator_of_byte c = Some op | _ => False end.

(** Binding strengths: + - 1, * / % 2, signs 3, ^ 4, ! 5. *)
Definition strength (op : operator) : nat :=
  match op with
  | Plus | Minus => 1
  | Times | Divide | Modulo => 2
  | Power => 4
  | Factorial => 5
  end.
Definition implicit_strength (pejmdas : bool) : nat := if pejmdas then 3 else 2.

Section Chains.
  Variable pejmdas : bool.
  Variable ctx : context.
  Variable quirks : bool.

  (** [chain p ts t q n]: [ts] is an operand followed by operators binding
      tighter than [p], each with its own right operand; the tree [t] groups to
      the left.  [q] is the strongest operator that may come next, and [n] says
      whether the last operand is a bare number. *)
  Inductive chain : nat -> list token -> element -> nat -> bool -> Prop :=
  | C_operand : forall p ts t q, operand ts t q -> chain p ts t q (bare_number t)
  | C_operator : forall p ts l q n tok op ts' r q' n',
      chain p ts l q n -> operator_token tok op ->
      p < strength op -> strength op <= q -> (op = Factorial -> quirks = true) ->
      chain (strength op) ts' r q' n' ->
      chain p (ts ++ tok :: ts') (BinOp op l r) (Nat.min (strength op) q') (bare_number r)
  | C_implicit : forall p ts l q n ts' r q' n',
      let j := implicit_strength pejmdas in
      chain p ts l q n -> may_follow l ts' ->
      p < j ->
      (* quirk: a number directly after a bare number multiplies everything so far *)
      (j <= q \/ (quirks = true /\ n = true /\ exists s ts'', ts' = TNum s :: ts'')) ->
      chain j ts' r q' n' ->
      chain p (ts ++ ts') (BinOp Times l r) (Nat.min j q') (bare_number r)
  with operand : list token -> element -> nat -> Prop :=
  | O_plain : forall ts t, primary ts t -> operand ts t 4
  | O_bang : forall ts t, primary ts t -> operand (ts ++ [TSym "!"]) (UnOp Factorial t) 5
  | O_sign : forall c op ts t q n, sign_op c op -> chain 3 ts t q n -> operand (TSym c :: ts) (UnOp op t) 3
  with primary : list token -> element -> Prop :=
  | R_number : forall s v, literal_value s = Some v -> primary [TNum s] (Number v)
  | R_constant : forall s v, stands_for ctx s = I_Constant v -> primary [TId s] (Number v)
  | R_variable : forall s x, stands_for ctx s = I_Variable x -> primary [TId s] (Var x)
  | R_call : forall s f ts args, stands_for ctx s = I_Function f -> arguments ts args -> arity_ok f args ->
      primary (TId s :: TSym "(" :: ts ++ [TSym ")"]) (Call f args)
  | R_paren : forall ts t q n, chain 0 ts t q n -> primary (TSym "(" :: ts ++ [TSym ")"]) t
  with arguments : list token -> list element -> Prop :=
  | G_last : forall ts t q n, chain 0 ts t q n -> arguments ts [t]
  | G_more : forall ts t q n ts' l, chain 0 ts t q n -> arguments ts' l ->
      arguments (ts ++ TSym "," :: ts') (t :: l).

  Definition derives (ts : list token) (t : element) : Prop := exists q n, chain 0 ts t q n.
End Chains.

(** ** Juxtaposition *)
(** Can this token be the last of an operand?  (A function's name cannot.) *)
Definition ends_operand (ctx : context) (t : token) : bool :=
  match t with
  | TNum _ => true
  | TId s => match stands_for ctx s with I_Function _ => false | _ => true end
  | TSym c => Ascii.eqb c ")" || Ascii.eqb c "!"
  end.

(** Can this token begin the right operand of an implicit product? *)
Definition starts_operand (t : token) : bool :=
  match t with
  | TId s => a_small (token_byte t)
  | TNum s => a_digit (token_byte t)
  | TSym c => Ascii.eqb c "("
  end.

(** Two adjacent tokens satisfying [P]. *)
Definition adjacent (P : token -> token -> Prop) (ts : list token) : Prop :=
  exists u a b v, ts = u ++ a :: b :: v /\ P a b.

Definition juxtaposed (ctx : context) : list token -> Prop :=
  adjacent (fun a b => ends_operand ctx a = true /\ starts_operand b = true).

(** Write every implicit product with an explicit '*'. *)
Fixpoint insert_stars (ctx : context) (ts : list token) : list token :=
  match ts with
  | a :: ((b :: _) as r) =>
      if ends_operand ctx a && starts_operand b then a :: TSym "*" :: insert_stars ctx r
      else a :: insert_stars ctx r
  | _ => ts
  end.

(** Can this token be the last of an operand that is a bare number: a literal, a
    constant's name, or a closing parenthesis? *)
Definition ends_number (ctx : context) (t : token) : bool :=
  match t with
  | TNum _ => true
  | TId s => match stands_for ctx s with I_Constant _ => true | _ => false end
  | TSym c => Ascii.eqb c ")"
  end.

(** A token sequence on which the implementation has no productions of its own:
    no "!!", and no number directly after a number, a constant's name or ")". *)
Definition clear_tokens (ctx : context) (ts : list token) : Prop :=
  ~ adjacent (fun a b => a = TSym "!" /\ b = TSym "!") ts /\
  ~ adjacent (fun a b => ends_number ctx a = true /\ exists s, b = TNum s) ts.

(** The declared variables, if any are declared, include all those of the tree. *)
Definition declared (ctx : context) (t : element) : Prop :=
  forall s, get_expected_vars ctx = Some s -> forall v, occurs v t -> In v s.

(** The text inside [n] pairs of parentheses. *)
Fixpoint in_parentheses (n : nat) (text : string) : string :=
  match n with
  | 0 => text
  | S n => ("(" ++ in_parentheses n text ++ ")")%string
  end.
