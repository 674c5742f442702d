(** * The parser over tokens (a proof device)

    The same algorithm as Parser.v with the remaining tokens in place of the
    cursor.  TokenSim.v proves that the byte parser simulates it; no property
    mentions it. *)
From Coq Require Import ZArith NArith List String Ascii Bool.
From Verif Require Import SpecChars CharFacts.
From Verif Require Import F64 Syntax Factorial Builtins Context Element Parser SpecTokens SpecGrammar.
Import ListNotations.
Local Open Scope nat_scope.

Inductive tres (A : Type) :=
| TOk (a : A) (rest : list token)
| TErr (k : error_kind) (from upto : list token)
| TPanic (p : panic)
| TFuel.
Arguments TOk {A} a rest.
Arguments TErr {A} k from upto.
Arguments TPanic {A} p.
Arguments TFuel {A}.

Definition tbind {A B} (r : tres A) (f : A -> list token -> tres B) : tres B :=
  match r with
  | TOk a ts => f a ts
  | TErr k f u => TErr k f u
  | TPanic p => TPanic p
  | TFuel => TFuel
  end.

Definition t_consume (tok : ascii) (ts : list token) : bool * list token :=
  match ts with
  | TSym c :: r => if Ascii.eqb c tok then (true, r) else (false, ts)
  | _ => (false, ts)
  end.

Definition t_assert (tok : ascii) (ts : list token) : tres unit :=
  let '(b, r) := t_consume tok ts in if b then TOk tt r else TErr (ExpectedToken tok) ts ts.

Definition is_number_node (e : element) : bool := bare_number e.

(** may this token directly follow an operand? *)
Definition juxtaposable (left_number : bool) (t : token) : bool :=
  match t with
  | TId s => a_small (token_byte t)
  | TSym c => Ascii.eqb c "("
  | TNum s => a_digit (token_byte t) && negb left_number
  end.

Section TP.
  Variable cfg : config.
  Variable w : world.
  Variable ctx : context.

  Definition t_goi (el : element) (p : nat) (ts : list token) : option (operator * nat) * list token :=
    match ts with
    | [] => (None, ts)
    | t :: r =>
        match (match t with TSym c => operator_of_byte c | _ => None end) with
        | Some op => if get_for_op op <=? p then (None, ts) else (Some (op, get_for_op op), r)
        | None =>
            if implicit_precedence cfg <=? p then (None, ts)
            else if juxtaposable (is_number_node el) t then (Some (Times, implicit_precedence cfg), ts)
            else (None, ts)
        end
    end.

  Section Open.
    Variable elem : nat -> list token -> tres element.

    Fixpoint t_loop (budget p : nat) (el : element) (ts : list token) : tres element :=
      match budget with
      | 0 => TFuel
      | S b =>
          match t_goi el p ts with
          | (None, ts') => TOk el ts'
          | (Some (op, k), ts') => tbind (elem k ts') (fun rhs r => t_loop b p (BinOp op el rhs) r)
          end
      end.

    Definition t_argument (ts : list token) : tres element :=
      match elem NO_PRECEDENCE ts with
      | TErr (UnexpectedToken _) f u => TErr MissingArgument f u
      | r => r
      end.

    Fixpoint t_arguments (budget : nat) (args : list element) (ts : list token) : tres (list element) :=
      match budget with
      | 0 => TFuel
      | S b =>
          tbind (t_argument ts) (fun arg r =>
            match r with
            | [] => TErr UnexpectedEndOfExpression [] []
            | t :: r' =>
                match t with
                | TSym c =>
                    if Ascii.eqb c "," then t_arguments b (args ++ [arg]) r'
                    else if Ascii.eqb c ")" then TOk (args ++ [arg]) r
                    else TErr (UnexpectedToken c) r r
                | _ => TErr (UnexpectedToken (token_byte t)) r r
                end
            end)
      end.

    Definition t_arity (f : function) (args : list element) (from upto ts : list token) : tres element :=
      match fn_nb_args f with
      | None => TOk (Call f args) ts
      | Some n =>
          match Nat.compare (List.length args) n with
          | Eq => TOk (Call f args) ts
          | Lt => TErr (TooFewArguments n (List.length args)) from upto
          | Gt => TErr (TooManyArguments n (List.length args)) from upto
          end
      end.

    Definition t_identifier (budget : nat) (name : string) (ts : list token) : tres element :=
      match resolve ctx name with
      | I_Constant v => TOk (Number v) ts
      | I_Variable x => TOk (Var x) ts
      | I_Function f =>
          let '(b, r) := t_consume "(" ts in
          if b then
            tbind (t_arguments budget [] r) (fun args r2 =>
            tbind (t_assert ")" r2) (fun _ r3 => t_arity f args (TId name :: ts) r2 r3))
          else TErr (ExpectedToken "(") ts ts
      end.

    Definition t_number (text : string) (ts : list token) : tres element :=
      match parse_f64 (strip_underscores (list_ascii_of_string text)) with
      | Some num => TOk (Number num) ts
      | None => TErr (MalformedNumber text) (TNum text :: ts) (TNum text :: ts)
      end.

    Definition t_atom (budget : nat) (ts : list token) : tres element :=
      match ts with
      | [] => TErr UnexpectedEndOfExpression [] []
      | TNum s :: r => t_number s r
      | TId s :: r => t_identifier budget s r
      | TSym b :: r =>
          if Ascii.eqb b "+" then tbind (elem UNOP_PRECEDENCE r) (fun e r1 => TOk (UnOp Plus e) r1)
          else if Ascii.eqb b "-" then tbind (elem UNOP_PRECEDENCE r) (fun e r1 => TOk (UnOp Minus e) r1)
          else if Ascii.eqb b "(" then
            tbind (elem NO_PRECEDENCE r) (fun e r1 =>
            tbind (t_assert ")" r1) (fun _ r2 => TOk e r2))
          else if Ascii.eqb b ")" then TErr (UnexpectedToken ")") ts ts
          else TErr (IllegalCharacter b) ts ts
      end.
  End Open.

  Definition t_lift {A} (o : out A) (ts : list token) : tres A :=
    match o with Val a => TOk a ts | Boom p => TPanic p end.

  Fixpoint t_element (budget p : nat) (ts : list token) : tres element :=
    match budget with
    | 0 => TFuel
    | S b =>
        tbind (t_atom (t_element b) b ts) (fun el r =>
          let '(bang, r2) := t_consume "!" r in
          tbind (t_loop (t_element b) b p (if bang then UnOp Factorial el else el) r2) (fun el r3 =>
            t_lift (finish_element cfg w el) r3))
    end.

  Definition t_parse (budget : nat) (ts : list token) : tres element :=
    tbind (t_element budget NO_PRECEDENCE ts) (fun root r =>
      match r with
      | [] => TOk root []
      | t :: _ => TErr (UnexpectedToken (token_byte t)) r r
      end).
End TP.
