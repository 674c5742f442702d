(** * Specification: reading a token sequence from left to right

    A pushdown automaton: the stack holds the open parentheses, the control
    state says whether an operand is needed next.  It has no precedences, no
    trees and no recursion over nested expressions.  It says which texts are
    accepted and, when a text is not, which error is due and at which token. *)
From Coq Require Import ZArith NArith List String Ascii Bool.
From Verif Require Import F64 Syntax Builtins Context Parser SpecChars SpecTokens SpecTree SpecGrammar.
Import ListNotations.
Local Open Scope nat_scope.

(** An open parenthesis: a plain one, or the one of a call. *)
Inductive frame :=
| Group (first : bool)                          (* is it the first operand of what encloses it? *)
| Arguments_of (f : function) (complete : nat)  (* how many arguments are complete *)
               (from : list token).             (* the tokens from the function's name on *)

Inductive mode :=
| Need (first : bool)       (* an operand is needed; is it the first one since the parenthesis? *)
| Paren (f : function) (from : list token)      (* a function's name was read *)
| Have (bare postfix : bool).
    (* an operand was read; is it, so far, nothing but a number or a constant?
       would an exclamation mark now be a factorial? *)

Inductive verdict :=
| Accepts
| Rejects (k : error_kind)
          (from : list token)    (* the tokens from the start of the reported span *)
          (upto : list token).   (* the tokens from the one that could not be read *)

Definition is_operator (c : ascii) : bool :=
  existsb (Ascii.eqb c) ["+"; "-"; "*"; "/"; "%"; "^"; "!"]%char.

Definition within_call (stack : list frame) : bool :=
  existsb (fun fr => match fr with Arguments_of _ _ _ => true | Group _ => false end) stack.

(** A token that does not fit is reported as a missing argument inside a call. *)
Definition misfit (stack : list frame) (ts : list token) : verdict :=
  match ts with
  | [] => Rejects UnexpectedEndOfExpression [] []
  | t :: _ => Rejects (if within_call stack then MissingArgument else UnexpectedToken (token_byte t)) ts ts
  end.

(** Can this token continue an operand as an implicit product? *)
Definition multiplies (bare : bool) (t : token) : bool :=
  match t with
  | TId s => a_small (token_byte t)
  | TSym c => Ascii.eqb c "("
  | TNum s => a_digit (token_byte t) && negb bare
  end.

Section Scan.
  Variable ctx : context.

  (** One token.  [ts] are the tokens from this one on. *)
  Definition read_operand (first : bool) (stack : list frame) (t : token) (ts : list token)
    : (mode * list frame) + verdict :=
    match t with
    | TNum s => match literal_value s with
                | Some _ => inl (Have first true, stack)
                | None => inr (Rejects (MalformedNumber s) ts ts)
                end
    | TId s => match stands_for ctx s with
               | I_Constant _ => inl (Have first true, stack)
               | I_Variable _ => inl (Have false true, stack)
               | I_Function f => inl (Paren f ts, stack)
               end
    | TSym c =>
        if (Ascii.eqb c "+" || Ascii.eqb c "-")%bool then inl (Need false, stack)
        else if Ascii.eqb c "(" then inl (Need true, Group first :: stack)
        else if Ascii.eqb c ")" then inr (misfit stack ts)
        else inr (Rejects (IllegalCharacter c) ts ts)
    end.

  Definition read_close (bare : bool) (stack : list frame) (t : token) (ts : list token)
    : (mode * list frame) + verdict :=
    match stack with
    | [] => inr (misfit [] ts)
    | Group first :: stack' =>
        match t with
        | TSym ")" => inl (Have (first && bare) true, stack')
        | _ => inr (Rejects (ExpectedToken ")") ts ts)
        end
    | Arguments_of f n from :: stack' =>
        match t with
        | TSym "," => inl (Need true, Arguments_of f (S n) from :: stack')
        | TSym ")" =>
            match fn_nb_args f with
            | None => inl (Have false true, stack')
            | Some m =>
                match Nat.compare (S n) m with
                | Eq => inl (Have false true, stack')
                | Lt => inr (Rejects (TooFewArguments m (S n)) from ts)
                | Gt => inr (Rejects (TooManyArguments m (S n)) from ts)
                end
            end
        | _ => inr (misfit stack' ts)
        end
    end.

  Definition read_token (m : mode) (stack : list frame) (t : token) (ts : list token)
    : (mode * list frame) + verdict :=
    match m with
    | Need first => read_operand first stack t ts
    | Paren f from =>
        match t with
        | TSym "(" => inl (Need true, Arguments_of f 0 from :: stack)
        | _ => inr (Rejects (ExpectedToken "(") ts ts)
        end
    | Have bare postfix =>
        match t with
        | TSym c =>
            if Ascii.eqb c "!" && postfix then inl (Have false false, stack)
            else if is_operator c then inl (Need false, stack)
            else if multiplies bare t then read_operand false stack t ts
            else read_close bare stack t ts
        | _ => if multiplies bare t then read_operand false stack t ts
               else read_close bare stack t ts
        end
    end.

  (** The end of the text. *)
  Definition at_end (m : mode) (stack : list frame) : verdict :=
    match m with
    | Need _ => Rejects UnexpectedEndOfExpression [] []
    | Paren _ _ => Rejects (ExpectedToken "(") [] []
    | Have _ _ =>
        match stack with
        | [] => Accepts
        | Group _ :: _ => Rejects (ExpectedToken ")") [] []
        | Arguments_of _ _ _ :: _ => Rejects UnexpectedEndOfExpression [] []
        end
    end.

  Fixpoint scan (m : mode) (stack : list frame) (ts : list token) : verdict :=
    match ts with
    | [] => at_end m stack
    | t :: r =>
        match read_token m stack t ts with
        | inl (m', stack') => scan m' stack' r
        | inr v => v
        end
    end.

  Definition verdict_of (ts : list token) : verdict := scan (Need true) [] ts.
End Scan.

(** ** Positions *)
(** [o] is where the tokens [ts] begin in the text (its end if there are none). *)
Definition tokens_begin (input : string) (o : nat) (ts : list token) : Prop :=
  let rest := skipn o (list_ascii_of_string input) in
  o <= String.length input /\ lexes rest ts /\ ~ head_is a_blank rest.

(** The span reported for an error of kind [k] whose tokens begin at byte [o]
    and whose unreadable token begins at byte [u]. *)
Definition span_for (k : error_kind) (input : string) (o u : nat) : N * N :=
  match k with
  | UnexpectedEndOfExpression => (N.of_nat (String.length input - 1), 0%N)
  | MalformedNumber s => (N.of_nat o, N.of_nat (String.length s))
  | MissingArgument => (N.of_nat (o - 1), 2%N)
  | TooFewArguments _ _ | TooManyArguments _ _ => (N.of_nat o, N.of_nat (S u - o))  (* through the ")" *)
  | _ => (N.of_nat o, 0%N)
  end.

Definition error_matches (input : string) (e : parse_error) (k : error_kind) (from upto : list token) : Prop :=
  pe_kind e = k /\ pe_src e = input /\
  exists o u, tokens_begin input o from /\ tokens_begin input u upto /\
    (pe_offset e, pe_length e) = span_for k input o u.

(** Where reading stopped, from the error alone: the token that could not be
    read begins at this byte (or the text ends there). *)
Definition stopped_at (e : parse_error) : N :=
  match pe_kind e with
  | UnexpectedEndOfExpression | MissingArgument => pe_offset e + 1
  | TooFewArguments _ _ | TooManyArguments _ _ => pe_offset e + pe_length e - 1
  | VariableNotDeclared _ _ => pe_length e
  | _ => pe_offset e
  end.
