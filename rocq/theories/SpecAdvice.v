(** * Specification: doing what the help of an error suggests

    Every error comes with a sentence of advice ([Diagnostic::help],
    parser.rs:464-507).  Here is what it means to follow that advice, as an edit
    of the text at the place where reading stopped. *)
From Coq Require Import ZArith NArith List String Ascii Bool.
From Verif Require Import F64 Syntax Builtins Context Parser Display.
From Verif Require Import SpecTokens SpecTree SpecGrammar SpecApi SpecScan.
Import ListNotations.
Local Open Scope nat_scope.
Local Open Scope string_scope.

(** The place an error points at, and the text on its two sides. *)
Definition place (e : parse_error) : nat := N.to_nat (stopped_at e).
Definition before (n : nat) (text : string) : string := substring 0 n text.
Definition onward (n : nat) (text : string) : string := substring n (String.length text - n) text.

(** [n] more arguments *)
Fixpoint more_arguments (n : nat) : string :=
  match n with 0 => "" | S n => ", 1" ++ more_arguments n end.

(** Reading a piece of text that begins inside [depth] parentheses: the number of
    parentheses open at its end, and the number of commas outside all of them.
    [None]: it closes a parenthesis it has not opened. *)
Fixpoint outer (depth : nat) (text : string) : option (nat * nat) :=
  match text with
  | EmptyString => Some (depth, 0)
  | String c text =>
      if Ascii.eqb c "(" then outer (S depth) text
      else if Ascii.eqb c ")" then match depth with 0 => None | S depth => outer depth text end
      else match outer depth text with
           | Some (d, n) => Some (d, if Ascii.eqb c "," && Nat.eqb depth 0 then S n else n)
           | None => None
           end
  end.

(** These bytes are the last [n] arguments of a call, each with its comma. *)
Definition last_arguments (n : nat) (text : string) : Prop :=
  outer 0 text = Some (0, n) /\ exists rest, text = String "," rest.

(** [follows text e advice text' n]: the error [e] of [text] gives this advice, [text']
    is [text] after doing so, and now everything before byte [n] should be in order. *)
Inductive follows (text : string) (e : parse_error) : string -> string -> nat -> Prop :=
| Add_token : forall c, pe_kind e = ExpectedToken c ->
    follows text e ("Try adding a `" ++ String c "` here.")
      (before (place e) text ++ String c (onward (place e) text)) (place e + 1)
| Remove_token : forall c, pe_kind e = UnexpectedToken c ->
    (* a blank in its place, so that its neighbours do not become one token *)
    follows text e "Try removing it?"
      (before (place e) text ++ " " ++ onward (place e + 1) text) (place e + 1)
| Remove_character : forall c, pe_kind e = IllegalCharacter c ->
    follows text e "Try removing this character."
      (before (place e) text ++ " " ++ onward (place e + 1) text) (place e + 1)
| Add_argument : pe_kind e = MissingArgument -> String.get (place e) text = Some ")"%char ->
    follows text e "Either remove comma or add argument."
      (before (place e) text ++ " 1" ++ onward (place e) text) (place e + 2)
| Add_arguments : forall m n, pe_kind e = TooFewArguments m n ->
    follows text e ("Try adding " ++ display_nat (m - n) ++ " argument" ++ (if Nat.ltb 1 (m - n) then "s" else "") ++ ".")
      (before (place e) text ++ more_arguments (m - n) ++ onward (place e) text) (place e + 3 * (m - n) + 1)
| Remove_arguments : forall m n kept removed, pe_kind e = TooManyArguments m n -> 0 < m ->
    before (place e) text = kept ++ removed -> last_arguments (n - m) removed ->
    follows text e ("Try removing " ++ display_nat (n - m) ++ " argument" ++ (if Nat.ltb 1 (n - m) then "s" else "") ++ ".")
      (kept ++ onward (place e) text) (String.length kept + 1).

(** The texts for which the errors are specified by the automaton: all of them if the
    parser does not optimise, else those on which it has no productions of its own. *)
Definition specified (cfg : config) (w : world) (ctx : context) (text : string) : Prop :=
  optimize cfg = false \/
  (context_functions_return w ctx /\ exists ts, tokens_of text ts /\ clear_tokens ctx ts).

(** The text is in order before byte [n]: it parses, but for undeclared variables, or
    what is wrong with it is at [n] or later. *)
Definition in_order_before (n : nat) (r : parse_result) : Prop :=
  match r with
  | Parse_ok _ => True
  | Parse_err e => (exists v l, pe_kind e = VariableNotDeclared v l) \/ n <= place e
  | _ => False
  end.

(** One round of reading the error and following its advice. *)
Definition advised (cfg : config) (w : world) (ctx : context) (text text' : string) : Prop :=
  specified cfg w ctx text /\ specified cfg w ctx text' /\
  exists e advice n, parse cfg w ctx text = Parse_err e /\ follows text e advice text' n.

(** The errors whose advice says nothing definite, or does not help. *)
Definition no_advice (text : string) (e : parse_error) : Prop :=
  match pe_kind e with
  | UnexpectedEndOfExpression | MalformedNumber _ | VariableNotDeclared _ _ => True
  | MissingArgument => String.get (place e) text <> Some ")"%char
  | TooManyArguments m _ => m = 0
  | _ => False
  end.
