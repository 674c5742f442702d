(** * Specification vocabulary for inputs and parse errors

    Written in terms of the input's bytes only; nothing here mentions the
    parser's functions. *)
From Coq Require Import ZArith NArith List String Ascii Bool.
From Verif Require Import F64 Syntax Builtins Context Parser SpecChars.
Import ListNotations.
Local Open Scope nat_scope.

(** Two exclamation marks with nothing but whitespace between them. *)
Definition has_double_bang (input : string) : Prop :=
  exists a b c, list_ascii_of_string input = a ++ "!"%char :: b ++ "!"%char :: c
                /\ Forall (fun x => a_blank x = true) b.

(** What a name stands for: the context first, then the built-ins. *)
Definition names_function (ctx : context) (name : string) (f : function) : Prop :=
  sget name (ctx_symbols ctx) = Some (S_Function f)
  \/ (sget name (ctx_symbols ctx) = None /\ identifier_from_str name = I_Function f).

(** A byte that can begin no token of the language. *)
Definition begins_nothing (c : ascii) : Prop :=
  a_digit c = false /\ a_letter c = false /\ a_blank c = false /\
  ~ In c ["."; "+"; "-"; "("; ")"]%char.

(** [ident_at input o n name]: the bytes [o .. o+n) are the identifier [name]
    and the next byte does not continue it. *)
Definition ident_at (input : string) (o n : nat) (name : string) : Prop :=
  firstn n (skipn o (list_ascii_of_string input)) = list_ascii_of_string name /\
  String.length name = n /\ 0 < n /\
  (forall c, nth_error (list_ascii_of_string name) 0 = Some c -> a_letter c = true) /\
  Forall (fun c => in_name c = true) (list_ascii_of_string name) /\
  (forall c, nth_error (list_ascii_of_string input) (o + n) = Some c -> in_name c = false).

(** What a reported error says about the input it was reported for.  Wrong numbers
    of arguments are reported for a span that begins with the name of the
    function and has room for the parentheses and the arguments counted. *)
Definition error_truthful (ctx : context) (input : string) (e : parse_error) : Prop :=
  let bs := list_ascii_of_string input in
  pe_src e = input /\
  match pe_kind e with
  | UnexpectedEndOfExpression =>
      pe_length e = 0%N /\
      ((exists o, pe_offset e = N.of_nat o /\ S o = List.length bs)
       \/ (input = ""%string /\ pe_offset e = (2 ^ 64 - 1)%N))
  | UnexpectedToken t =>
      pe_length e = 0%N /\
      exists o, pe_offset e = N.of_nat o /\ nth_error bs o = Some t
  | IllegalCharacter t =>
      pe_length e = 0%N /\ begins_nothing t /\
      exists o, pe_offset e = N.of_nat o /\ nth_error bs o = Some t
  | ExpectedToken t =>
      pe_length e = 0%N /\ (t = "("%char \/ t = ")"%char) /\
      exists o, pe_offset e = N.of_nat o /\ o <= List.length bs /\ nth_error bs o <> Some t
  | MalformedNumber s =>
      s <> ""%string /\ pe_length e = N.of_nat (String.length s) /\
      parse_f64 (strip_underscores (list_ascii_of_string s)) = None /\
      exists o, pe_offset e = N.of_nat o /\ o + String.length s <= List.length bs /\
        firstn (String.length s) (skipn o bs) = list_ascii_of_string s
  | TooFewArguments expected got =>
      1 <= got < expected /\
      exists o l n name f, pe_offset e = N.of_nat o /\ pe_length e = N.of_nat l /\
        n + 1 + 2 * got <= l /\ o + l <= List.length bs /\
        ident_at input o n name /\ names_function ctx name f /\ fn_nb_args f = Some expected
  | TooManyArguments expected got =>
      expected < got /\
      exists o l n name f, pe_offset e = N.of_nat o /\ pe_length e = N.of_nat l /\
        n + 1 + 2 * got <= l /\ o + l <= List.length bs /\
        ident_at input o n name /\ names_function ctx name f /\ fn_nb_args f = Some expected
  | MissingArgument =>
      pe_length e = 2%N /\
      exists o, pe_offset e = N.of_nat o /\ o + 2 <= List.length bs
  | VariableNotDeclared v available =>
      pe_offset e = 0%N /\ pe_length e = N.of_nat (List.length bs)
  end.
