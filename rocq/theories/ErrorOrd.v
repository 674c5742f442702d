(** * Model: derived orders of errors, operators and symbols

    [#[derive(Ord)]] and [#[derive(PartialOrd)]]: first the place of the variant
    in its declaration, then the fields from left to right. *)
From Coq Require Import ZArith NArith List String Ascii Bool.
From Flocq Require Import BinarySingleNaN.
From Verif Require Import F64 Syntax Builtins Context Parser Xprs Order.
Import ListNotations.

(** [Ordering::then] *)
Definition then_ord (a b : comparison) : comparison := match a with Eq => b | _ => a end.

(** [Ord] of [char]; the parser only makes chars from bytes ([char::from(u8)]) *)
Definition char_cmp (a b : ascii) : comparison := N.compare (N_of_ascii a) (N_of_ascii b).
(** [Ord] of [String]: bytewise *)
Fixpoint str_cmp (a b : string) : comparison :=
  match a, b with
  | EmptyString, EmptyString => Eq
  | EmptyString, String _ _ => Lt
  | String _ _, EmptyString => Gt
  | String c a, String d b => then_ord (char_cmp c d) (str_cmp a b)
  end.
(** [Ord] of [Vec<String>]: lexicographic *)
Fixpoint strs_cmp (l m : list string) : comparison :=
  match l, m with
  | [], [] => Eq
  | [], _ :: _ => Lt
  | _ :: _, [] => Gt
  | a :: l, b :: m => then_ord (str_cmp a b) (strs_cmp l m)
  end.

(** the place of the variant in [enum ErrorKind] — parser.rs:531-560 *)
Definition kind_index (k : error_kind) : nat :=
  match k with
  | UnexpectedEndOfExpression => 0
  | UnexpectedToken _ => 1
  | MalformedNumber _ => 2
  | IllegalCharacter _ => 3
  | ExpectedToken _ => 4
  | VariableNotDeclared _ _ => 5
  | TooFewArguments _ _ => 6
  | TooManyArguments _ _ => 7
  | MissingArgument => 8
  end.
(** derived [Ord] of [ErrorKind] — parser.rs:527-529 *)
Definition kind_cmp (a b : error_kind) : comparison :=
  match a, b with
  | UnexpectedToken c, UnexpectedToken d => char_cmp c d
  | MalformedNumber s, MalformedNumber t => str_cmp s t
  | IllegalCharacter c, IllegalCharacter d => char_cmp c d
  | ExpectedToken c, ExpectedToken d => char_cmp c d
  | VariableNotDeclared x l, VariableNotDeclared y m => then_ord (str_cmp x y) (strs_cmp l m)
  | TooFewArguments e g, TooFewArguments e' g' => then_ord (Nat.compare e e') (Nat.compare g g')
  | TooManyArguments e g, TooManyArguments e' g' => then_ord (Nat.compare e e') (Nat.compare g g')
  | _, _ => Nat.compare (kind_index a) (kind_index b)
  end.
(** derived [Ord] of [BindError] — xprs.rs:732-741 *)
Definition bind_error_cmp (a b : bind_error) : comparison :=
  match a, b with
  | OneVariable s, OneVariable t => str_cmp s t
  | MultipleVariables s, MultipleVariables t => str_cmp s t
  | OneVariable _, MultipleVariables _ => Lt
  | MultipleVariables _, OneVariable _ => Gt
  end.
(** derived [Ord] of [EvalError], a struct around a [String] — xprs.rs:365-369.
    The model keeps only the name. *)
Definition eval_error_cmp (a b : string) : comparison := str_cmp a b.
(** derived [Ord] of [Operator] — operator.rs:5-21 *)
Definition op_cmp (a b : operator) : comparison := Nat.compare (operator_index a) (operator_index b).

(** derived [PartialOrd] of [Symbol] — context.rs:7-15; functions compare by
    name — function.rs:58-63 *)
Definition symbol_cmp (a b : symbol) : option comparison :=
  match a, b with
  | S_Variable x, S_Variable y => fcmp x y
  | S_Function f, S_Function g => Some (str_cmp (fn_name f) (fn_name g))
  | S_Variable _, S_Function _ => Some Lt
  | S_Function _, S_Variable _ => Some Gt
  end.
