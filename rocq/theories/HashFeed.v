(** * Model: derived [==] and [Hash] of errors and operators

    [#[derive(Hash)]] feeds a hasher first the discriminant of the variant (as an
    [isize]: eight bytes) and then the fields from left to right.  A hasher is
    any function of the bytes it is fed; the feed is modelled as the list of
    these bytes, little-endian as on the usual machines (the theorems hold for
    any fixed order).  The standard library's parts: [u8] one byte, [char] the
    code point as [u32], [usize] eight bytes, [str] its bytes and 0xff,
    [Vec] its length and then its elements. *)
From Coq Require Import ZArith NArith List String Ascii Bool.
From Verif Require Import F64 Syntax Builtins Context Parser Xprs Order ErrorOrd.
Import ListNotations.

(** ** Derived [PartialEq] *)
(** [ErrorKind] — parser.rs:527-529 *)
Definition kind_eq (a b : error_kind) : bool :=
  match a, b with
  | UnexpectedEndOfExpression, UnexpectedEndOfExpression => true
  | UnexpectedToken c, UnexpectedToken d => Ascii.eqb c d
  | MalformedNumber s, MalformedNumber t => String.eqb s t
  | IllegalCharacter c, IllegalCharacter d => Ascii.eqb c d
  | ExpectedToken c, ExpectedToken d => Ascii.eqb c d
  | VariableNotDeclared x l, VariableNotDeclared y m =>
      String.eqb x y &&
      (fix go (l m : list string) : bool :=
         match l, m with
         | [], [] => true
         | a :: l, b :: m => String.eqb a b && go l m
         | _, _ => false
         end) l m
  | TooFewArguments e g, TooFewArguments e' g' => Nat.eqb e e' && Nat.eqb g g'
  | TooManyArguments e g, TooManyArguments e' g' => Nat.eqb e e' && Nat.eqb g g'
  | MissingArgument, MissingArgument => true
  | _, _ => false
  end.
(** [ParseError] — parser.rs:451; [SourceSpan] is an offset and a length *)
Definition parse_error_eq (a b : parse_error) : bool :=
  kind_eq (pe_kind a) (pe_kind b) &&
  (N.eqb (pe_offset a) (pe_offset b) && N.eqb (pe_length a) (pe_length b)) &&
  String.eqb (pe_src a) (pe_src b).
(** [BindError] — xprs.rs:732-741 *)
Definition bind_error_eq (a b : bind_error) : bool :=
  match a, b with
  | OneVariable s, OneVariable t => String.eqb s t
  | MultipleVariables s, MultipleVariables t => String.eqb s t
  | _, _ => false
  end.
(** [EvalError] — xprs.rs:365-369 *)
Definition eval_error_eq (a b : string) : bool := String.eqb a b.

(** ** Derived [Hash] *)
(** [k] bytes, the lowest first *)
Fixpoint le_bytes (k : nat) (n : N) : list N :=
  match k with 0 => [] | S k => (n mod 256)%N :: le_bytes k (n / 256) end.
(** [Hasher::write_u8], [write_u32], [write_usize]; a discriminant is an [isize] *)
Definition feed_u8 (n : nat) : list N := le_bytes 1 (N.of_nat n).
Definition feed_usize (n : N) : list N := le_bytes 8 n.
Definition feed_discriminant (n : nat) : list N := le_bytes 8 (N.of_nat n).
Definition feed_char (c : ascii) : list N := le_bytes 4 (N_of_ascii c).
(** [str] *)
Definition feed_str (s : string) : list N := map N_of_ascii (list_ascii_of_string s) ++ [255%N].
(** [Vec<String>] *)
Definition feed_strs (l : list string) : list N := feed_usize (N.of_nat (List.length l)) ++ flat_map feed_str l.

(** [ErrorKind] — parser.rs:527-560 *)
Definition feed_kind (k : error_kind) : list N :=
  feed_discriminant (kind_index k) ++
  match k with
  | UnexpectedEndOfExpression | MissingArgument => []
  | UnexpectedToken c | IllegalCharacter c | ExpectedToken c => feed_char c
  | MalformedNumber s => feed_str s
  | VariableNotDeclared x l => feed_str x ++ feed_strs l
  | TooFewArguments e g | TooManyArguments e g => feed_u8 e ++ feed_usize (N.of_nat g)
  end.
(** [ParseError] — parser.rs:451-460 *)
Definition feed_parse_error (e : parse_error) : list N :=
  feed_kind (pe_kind e) ++ (feed_usize (pe_offset e) ++ feed_usize (pe_length e)) ++ feed_str (pe_src e).
(** [BindError] — xprs.rs:732-741 *)
Definition feed_bind_error (e : bind_error) : list N :=
  match e with
  | OneVariable s => feed_discriminant 0 ++ feed_str s
  | MultipleVariables s => feed_discriminant 1 ++ feed_str s
  end.
(** [EvalError] — xprs.rs:365-369 *)
Definition feed_eval_error (x : string) : list N := feed_str x.
(** [Operator] — operator.rs:5-21 *)
Definition feed_operator (op : operator) : list N := feed_discriminant (operator_index op).
