(** * Display: expressions, numbers, errors as text *)
From Coq Require Import ZArith NArith List String Ascii Bool.
From Flocq Require Import BinarySingleNaN.
From Verif Require Import F64 Syntax Parser Xprs.
Import ListNotations.
Local Open Scope string_scope.

(** ** Integers in decimal ([u8], [usize] Display of the standard library) *)
Definition digit_char (d : N) : ascii := ascii_of_N (48 + d).

Fixpoint digits_from (fuel : nat) (n : N) (acc : list ascii) : list ascii :=
  match fuel with
  | O => acc
  | S fuel' =>
      let acc' := digit_char (n mod 10) :: acc in
      if (n <? 10)%N then acc' else digits_from fuel' (n / 10) acc'
  end.

Definition digits_of (n : N) : list ascii := digits_from (S (N.size_nat n)) n [].

Definition display_nat (n : nat) : string := string_of_list_ascii (digits_of (N.of_nat n)).

(** ** [f64] Display of the standard library

    [write!(fmt, "{num}")] at /repo/src/element/mod.rs:38.  The standard library
    prints the shortest digits that read back as the same f64 (of several such
    the one nearest to the number), positionally, without exponent and without a
    trailing ".0".  Modelled by searching the largest power of ten [10^p] such
    that a multiple of it reads back; DisplayFacts.v and PropertiesDisplay.v show
    that the result reads back and is the shortest. *)

(** the quotient and remainder of num/den by 10^p: (q, r, s) with
    num/den = (q + r/s) * 10^p, 0 <= r < s *)
Definition split_at (num den : Z) (p : Z) : Z * Z * Z :=
  if (0 <=? p)%Z then (num / (den * 10 ^ p), num mod (den * 10 ^ p), den * 10 ^ p)%Z
  else ((num * 10 ^ (- p)) / den, (num * 10 ^ (- p)) mod den, den)%Z.

(** does c * 10^p read as [v]? *)
Definition reads (v : f64) (c p : Z) : bool := feq (f64_of_dec (Z.to_N c) p) v.

Fixpoint shortest (fuel : nat) (v : f64) (num den p : Z) : Z * Z :=
  let '(q, r, s) := split_at num den p in
  match fuel with
  | O => (q, p)
  | S fuel' =>
      match reads v q p, reads v (q + 1) p with
      | true, true => if (2 * r <? s)%Z then (q, p) else ((q + 1)%Z, p)
      | true, false => (q, p)
      | false, true => ((q + 1)%Z, p)
      | false, false => shortest fuel' v num den (p - 1)
      end
  end.

(** the shortest decimal c * 10^p for the positive number m * 2^e *)
Definition shortest_decimal (v : f64) (m : positive) (e : Z) : Z * Z :=
  let num := (if (0 <=? e)%Z then Zpos m * 2 ^ e else Zpos m)%Z in
  let den := (if (0 <=? e)%Z then 1 else 2 ^ (- e))%Z in
  let top := Z.max 0 ((e + 53) / 3 + 1) in       (* 10^top exceeds the number *)
  let bottom := Z.min e 0 in                     (* the number is a multiple of 10^bottom *)
  shortest (Z.to_nat (top - bottom)) v num den top.

(** c * 10^p without an exponent *)
Definition positional (c : Z) (p : Z) : list ascii :=
  let ds := digits_of (Z.to_N c) in
  let n := List.length ds in
  if (0 <=? p)%Z then (ds ++ repeat "0"%char (Z.to_nat p))%list
  else
    let k := Z.to_nat (- p) in
    if Nat.leb n k then ("0" :: "." :: repeat "0" (k - n) ++ ds)%char%list
    else (firstn (n - k) ds ++ "."%char :: skipn (n - k) ds)%list.

Definition display_f64 (v : f64) : string :=
  match v with
  | B754_nan => "NaN"
  | B754_infinity s => if s then "-inf" else "inf"
  | B754_zero s => if s then "-0" else "0"
  | B754_finite s m e _ =>
      let '(c, p) := shortest_decimal (fabs v) m e in
      (if s then "-" else "") ++ string_of_list_ascii (positional c p)
  end.

(** ** Expressions *)
(** [Display for Operator] — /repo/src/token/operator.rs:43-55 *)
Definition display_operator (op : operator) : string :=
  match op with
  | Factorial => "!" | Plus => "+" | Minus => "-" | Times => "*"
  | Divide => "/" | Power => "^" | Modulo => "%"
  end.

(** [Vec<String>::join] *)
Definition join (sep : string) (l : list string) : string := String.concat sep l.

(** [Display for Element] — /repo/src/element/mod.rs:35-45; [BinOp] —
    binop.rs:33-37; [UnOp] — unop.rs:30-34; [FunctionCall] — function_call.rs:35-44 *)
Fixpoint display_element (e : element) : string :=
  match e with
  | Number num => display_f64 num
  | BinOp op lhs rhs => "(" ++ display_element lhs ++ " " ++ display_operator op ++ " " ++ display_element rhs ++ ")"
  | UnOp op operand => "(" ++ display_operator op ++ display_element operand ++ ")"
  | Call f args => fn_name f ++ "(" ++ join ", " (map display_element args) ++ ")"
  | Var var => var
  end.

(** [Display for Xprs] — /repo/src/xprs.rs:38-43 *)
Definition display_xprs (x : xprs) : string := display_element (root x).

(** ** Errors *)
(** [char] Display of a byte cast with [as char]: the UTF-8 bytes of the
    character with that number *)
Definition display_char (c : ascii) : string :=
  let n := N_of_ascii c in
  if (n <? 128)%N then String c ""
  else String (ascii_of_N (192 + n / 64)) (String (ascii_of_N (128 + n mod 64)) "").

(** the [#[error(..)]] attributes of [ErrorKind] — /repo/src/parser.rs:531-559;
    [ParseError] prints its kind (line 452) *)
Definition display_error_kind (k : error_kind) : string :=
  match k with
  | UnexpectedEndOfExpression => "Unexpected end of expression"
  | UnexpectedToken c => "Unexpected token: `" ++ display_char c ++ "`"
  | MalformedNumber s => "Malformed number: `" ++ s ++ "`"
  | IllegalCharacter c => "Illegal character: `" ++ display_char c ++ "`"
  | ExpectedToken c => "Expected token: `" ++ display_char c ++ "`"
  | VariableNotDeclared v _ => "Variable not previously declared: `" ++ v ++ "`"
  | TooFewArguments expected got =>
      "Too few arguments for function call, expected " ++ display_nat expected ++ " got " ++ display_nat got
  | TooManyArguments expected got =>
      "Too many arguments for function call, expected " ++ display_nat expected ++ " got " ++ display_nat got
  | MissingArgument => "Missing argument for function call"
  end.

(** [Display for ParseError] — parser.rs:452 *)
Definition display_parse_error (e : parse_error) : string := display_error_kind (pe_kind e).

(** [usize] subtraction: with overflow checks an underflow panics, without them
    it wraps *)
Definition usize_sub (cfg : config) (a b : N) : out N :=
  if (b <=? a)%N then Val (a - b)%N
  else if overflow_checks cfg then Boom ArithOverflow else Val (2 ^ 64 + a - b)%N.

Definition plural (n : N) : string := if (1 <? n)%N then "s" else "".

(** [Diagnostic::help for ParseError] — parser.rs:464-507 *)
Definition help (cfg : config) (e : parse_error) : out string :=
  match pe_kind e with
  | UnexpectedEndOfExpression => Val "Something might be missing here?"
  | UnexpectedToken _ => Val "Try removing it?"
  | MalformedNumber _ => Val "Did you enter a number with multiple decimal points?"
  | IllegalCharacter _ => Val "Try removing this character."
  | ExpectedToken tok => Val ("Try adding a `" ++ display_char tok ++ "` here.")
  | VariableNotDeclared _ available =>
      Val ("Try replacing it with one of the following: `" ++ join "`, `" available ++ "`.")
  | TooManyArguments expected got =>
      do excess <- usize_sub cfg (N.of_nat got) (N.of_nat expected);
      Val ("Try removing " ++ string_of_list_ascii (digits_of excess) ++ " argument" ++ plural excess ++ ".")
  | TooFewArguments expected got =>
      do missing <- usize_sub cfg (N.of_nat expected) (N.of_nat got);
      Val ("Try adding " ++ string_of_list_ascii (digits_of missing) ++ " argument" ++ plural missing ++ ".")
  | MissingArgument => Val "Either remove comma or add argument."
  end.

(** [EvalError] — /repo/src/xprs.rs:368 *)
Definition display_eval_error (name : string) : string := "Evaluation error: '" ++ name ++ "' was not provided".

(** [BindError] — xprs.rs:737-740 *)
Definition display_bind_error (e : bind_error) : string :=
  match e with
  | OneVariable s => "Variable '" ++ s ++ "' was not provided"
  | MultipleVariables s => "Variables '" ++ s ++ "' were not provided"
  end.
