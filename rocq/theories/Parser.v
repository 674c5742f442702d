(** * The parser — /repo/src/parser.rs

    The parser state is the cursor ([usize] in Rust, a [nat] index here); the
    input is a byte string.  Every function of [ParserImpl] takes the cursor
    and returns the new one.  Recursion is bounded by a budget ([PFuel] marks
    its exhaustion); C01 proves that the budget used by [parse_impl] is never
    exhausted, so [PFuel] is not an observable outcome. *)
From Coq Require Import ZArith NArith List String Ascii Bool.
From Verif Require Import F64 Syntax Factorial Builtins Context Element.
Import ListNotations.
Local Open Scope nat_scope.

(** ** Bytes: the ranges in the patterns of parser.rs:195-197, 231, 285-297, 391 *)
Definition in_range (c lo hi : ascii) : bool :=
  ((N_of_ascii lo <=? N_of_ascii c) && (N_of_ascii c <=? N_of_ascii hi))%N.
Definition is_digit (c : ascii) : bool := in_range c "0" "9".
Definition is_upper (c : ascii) : bool := in_range c "A" "Z".
Definition is_lower (c : ascii) : bool := in_range c "a" "z".
Definition is_alpha (c : ascii) : bool := is_upper c || is_lower c.
(** [u8::is_ascii_whitespace]: space, \t, \n, form feed, \r *)
Definition is_ws (c : ascii) : bool :=
  let n := N_of_ascii c in
  ((n =? 32) || (n =? 9) || (n =? 10) || (n =? 12) || (n =? 13))%N.
(** parser.rs:231 *)
Definition is_ident_char (c : ascii) : bool :=
  Ascii.eqb c "_" || Ascii.eqb c "'" || is_upper c || is_lower c || is_digit c.
(** parser.rs:285 *)
Definition is_number_char (c : ascii) : bool :=
  is_digit c || Ascii.eqb c "." || Ascii.eqb c "_".
Definition is_exp_char (c : ascii) : bool := Ascii.eqb c "e" || Ascii.eqb c "E".
Definition is_sign_char (c : ascii) : bool := Ascii.eqb c "+" || Ascii.eqb c "-".

(** ** Precedences — /repo/src/utils/precedence.rs *)
Definition NO_PRECEDENCE : nat := 0.         (* line 5 *)
Definition UNOP_PRECEDENCE : nat := 3.       (* line 7 *)
(** [get_for_op] — lines 23-31 *)
Definition get_for_op (op : operator) : nat :=
  match op with
  | Plus | Minus => 1
  | Times | Divide | Modulo => 2
  | Power => 4
  | Factorial => 5
  end.
(** [IMPLICIT_MULTIPLICATION_PRECEDENCE] — lines 11-16 *)
Definition implicit_precedence (cfg : config) : nat :=
  if pejmdas cfg then 3 else get_for_op Times.

(** ** Errors — parser.rs:453-460, 531-559 *)
Inductive error_kind :=
| UnexpectedEndOfExpression
| UnexpectedToken (c : ascii)
| MalformedNumber (s : string)
| IllegalCharacter (c : ascii)
| ExpectedToken (c : ascii)
| VariableNotDeclared (v : string) (available : list string)
| TooFewArguments (expected got : nat)
| TooManyArguments (expected got : nat)
| MissingArgument.

(** [ParseError] — parser.rs:453-460; the span is an offset and a length ([usize]). *)
Record parse_error := mk_parse_error {
  pe_kind : error_kind;
  pe_offset : N;
  pe_length : N;
  pe_src : string
}.

(** The outcome of a parser function started at some cursor.  An error carries
    the cursor at the moment of failure, which [argument] still reads. *)
Inductive pres (A : Type) :=
| POk (a : A) (cursor : nat)
| PErr (e : parse_error) (cursor : nat)
| PPanic (p : panic)
| PFuel.
Arguments POk {A} a cursor.
Arguments PErr {A} e cursor.
Arguments PPanic {A} p.
Arguments PFuel {A}.

(** The [?] operator. *)
Definition pbind {A B} (r : pres A) (f : A -> nat -> pres B) : pres B :=
  match r with
  | POk a c => f a c
  | PErr e c => PErr e c
  | PPanic p => PPanic p
  | PFuel => PFuel
  end.

Definition plift {A} (o : out A) (c : nat) : pres A :=
  match o with Val a => POk a c | Boom p => PPanic p end.

(** The number of leading elements satisfying [p]. *)
Fixpoint prefix_len (p : ascii -> bool) (l : list ascii) : nat :=
  match l with
  | c :: l' => if p c then S (prefix_len p l') else 0
  | [] => 0
  end.

Section ParserImpl.
  Variable cfg : config.
  Variable w : world.
  Variable ctx : context.
  Variable input : string.

  (** [input.as_bytes()] — parser.rs:127 *)
  Definition bytes : list ascii := list_ascii_of_string input.

  (** [current] — parser.rs:385-387 *)
  Definition current (c : nat) : option ascii := nth_error bytes c.
  (** [next], [next_at] — parser.rs:396-403 *)
  Definition next_at (c offset : nat) : option ascii := nth_error bytes (c + offset).
  Definition next (c : nat) : option ascii := next_at c 1.

  (** [skip_while] — parser.rs:371-375.  The loop advances over the bytes that
      satisfy the predicate; written as the length of that run. *)
  Definition skip_while (p : ascii -> bool) (c : nat) : nat :=
    c + prefix_len p (skipn c bytes).

  (** [next_trim] — parser.rs:390-393 *)
  Definition next_trim (c : nat) : option ascii * nat :=
    let c' := skip_while is_ws c in (current c', c').

  (** [consume_if_eq] — parser.rs:378-382 *)
  Definition consume_if_eq (tok : ascii) (c : nat) : bool * nat :=
    let '(o, c') := next_trim c in
    match o with
    | Some b => if Ascii.eqb b tok then (true, S c') else (false, c')
    | None => (false, c')
    end.

  (** [&self.input[start..end]] as a string *)
  Definition slice (start stop : nat) : string :=
    string_of_list_ascii (firstn (stop - start) (skipn start bytes)).

  (** [usize] subtraction: panics or wraps around below zero. *)
  Definition usub (a b : nat) : out N :=
    if b <=? a then Val (N.of_nat (a - b))
    else if overflow_checks cfg then Boom ArithOverflow
    else Val (2 ^ 64 + N.of_nat a - N.of_nat b)%N.

  Definition matches (p : ascii -> bool) (o : option ascii) : bool :=
    match o with Some c => p c | None => false end.

  (** *** Error constructors — parser.rs:564-670.  [fail] returns the error at
      the current cursor. *)
  Definition fail {A} (k : error_kind) (off : out N) (len : N) (c : nat) : pres A :=
    match off with
    | Val o => PErr (mk_parse_error k o len input) c
    | Boom p => PPanic p
    end.
  Definition err_unexpected_end {A} (c : nat) : pres A :=              (* 564-572 *)
    fail UnexpectedEndOfExpression (usub c 1) 0 c.
  Definition err_unexpected_token {A} (tok : ascii) (c : nat) : pres A :=  (* 576-582 *)
    fail (UnexpectedToken tok) (Val (N.of_nat c)) 0 c.
  Definition err_malformed_number {A} (ident : string) (c : nat) : pres A := (* 586-593 *)
    fail (MalformedNumber ident) (usub c (String.length ident)) (N.of_nat (String.length ident)) c.
  Definition err_illegal_character {A} (tok : ascii) (c : nat) : pres A := (* 597-603 *)
    fail (IllegalCharacter tok) (Val (N.of_nat c)) 0 c.
  Definition err_expected_token {A} (tok : ascii) (c : nat) : pres A :=    (* 607-613 *)
    fail (ExpectedToken tok) (Val (N.of_nat c)) 0 c.
  (** [(start..parser.cursor).into()]: the length is [cursor - start], 0 if
      the range is empty. *)
  Definition err_too_few {A} (expected got start c : nat) : pres A :=      (* 634-645 *)
    fail (TooFewArguments expected got) (Val (N.of_nat start)) (N.of_nat (c - start)) c.
  Definition err_too_many {A} (expected got start c : nat) : pres A :=     (* 649-660 *)
    fail (TooManyArguments expected got) (Val (N.of_nat start)) (N.of_nat (c - start)) c.
  Definition err_missing_argument {A} (c : nat) : pres A :=               (* 664-670 *)
    fail MissingArgument (usub c 1) 2 c.

  (** [assert_eq_consume] — parser.rs:442-447 *)
  Definition assert_eq_consume (tok : ascii) (c : nat) : pres unit :=
    let '(b, c') := consume_if_eq tok c in
    if b then POk tt c' else err_expected_token tok c'.

  (** [get_operator_infos] — parser.rs:406-438 *)
  Definition get_operator_infos (current_atom : element) (precedence : nat) (c : nat)
    : option (operator * nat) * nat :=
    let '(o, c') := next_trim c in
    match o with
    | None => (None, c')
    | Some byte =>
        match operator_of_byte byte with
        | Some op =>
            let op_p := get_for_op op in
            if op_p <=? precedence then (None, c') else (Some (op, op_p), S c')
        | None =>
            if implicit_precedence cfg <=? precedence then (None, c')
            else if is_lower byte || Ascii.eqb byte "(" then
              (Some (Times, implicit_precedence cfg), c')
            else if is_digit byte then
              match current_atom with
              | Number _ => (None, c')
              | _ => (Some (Times, implicit_precedence cfg), c')
              end
            else (None, c')
        end
    end.

  (** [parse_number] — parser.rs:283-311 *)
  Definition parse_number (begin : nat) : pres element :=
    let c1 := skip_while is_number_char begin in
    let might_be_exponent := matches is_exp_char (current c1) in
    let is_exponent_with_sign :=
      might_be_exponent && matches is_sign_char (next c1) && matches is_digit (next_at c1 2) in
    let is_exponent := might_be_exponent && matches is_digit (next c1) in
    let c2 := c1 + ((if is_exponent_with_sign then 1 else 0) * 2 + (if is_exponent then 1 else 0)) in
    let stop := skip_while is_digit c2 in
    let ident := slice begin stop in
    match parse_f64 (strip_underscores (list_ascii_of_string ident)) with
    | Some num => POk (Number num) stop
    | None => err_malformed_number ident stop
    end.

  (** The compile-time simplification at the end of [element] —
      parser.rs:180-183 *)
  Definition finish_element (el : element) : out element :=
    if optimize cfg then simplify cfg w el else Val el.

  (** The identifier lookup of [parse_identifier] — parser.rs:236-240 *)
  Definition resolve (name : string) : identifier :=
    match ctx_get ctx name with
    | Some s => identifier_of_symbol s
    | None => identifier_from_str name
    end.

  (** The mutually recursive functions call [element] with a smaller budget;
      they take that function as the parameter [elem]. *)
  Section OpenRecursion.
    Variable elem : nat -> nat -> pres element.   (* precedence, cursor *)

    (** The [while] loop of [element] — parser.rs:173-178 *)
    Fixpoint binop_loop (budget : nat) (precedence : nat) (el : element) (c : nat) : pres element :=
      match budget with
      | 0 => PFuel
      | S budget' =>
          match get_operator_infos el precedence c with
          | (None, c') => POk el c'
          | (Some (op, op_precedence), c') =>
              pbind (elem op_precedence c') (fun rhs c'' =>
                binop_loop budget' precedence (BinOp op el rhs) c'')
          end
      end.

    (** [argument] — parser.rs:337-354 *)
    Definition argument (c : nat) : pres element :=
      match elem NO_PRECEDENCE c with
      | PErr e c' =>
          match pe_kind e with
          | UnexpectedToken _ => err_missing_argument c'
          | _ => PErr e c'
          end
      | r => r
      end.

    (** [parse_arguments] — parser.rs:314-334; [args] is the vector so far *)
    Fixpoint parse_arguments (budget : nat) (args : list element) (c : nat) : pres (list element) :=
      match budget with
      | 0 => PFuel
      | S budget' =>
          pbind (argument c) (fun arg c1 =>
            let args := (args ++ [arg])%list in
            let '(o, c2) := next_trim c1 in
            match o with
            | None => err_unexpected_end c2
            | Some tok =>
                if Ascii.eqb tok "," then parse_arguments budget' args (S c2)
                else if Ascii.eqb tok ")" then POk args c2
                else err_unexpected_token tok c2
            end)
      end.

    (** The arity check — parser.rs:250-271 *)
    Definition check_arity (func : function) (args : list element) (start c : nat) : pres element :=
      match fn_nb_args func with
      | None => POk (Call func args) c
      | Some nb_args =>
          match Nat.compare (List.length args) nb_args with
          | Eq => POk (Call func args) c
          | Lt => err_too_few nb_args (List.length args) start c
          | Gt => err_too_many nb_args (List.length args) start c
          end
      end.

    (** [parse_identifier] — parser.rs:228-280 *)
    Definition parse_identifier (budget : nat) (start : nat) : pres element :=
      let stop := skip_while is_ident_char start in
      let name := slice start stop in
      match resolve name with
      | I_Constant v => POk (Number v) stop
      | I_Variable x => POk (Var x) stop
      | I_Function func =>
          let '(b, c1) := consume_if_eq "(" stop in
          if b then
            pbind (parse_arguments budget [] c1) (fun args c2 =>
            pbind (assert_eq_consume ")" c2) (fun _ c3 =>
            check_arity func args start c3))
          else err_expected_token "(" c1
      end.

    (** [atom] — parser.rs:189-225 *)
    Definition atom (budget : nat) (c : nat) : pres element :=
      let '(o, c0) := next_trim c in
      match o with
      | None => err_unexpected_end c0
      | Some b =>
          if is_digit b || Ascii.eqb b "." then parse_number c0
          else if is_alpha b then parse_identifier budget c0
          else if Ascii.eqb b "+" then
            pbind (elem UNOP_PRECEDENCE (S c0)) (fun e c1 => POk (UnOp Plus e) c1)
          else if Ascii.eqb b "-" then
            pbind (elem UNOP_PRECEDENCE (S c0)) (fun e c1 => POk (UnOp Minus e) c1)
          else if Ascii.eqb b "(" then
            pbind (elem NO_PRECEDENCE (S c0)) (fun e c1 =>
            pbind (assert_eq_consume ")" c1) (fun _ c2 => POk e c2))
          else if Ascii.eqb b ")" then err_unexpected_token ")" c0
          else err_illegal_character b c0
      end.
  End OpenRecursion.

  (** [element] — parser.rs:161-186 *)
  Fixpoint element_at (budget : nat) (precedence : nat) (c : nat) : pres element :=
    match budget with
    | 0 => PFuel
    | S budget' =>
        pbind (atom (element_at budget') budget' c) (fun el c1 =>
          let '(b, c2) := consume_if_eq "!" c1 in
          let el := if b then UnOp Factorial el else el in
          pbind (binop_loop (element_at budget') budget' precedence el c2) (fun el c3 =>
            plift (finish_element el) c3))
    end.

  (** The recursion budget: linear in the input. *)
  Definition parse_budget : nat := 2 + String.length input.

  (** [ParserImpl::parse] — parser.rs:134-153: the root and the variables *)
  Definition parse_impl : pres (element * list string) :=
    pbind (element_at parse_budget NO_PRECEDENCE 0) (fun root c =>
      let '(o, c') := next_trim c in
      match o with
      | Some tok => err_unexpected_token tok c'
      | None => POk (root, find_variables root []) c'
      end).
End ParserImpl.

(** [Xprs] — /repo/src/xprs.rs:20-25 *)
Record xprs := mk_xprs {
  root : element;
  vars : list string
}.

(** What [Parser::parse] returns.  [Parse_diverges] would be non-termination;
    C01 shows that it never occurs. *)
Inductive parse_result :=
| Parse_ok (x : xprs)
| Parse_err (e : parse_error)
| Parse_panic (p : panic)
| Parse_diverges.

(** [Parser::parse] — parser.rs:85-106 *)
Definition parse (cfg : config) (w : world) (ctx : context) (input : string) : parse_result :=
  match parse_impl cfg w ctx input with
  | PErr e _ => Parse_err e
  | PPanic p => Parse_panic p
  | PFuel => Parse_diverges
  | POk (root, vars) _ =>
      match get_expected_vars ctx with
      | None => Parse_ok (mk_xprs root vars)
      | Some expected =>
          match set_diff (hash_order w vars) expected with
          | [] => Parse_ok (mk_xprs root vars)
          | unknown_var :: _ =>
              Parse_err (mk_parse_error
                (VariableNotDeclared unknown_var (hash_order w expected))
                0 (N.of_nat (String.length input)) input)
          end
      end
  end.

(** [TryFrom<&str> for Xprs] — xprs.rs:27-36: the default parser *)
Definition try_from (cfg : config) (w : world) (input : string) : parse_result :=
  parse cfg w ctx_default input.
