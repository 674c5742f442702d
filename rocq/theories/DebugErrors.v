(** * Model: Debug texts of errors

    What [Result::unwrap], [expect] and [main] print of an error ([{:?}]), and
    what [dbg!] prints ([{:#?}]).  The implementations are derived
    (/repo/src/parser.rs:451 and 527-529, /repo/src/xprs.rs:365-367 and 732-734); the layout is
    that of [DebugText.v].  Here the texts in quotes are modelled with their
    escapes, as core::str and core::char write them. *)
From Coq Require Import ZArith NArith List String Ascii Bool.
From Verif Require Import F64 Syntax Parser Xprs Display DebugText.
Import ListNotations.
Local Open Scope N_scope.

(** lower-case hexadecimal digits, without leading zeros *)
Definition hex_char (d : N) : ascii := ascii_of_N (if d <? 10 then 48 + d else 87 + d).
Fixpoint hex_from (fuel : nat) (n : N) (acc : list ascii) : list ascii :=
  match fuel with
  | O => acc
  | S fuel' =>
      let acc' := hex_char (n mod 16) :: acc in
      if n <? 16 then acc' else hex_from fuel' (n / 16) acc'
  end.
Definition hex_of (n : N) : list ascii := hex_from (S (N.size_nat n)) n [].

Section Escape.
  (** which characters are written as they are: [is_printable] and not
      [is_grapheme_extended] of core::unicode.  The tables of the standard library
      are not modelled; theorems say what they need of them. *)
  Variable shown : N -> bool.

  (** [char::escape_debug_ext] (core::char::methods); [bytes] is the character in
      UTF-8, [u] its number, [q] the quote that has to be escaped *)
  Definition escape_char (q : ascii) (u : N) (bytes : list ascii) : list ascii :=
    if u =? 0 then ["\"; "0"]%char
    else if u =? 9 then ["\"; "t"]%char
    else if u =? 13 then ["\"; "r"]%char
    else if u =? 10 then ["\"; "n"]%char
    else if u =? N_of_ascii "\" then ["\"; "\"]%char
    else if u =? N_of_ascii q then ["\"%char; q]
    else if shown u then bytes
    else ("\"%char :: "u"%char :: "{"%char :: hex_of u ++ ["}"%char])%list.

  (** the loop over [char_indices] of [Debug for str] (core::fmt): the next
      character of UTF-8 bytes *)
  Fixpoint escape_bytes (q : ascii) (l : list ascii) : list ascii :=
    match l with
    | [] => []
    | a :: l1 =>
        let n := N_of_ascii a in
        if n <? 128 then (escape_char q n [a] ++ escape_bytes q l1)%list
        else match l1 with
        | [] => []
        | b :: l2 =>
            let m := N_of_ascii b - 128 in
            if n <? 224 then (escape_char q ((n - 192) * 64 + m) [a; b] ++ escape_bytes q l2)%list
            else match l2 with
            | [] => []
            | c :: l3 =>
                let k := N_of_ascii c - 128 in
                if n <? 240 then (escape_char q ((n - 224) * 4096 + m * 64 + k) [a; b; c] ++ escape_bytes q l3)%list
                else match l3 with
                | [] => []
                | d :: l4 =>
                    (escape_char q ((n - 240) * 262144 + m * 4096 + k * 64 + (N_of_ascii d - 128)) [a; b; c; d] ++ escape_bytes q l4)%list
                end
            end
        end
    end.

  (** [Debug for str] (and [String]) *)
  Definition debug_str (s : string) : string :=
    string_of_list_ascii (""""%char :: escape_bytes """" (list_ascii_of_string s) ++ [""""%char])%list.
  (** [Debug for char], of a byte cast with [as char] *)
  Definition debug_char (c : ascii) : string :=
    string_of_list_ascii ("'"%char :: escape_bytes "'" (list_ascii_of_string (display_char c)) ++ ["'"%char])%list.

  (** derived [Debug for ErrorKind] — /repo/src/parser.rs:527-559 *)
  Definition debug_error_kind (k : error_kind) : dbg :=
    match k with
    | UnexpectedEndOfExpression => D_word "UnexpectedEndOfExpression"
    | UnexpectedToken c => D_tuple "UnexpectedToken" [D_word (debug_char c)]
    | MalformedNumber s => D_tuple "MalformedNumber" [D_word (debug_str s)]
    | IllegalCharacter c => D_tuple "IllegalCharacter" [D_word (debug_char c)]
    | ExpectedToken c => D_tuple "ExpectedToken" [D_word (debug_char c)]
    | VariableNotDeclared v l => D_tuple "VariableNotDeclared" [D_word (debug_str v); D_list (map (fun x => D_word (debug_str x)) l)]
    | TooFewArguments e g => D_tuple "TooFewArguments" [D_word (display_nat e); D_word (display_nat g)]
    | TooManyArguments e g => D_tuple "TooManyArguments" [D_word (display_nat e); D_word (display_nat g)]
    | MissingArgument => D_word "MissingArgument"
    end.
  (** derived [Debug for SourceSpan] and [SourceOffset] (miette::protocol) *)
  Definition debug_span (offset length : N) : dbg :=
    D_struct "SourceSpan"
      [("offset"%string, D_tuple "SourceOffset" [D_word (string_of_list_ascii (digits_of offset))]);
       ("length"%string, D_word (string_of_list_ascii (digits_of length)))].
  (** derived [Debug for ParseError] — /repo/src/parser.rs:451-460 *)
  Definition debug_parse_error (e : parse_error) : dbg :=
    D_struct "ParseError"
      [("kind"%string, debug_error_kind (pe_kind e)); ("span"%string, debug_span (pe_offset e) (pe_length e));
       ("src"%string, D_word (debug_str (pe_src e)))].
  (** derived [Debug for EvalError] — /repo/src/xprs.rs:365-369 *)
  Definition debug_eval_error (name : string) : dbg := D_tuple "EvalError" [D_word (debug_str name)].
  (** derived [Debug for BindError] — /repo/src/xprs.rs:732-741 *)
  Definition debug_bind_error (e : bind_error) : dbg :=
    match e with
    | OneVariable s => D_tuple "OneVariable" [D_word (debug_str s)]
    | MultipleVariables s => D_tuple "MultipleVariables" [D_word (debug_str s)]
    end.
End Escape.
