(** * Specification: how a text divides into tokens

    Nothing here mentions the parser's functions. *)
From Coq Require Import ZArith NArith List String Ascii Bool.
From Verif Require Import F64 Syntax Builtins Context Parser SpecChars.
Import ListNotations.
Local Open Scope nat_scope.

(** A number literal, a name, or a single other byte. *)
Inductive token :=
| TNum (text : string)
| TId (name : string)
| TSym (c : ascii).

Definition head_is (p : ascii -> bool) (l : list ascii) : Prop :=
  match l with c :: _ => p c = true | [] => False end.

(** A text continues a mantissa as an exponent when an e or E is followed by a
    digit, or by a sign and a digit. *)
Definition exponent_follows (l : list ascii) : Prop :=
  match l with
  | e :: d :: l' =>
      exponent_mark e = true /\
      (a_digit d = true \/ (a_sign d = true /\ head_is a_digit l'))
  | _ => False
  end.

(** [number_token text rest]: reading a number from [text ++ rest] stops after
    [text]. *)
Inductive number_token : list ascii -> list ascii -> Prop :=
| NT_plain : forall m rest,
    head_is (fun c => a_digit c || Ascii.eqb c ".") m ->
    Forall (fun c => in_mantissa c = true) m ->
    ~ head_is in_mantissa rest -> ~ exponent_follows rest ->
    number_token m rest
| NT_exp : forall m e ds rest,
    head_is (fun c => a_digit c || Ascii.eqb c ".") m ->
    Forall (fun c => in_mantissa c = true) m ->
    exponent_mark e = true ->
    ds <> [] -> Forall (fun c => a_digit c = true) ds -> ~ head_is a_digit rest ->
    number_token (m ++ e :: ds) rest
| NT_signed_exp : forall m e s ds rest,
    head_is (fun c => a_digit c || Ascii.eqb c ".") m ->
    Forall (fun c => in_mantissa c = true) m ->
    exponent_mark e = true -> a_sign s = true ->
    ds <> [] -> Forall (fun c => a_digit c = true) ds -> ~ head_is a_digit rest ->
    number_token (m ++ e :: s :: ds) rest.

(** [name_token text rest]: likewise for a name. *)
Definition name_token (text rest : list ascii) : Prop :=
  head_is a_letter text /\ Forall (fun c => in_name c = true) text /\
  ~ head_is in_name rest.

(** [lexes text tokens] *)
Inductive lexes : list ascii -> list token -> Prop :=
| L_end : lexes [] []
| L_ws : forall c s ts, a_blank c = true -> lexes s ts -> lexes (c :: s) ts
| L_num : forall m s ts, number_token m s -> lexes s ts ->
    lexes (m ++ s) (TNum (string_of_list_ascii m) :: ts)
| L_name : forall m s ts, name_token m s -> lexes s ts ->
    lexes (m ++ s) (TId (string_of_list_ascii m) :: ts)
| L_sym : forall c s ts,
    a_blank c = false -> a_digit c = false -> Ascii.eqb c "." = false -> a_letter c = false ->
    lexes s ts -> lexes (c :: s) (TSym c :: ts).

(** The tokens of an input string. *)
Definition tokens_of (input : string) (ts : list token) : Prop :=
  lexes (list_ascii_of_string input) ts.

(** The first byte of a token. *)
Definition token_byte (t : token) : ascii :=
  match t with
  | TNum s | TId s => match s with String c _ => c | EmptyString => zero end
  | TSym c => c
  end.
