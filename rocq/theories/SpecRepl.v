(** * Specification: what the REPL reads *)
From Coq Require Import ZArith NArith List String Ascii Bool Reals.
From Verif Require Import F64 Syntax SpecUtf8 SpecNumber.
Import ListNotations.
Local Open Scope list_scope.

(** The characters with the Unicode property White_Space. *)
Definition is_white (u : N) : Prop :=
  (9 <= u <= 13 \/ u = 32 \/ u = 133 \/ u = 160 \/ u = 5760 \/ 8192 <= u <= 8202 \/
   u = 8232 \/ u = 8233 \/ u = 8239 \/ u = 8287 \/ u = 12288)%N.

(** A text of such characters only. *)
Inductive blanks : list ascii -> Prop :=
| B_nil : blanks []
| B_cons : forall ch u rest, utf8_char ch u -> is_white u -> blanks rest -> blanks (ch ++ rest).

(** [surrounded line text]: the line is the text with blanks around it. *)
Definition surrounded (line : string) (text : list ascii) : Prop :=
  exists p q, blanks p /\ blanks q /\ list_ascii_of_string line = p ++ text ++ q.

(** [spells word l]: the letters of a word in any case. *)
Definition same_letter (a c : ascii) : Prop :=
  a = c \/ (N_of_ascii a + 32 = N_of_ascii c /\ 65 <= N_of_ascii a <= 90)%N.
Definition spells (word : string) (l : list ascii) : Prop := Forall2 same_letter l (list_ascii_of_string word).

(** Numbers as Rust reads them: a decimal, or infinity or NaN by name, perhaps
    with a sign. *)
Inductive unsigned_number : list ascii -> f64 -> Prop :=
| UN_decimal : forall a b m k x v, mantissa a m k -> exponent b x ->
    correctly_rounded (IZR m * powerRZ 10 (x - Z.of_nat k)) v -> unsigned_number (a ++ b) v
| UN_inf : forall l, spells "inf" l \/ spells "infinity" l -> unsigned_number l finf
| UN_nan : forall l, spells "nan" l -> unsigned_number l fnan.
Inductive number_text : list ascii -> f64 -> Prop :=
| NT_bare : forall l v, unsigned_number l v -> number_text l v
| NT_plus : forall l v, unsigned_number l v -> number_text ("+"%char :: l) v
| NT_minus : forall l v, unsigned_number l v -> number_text ("-"%char :: l) (fneg v).

(** A line that answers with a number. *)
Definition answers_with (line : string) (v : f64) : Prop := exists text, number_text text v /\ surrounded line text.
(** A line that ends the session. *)
Definition says_exit (line : string) : Prop := surrounded line (list_ascii_of_string "exit").
