(** * Specification: UTF-8

    The well-formed byte sequences of the Unicode standard (table 3-7), and
    what a character's bytes stand for. *)
From Coq Require Import NArith List String Ascii Bool.
Import ListNotations.
Local Open Scope N_scope.

Definition code (c : ascii) : N := N_of_ascii c.
Definition within (c : ascii) (lo hi : N) : Prop := lo <= code c <= hi.

(** [utf8_char bs u]: the bytes [bs] encode the character number [u]. *)
Inductive utf8_char : list ascii -> N -> Prop :=
| U1 : forall a, within a 0 127 -> utf8_char [a] (code a)
| U2 : forall a b, within a 194 223 -> within b 128 191 ->
    utf8_char [a; b] ((code a - 192) * 64 + (code b - 128))
| U3 : forall a b c,
    within a 224 224 /\ within b 160 191 \/ within a 225 236 /\ within b 128 191 \/
    within a 237 237 /\ within b 128 159 \/ within a 238 239 /\ within b 128 191 ->
    within c 128 191 ->
    utf8_char [a; b; c] ((code a - 224) * 4096 + (code b - 128) * 64 + (code c - 128))
| U4 : forall a b c d,
    within a 240 240 /\ within b 144 191 \/ within a 241 243 /\ within b 128 191 \/
    within a 244 244 /\ within b 128 143 ->
    within c 128 191 -> within d 128 191 ->
    utf8_char [a; b; c; d]
      ((code a - 240) * 262144 + (code b - 128) * 4096 + (code c - 128) * 64 + (code d - 128)).

Inductive utf8 : list ascii -> Prop :=
| utf8_nil : utf8 []
| utf8_cons : forall ch u rest, utf8_char ch u -> utf8 rest -> utf8 (ch ++ rest).

(** A Rust [str] *)
Definition is_str (s : string) : Prop := utf8 (list_ascii_of_string s).

(** Position [p] lies between two characters of [s] (or at an end). *)
Definition char_boundary (s : string) (p : nat) : Prop :=
  exists a b, list_ascii_of_string s = (a ++ b)%list /\ List.length a = p /\ utf8 a /\ utf8 b.

(** [u] is the character that begins at position [p] of [s]. *)
Definition char_at (s : string) (p : nat) (u : N) : Prop :=
  exists a ch b, list_ascii_of_string s = (a ++ ch ++ b)%list /\ List.length a = p /\ utf8 a /\ utf8_char ch u /\ utf8 b.
