(** * Specification: text and character literals of the Rust language

    As in the Rust reference ("String literals", "Character literals"), without
    what Debug output never contains: line continuations, [\x..] escapes,
    underscores in [\u{..}] and raw control characters. *)
From Coq Require Import NArith List String Ascii Bool.
From Verif Require Import SpecUtf8.
Import ListNotations.
Local Open Scope N_scope.

(** a backslash and one more character *)
Definition simple_escape (c : ascii) : option ascii :=
  if Ascii.eqb c "0" then Some (ascii_of_N 0)
  else if Ascii.eqb c "t" then Some (ascii_of_N 9)
  else if Ascii.eqb c "n" then Some (ascii_of_N 10)
  else if Ascii.eqb c "r" then Some (ascii_of_N 13)
  else if Ascii.eqb c "\" then Some "\"%char
  else if Ascii.eqb c "'" then Some "'"%char
  else if Ascii.eqb c """" then Some """"%char
  else None.

(** hexadecimal digits, as Unicode escapes have them *)
Definition hex_value (c : ascii) : option N :=
  let n := code c in
  if (48 <=? n) && (n <=? 57) then Some (n - 48)
  else if (97 <=? n) && (n <=? 102) then Some (n - 87)
  else if (65 <=? n) && (n <=? 70) then Some (n - 55)
  else None.
Inductive hex_number : list ascii -> N -> Prop :=
| hex_nil : hex_number [] 0
| hex_snoc : forall l n c d, hex_number l n -> hex_value c = Some d -> hex_number (l ++ [c]) (16 * n + d).

(** [denotes q l v]: the text [l], which follows an opening quote [q] and ends with
    the closing one, stands for the bytes [v]. *)
Inductive denotes (q : ascii) : list ascii -> list ascii -> Prop :=
| DN_close : denotes q [q] []
| DN_itself : forall ch u l v, utf8_char ch u -> 32 <= u -> u <> code "\" -> u <> code q ->
    denotes q l v -> denotes q (ch ++ l) (ch ++ v)
| DN_simple : forall c b l v, simple_escape c = Some b ->
    denotes q l v -> denotes q ("\"%char :: c :: l) (b :: v)
| DN_unicode : forall h u ch l v, h <> [] -> hex_number h u -> utf8_char ch u ->
    denotes q l v -> denotes q ("\"%char :: "u"%char :: "{"%char :: h ++ "}"%char :: l) (ch ++ v).

Definition quote : ascii := """"%char.
Definition tick : ascii := "'"%char.

(** [text] is a literal for the text [s] *)
Definition str_literal (text s : string) : Prop :=
  exists l, list_ascii_of_string text = quote :: l /\ denotes quote l (list_ascii_of_string s).
(** [text] is a literal for character number [u] *)
Definition char_literal (text : string) (u : N) : Prop :=
  exists l ch, list_ascii_of_string text = tick :: l /\ utf8_char ch u /\ denotes tick l ch.
