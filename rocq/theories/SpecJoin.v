(** * Specification: joining two texts with an operator *)
From Coq Require Import List String Ascii Bool.
From Verif Require Import F64 Syntax Context Display SpecTokens SpecGrammar SpecBrackets.
Import ListNotations.
Local Open Scope string_scope.

(** The two texts with the operator's sign between them, and a space on each
    side of it. *)
Definition joined (op : operator) (a b : string) : string := a ++ " " ++ display_operator op ++ " " ++ b.

(** Each text in brackets of its own. *)
Definition joined_in_brackets (op : operator) (a b : string) : string := joined op ("(" ++ a ++ ")") ("(" ++ b ++ ")").

(** Brackets only where [bracket_left] and [bracket_right] (SpecBrackets.v) ask
    for them; [l] and [r] are what the two texts are read as. *)
Definition joined_lean (op : operator) (a : string) (l : element) (b : string) (r : element) : string :=
  joined op (bracket (bracket_left op l) a) (bracket (bracket_right op r) b).

(** A list of texts with the same operator's sign between each and the next. *)
Definition joined_all (op : operator) (texts : list string) : string :=
  String.concat (" " ++ display_operator op ++ " ") texts.

(** A function applied to texts. *)
Definition applied (name : string) (texts : list string) : string := name ++ "(" ++ String.concat ", " texts ++ ")".
