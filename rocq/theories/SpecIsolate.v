(** * Specification: text put between brackets *)
From Coq Require Import ZArith List String Ascii Bool.
From Verif Require Import F64 Syntax.
Import ListNotations.
Local Open Scope string_scope.

(** Opening minus closing brackets. *)
Definition bracket_level (text : string) : Z :=
  (Z.of_nat (count_occ ascii_dec (list_ascii_of_string text) "("%char) -
   Z.of_nat (count_occ ascii_dec (list_ascii_of_string text) ")"%char))%Z.

(** Every closing bracket has an opening one before it, and none stays open. *)
Definition balanced (text : string) : Prop :=
  bracket_level text = 0%Z /\ forall u v, text = u ++ v -> (0 <= bracket_level u)%Z.

(** No comma outside the text's own brackets. *)
Definition no_outer_comma (text : string) : Prop :=
  forall u v, text = u ++ "," ++ v -> bracket_level u <> 0%Z.

(** The text in brackets, inside a larger text. *)
Definition placed (before text after : string) : string := before ++ "(" ++ text ++ ")" ++ after.

(** [exchanged e e' t t']: [t'] is [t] with [e'] in the place of [e], at one place. *)
Inductive exchanged (e e' : element) : element -> element -> Prop :=
| X_here : exchanged e e' e e'
| X_binl : forall op l l' r, exchanged e e' l l' -> exchanged e e' (BinOp op l r) (BinOp op l' r)
| X_binr : forall op l r r', exchanged e e' r r' -> exchanged e e' (BinOp op l r) (BinOp op l r')
| X_un : forall op a a', exchanged e e' a a' -> exchanged e e' (UnOp op a) (UnOp op a')
| X_arg : forall f before a a' after, exchanged e e' a a' ->
    exchanged e e' (Call f (before ++ a :: after)) (Call f (before ++ a' :: after)).
