(** * Specification: what a dump of a context says *)
From Coq Require Import ZArith NArith List String Ascii Bool Permutation.
From Verif Require Import F64 Syntax Context SpecUtf8 SpecLiteral DebugText.
Import ListNotations.
Local Open Scope string_scope.

(** Names are [&str]: UTF-8. *)
Definition symbol_in_utf8 (s : symbol) : Prop :=
  match s with S_Variable _ => True | S_Function f => is_str (fn_name f) end.
Definition in_utf8 (c : context) : Prop :=
  Forall (fun ks => is_str (fst ks) /\ symbol_in_utf8 (snd ks)) (ctx_symbols c) /\
  (forall s, ctx_expected c = Some s -> Forall is_str s).

Definition closure (f : function) : bool := match fn_ptr f with Dyn_user _ => true | _ => false end.

(** What two contexts can have in common under one name, as far as it is shown:
    nothing known, the same number (NaN and the sign of zero included), or
    functions with the same name, number of arguments and kind of pointer. *)
Inductive shown_alike : option symbol -> option symbol -> Prop :=
| SA_unknown : shown_alike None None
| SA_variable : forall v, shown_alike (Some (S_Variable v)) (Some (S_Variable v))
| SA_function : forall f g, fn_name f = fn_name g -> fn_nb_args f = fn_nb_args g -> closure f = closure g ->
    shown_alike (Some (S_Function f)) (Some (S_Function g)).

(** The text of one symbol. *)
Inductive symbol_text : symbol -> string -> Prop :=
| ST_variable : forall v, symbol_text (S_Variable v) ("Variable(" ++ debug_f64 v ++ ")")
| ST_function : forall f name func nb_args,
    str_literal name (fn_name f) ->
    func = (if closure f then "Dyn" else "Static") ->
    nb_args = match fn_nb_args f with None => "None" | Some n => "Some(" ++ Display.display_nat n ++ ")" end ->
    symbol_text (S_Function f) ("Function(Function { name: " ++ name ++ ", func: " ++ func ++ ", nb_args: " ++ nb_args ++ " })").
(** The text of one entry. *)
Inductive entry_text : string * symbol -> string -> Prop :=
| ENT : forall k s name t, str_literal name k -> symbol_text s t -> entry_text (k, s) (name ++ ": " ++ t).
(** The text of the expected variables. *)
Inductive expected_text : option (list string) -> string -> Prop :=
| EXT_none : expected_text None "None"
| EXT_some : forall s s' l, Permutation s s' -> Forall2 (fun x t => str_literal t x) s' l ->
    expected_text (Some s) ("Some({" ++ String.concat ", " l ++ "})").
(** The text of a context on one line. *)
Inductive context_text : context -> string -> Prop :=
| CT : forall c entries l e, Permutation (ctx_symbols c) entries -> Forall2 entry_text entries l -> expected_text (ctx_expected c) e ->
    context_text c ("Context { symbols: {" ++ String.concat ", " l ++ "}, expected_vars: " ++ e ++ " }").
