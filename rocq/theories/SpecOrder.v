(** * Specification: total orders and sorted lists *)
From Coq Require Import NArith List String Ascii Sorting.Sorted.
From Verif Require Import F64 Syntax Parser Xprs.
Import ListNotations.
Local Open Scope string_scope.

(** what the documentation of [Ord] asks for *)
Record total_order {A} (cmp : A -> A -> comparison) : Prop := {
  to_eq : forall a b, cmp a b = Eq <-> a = b;
  to_rev : forall a b, cmp b a = CompOpp (cmp a b);
  to_trans : forall a b c, cmp a b = Lt -> cmp b c = Lt -> cmp a c = Lt
}.

(** dictionary order of texts by their bytes *)
Definition before (s t : string) : Prop :=
  (exists c r, t = s ++ String c r) \/
  (exists p c d s' t', s = p ++ String c s' /\ t = p ++ String d t' /\ (N_of_ascii c < N_of_ascii d)%N).

(** sorted for an order: no element is greater than a later one *)
Definition sorted {A} (cmp : A -> A -> comparison) (l : list A) : Prop := StronglySorted (fun a b => cmp a b <> Gt) l.

(** ** The order of errors and operators that their documentation shows *)
(** [a] stands before [b] in the list *)
Definition listed_before (a b : string) (l : list string) : Prop := exists p q r, l = (p ++ a :: q ++ b :: r)%list.

Definition kind_name (k : error_kind) : string :=
  match k with
  | UnexpectedEndOfExpression => "UnexpectedEndOfExpression"
  | UnexpectedToken _ => "UnexpectedToken"
  | MalformedNumber _ => "MalformedNumber"
  | IllegalCharacter _ => "IllegalCharacter"
  | ExpectedToken _ => "ExpectedToken"
  | VariableNotDeclared _ _ => "VariableNotDeclared"
  | TooFewArguments _ _ => "TooFewArguments"
  | TooManyArguments _ _ => "TooManyArguments"
  | MissingArgument => "MissingArgument"
  end.
Definition documented_kinds : list string :=
  ["UnexpectedEndOfExpression"; "UnexpectedToken"; "MalformedNumber"; "IllegalCharacter"; "ExpectedToken";
   "VariableNotDeclared"; "TooFewArguments"; "TooManyArguments"; "MissingArgument"].
Definition operator_name (o : operator) : string :=
  match o with
  | Plus => "Plus" | Minus => "Minus" | Times => "Times" | Divide => "Divide"
  | Power => "Power" | Modulo => "Modulo" | Factorial => "Factorial"
  end.
Definition documented_operators : list string := ["Plus"; "Minus"; "Times"; "Divide"; "Power"; "Modulo"; "Factorial"].

(** lists of texts: the first difference decides, a beginning comes first *)
Inductive names_before : list string -> list string -> Prop :=
| NB_shorter : forall b m, names_before [] (b :: m)
| NB_here : forall a b l m, before a b -> names_before (a :: l) (b :: m)
| NB_later : forall a l m, names_before l m -> names_before (a :: l) (a :: m).

Inductive kind_before : error_kind -> error_kind -> Prop :=
| KB_kind : forall a b, listed_before (kind_name a) (kind_name b) documented_kinds -> kind_before a b
| KB_token : forall c d, (N_of_ascii c < N_of_ascii d)%N -> kind_before (UnexpectedToken c) (UnexpectedToken d)
| KB_number : forall s t, before s t -> kind_before (MalformedNumber s) (MalformedNumber t)
| KB_character : forall c d, (N_of_ascii c < N_of_ascii d)%N -> kind_before (IllegalCharacter c) (IllegalCharacter d)
| KB_expected : forall c d, (N_of_ascii c < N_of_ascii d)%N -> kind_before (ExpectedToken c) (ExpectedToken d)
| KB_variable : forall x y l m, before x y -> kind_before (VariableNotDeclared x l) (VariableNotDeclared y m)
| KB_available : forall x l m, names_before l m -> kind_before (VariableNotDeclared x l) (VariableNotDeclared x m)
| KB_few : forall e e' g g', e < e' -> kind_before (TooFewArguments e g) (TooFewArguments e' g')
| KB_few_got : forall e g g', g < g' -> kind_before (TooFewArguments e g) (TooFewArguments e g')
| KB_many : forall e e' g g', e < e' -> kind_before (TooManyArguments e g) (TooManyArguments e' g')
| KB_many_got : forall e g g', g < g' -> kind_before (TooManyArguments e g) (TooManyArguments e g').

Inductive bind_before : bind_error -> bind_error -> Prop :=
| BB_kind : forall s t, bind_before (OneVariable s) (MultipleVariables t)
| BB_one : forall s t, before s t -> bind_before (OneVariable s) (OneVariable t)
| BB_multiple : forall s t, before s t -> bind_before (MultipleVariables s) (MultipleVariables t).
