(** * Specification: what a result can depend on besides the text (C88)

    A [world] (Syntax.v) collects what the library calls but does not define:
    the machine's mathematical library, two choices of the standard library,
    the order of hash sets and the functions of the user. *)
From Coq Require Import NArith List String Ascii Bool Permutation.
From Verif Require Import F64 Syntax Factorial Builtins Context Element Parser SpecTokens SpecGrammar.
Import ListNotations.
Local Open Scope string_scope.

(** Built-in functions that are the same everywhere: they are exact, or
    correctly rounded by IEEE 754. *)
Definition exact_names : list string :=
  ["sqrt"; "abs"; "floor"; "ceil"; "round"; "trunc"; "fract"; "recip"; "invert"; "factorial"].
(** Built-in functions for which the standard library leaves the sign of a zero
    open. *)
Definition std_names : list string := ["min"; "max"; "sum"; "mean"].

(** The same program on two machines: the same standard library and the same
    functions of the user.  The mathematical library and the order of hash sets
    may differ. *)
Definition same_program (w w' : world) : Prop :=
  sum_neg_zero w = sum_neg_zero w' /\ minmax_second w = minmax_second w' /\
  forall id args, user_fn w id args = user_fn w' id args.

(** A function whose value does not depend on the machine; with [prog] also
    those that depend on the program. *)
Definition portable_function (prog : bool) (f : function) : Prop :=
  (exists name, In name exact_names /\ identifier_from_str name = I_Function f) \/
  prog = true /\
    ((exists name, In name std_names /\ identifier_from_str name = I_Function f) \/
     (exists id, fn_ptr f = Static_user id \/ fn_ptr f = Dyn_user id)).

(** No '^' and no function of the mathematical library. *)
Inductive portable (prog : bool) : element -> Prop :=
| Portable_number : forall n, portable prog (Number n)
| Portable_variable : forall x, portable prog (Var x)
| Portable_binary : forall op l r, op <> Power -> portable prog l -> portable prog r -> portable prog (BinOp op l r)
| Portable_unary : forall op a, portable prog a -> portable prog (UnOp op a)
| Portable_call : forall f args, portable_function prog f -> Forall (portable prog) args -> portable prog (Call f args).

(** The same, of the tokens of a text. *)
Definition portable_token (prog : bool) (ctx : context) (t : token) : Prop :=
  match t with
  | TNum _ => True
  | TSym c => c <> "^"%char
  | TId name => forall f, stands_for ctx name = I_Function f -> portable_function prog f
  end.
Definition portable_tokens (prog : bool) (ctx : context) (ts : list token) : Prop :=
  Forall (portable_token prog ctx) ts.

(** The same answer of the parser; or both times the error that a variable is
    not declared, naming perhaps another of the undeclared variables, and
    listing the expected ones perhaps in another order. *)
Definition same_reply (r r' : parse_result) : Prop :=
  r = r' \/
  exists v v' l l' len input, Permutation l l' /\
    r = Parse_err (mk_parse_error (VariableNotDeclared v l) 0%N len input) /\
    r' = Parse_err (mk_parse_error (VariableNotDeclared v' l') 0%N len input).
