(** * Specification: words that read the same (C94) *)
From Coq Require Import NArith List String Ascii Bool Reals.
From Verif Require Import F64 Syntax Builtins Context Parser SpecChars SpecTokens SpecGrammar SpecNumber SpecScan.
Import ListNotations.
Local Open Scope string_scope.

Definition begins_with (class : ascii -> bool) (s : string) : bool :=
  match s with String c _ => class c | "" => false end.

(** Two names of the same thing, both or neither of which may follow an operand
    without an operator; or two decimal texts of the same real number, both or
    neither of which begin with a digit; or the same word. *)
Inductive reads_the_same (ctx ctx' : context) : token -> token -> Prop :=
| Same_symbol : forall c, reads_the_same ctx ctx' (TSym c) (TSym c)
| Same_number : forall s, reads_the_same ctx ctx' (TNum s) (TNum s)
| Same_value : forall s s' d, decimal s d -> decimal s' d -> begins_with a_digit s = begins_with a_digit s' ->
    reads_the_same ctx ctx' (TNum s) (TNum s')
| Same_meaning : forall x y, stands_for ctx x = stands_for ctx' y -> begins_with a_small x = begins_with a_small y ->
    reads_the_same ctx ctx' (TId x) (TId y).

(** The same error at the same words: [f] and [f'] are what is left of the texts
    [a] and [b] where the error begins, [u] and [u'] where reading stopped.  Only
    an unexpected token is shown as it was written. *)
Definition same_failure (ctx ctx' : context) (a b : string) (e e' : parse_error) : Prop :=
  (exists v l, pe_kind e = VariableNotDeclared v l /\ pe_kind e' = VariableNotDeclared v l) \/
  exists k k' f u f' u',
    error_matches a e k f u /\ error_matches b e' k' f' u' /\
    Forall2 (reads_the_same ctx ctx') f f' /\ Forall2 (reads_the_same ctx ctx') u u' /\
    (k = k' \/ exists c c', k = UnexpectedToken c /\ k' = UnexpectedToken c').
