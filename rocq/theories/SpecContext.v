(** * Specification: when two contexts are the same, when two outcomes agree *)
From Coq Require Import ZArith NArith List String Ascii Bool Permutation.
From Flocq Require Import BinarySingleNaN.
From Verif Require Import F64 Syntax Builtins Context Parser.
Import ListNotations.

(** What a [HashMap] and a [HashSet] are: no key twice. *)
Definition proper (c : context) : Prop :=
  NoDup (map fst (ctx_symbols c)) /\ (forall s, ctx_expected c = Some s -> NoDup s).

(** The same numbers as IEEE compares them: identical and not NaN, or both
    zeros (of any sign). *)
Definition equal_numbers (x y : f64) : Prop :=
  (x = y /\ is_nan x = false) \/ (exists s t, x = B754_zero s /\ y = B754_zero t).

(** One name in two contexts: unknown in both, constants with equal numbers, or
    the very same function. *)
Inductive same_symbol : option symbol -> option symbol -> Prop :=
| SY_none : same_symbol None None
| SY_var : forall x y, equal_numbers x y -> same_symbol (Some (S_Variable x)) (Some (S_Variable y))
| SY_fn : forall f, same_symbol (Some (S_Function f)) (Some (S_Function f)).

(** The same expected variables, or none expected in both. *)
Definition same_expected (a b : option (list string)) : Prop :=
  match a, b with
  | None, None => True
  | Some s, Some t => forall x, In x s <-> In x t
  | _, _ => False
  end.

(** The same program in the same environment, except that hash sets are
    iterated in another order (std seeds every [HashSet] anew). *)
Definition with_order (w : world) (h : list string -> list string) : world :=
  {| l_sin := l_sin w; l_sinh := l_sinh w; l_asin := l_asin w; l_asinh := l_asinh w;
     l_cos := l_cos w; l_cosh := l_cosh w; l_acos := l_acos w; l_acosh := l_acosh w;
     l_tan := l_tan w; l_tanh := l_tanh w; l_atan := l_atan w; l_atanh := l_atanh w;
     l_atan2 := l_atan2 w; l_ln := l_ln w; l_log10 := l_log10 w; l_cbrt := l_cbrt w;
     l_exp := l_exp w; l_hypot := l_hypot w; l_powf := l_powf w; l_tgamma := l_tgamma w;
     sum_neg_zero := sum_neg_zero w; minmax_second := minmax_second w;
     hash_order := h;
     user_fn := user_fn w |}.

(** Trees without NaN that differ at most in the sign of zeros. *)
Inductive equal_trees : element -> element -> Prop :=
| ET_number : forall x y, equal_numbers x y -> equal_trees (Number x) (Number y)
| ET_var : forall v, equal_trees (Var v) (Var v)
| ET_un : forall op a b, equal_trees a b -> equal_trees (UnOp op a) (UnOp op b)
| ET_bin : forall op l r l' r', equal_trees l l' -> equal_trees r r' ->
    equal_trees (BinOp op l r) (BinOp op l' r')
| ET_call : forall f args args', Forall2 equal_trees args args' -> equal_trees (Call f args) (Call f args').

(** Two parse errors that say the same: the same kind with the same details at
    the same place of the same text.  An undeclared variable is reported with
    all declared ones; which one of several undeclared ones is named is not
    fixed. *)
Inductive same_report (expected : option (list string)) : parse_error -> parse_error -> Prop :=
| SR_same : forall e, same_report expected e e
| SR_undeclared : forall declared v v' l l' n src,
    expected = Some declared -> ~ In v declared -> ~ In v' declared ->
    (forall x, In x l <-> In x declared) -> (forall x, In x l' <-> In x declared) ->
    same_report expected
      (mk_parse_error (VariableNotDeclared v l) 0 n src) (mk_parse_error (VariableNotDeclared v' l') 0 n src).

(** Two outcomes of parsing with the expected variables [expected] that agree
    up to [R] on trees. *)
Inductive same_outcome (expected : option (list string)) (R : element -> element -> Prop)
  : parse_result -> parse_result -> Prop :=
| SO_ok : forall r r' vs, R r r' ->
    same_outcome expected R (Parse_ok (mk_xprs r vs)) (Parse_ok (mk_xprs r' vs))
| SO_err : forall e e', same_report expected e e' -> same_outcome expected R (Parse_err e) (Parse_err e')
| SO_panic : forall p, same_outcome expected R (Parse_panic p) (Parse_panic p).
