(** * Specification: the simplification rules and their order

    What simplification does to an expression, as a table of numbered rules of
    which the first that fits is used, from the inside out.  Nothing here
    mentions the functions of the model that simplify. *)
From Coq Require Import ZArith NArith List String Ascii Bool.
From Verif Require Import F64 Syntax Factorial Builtins SpecTree PropertiesEq.
Import ListNotations.
Local Open Scope nat_scope.

(** the literals 0, -0 and 1 *)
Definition zero (e : element) : Prop := e = Number fzero \/ e = Number (fneg fzero).
Definition one (e : element) : Prop := e = Number fone.

(** no variable has a value *)
Definition nothing : string -> option f64 := fun _ => None.

(** [rule nightly w op k l r e]: the [k]-th rule for [l op r] fits and gives
    [e].  The operands are already simplified.  Rules marked [nightly = true]
    are only there with a nightly compiler. *)
Inductive rule (nightly : bool) (w : world) : operator -> nat -> element -> element -> element -> Prop :=
(* 0 + a, a + 0, (-a) + a, a + (-a) *)
| plus_1 : forall l r, zero l -> rule nightly w Plus 1 l r r
| plus_2 : forall l r, zero r -> rule nightly w Plus 2 l r l
| plus_3 : forall a r, nightly = true -> equal_exprs a r -> rule nightly w Plus 3 (UnOp Minus a) r (Number fzero)
| plus_4 : forall l a, nightly = true -> equal_exprs l a -> rule nightly w Plus 4 l (UnOp Minus a) (Number fzero)
(* 0 - a, a - 0, a - a, a - (-b) *)
| minus_1 : forall l r, zero l -> rule nightly w Minus 1 l r (UnOp Minus r)
| minus_2 : forall l r, zero r -> rule nightly w Minus 2 l r l
| minus_3 : forall l r, equal_exprs l r -> rule nightly w Minus 3 l r (Number fzero)
| minus_4 : forall l b, nightly = true -> rule nightly w Minus 4 l (UnOp Minus b) (BinOp Plus l b)
(* 0 * a, a * 0, 1 * a, a * 1, (-a) * (-b) *)
| times_1 : forall l r, zero l -> rule nightly w Times 1 l r (Number fzero)
| times_2 : forall l r, zero r -> rule nightly w Times 2 l r (Number fzero)
| times_3 : forall l r, one l -> rule nightly w Times 3 l r r
| times_4 : forall l r, one r -> rule nightly w Times 4 l r l
| times_5 : forall a b, nightly = true -> rule nightly w Times 5 (UnOp Minus a) (UnOp Minus b) (BinOp Times a b)
(* 0 / 0, 0 / a, a / 0, a / 1, a / a, (-a) / (-b) *)
| divide_1 : forall l r, zero l -> zero r -> rule nightly w Divide 1 l r (Number fnan)
| divide_2 : forall l r, zero l -> rule nightly w Divide 2 l r (Number fzero)
| divide_3 : forall l r, zero r -> rule nightly w Divide 3 l r (Number finf)
| divide_4 : forall l r, one r -> rule nightly w Divide 4 l r l
| divide_5 : forall l r, equal_exprs l r -> rule nightly w Divide 5 l r (Number fone)
| divide_6 : forall a b, nightly = true -> rule nightly w Divide 6 (UnOp Minus a) (UnOp Minus b) (BinOp Divide a b)
(* 0 ^ 0, 0 ^ a, a ^ 1; there is none for a ^ 0 *)
| power_1 : forall l r, zero l -> zero r -> rule nightly w Power 1 l r (Number fone)
| power_2 : forall l r, zero l -> rule nightly w Power 2 l r (Number fzero)
| power_3 : forall l r, one r -> rule nightly w Power 3 l r l
(* 0 % 0, 0 % a, a % 0, a % 1, a % a *)
| modulo_1 : forall l r, zero l -> zero r -> rule nightly w Modulo 1 l r (Number fnan)
| modulo_2 : forall l r, zero l -> rule nightly w Modulo 2 l r (Number fzero)
| modulo_3 : forall l r, zero r -> rule nightly w Modulo 3 l r (Number fnan)
| modulo_4 : forall l r, one r -> rule nightly w Modulo 4 l r (Number fzero)
| modulo_5 : forall l r, equal_exprs l r -> rule nightly w Modulo 5 l r (Number fzero)
(* last: two numbers *)
| numbers : forall op x y v, means w nothing (BinOp op (Number x) (Number y)) v ->
    rule nightly w op 9 (Number x) (Number y) (Number v).

(** the first rule that fits decides; if none fits the operation stays *)
Inductive becomes (nightly : bool) (w : world) (op : operator) (l r : element) : element -> Prop :=
| by_rule : forall k e, rule nightly w op k l r e ->
    (forall k' e', k' < k -> ~ rule nightly w op k' l r e') -> becomes nightly w op l r e
| no_rule : (forall k e, ~ rule nightly w op k l r e) -> becomes nightly w op l r (BinOp op l r).

(** [simplest nightly w e e']: simplifying [e] gives [e'] *)
Inductive simplest (nightly : bool) (w : world) : element -> element -> Prop :=
| SI_number : forall n, simplest nightly w (Number n) (Number n)
| SI_variable : forall x, simplest nightly w (Var x) (Var x)
| SI_operation : forall op l r l' r' e, simplest nightly w l l' -> simplest nightly w r r' ->
    becomes nightly w op l' r' e -> simplest nightly w (BinOp op l r) e
(* +a is a *)
| SI_plus : forall a a', simplest nightly w a a' -> simplest nightly w (UnOp Plus a) a'
(* the sign and the factorial of a number are computed *)
| SI_sign : forall op a n v, op <> Plus -> simplest nightly w a (Number n) ->
    means w nothing (UnOp op (Number n)) v -> simplest nightly w (UnOp op a) (Number v)
| SI_keep : forall op a a', op = Minus \/ op = Factorial -> simplest nightly w a a' -> (forall n, a' <> Number n) ->
    simplest nightly w (UnOp op a) (UnOp op a')
(* a function is called when all its arguments are numbers *)
| SI_call : forall f args vs v, all_simplest nightly w args (map Number vs) ->
    call_function w f vs = Val v -> simplest nightly w (Call f args) (Number v)
| SI_arguments : forall f args args', all_simplest nightly w args args' -> (forall vs, args' <> map Number vs) ->
    simplest nightly w (Call f args) (Call f args')
with all_simplest (nightly : bool) (w : world) : list element -> list element -> Prop :=
| SI_nil : all_simplest nightly w [] []
| SI_cons : forall a a' l l', simplest nightly w a a' -> all_simplest nightly w l l' ->
    all_simplest nightly w (a :: l) (a' :: l').

(** [simplest_for nightly w x v e e']: replacing the variable [x] by [v] in [e]
    and simplifying on the way up gives [e'].  Every level simplifies all that
    is below it again. *)
Inductive simplest_for (nightly : bool) (w : world) (x : string) (v : f64) : element -> element -> Prop :=
| SF_this : simplest_for nightly w x v (Var x) (Number v)
| SF_other : forall y, y <> x -> simplest_for nightly w x v (Var y) (Var y)
| SF_number : forall n, simplest_for nightly w x v (Number n) (Number n)
| SF_operation : forall op l r l' r' e, simplest_for nightly w x v l l' -> simplest_for nightly w x v r r' ->
    simplest nightly w (BinOp op l' r') e -> simplest_for nightly w x v (BinOp op l r) e
| SF_sign : forall op a a' e, simplest_for nightly w x v a a' -> simplest nightly w (UnOp op a') e ->
    simplest_for nightly w x v (UnOp op a) e
| SF_call : forall f args args' e, all_simplest_for nightly w x v args args' ->
    simplest nightly w (Call f args') e -> simplest_for nightly w x v (Call f args) e
with all_simplest_for (nightly : bool) (w : world) (x : string) (v : f64) : list element -> list element -> Prop :=
| SF_nil : all_simplest_for nightly w x v [] []
| SF_cons : forall a a' l l', simplest_for nightly w x v a a' -> all_simplest_for nightly w x v l l' ->
    all_simplest_for nightly w x v (a :: l) (a' :: l').
