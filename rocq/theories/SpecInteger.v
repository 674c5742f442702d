(** * Specification: integer expressions

    [int_value rho e z]: with the integers [rho] for the variables, the
    expression [e] has the value [z] in ordinary integer arithmetic, and no
    number on the way exceeds 2^53 in absolute value. *)
From Coq Require Import ZArith List String Arith Reals.
From Flocq Require Import BinarySingleNaN.
From Verif Require Import F64 Syntax Builtins.
Import ListNotations.
Local Open Scope Z_scope.

Definition small (z : Z) : Prop := Z.abs z <= 2 ^ 53.

(** the f64 [v] is the integer [z] *)
Definition is_int (v : f64) (z : Z) : Prop := is_finite v = true /\ B2R v = IZR z.

Definition total (a : Z) (l : list Z) : Z := fold_left Z.add l a.

(** the built-in functions with integer results *)
Inductive int_call : builtin -> list Z -> Z -> Prop :=
| IC_abs : forall a, int_call B_ABS [a] (Z.abs a)
| IC_floor : forall a, int_call B_FLOOR [a] a
| IC_ceil : forall a, int_call B_CEIL [a] a
| IC_round : forall a, int_call B_ROUND [a] a
| IC_trunc : forall a, int_call B_TRUNC [a] a
| IC_fract : forall a, int_call B_FRACT [a] 0
| IC_sqrt : forall a, 0 <= a -> int_call B_SQRT [a * a] a
| IC_factorial : forall n, small (Z.of_nat (fact n)) -> int_call B_FACTORIAL [Z.of_nat n] (Z.of_nat (fact n))
| IC_min : forall a l, int_call B_MIN (a :: l) (fold_left Z.min l a)
| IC_max : forall a l, int_call B_MAX (a :: l) (fold_left Z.max l a)
| IC_sum : forall a l, (forall k, small (total a (firstn k l))) -> int_call B_SUM (a :: l) (total a l)
| IC_mean : forall a l q, (forall k, small (total a (firstn k l))) ->
    total a l = q * Z.of_nat (List.length (a :: l)) -> small (Z.of_nat (List.length (a :: l))) ->
    int_call B_MEAN (a :: l) q.

Inductive int_value (rho : string -> option Z) : element -> Z -> Prop :=
| IV_number : forall n z, is_int n z -> small z -> int_value rho (Number n) z
| IV_var : forall x z, rho x = Some z -> small z -> int_value rho (Var x) z
| IV_plus : forall l r a b, int_value rho l a -> int_value rho r b -> small (a + b) ->
    int_value rho (BinOp Plus l r) (a + b)
| IV_minus : forall l r a b, int_value rho l a -> int_value rho r b -> small (a - b) ->
    int_value rho (BinOp Minus l r) (a - b)
| IV_times : forall l r a b, int_value rho l a -> int_value rho r b -> small (a * b) ->
    int_value rho (BinOp Times l r) (a * b)
| IV_divide : forall l r q b, int_value rho l (q * b) -> int_value rho r b -> b <> 0 ->
    int_value rho (BinOp Divide l r) q
| IV_modulo : forall l r a b, int_value rho l a -> int_value rho r b -> b <> 0 ->
    int_value rho (BinOp Modulo l r) (Z.rem a b)
| IV_positive : forall e a, int_value rho e a -> int_value rho (UnOp Plus e) a
| IV_negative : forall e a, int_value rho e a -> int_value rho (UnOp Minus e) (- a)
| IV_factorial : forall e n, int_value rho e (Z.of_nat n) -> small (Z.of_nat (fact n)) ->
    int_value rho (UnOp Factorial e) (Z.of_nat (fact n))
| IV_call : forall b args zs z, int_values rho args zs -> int_call b zs z ->
    int_value rho (Call (builtin_function b) args) z
with int_values (rho : string -> option Z) : list element -> list Z -> Prop :=
| IV_nil : int_values rho [] []
| IV_cons : forall a args z zs, int_value rho a z -> int_values rho args zs ->
    int_values rho (a :: args) (z :: zs).
