(** * Specification: exact value, magnitude and number of roundings

    [measured rho t r m n]: over the real numbers the expression [t] has the
    value [r]; with every sign ignored (each number replaced by its absolute
    value, each subtraction by an addition) it has the magnitude [m]; and
    computing it takes [n] rounded operations.  Covered: numbers, variables,
    [+], [-], [*], [/], signs, [abs], [sum], [mean], [recip], [sqrt], [min] and
    [max].

    A divisor with exact value [s] and magnitude [k] magnifies its errors by
    [k / |s|]; if this is at most [c], each of its roundings counts 2 [c] times
    (not at all for a divisor without roundings, like a number or variable).
    A square root divides the magnitude of its argument by the root; its
    argument must be so far from 0 that roundings cannot make it negative. *)
From Coq Require Import ZArith Reals List String Bool.
From Flocq Require Import Core BinarySingleNaN.
From Verif Require Import F64 Syntax Builtins.
Import ListNotations.
Local Open Scope R_scope.

(** half the distance between 1 and the next f64 *)
Definition half_ulp : R := / 2 ^ 53.
(** the smallest normal f64: what a product or quotient below it loses is at
    most [half_ulp] times this *)
Definition tiny : R := / 2 ^ 1022.
(** a quarter of the first power of two that is no f64 *)
Definition huge : R := 2 ^ 1022.

Inductive measured (rho : string -> option f64) : element -> R -> R -> nat -> Prop :=
| ME_number : forall v, is_finite v = true -> measured rho (Number v) (B2R v) (Rabs (B2R v)) 0
| ME_var : forall x v, rho x = Some v -> is_finite v = true -> measured rho (Var x) (B2R v) (Rabs (B2R v)) 0
| ME_plus : forall a b r s m k i j, measured rho a r m i -> measured rho b s k j -> m + k <= huge ->
    measured rho (BinOp Plus a b) (r + s) (m + k) (i + j + 1)
| ME_minus : forall a b r s m k i j, measured rho a r m i -> measured rho b s k j -> m + k <= huge ->
    measured rho (BinOp Minus a b) (r - s) (m + k) (i + j + 1)
| ME_times : forall a b r s m k i j, measured rho a r m i -> measured rho b s k j -> m * k + tiny <= huge ->
    measured rho (BinOp Times a b) (r * s) (m * k + tiny) (i + j + 1)
| ME_divide : forall a b r s k m i, measured rho a r m i -> measured rho b s k 0 -> s <> 0 -> m / Rabs s + tiny <= huge ->
    measured rho (BinOp Divide a b) (r / s) (m / Rabs s + tiny) (i + 1)
| ME_quotient : forall a b r s m k i j c, measured rho a r m i -> measured rho b s k j -> s <> 0 -> k <= INR c * Rabs s ->
    m / Rabs s + tiny <= huge -> measured rho (BinOp Divide a b) (r / s) (m / Rabs s + tiny) (i + 2 * c * j + 1)
| ME_plus_sign : forall a r m i, measured rho a r m i -> measured rho (UnOp Plus a) r m i
| ME_minus_sign : forall a r m i, measured rho a r m i -> measured rho (UnOp Minus a) (- r) m i
| ME_abs : forall a r m i, measured rho a r m i ->
    measured rho (Call (builtin_function B_ABS) [a]) (Rabs r) m i
| ME_sum : forall args r m i, measured_sum rho args r m i -> m <= huge ->
    measured rho (Call (builtin_function B_SUM) args) r m i
| ME_mean : forall args r m i, measured_sum rho args r m i -> args <> [] -> m <= huge ->
    m / INR (List.length args) + tiny <= huge ->
    measured rho (Call (builtin_function B_MEAN) args) (r / INR (List.length args)) (m / INR (List.length args) + tiny) (i + 1)
| ME_recip : forall a s k j c, measured rho a s k j -> s <> 0 -> k <= INR c * Rabs s -> 1 / Rabs s + tiny <= huge ->
    measured rho (Call (builtin_function B_RECIP) [a]) (1 / s) (1 / Rabs s + tiny) (2 * c * j + 1)
| ME_sqrt : forall a r m i, measured rho a r m i -> 0 < r -> INR i * / 2 ^ 52 * m <= r -> m / sqrt r + tiny <= huge ->
    measured rho (Call (builtin_function B_SQRT) [a]) (sqrt r) (m / sqrt r + tiny) (i + 1)
| ME_min : forall args r m i, measured_extremum rho Rmin args r m i ->
    measured rho (Call (builtin_function B_MIN) args) r m i
| ME_max : forall args r m i, measured_extremum rho Rmax args r m i ->
    measured rho (Call (builtin_function B_MAX) args) r m i
with measured_sum (rho : string -> option f64) : list element -> R -> R -> nat -> Prop :=
| MS_nil : measured_sum rho [] 0 0 0
| MS_cons : forall a args r s m k i j, measured rho a r m i -> measured_sum rho args s k j ->
    measured_sum rho (a :: args) (r + s) (m + k) (i + j + 1)
(** [pick] is the smaller or the greater of two numbers *)
with measured_extremum (rho : string -> option f64) : (R -> R -> R) -> list element -> R -> R -> nat -> Prop :=
| MX_one : forall pick a r m i, measured rho a r m i -> measured_extremum rho pick [a] r m i
| MX_cons : forall pick a args r s m k i j, measured rho a r m i -> measured_extremum rho pick args s k j ->
    measured_extremum rho pick (a :: args) (pick r s) (Rmax m k) (i + j).
