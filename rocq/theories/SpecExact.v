(** * Specification: results that need no rounding

    [fits r]: the real number [r] can be written exactly as a 64-bit number: a
    whole number of at most 53 bits times a power of two in range.

    [exact_value rho e r]: with the values [rho] for the variables, [e] has the
    value [r] in ordinary real arithmetic, and every number met on the way
    fits. *)
From Coq Require Import ZArith List String Arith Reals.
From Flocq Require Import Core BinarySingleNaN.
From Verif Require Import F64 Syntax Builtins.
Import ListNotations.
Local Open Scope R_scope.

Definition fits (r : R) : Prop :=
  exists m e : Z, r = IZR m * powerRZ 2 e /\ (Z.abs m < 2 ^ 53)%Z /\ (-1074 <= e <= 971)%Z.

(** the f64 [v] is the real number [r] *)
Definition is_real (v : f64) (r : R) : Prop := is_finite v = true /\ B2R v = r.

Definition whole_number (r : R) : Prop := exists z, r = IZR z.

Definition real_total (l : list R) : R := fold_left Rplus l 0.

(** [r] without its digits after the point *)
Definition whole_part (r : R) : R := IZR (Ztrunc r).

(** the nearest whole number, halves away from zero *)
Definition nearest_whole (r z : R) : Prop :=
  whole_number z /\ Rabs (r - z) <= / 2 /\ (Rabs (r - z) = / 2 -> Rabs r < Rabs z).

(** the built-in functions whose results may need no rounding *)
Inductive exact_call : builtin -> list R -> R -> Prop :=
| XC_abs : forall a, exact_call B_ABS [a] (Rabs a)
| XC_floor : forall a z, whole_number z -> z <= a < z + 1 -> exact_call B_FLOOR [a] z
| XC_ceil : forall a z, whole_number z -> z - 1 < a <= z -> exact_call B_CEIL [a] z
| XC_round : forall a z, nearest_whole a z -> exact_call B_ROUND [a] z
| XC_trunc : forall a, exact_call B_TRUNC [a] (whole_part a)
| XC_fract : forall a, exact_call B_FRACT [a] (a - whole_part a)
| XC_sqrt : forall a, 0 <= a -> fits a -> exact_call B_SQRT [a * a] a
| XC_recip : forall a, a <> 0 -> fits (/ a) -> exact_call B_RECIP [a] (/ a)
| XC_min : forall l m, In m l -> (forall a, In a l -> m <= a) -> exact_call B_MIN l m
| XC_max : forall l m, In m l -> (forall a, In a l -> a <= m) -> exact_call B_MAX l m
| XC_sum : forall l, (forall k, fits (real_total (firstn k l))) -> exact_call B_SUM l (real_total l)
| XC_mean : forall l, l <> [] -> (forall k, fits (real_total (firstn k l))) -> (Z.of_nat (List.length l) <= 2 ^ 53)%Z ->
    fits (real_total l / INR (List.length l)) -> exact_call B_MEAN l (real_total l / INR (List.length l)).

Inductive exact_value (rho : string -> option f64) : element -> R -> Prop :=
| XV_number : forall n, is_finite n = true -> exact_value rho (Number n) (B2R n)
| XV_var : forall x v, rho x = Some v -> is_finite v = true -> exact_value rho (Var x) (B2R v)
| XV_plus : forall l r a b, exact_value rho l a -> exact_value rho r b -> fits (a + b) ->
    exact_value rho (BinOp Plus l r) (a + b)
| XV_minus : forall l r a b, exact_value rho l a -> exact_value rho r b -> fits (a - b) ->
    exact_value rho (BinOp Minus l r) (a - b)
| XV_times : forall l r a b, exact_value rho l a -> exact_value rho r b -> fits (a * b) ->
    exact_value rho (BinOp Times l r) (a * b)
| XV_divide : forall l r a b, exact_value rho l a -> exact_value rho r b -> b <> 0 -> fits (a / b) ->
    exact_value rho (BinOp Divide l r) (a / b)
(** the remainder always fits; the remainder by 1 of a number that is not whole is left out *)
| XV_modulo : forall l r a b, exact_value rho l a -> exact_value rho r b -> b <> 0 -> (b = 1 -> whole_number a) ->
    exact_value rho (BinOp Modulo l r) (a - whole_part (a / b) * b)
| XV_positive : forall e a, exact_value rho e a -> exact_value rho (UnOp Plus e) a
| XV_negative : forall e a, exact_value rho e a -> exact_value rho (UnOp Minus e) (- a)
| XV_factorial : forall e n, exact_value rho e (INR n) -> (Z.of_nat (fact n) <= 2 ^ 53)%Z ->
    exact_value rho (UnOp Factorial e) (INR (fact n))
| XV_call : forall b args rs r, exact_values rho args rs -> exact_call b rs r ->
    exact_value rho (Call (builtin_function b) args) r
with exact_values (rho : string -> option f64) : list element -> list R -> Prop :=
| XV_nil : exact_values rho [] []
| XV_cons : forall a args r rs, exact_value rho a r -> exact_values rho args rs ->
    exact_values rho (a :: args) (r :: rs).

(** Sums and differences of multiples of the same power of two [2^g], for
    example money in 64ths: [in_units rho g e m t] says that [e] is [m] units and
    that its entries, all taken as positive, add up to [t] units. *)
Inductive in_units (rho : string -> option f64) (g : Z) : element -> Z -> Z -> Prop :=
| IU_number : forall n m, is_real n (IZR m * powerRZ 2 g) -> in_units rho g (Number n) m (Z.abs m)
| IU_var : forall x v m, rho x = Some v -> is_real v (IZR m * powerRZ 2 g) -> in_units rho g (Var x) m (Z.abs m)
| IU_plus : forall l r a b s t, in_units rho g l a s -> in_units rho g r b t -> in_units rho g (BinOp Plus l r) (a + b) (s + t)
| IU_minus : forall l r a b s t, in_units rho g l a s -> in_units rho g r b t -> in_units rho g (BinOp Minus l r) (a - b) (s + t)
| IU_positive : forall e a s, in_units rho g e a s -> in_units rho g (UnOp Plus e) a s
| IU_negative : forall e a s, in_units rho g e a s -> in_units rho g (UnOp Minus e) (- a) s.
