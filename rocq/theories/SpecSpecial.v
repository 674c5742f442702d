(** * Specification: where NaN and infinities come from

    A part of an expression is a source of NaN (of an infinity) if its value is
    NaN (infinite) although the value of none of its operands is. *)
From Coq Require Import ZArith List String Bool Reals.
From Flocq Require Import Core BinarySingleNaN.
From Verif Require Import F64 Syntax Builtins SpecTree SpecMonotone.
Import ListNotations.
Local Open Scope R_scope.

Definition infinite (v : f64) : Prop := exists s, v = B754_infinity s.
Definition a_zero (v : f64) : Prop := exists s, v = B754_zero s.
(** Results from here on are rounded to an infinity: half a unit above the
    largest finite number, 2^1024 - 2^971. *)
Definition limit : R := bpow radix2 1024 - bpow radix2 970.
Definition whole (v : f64) : Prop := exists n, B2R v = IZR n.

(** The built-in functions whose values IEEE 754 or the code determines; the
    others come from libm or from the user. *)
Definition exact_builtin (f : builtin) : bool :=
  match f with
  | B_SQRT | B_ABS | B_FLOOR | B_CEIL | B_ROUND | B_TRUNC | B_SUM | B_MEAN | B_RECIP | B_MIN | B_MAX
  | B_FRACT | B_FACTORIAL => true
  | _ => false
  end.
Definition outside (f : function) : Prop := forall b, fn_ptr f = Static_builtin b -> exact_builtin b = false.

(** the sum that [sum] computes *)
Definition sums_to (w : world) (vs : list f64) (t : f64) : Prop :=
  call_function w (builtin_function B_SUM) vs = Val t.
(** while adding up the list, an infinite total meets the opposite infinity *)
Definition infinities_clash (w : world) (vs : list f64) : Prop :=
  exists l1 s l2, vs = l1 ++ B754_infinity s :: l2 /\ sums_to w l1 (B754_infinity (negb s)).
(** while adding up the list, the total grows too large *)
Definition total_overflows (w : world) (vs : list f64) : Prop :=
  exists l1 a l2 t, vs = l1 ++ a :: l2 /\ sums_to w l1 t /\ is_finite t = true /\ is_finite a = true /\
    limit <= Rabs (B2R t + B2R a).

(** There is no factorial of [a]. *)
Definition no_factorial (a : f64) : Prop := below a fzero \/ (is_finite a = true /\ ~ whole a).

(** [b] is an operand of [e]: an argument of its outermost operation. *)
Inductive operand (b : element) : element -> Prop :=
| OP_left : forall op r, operand b (BinOp op b r)
| OP_right : forall op l, operand b (BinOp op l b)
| OP_un : forall op, operand b (UnOp op b)
| OP_arg : forall f args, In b args -> operand b (Call f args).

(** Calls that return NaN for arguments that are not NaN.  (Functions of one
    argument read the first one.) *)
Inductive invalid_call (w : world) (f : function) : list f64 -> Prop :=
| IC_sqrt : forall a vs, fn_ptr f = Static_builtin B_SQRT -> below a fzero -> invalid_call w f (a :: vs)
| IC_fract : forall a vs, fn_ptr f = Static_builtin B_FRACT -> infinite a -> invalid_call w f (a :: vs)
| IC_factorial : forall a vs, fn_ptr f = Static_builtin B_FACTORIAL -> no_factorial a -> invalid_call w f (a :: vs)
| IC_sum : forall vs, fn_ptr f = Static_builtin B_SUM -> infinities_clash w vs -> invalid_call w f vs
| IC_mean : forall vs, fn_ptr f = Static_builtin B_MEAN -> infinities_clash w vs -> invalid_call w f vs
| IC_mean_empty : fn_ptr f = Static_builtin B_MEAN -> invalid_call w f []
(** an infinite total divided by a count that is itself infinite as an f64: more
    than 2^1023 arguments, which no machine can hold *)
| IC_mean_count : forall vs t, fn_ptr f = Static_builtin B_MEAN -> sums_to w vs t -> infinite t ->
    infinite (f64_of_Z (Z.of_nat (List.length vs))) -> invalid_call w f vs
| IC_outside : forall vs v, outside f -> call_function w f vs = Val v -> is_nan v = true -> invalid_call w f vs.

Inductive nan_source (w : world) (rho : string -> option f64) : element -> Prop :=
| NS_number : forall n, is_nan n = true -> nan_source w rho (Number n)
| NS_var : forall x v, rho x = Some v -> is_nan v = true -> nan_source w rho (Var x)
| NS_plus : forall l r s, means w rho l (B754_infinity s) -> means w rho r (B754_infinity (negb s)) ->
    nan_source w rho (BinOp Plus l r)
| NS_minus : forall l r s, means w rho l (B754_infinity s) -> means w rho r (B754_infinity s) ->
    nan_source w rho (BinOp Minus l r)
| NS_times : forall l r a b, means w rho l a -> means w rho r b ->
    (a_zero a /\ infinite b) \/ (infinite a /\ a_zero b) -> nan_source w rho (BinOp Times l r)
| NS_divide : forall l r a b, means w rho l a -> means w rho r b ->
    (a_zero a /\ a_zero b) \/ (infinite a /\ infinite b) -> nan_source w rho (BinOp Divide l r)
| NS_modulo : forall l r a b, means w rho l a -> means w rho r b -> is_nan a = false -> is_nan b = false ->
    infinite a \/ a_zero b -> nan_source w rho (BinOp Modulo l r)
| NS_power : forall l r a b, means w rho l a -> means w rho r b -> is_nan a = false -> is_nan b = false ->
    is_nan (l_powf w a b) = true -> nan_source w rho (BinOp Power l r)
| NS_factorial : forall e a, means w rho e a -> no_factorial a -> nan_source w rho (UnOp Factorial e)
| NS_call : forall f args vs, means_all w rho args vs -> Forall (fun v => is_nan v = false) vs ->
    invalid_call w f vs -> nan_source w rho (Call f args).

(** Calls that return an infinity for arguments that are not infinite. *)
Inductive overflowing_call (w : world) (f : function) : list f64 -> Prop :=
| OC_recip_zero : forall a vs, fn_ptr f = Static_builtin B_RECIP -> a_zero a -> overflowing_call w f (a :: vs)
| OC_recip : forall a vs, fn_ptr f = Static_builtin B_RECIP -> is_finite a = true -> B2R a <> 0 ->
    limit <= Rabs (/ B2R a) -> overflowing_call w f (a :: vs)
| OC_factorial : forall a vs, fn_ptr f = Static_builtin B_FACTORIAL -> is_finite a = true -> whole a -> 170 < B2R a ->
    overflowing_call w f (a :: vs)
| OC_sum : forall vs, fn_ptr f = Static_builtin B_SUM -> Forall (fun v => is_nan v = false) vs -> total_overflows w vs ->
    overflowing_call w f vs
| OC_mean : forall vs, fn_ptr f = Static_builtin B_MEAN -> Forall (fun v => is_nan v = false) vs -> total_overflows w vs ->
    is_finite (f64_of_Z (Z.of_nat (List.length vs))) = true -> overflowing_call w f vs
| OC_extremum : forall vs, fn_ptr f = Static_builtin B_MIN \/ fn_ptr f = Static_builtin B_MAX ->
    Forall (fun v => is_nan v = true) vs -> overflowing_call w f vs
| OC_outside : forall vs v, outside f -> call_function w f vs = Val v -> infinite v -> overflowing_call w f vs.

Inductive infinity_source (w : world) (rho : string -> option f64) : element -> Prop :=
| IS_number : forall n, infinite n -> infinity_source w rho (Number n)
| IS_var : forall x v, rho x = Some v -> infinite v -> infinity_source w rho (Var x)
| IS_plus : forall l r a b, means w rho l a -> means w rho r b -> is_finite a = true -> is_finite b = true ->
    limit <= Rabs (B2R a + B2R b) -> infinity_source w rho (BinOp Plus l r)
| IS_minus : forall l r a b, means w rho l a -> means w rho r b -> is_finite a = true -> is_finite b = true ->
    limit <= Rabs (B2R a - B2R b) -> infinity_source w rho (BinOp Minus l r)
| IS_times : forall l r a b, means w rho l a -> means w rho r b -> is_finite a = true -> is_finite b = true ->
    limit <= Rabs (B2R a * B2R b) -> infinity_source w rho (BinOp Times l r)
| IS_divide_zero : forall l r a b, means w rho l a -> means w rho r b -> is_finite a = true -> B2R a <> 0 -> a_zero b ->
    infinity_source w rho (BinOp Divide l r)
| IS_divide : forall l r a b, means w rho l a -> means w rho r b -> is_finite a = true -> is_finite b = true -> B2R b <> 0 ->
    limit <= Rabs (B2R a / B2R b) -> infinity_source w rho (BinOp Divide l r)
| IS_power : forall l r a b, means w rho l a -> means w rho r b -> ~ infinite a -> ~ infinite b ->
    infinite (l_powf w a b) -> infinity_source w rho (BinOp Power l r)
| IS_factorial : forall e a, means w rho e a -> is_finite a = true -> whole a -> 170 < B2R a ->
    infinity_source w rho (UnOp Factorial e)
| IS_call : forall f args vs, means_all w rho args vs -> Forall (fun v => ~ infinite v) vs ->
    overflowing_call w f vs -> infinity_source w rho (Call f args).

(** [hands_on a e]: a NaN in the part [a] of [e] is handed on to the value of
    [e].  (min, max, ^, libm and user functions may not hand it on.) *)
Inductive hands_on (a : element) : element -> Prop :=
| HO_here : hands_on a a
| HO_left : forall op l r, op = Plus \/ op = Minus \/ op = Times \/ op = Divide \/ op = Modulo ->
    hands_on a l -> hands_on a (BinOp op l r)
| HO_right : forall op l r, op = Plus \/ op = Minus \/ op = Times \/ op = Divide \/ op = Modulo ->
    hands_on a r -> hands_on a (BinOp op l r)
| HO_un : forall op e, hands_on a e -> hands_on a (UnOp op e)
| HO_first : forall f e es,
    In f [B_SQRT; B_ABS; B_FLOOR; B_CEIL; B_ROUND; B_TRUNC; B_RECIP; B_FRACT; B_FACTORIAL] ->
    hands_on a e -> hands_on a (Call (builtin_function f) (e :: es))
| HO_sum : forall f e es, f = B_SUM \/ f = B_MEAN -> In e es -> hands_on a e -> hands_on a (Call (builtin_function f) es).
