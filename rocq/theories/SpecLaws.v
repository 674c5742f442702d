(** * Specification: rearrangements of expressions

    Two equational theories of expressions, each given by its laws and by closure
    under replacing equals by equals.

    [exactly a b]: [b] is [a] rearranged by laws that hold for all f64 values,
    NaN, infinities and the sign of zero included.

    [but_for_zero a b]: also by laws that hold up to the sign of a zero result.
    Here a part may be replaced only where the sign of a zero cannot be seen:
    not as a divisor, not under ^ and not as argument of a function other than
    the ones listed in [zero_blind]. *)
From Coq Require Import ZArith List String Bool Reals Permutation.
From Flocq Require Import Core BinarySingleNaN.
From Verif Require Import F64 Syntax Builtins.
Import ListNotations.
Local Open Scope R_scope.

Definition call (b : builtin) (args : list element) : element := Call (builtin_function b) args.
Definition neg (a : element) : element := UnOp Minus a.

(** the number literal with the value [r] *)
Definition value_is (n : f64) (r : R) : Prop := is_finite n = true /\ B2R n = r.

(** the functions that round to a whole number *)
Definition rounding (b : builtin) : bool :=
  match b with B_FLOOR | B_CEIL | B_ROUND | B_TRUNC => true | _ => false end.

Inductive exact_law : element -> element -> Prop :=
(** signs *)
| L_plus : forall a, exact_law (UnOp Plus a) a
| L_neg_neg : forall a, exact_law (neg (neg a)) a
| L_minus : forall a b, exact_law (BinOp Minus a b) (BinOp Plus a (neg b))
| L_neg_times : forall a b, exact_law (BinOp Times (neg a) b) (neg (BinOp Times a b))
| L_neg_dividend : forall a b, exact_law (BinOp Divide (neg a) b) (neg (BinOp Divide a b))
| L_neg_divisor : forall a b, exact_law (BinOp Divide a (neg b)) (neg (BinOp Divide a b))
| L_neg_rem : forall a b, exact_law (BinOp Modulo (neg a) b) (neg (BinOp Modulo a b))
| L_neg_modulus : forall a b, exact_law (BinOp Modulo a (neg b)) (BinOp Modulo a b)
(** order of operands *)
| L_plus_comm : forall a b, exact_law (BinOp Plus a b) (BinOp Plus b a)
| L_times_comm : forall a b, exact_law (BinOp Times a b) (BinOp Times b a)
(** numbers *)
| L_times_one : forall a n, value_is n 1 -> exact_law (BinOp Times a (Number n)) a
| L_divide_one : forall a n, value_is n 1 -> exact_law (BinOp Divide a (Number n)) a
| L_minus_zero : forall a, exact_law (BinOp Minus a (Number fzero)) a
| L_double : forall a n, value_is n 2 -> exact_law (BinOp Plus a a) (BinOp Times (Number n) a)
| L_triple : forall a n, value_is n 3 -> exact_law (BinOp Plus (BinOp Plus a a) a) (BinOp Times (Number n) a)
| L_power_of_two : forall a m n k, value_is m (bpow radix2 k) -> value_is n (bpow radix2 (- k)) ->
    exact_law (BinOp Divide a (Number m)) (BinOp Times a (Number n))
| L_rem_rem : forall a b, exact_law (BinOp Modulo (BinOp Modulo a b) b) (BinOp Modulo a b)
(** abs *)
| L_abs_neg : forall a, exact_law (call B_ABS [neg a]) (call B_ABS [a])
| L_abs_abs : forall a, exact_law (call B_ABS [call B_ABS [a]]) (call B_ABS [a])
| L_abs_times : forall a b, exact_law (call B_ABS [BinOp Times a b]) (BinOp Times (call B_ABS [a]) (call B_ABS [b]))
| L_abs_divide : forall a b, exact_law (call B_ABS [BinOp Divide a b]) (BinOp Divide (call B_ABS [a]) (call B_ABS [b]))
| L_abs_rem : forall a b, exact_law (call B_ABS [BinOp Modulo a b]) (BinOp Modulo (call B_ABS [a]) b)
| L_abs_minus : forall a b, exact_law (call B_ABS [BinOp Minus a b]) (call B_ABS [BinOp Minus b a])
(** rounding *)
| L_round_round : forall f g a, rounding f = true -> rounding g = true -> exact_law (call f [call g [a]]) (call g [a])
| L_floor_neg : forall a, exact_law (call B_FLOOR [neg a]) (neg (call B_CEIL [a]))
| L_trunc_neg : forall a, exact_law (call B_TRUNC [neg a]) (neg (call B_TRUNC [a]))
| L_round_neg : forall a, exact_law (call B_ROUND [neg a]) (neg (call B_ROUND [a]))
| L_fract : forall a, exact_law (call B_FRACT [a]) (BinOp Minus a (call B_TRUNC [a]))
(** other functions *)
| L_recip : forall a n, value_is n 1 -> exact_law (call B_RECIP [a]) (BinOp Divide (Number n) a)
| L_factorial : forall a, exact_law (call B_FACTORIAL [a]) (UnOp Factorial a)
| L_logn : forall a b, exact_law (call B_LOGN [a; b]) (BinOp Divide (call B_LN [a]) (call B_LN [b]))
| L_sum_last : forall args a, exact_law (call B_SUM (args ++ [a])) (BinOp Plus (call B_SUM args) a)
| L_mean : forall args n, (Z.of_nat (List.length args) <= 2 ^ 53)%Z -> value_is n (INR (List.length args)) ->
    exact_law (call B_MEAN args) (BinOp Divide (call B_SUM args) (Number n))
| L_min_last : forall args a, exact_law (call B_MIN (args ++ [a])) (call B_MIN [call B_MIN args; a])
| L_max_min : forall args, exact_law (call B_MAX args) (neg (call B_MIN (map neg args))).

Inductive exactly : element -> element -> Prop :=
| EX_law : forall a b, exact_law a b -> exactly a b
| EX_refl : forall a, exactly a a
| EX_sym : forall a b, exactly a b -> exactly b a
| EX_trans : forall a b c, exactly a b -> exactly b c -> exactly a c
| EX_bin : forall op l l' r r', exactly l l' -> exactly r r' -> exactly (BinOp op l r) (BinOp op l' r')
| EX_un : forall op a a', exactly a a' -> exactly (UnOp op a) (UnOp op a')
| EX_call : forall f args args', exactly_all args args' -> exactly (Call f args) (Call f args')
with exactly_all : list element -> list element -> Prop :=
| EX_nil : exactly_all [] []
| EX_cons : forall a a' l l', exactly a a' -> exactly_all l l' -> exactly_all (a :: l) (a' :: l').

Inductive zero_law : element -> element -> Prop :=
| Z_exact : forall a b, exactly a b -> zero_law a b
| Z_plus_zero : forall a, zero_law (BinOp Plus a (Number fzero)) a
| Z_neg_plus : forall a b, zero_law (neg (BinOp Plus a b)) (BinOp Plus (neg a) (neg b))
| Z_neg_minus : forall a b, zero_law (neg (BinOp Minus a b)) (BinOp Minus b a)
| Z_abs_sqrt : forall a, zero_law (call B_ABS [call B_SQRT [a]]) (call B_SQRT [a])
| Z_fract_neg : forall a, zero_law (call B_FRACT [neg a]) (neg (call B_FRACT [a]))
| Z_fract_rem : forall a n, value_is n 1 -> zero_law (call B_FRACT [a]) (BinOp Modulo a (Number n))
| Z_sum_one : forall a, zero_law (call B_SUM [a]) a
| Z_sum_two : forall a b, zero_law (call B_SUM [a; b]) (BinOp Plus a b)
| Z_sum_neg : forall args, zero_law (call B_SUM (map neg args)) (neg (call B_SUM args))
| Z_min_order : forall args args', Permutation args args' -> zero_law (call B_MIN args) (call B_MIN args')
| Z_max_order : forall args args', Permutation args args' -> zero_law (call B_MAX args) (call B_MAX args').

(** functions that send both zeros to zeros, or to the same value *)
Definition zero_blind (b : builtin) : bool :=
  match b with
  | B_SQRT | B_ABS | B_FLOOR | B_CEIL | B_ROUND | B_TRUNC | B_FRACT | B_FACTORIAL
  | B_SUM | B_MEAN | B_MIN | B_MAX => true
  | _ => false
  end.

Inductive but_for_zero : element -> element -> Prop :=
| BZ_law : forall a b, zero_law a b -> but_for_zero a b
| BZ_refl : forall a, but_for_zero a a
| BZ_sym : forall a b, but_for_zero a b -> but_for_zero b a
| BZ_trans : forall a b c, but_for_zero a b -> but_for_zero b c -> but_for_zero a c
| BZ_bin : forall op l l' r r', op = Plus \/ op = Minus \/ op = Times \/ op = Modulo ->
    but_for_zero l l' -> but_for_zero r r' -> but_for_zero (BinOp op l r) (BinOp op l' r')
| BZ_dividend : forall l l' r, but_for_zero l l' -> but_for_zero (BinOp Divide l r) (BinOp Divide l' r)
| BZ_un : forall op a a', but_for_zero a a' -> but_for_zero (UnOp op a) (UnOp op a')
| BZ_call : forall b args args', zero_blind b = true -> but_for_zero_all args args' ->
    but_for_zero (call b args) (call b args')
with but_for_zero_all : list element -> list element -> Prop :=
| BZ_nil : but_for_zero_all [] []
| BZ_cons : forall a a' l l', but_for_zero a a' -> but_for_zero_all l l' -> but_for_zero_all (a :: l) (a' :: l').
