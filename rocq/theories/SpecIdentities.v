(** * Specification: identities that hold for ordinary values

    The laws of SpecLaws.v hold whatever the values are.  Many more hold at given
    values of the variables, as soon as some parts have values in a suitable
    range.  [here w rho a b]: with the values [rho], [b] is [a] rearranged by
    the laws of SpecLaws.v and by the laws below, whose side conditions are
    about the real numbers that the parts evaluate to. *)
From Coq Require Import ZArith List String Bool Reals.
From Flocq Require Import Core BinarySingleNaN.
From Verif Require Import F64 Syntax Builtins SpecTree SpecLaws.
Import ListNotations.
Local Open Scope R_scope.

Section Here.
  Variable w : world.
  Variable rho : string -> option f64.

  (** the value of [a] is a number, neither NaN nor infinite, and equals [x] *)
  Definition number (a : element) (x : R) : Prop := exists v, means w rho a v /\ value_is v x.

  Definition whole (x : R) : Prop := exists k, x = IZR k.

  Inductive here_law : element -> element -> Prop :=
  | H_exact : forall a b, exact_law a b -> here_law a b
  (** cancelling *)
  | H_minus_self : forall a x, number a x -> here_law (BinOp Minus a a) (Number fzero)
  | H_divide_self : forall a x n, number a x -> x <> 0 -> value_is n 1 -> here_law (BinOp Divide a a) (Number n)
  | H_times_zero : forall a x, number a x -> 0 < x -> here_law (BinOp Times a (Number fzero)) (Number fzero)
  | H_sqrt_square : forall a x, number a x -> bpow radix2 (-511) <= Rabs x <= bpow radix2 511 ->
      here_law (call B_SQRT [BinOp Times a a]) (call B_ABS [a])
  | H_scale_back : forall a x n k, number a x -> value_is n (bpow radix2 k) ->
      bpow radix2 (-1022) <= Rabs (x * bpow radix2 k) < bpow radix2 1024 ->
      here_law (BinOp Divide (BinOp Times a (Number n)) (Number n)) a
  | H_minus_plus : forall a b x y, number a x -> number b y -> x <> 0 -> Rabs (x - y) <= Rabs x -> Rabs (x - y) <= Rabs y ->
      here_law (BinOp Plus (BinOp Minus a b) b) a
  | H_trunc_fract : forall a x, number a x -> x <> 0 -> here_law (BinOp Plus (call B_TRUNC [a]) (call B_FRACT [a])) a
  (** too small to matter *)
  | H_absorb : forall a b x y, number a x -> number b y -> Rabs y < Rabs x * bpow radix2 (-54) -> here_law (BinOp Plus a b) a
  | H_rem_small : forall a b x y, number a x -> number b y -> Rabs x < Rabs y -> here_law (BinOp Modulo a b) a
  (** sign *)
  | H_abs_positive : forall a x, number a x -> 0 < x -> here_law (call B_ABS [a]) a
  | H_abs_negative : forall a x, number a x -> x < 0 -> here_law (call B_ABS [a]) (neg a)
  (** whole numbers *)
  | H_whole : forall f a x, rounding f = true -> number a x -> whole x -> here_law (call f [a]) a
  | H_fract_whole : forall a x, number a x -> whole x -> here_law (call B_FRACT [a]) (Number fzero)
  | H_ceil : forall a x n, number a x -> ~ whole x -> x < -1 \/ 0 < x -> value_is n 1 ->
      here_law (call B_CEIL [a]) (BinOp Plus (call B_FLOOR [a]) (Number n))
  (** the smaller and the larger of two *)
  | H_min : forall a b x y, number a x -> number b y -> x < y -> here_law (call B_MIN [a; b]) a
  | H_max : forall a b x y, number a x -> number b y -> x < y -> here_law (call B_MAX [a; b]) b
  | H_min_swap : forall a b x y, number a x -> number b y -> x <> y -> here_law (call B_MIN [a; b]) (call B_MIN [b; a])
  | H_min_self : forall a x, number a x -> here_law (call B_MIN [a; a]) a
  | H_max_self : forall a x, number a x -> here_law (call B_MAX [a; a]) a
  | H_min_plus_max : forall a b x y, number a x -> number b y -> x <> y ->
      here_law (BinOp Plus (call B_MIN [a; b]) (call B_MAX [a; b])) (BinOp Plus a b)
  (** sum and mean *)
  | H_sum_one : forall a x, number a x -> x <> 0 -> here_law (call B_SUM [a]) a
  | H_mean_one : forall a x, number a x -> x <> 0 -> here_law (call B_MEAN [a]) a
  | H_mean_two : forall a x, number a x -> x <> 0 -> Rabs x <= bpow radix2 1022 -> here_law (call B_MEAN [a; a]) a.

  Inductive here : element -> element -> Prop :=
  | HE_law : forall a b, here_law a b -> here a b
  | HE_refl : forall a, here a a
  | HE_sym : forall a b, here a b -> here b a
  | HE_trans : forall a b c, here a b -> here b c -> here a c
  | HE_bin : forall op l l' r r', here l l' -> here r r' -> here (BinOp op l r) (BinOp op l' r')
  | HE_un : forall op a a', here a a' -> here (UnOp op a) (UnOp op a')
  | HE_call : forall f args args', here_all args args' -> here (Call f args) (Call f args')
  with here_all : list element -> list element -> Prop :=
  | HE_nil : here_all [] []
  | HE_cons : forall a a' l l', here a a' -> here_all l l' -> here_all (a :: l) (a' :: l').
End Here.
