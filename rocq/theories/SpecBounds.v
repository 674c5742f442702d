(** * Specification: bounds in, bounds out

    Each variable lies between two finite numbers.  The rules of this calculus
    bound the result by what the operations give at the ends: these are the
    rules of interval arithmetic, but with f64's own operations at the ends
    instead of exact ones or ones rounded outwards.  For other functions, such
    as sin or a function of the context, a bound that is known can be used. *)
From Coq Require Import List String Bool.
From Flocq Require Import BinarySingleNaN.
From Verif Require Import F64 Syntax Builtins SpecTree SpecMonotone SpecRegular.
Import ListNotations.

(** all of the numbers lie between [lo] and [hi], which are finite *)
Definition all_between (lo hi : f64) (l : list f64) : Prop :=
  is_finite lo = true /\ is_finite hi = true /\ forall p, In p l -> at_most lo p /\ at_most p hi.

(** For finite arguments in the given ranges the function [f] of the context or
    of libm returns a value between [lo] and [hi], and does not tell +0 from -0. *)
Definition keeps (w : world) (f : function) (ranges : list (f64 * f64)) (lo hi : f64) : Prop :=
  forall vs, Forall2 (fun r v => is_finite v = true /\ at_most (fst r) v /\ at_most v (snd r)) ranges vs ->
  same_for_both_zeros w f vs /\ exists v, call_function w f vs = Val v /\ at_most lo v /\ at_most v hi.

Inductive bounded (w : world) (box : string -> option (f64 * f64)) : element -> f64 -> f64 -> Prop :=
| BD_number : forall v, is_finite v = true -> bounded w box (Number v) v v
| BD_var : forall x a b, box x = Some (a, b) -> is_finite a = true -> is_finite b = true -> bounded w box (Var x) a b
| BD_wider : forall e a b lo hi, bounded w box e a b -> all_between lo hi [a; b] -> bounded w box e lo hi
| BD_plus : forall l r a b c d, bounded w box l a b -> bounded w box r c d ->
    is_finite (fadd a c) = true -> is_finite (fadd b d) = true ->
    bounded w box (BinOp Plus l r) (fadd a c) (fadd b d)
| BD_minus : forall l r a b c d, bounded w box l a b -> bounded w box r c d ->
    is_finite (fsub a d) = true -> is_finite (fsub b c) = true ->
    bounded w box (BinOp Minus l r) (fsub a d) (fsub b c)
| BD_times : forall l r a b c d lo hi, bounded w box l a b -> bounded w box r c d ->
    all_between lo hi [fmul a c; fmul a d; fmul b c; fmul b d] ->
    bounded w box (BinOp Times l r) lo hi
| BD_divide : forall l r a b c d lo hi, bounded w box l a b -> bounded w box r c d ->
    below fzero c \/ below d fzero ->
    all_between lo hi [fdiv a c; fdiv a d; fdiv b c; fdiv b d] ->
    bounded w box (BinOp Divide l r) lo hi
| BD_plus_sign : forall e a b, bounded w box e a b -> bounded w box (UnOp Plus e) a b
| BD_minus_sign : forall e a b, bounded w box e a b -> bounded w box (UnOp Minus e) (fneg b) (fneg a)
| BD_rounding : forall f g e a b, bounded w box e a b ->
    In (f, g) [(B_FLOOR, ffloor); (B_CEIL, fceil); (B_ROUND, fround); (B_TRUNC, ftrunc)] ->
    bounded w box (Call (builtin_function f) [e]) (g a) (g b)
| BD_sqrt : forall e a b, bounded w box e a b -> at_most fzero a ->
    bounded w box (Call (builtin_function B_SQRT) [e]) (fsqrt a) (fsqrt b)
| BD_abs : forall e a b hi, bounded w box e a b -> all_between fzero hi [fabs a; fabs b] ->
    bounded w box (Call (builtin_function B_ABS) [e]) fzero hi
| BD_abs_same : forall e a b, bounded w box e a b -> at_most fzero a ->
    bounded w box (Call (builtin_function B_ABS) [e]) a b
| BD_min : forall args one lo hi up, In one args -> bounded w box one lo hi ->
    (forall a, In a args -> bounded w box a lo (up a)) ->
    bounded w box (Call (builtin_function B_MIN) args) lo hi
| BD_max : forall args one lo hi low, In one args -> bounded w box one lo hi ->
    (forall a, In a args -> bounded w box a (low a) hi) ->
    bounded w box (Call (builtin_function B_MAX) args) lo hi
| BD_sum : forall args low up, (forall a, In a args -> bounded w box a (low a) (up a)) ->
    is_finite (fold_left fadd (map low args) fzero) = true -> is_finite (fold_left fadd (map up args) fzero) = true ->
    bounded w box (Call (builtin_function B_SUM) args) (fold_left fadd (map low args) fzero) (fold_left fadd (map up args) fzero)
| BD_call : forall f args low up lo hi, (forall a, In a args -> bounded w box a (low a) (up a)) ->
    is_finite lo = true -> is_finite hi = true -> keeps w f (map (fun a => (low a, up a)) args) lo hi ->
    bounded w box (Call f args) lo hi.

(** each variable with bounds has a value between them *)
Definition values_in (box : string -> option (f64 * f64)) (rho : string -> option f64) : Prop :=
  forall x a b, box x = Some (a, b) -> exists v, rho x = Some v /\ at_most a v /\ at_most v b.
