(** * Bounds that are reached

    The rules of interval arithmetic (SpecBounds.v) without those that only
    estimate, for expressions in which every variable occurs once. *)
From Coq Require Import List String Bool.
From Flocq Require Import BinarySingleNaN.
From Verif Require Import F64 Syntax Builtins SpecTree SpecApi SpecMonotone SpecBounds.
Import ListNotations.

(** no variable occurs in both *)
Definition apart (l r : element) : Prop := forall x, occurs x l -> ~ occurs x r.

(** the least and the greatest of the numbers *)
Definition ends_of (lo hi : f64) (l : list f64) : Prop := In lo l /\ In hi l /\ all_between lo hi l.

Inductive tight (box : string -> option (f64 * f64)) : element -> f64 -> f64 -> Prop :=
| TI_number : forall v, is_finite v = true -> tight box (Number v) v v
| TI_var : forall x a b, box x = Some (a, b) -> is_finite a = true -> is_finite b = true -> at_most a b -> tight box (Var x) a b
| TI_plus : forall l r a b c d, tight box l a b -> tight box r c d -> apart l r ->
    is_finite (fadd a c) = true -> is_finite (fadd b d) = true ->
    tight box (BinOp Plus l r) (fadd a c) (fadd b d)
| TI_minus : forall l r a b c d, tight box l a b -> tight box r c d -> apart l r ->
    is_finite (fsub a d) = true -> is_finite (fsub b c) = true ->
    tight box (BinOp Minus l r) (fsub a d) (fsub b c)
| TI_times : forall l r a b c d lo hi, tight box l a b -> tight box r c d -> apart l r ->
    ends_of lo hi [fmul a c; fmul a d; fmul b c; fmul b d] ->
    tight box (BinOp Times l r) lo hi
| TI_divide : forall l r a b c d lo hi, tight box l a b -> tight box r c d -> apart l r ->
    below fzero c \/ below d fzero ->
    ends_of lo hi [fdiv a c; fdiv a d; fdiv b c; fdiv b d] ->
    tight box (BinOp Divide l r) lo hi
| TI_plus_sign : forall e a b, tight box e a b -> tight box (UnOp Plus e) a b
| TI_minus_sign : forall e a b, tight box e a b -> tight box (UnOp Minus e) (fneg b) (fneg a)
| TI_rounding : forall f g e a b, tight box e a b ->
    In (f, g) [(B_FLOOR, ffloor); (B_CEIL, fceil); (B_ROUND, fround); (B_TRUNC, ftrunc)] ->
    tight box (Call (builtin_function f) [e]) (g a) (g b)
| TI_sqrt : forall e a b, tight box e a b -> at_most fzero a ->
    tight box (Call (builtin_function B_SQRT) [e]) (fsqrt a) (fsqrt b).

(** every variable given has one of the ends of its interval as its value *)
Definition at_ends (box : string -> option (f64 * f64)) (rho : smap f64) : Prop :=
  forall x v, lookup rho x = Some v -> exists a b, box x = Some (a, b) /\ at_most a b /\ (v = a \/ v = b).
