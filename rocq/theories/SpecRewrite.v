(** * The algebraic rules of the simplifier, one by one

    [rewrites cfg w op l r e]: the operation [l op r], whose operands are
    already simplified, may be replaced by [e].  Each constructor is one rule
    of the table in the comments of /repo/src/element/simplify.rs:52-239, as an
    inference rule and not as a sequence of tests. *)
From Coq Require Import ZArith NArith List String Ascii Bool.
From Verif Require Import F64 Syntax Factorial Builtins Element.
Import ListNotations.

(** [e] is a literal equal to [v] for IEEE comparison (so both zeros count as 0) *)
Definition lit_eq (e : element) (v : f64) : Prop := exists x, e = Number x /\ feq x v = true.

Inductive rewrites (cfg : config) (w : world) : operator -> element -> element -> element -> Prop :=
| rw_zero_plus : forall l r, lit_eq l fzero -> rewrites cfg w Plus l r r
| rw_plus_zero : forall l r, lit_eq r fzero -> rewrites cfg w Plus l r l
| rw_neg_plus : forall a r, nightly cfg = true -> el_eq a r = Val true ->
    rewrites cfg w Plus (UnOp Minus a) r (Number fzero)
| rw_plus_neg : forall l a, nightly cfg = true -> el_eq l a = Val true ->
    rewrites cfg w Plus l (UnOp Minus a) (Number fzero)
| rw_zero_minus : forall l r, lit_eq l fzero -> rewrites cfg w Minus l r (UnOp Minus r)
| rw_minus_zero : forall l r, lit_eq r fzero -> rewrites cfg w Minus l r l
| rw_minus_same : forall l r, el_eq l r = Val true -> rewrites cfg w Minus l r (Number fzero)
| rw_minus_neg : forall l a, nightly cfg = true ->
    rewrites cfg w Minus l (UnOp Minus a) (BinOp Plus l a)
| rw_zero_times : forall l r, lit_eq l fzero -> rewrites cfg w Times l r (Number fzero)
| rw_times_zero : forall l r, lit_eq r fzero -> rewrites cfg w Times l r (Number fzero)
| rw_one_times : forall l r, lit_eq l fone -> rewrites cfg w Times l r r
| rw_times_one : forall l r, lit_eq r fone -> rewrites cfg w Times l r l
| rw_neg_times_neg : forall a b, nightly cfg = true ->
    rewrites cfg w Times (UnOp Minus a) (UnOp Minus b) (BinOp Times a b)
| rw_zero_div_zero : forall l r, lit_eq l fzero -> lit_eq r fzero ->
    rewrites cfg w Divide l r (Number fnan)
| rw_zero_div : forall l r, lit_eq l fzero -> ~ lit_eq r fzero ->
    rewrites cfg w Divide l r (Number fzero)
| rw_div_zero : forall l r, ~ lit_eq l fzero -> lit_eq r fzero ->
    rewrites cfg w Divide l r (Number finf)
| rw_div_one : forall l r, lit_eq r fone -> rewrites cfg w Divide l r l
| rw_div_same : forall l r, ~ lit_eq r fzero -> el_eq l r = Val true ->
    rewrites cfg w Divide l r (Number fone)
| rw_neg_div_neg : forall a b, nightly cfg = true ->
    rewrites cfg w Divide (UnOp Minus a) (UnOp Minus b) (BinOp Divide a b)
| rw_zero_pow_zero : forall l r, lit_eq l fzero -> lit_eq r fzero ->
    rewrites cfg w Power l r (Number fone)
| rw_zero_pow : forall l r, lit_eq l fzero -> ~ lit_eq r fzero ->
    rewrites cfg w Power l r (Number fzero)
| rw_pow_one : forall l r, lit_eq r fone -> rewrites cfg w Power l r l
| rw_zero_mod_zero : forall l r, lit_eq l fzero -> lit_eq r fzero ->
    rewrites cfg w Modulo l r (Number fnan)
| rw_zero_mod : forall l r, lit_eq l fzero -> ~ lit_eq r fzero ->
    rewrites cfg w Modulo l r (Number fzero)
| rw_mod_zero : forall l r, ~ lit_eq l fzero -> lit_eq r fzero ->
    rewrites cfg w Modulo l r (Number fnan)
| rw_mod_one : forall l r, lit_eq r fone -> rewrites cfg w Modulo l r (Number fzero)
| rw_mod_same : forall l r, ~ lit_eq r fzero -> el_eq l r = Val true ->
    rewrites cfg w Modulo l r (Number fzero)
| rw_fold : forall op x y v, apply_binop w op x y = Val v ->
    rewrites cfg w op (Number x) (Number y) (Number v)
| rw_keep : forall op l r, rewrites cfg w op l r (BinOp op l r).
