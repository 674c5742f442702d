(** * Specification: another run of the same program

    The standard library seeds its hash tables anew in every run, so two runs
    differ in the order in which sets are iterated, and in nothing else. *)
From Coq Require Import NArith List String Permutation.
From Verif Require Import F64 Syntax Parser Xprs.
Import ListNotations.
Local Open Scope string_scope.

(** the run [w] with another order of iteration *)
Definition reseed (w : world) (order : list string -> list string) : world :=
  {| l_sin := l_sin w; l_sinh := l_sinh w; l_asin := l_asin w; l_asinh := l_asinh w;
     l_cos := l_cos w; l_cosh := l_cosh w; l_acos := l_acos w; l_acosh := l_acosh w;
     l_tan := l_tan w; l_tanh := l_tanh w; l_atan := l_atan w; l_atanh := l_atanh w;
     l_atan2 := l_atan2 w; l_ln := l_ln w; l_log10 := l_log10 w; l_cbrt := l_cbrt w; l_exp := l_exp w;
     l_hypot := l_hypot w; l_powf := l_powf w; l_tgamma := l_tgamma w;
     sum_neg_zero := sum_neg_zero w; minmax_second := minmax_second w;
     hash_order := order; user_fn := user_fn w |}.

(** the same error of [bind] but for the order of the names in it *)
Definition same_names (e e' : bind_error) : Prop :=
  exists m m', Permutation m m' /\
    ((e = OneVariable (String.concat ", " m) /\ e' = OneVariable (String.concat ", " m')) \/
     (e = MultipleVariables (String.concat ", " m) /\ e' = MultipleVariables (String.concat ", " m'))).

(** the same result of [bind]: the same function, or such an error *)
Definition same_bound {F} (r r' : out (bind_result F)) : Prop :=
  r = r' \/ exists e e', r = Val (Bind_err e) /\ r' = Val (Bind_err e') /\ same_names e e'.
