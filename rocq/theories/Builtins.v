(** * Built-in functions and identifiers

    Models /repo/src/utils/built_in_functions.rs, the [xprs_fn!] macro of
    /repo/src/token/function.rs:121-205 and /repo/src/token/identifier.rs. *)
From Coq Require Import ZArith NArith List String Ascii Bool.
From Verif Require Import F64 Syntax Factorial.
Import ListNotations.
Local Open Scope string_scope.

(** [xprs_fn!(wrap f, 1)] — function.rs:169-172: [move |args| f(args[0])] *)
Definition wrap1 (f : f64 -> f64) (args : list f64) : out f64 :=
  match args with
  | a :: _ => Val (f a)
  | [] => Boom IndexOutOfBounds
  end.

(** [xprs_fn!(wrap f, 2)] — function.rs:173-176: [move |args| f(args[0], args[1])] *)
Definition wrap2 (f : f64 -> f64 -> f64) (args : list f64) : out f64 :=
  match args with
  | a :: b :: _ => Val (f a b)
  | _ => Boom IndexOutOfBounds
  end.

(** [args.iter().sum::<f64>()] — built_in_functions.rs:78, 83: std folds [+] from a zero. *)
Definition sum_f64 (w : world) (args : list f64) : f64 :=
  fold_left fadd args (if sum_neg_zero w then fnzero else fzero).

(** [f64::min] / [f64::max], as used in built_in_functions.rs:90-97: a NaN operand
    is ignored; on equal operands either may be returned. *)
Definition min_f64 (w : world) (x y : f64) : f64 :=
  if fis_nan x then y else if fis_nan y then x
  else if flt x y then x else if flt y x then y
  else if minmax_second w then y else x.
Definition max_f64 (w : world) (x y : f64) : f64 :=
  if fis_nan x then y else if fis_nan y then x
  else if flt x y then y else if flt y x then x
  else if minmax_second w then y else x.

(** The closures of built_in_functions.rs:5-109.  [f64::log(self, base)] is
    [self.ln() / base.ln()] in std. *)
Definition call_builtin (w : world) (b : builtin) : list f64 -> out f64 :=
  match b with
  | B_SIN => wrap1 (l_sin w)
  | B_SINH => wrap1 (l_sinh w)
  | B_ASIN => wrap1 (l_asin w)
  | B_ASINH => wrap1 (l_asinh w)
  | B_COS => wrap1 (l_cos w)
  | B_COSH => wrap1 (l_cosh w)
  | B_ACOS => wrap1 (l_acos w)
  | B_ACOSH => wrap1 (l_acosh w)
  | B_TAN => wrap1 (l_tan w)
  | B_TANH => wrap1 (l_tanh w)
  | B_ATAN => wrap1 (l_atan w)
  | B_ATAN2 => wrap2 (l_atan2 w)
  | B_ATANH => wrap1 (l_atanh w)
  | B_LN => wrap1 (l_ln w)
  | B_LOG => wrap1 (l_log10 w)
  | B_LOGN => wrap2 (fun x base => fdiv (l_ln w x) (l_ln w base))
  | B_SQRT => wrap1 fsqrt
  | B_CBRT => wrap1 (l_cbrt w)
  | B_EXP => wrap1 (l_exp w)
  | B_ABS => wrap1 fabs
  | B_FLOOR => wrap1 ffloor
  | B_CEIL => wrap1 fceil
  | B_ROUND => wrap1 fround
  | B_TRUNC => wrap1 ftrunc
  | B_SUM => fun args => Val (sum_f64 w args)                              (* line 78 *)
  | B_MEAN => fun args =>                                                  (* lines 82-84 *)
      Val (fdiv (sum_f64 w args) (f64_of_Z (Z.of_nat (List.length args))))
  | B_RECIP => wrap1 frecip
  | B_MIN => fun args => Val (fold_left (min_f64 w) args finf)             (* lines 90-92 *)
  | B_MAX => fun args => Val (fold_left (max_f64 w) args fninf)            (* lines 95-97 *)
  | B_HYPOT => wrap2 (l_hypot w)
  | B_FRACT => wrap1 ffract
  | B_FACTORIAL => wrap1 factorial
  | B_GAMMA => wrap1 (l_tgamma w)
  end.

(** The [name] field of each built-in constant — built_in_functions.rs:5-109. *)
Definition builtin_name (b : builtin) : string :=
  match b with
  | B_SIN => "sin" | B_SINH => "sinh" | B_ASIN => "asin" | B_ASINH => "asinh"
  | B_COS => "cos" | B_COSH => "cosh" | B_ACOS => "acos" | B_ACOSH => "acosh"
  | B_TAN => "tan" | B_TANH => "tanh" | B_ATAN => "atan" | B_ATAN2 => "atan2"
  | B_ATANH => "atanh" | B_LN => "ln" | B_LOG => "log" | B_LOGN => "logn"
  | B_SQRT => "sqrt" | B_CBRT => "cbrt" | B_EXP => "exp" | B_ABS => "abs"
  | B_FLOOR => "floor" | B_CEIL => "ceil" | B_ROUND => "round" | B_TRUNC => "trunc"
  | B_SUM => "sum" | B_MEAN => "mean" | B_RECIP => "recip" | B_MIN => "min"
  | B_MAX => "max" | B_HYPOT => "hypot" | B_FRACT => "fract"
  | B_FACTORIAL => "factorial" | B_GAMMA => "gamma"
  end.

(** The [nb_args] field: the last argument of [xprs_fn!], absent for variadics. *)
Definition builtin_nb_args (b : builtin) : option nat :=
  match b with
  | B_ATAN2 | B_LOGN | B_HYPOT => Some 2
  | B_SUM | B_MEAN | B_MIN | B_MAX => None
  | _ => Some 1
  end.

(** The [Function] constant — [Function::new_static], function.rs:27-37. *)
Definition builtin_function (b : builtin) : function :=
  {| fn_name := builtin_name b; fn_ptr := Static_builtin b; fn_nb_args := builtin_nb_args b |}.

(** Calling through a [FnPointer] — [Deref for FnPointer], function.rs:87-96,
    used by [FunctionCall::call], function_call.rs:30-32. *)
Definition call_ptr (w : world) (p : fn_pointer) (args : list f64) : out f64 :=
  match p with
  | Static_builtin b => call_builtin w b args
  | Static_user id | Dyn_user id =>
      match user_fn w id args with Some v => Val v | None => Boom UserPanic end
  end.

Definition call_function (w : world) (f : function) (args : list f64) : out f64 :=
  call_ptr w (fn_ptr f) args.

(** [Identifier] — /repo/src/token/identifier.rs:8-15 *)
Inductive identifier :=
| I_Function (f : function)
| I_Constant (v : f64)
| I_Variable (name : string).

(** [Identifier::from_str] — identifier.rs:20-68, arm by arm. *)
Definition identifier_from_str (s : string) : identifier :=
  if s =? "pi" then I_Constant f64_PI
  else if s =? "e" then I_Constant f64_E
  else if s =? "sin" then I_Function (builtin_function B_SIN)
  else if s =? "sinh" then I_Function (builtin_function B_SINH)
  else if s =? "asin" then I_Function (builtin_function B_ASIN)
  else if s =? "asinh" then I_Function (builtin_function B_ASINH)
  else if s =? "cos" then I_Function (builtin_function B_COS)
  else if s =? "cosh" then I_Function (builtin_function B_COSH)
  else if s =? "acos" then I_Function (builtin_function B_ACOS)
  else if s =? "acosh" then I_Function (builtin_function B_ACOSH)
  else if s =? "tan" then I_Function (builtin_function B_TAN)
  else if s =? "tanh" then I_Function (builtin_function B_TANH)
  else if s =? "atan" then I_Function (builtin_function B_ATAN)
  else if s =? "atan2" then I_Function (builtin_function B_ATAN2)
  else if s =? "atanh" then I_Function (builtin_function B_ATANH)
  else if s =? "ln" then I_Function (builtin_function B_LN)
  else if s =? "log" then I_Function (builtin_function B_LOG)
  else if s =? "logn" then I_Function (builtin_function B_LOGN)
  else if s =? "sqrt" then I_Function (builtin_function B_SQRT)
  else if s =? "cbrt" then I_Function (builtin_function B_CBRT)
  else if s =? "exp" then I_Function (builtin_function B_EXP)
  else if s =? "abs" then I_Function (builtin_function B_ABS)
  else if s =? "floor" then I_Function (builtin_function B_FLOOR)
  else if s =? "ceil" then I_Function (builtin_function B_CEIL)
  else if s =? "round" then I_Function (builtin_function B_ROUND)
  else if s =? "trunc" then I_Function (builtin_function B_TRUNC)
  else if s =? "sum" then I_Function (builtin_function B_SUM)
  else if s =? "mean" then I_Function (builtin_function B_MEAN)
  else if (s =? "invert") || (s =? "recip") then I_Function (builtin_function B_RECIP)
  else if s =? "min" then I_Function (builtin_function B_MIN)
  else if s =? "max" then I_Function (builtin_function B_MAX)
  else if s =? "hypot" then I_Function (builtin_function B_HYPOT)
  else if s =? "fract" then I_Function (builtin_function B_FRACT)
  else if s =? "gamma" then I_Function (builtin_function B_GAMMA)
  else if s =? "factorial" then I_Function (builtin_function B_FACTORIAL)
  else I_Variable s.
