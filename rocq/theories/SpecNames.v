(** * Specification: names, built-ins and context updates *)
From Coq Require Import ZArith NArith List String Ascii Bool.
From Verif Require Import F64 Syntax Factorial Builtins Context Parser SpecTokens.
Import ListNotations.
Local Open Scope string_scope.

(** The documented built-in functions of one argument, with what they compute
    (README, "Built-in functions"; libm's functions are fields of [w]). *)
Definition unary_functions (w : world) : list (string * (f64 -> f64)) :=
  [("sin", l_sin w); ("cos", l_cos w); ("tan", l_tan w);
   ("asin", l_asin w); ("acos", l_acos w); ("atan", l_atan w);
   ("sinh", l_sinh w); ("cosh", l_cosh w); ("tanh", l_tanh w);
   ("asinh", l_asinh w); ("acosh", l_acosh w); ("atanh", l_atanh w);
   ("ln", l_ln w); ("log", l_log10 w);
   ("sqrt", fsqrt); ("cbrt", l_cbrt w); ("exp", l_exp w);
   ("floor", ffloor); ("ceil", fceil); ("round", fround); ("trunc", ftrunc);
   ("abs", fabs); ("fract", ffract); ("recip", frecip); ("invert", frecip);
   ("factorial", factorial); ("gamma", l_tgamma w)].

(** ... of two arguments; [logn(num, base)] *)
Definition binary_functions (w : world) : list (string * (f64 -> f64 -> f64)) :=
  [("atan2", l_atan2 w); ("hypot", l_hypot w);
   ("logn", fun num base => fdiv (l_ln w num) (l_ln w base))].

(** ... of any number of arguments *)
Definition variadic_functions : list string := ["min"; "max"; "sum"; "mean"].

(** All built-in function names with their arity. *)
Definition function_arities (w : world) : list (string * option nat) :=
  map (fun r => (fst r, Some 1)) (unary_functions w) ++
  map (fun r => (fst r, Some 2)) (binary_functions w) ++
  map (fun s => (s, None)) variadic_functions.

Definition constants : list string := ["pi"; "e"].

(** A name: a letter, then letters, digits, underscores and quotes. *)
Definition is_name (s : string) : Prop :=
  name_token (list_ascii_of_string s) [].

(** ** Context updates *)
Inductive update :=
| U_set_var (name : string) (v : f64)
| U_with_var (name : string) (v : f64)
| U_set_fn (f : function)
| U_with_fn (f : function)
| U_with_symbols (m : smap symbol)
| U_set_expected (s : list string)
| U_with_expected (s : list string).

(** Applying the corresponding method. *)
Definition apply_update (c : context) (u : update) : context :=
  match u with
  | U_set_var n v => set_var c n v
  | U_with_var n v => with_var c n v
  | U_set_fn f => set_fn c f
  | U_with_fn f => with_fn c f
  | U_with_symbols m => with_symbols c m
  | U_set_expected s => set_expected_vars c s
  | U_with_expected s => with_expected_vars c s
  end.
Definition apply_updates (c : context) (l : list update) : context := fold_left apply_update l c.

(** [writes u name s]: after [u], looking up [name] gives [s]. *)
Inductive writes : update -> string -> option symbol -> Prop :=
| W_set_var : forall n v, writes (U_set_var n v) n (Some (S_Variable v))
| W_with_var : forall n v, writes (U_with_var n v) n (Some (S_Variable v))
| W_set_fn : forall f, writes (U_set_fn f) (fn_name f) (Some (S_Function f))
| W_with_fn : forall f, writes (U_with_fn f) (fn_name f) (Some (S_Function f))
| W_symbol : forall m n s, In (n, s) m -> NoDup (map fst m) -> writes (U_with_symbols m) n (Some s)
| W_no_symbol : forall m n, ~ In n (map fst m) -> writes (U_with_symbols m) n None.

(** Updates that leave [name] alone. *)
Definition spares (name : string) (u : update) : Prop :=
  match u with
  | U_set_var n _ | U_with_var n _ => n <> name
  | U_set_fn f | U_with_fn f => fn_name f <> name
  | U_with_symbols _ => False
  | U_set_expected _ | U_with_expected _ => True
  end.

Definition expects (u : update) : option (list string) :=
  match u with
  | U_set_expected s | U_with_expected s => Some s
  | _ => None
  end.
