(** * Specification vocabulary for the public API *)
From Coq Require Import ZArith NArith List String Ascii Bool.
From Verif Require Import F64 Syntax Builtins Context Parser Xprs SpecParse SpecTree.
Import ListNotations.

(** The functions a user put into the context return a value (do not panic) on
    every argument list the parser lets through: non-empty and of the declared
    arity. *)
Definition context_functions_return (w : world) (ctx : context) : Prop :=
  forall name f, sget name (ctx_symbols ctx) = Some (S_Function f) ->
  forall vs, vs <> [] -> (forall n, fn_nb_args f = Some n -> List.length vs = n) ->
  exists v, call_function w f vs = Val v.

(** The expressions a program can hold: parsed from a text without "!!" in a
    context whose functions return, possibly after partial evaluations. *)
Inductive obtained (cfg : config) (w : world) : xprs -> Prop :=
| ob_parse : forall ctx input x,
    context_functions_return w ctx -> ~ has_double_bang input ->
    parse cfg w ctx input = Parse_ok x -> obtained cfg w x
| ob_simplify : forall x var x',
    obtained cfg w x -> simplify_for cfg w x var = Val x' -> obtained cfg w x'.

(** A variable assignment as a partial function. *)
Definition lookup (rho : smap f64) : string -> option f64 := fun x => sget x rho.

(** Pairing names with values in order; a later value for a repeated name wins. *)
Fixpoint assign (names : list string) (vals : list f64) : string -> option f64 :=
  match names, vals with
  | n :: names', v :: vals' => fun y =>
      match assign names' vals' y with
      | Some u => Some u
      | None => if String.eqb y n then Some v else None
      end
  | _, _ => fun _ => None
  end.

(** [m] lists, once each, the variables of [x] that are not among [names]. *)
Definition missing_from (x : xprs) (names m : list string) : Prop :=
  NoDup m /\ forall v, In v m <-> In v (vars x) /\ ~ In v names.

(** The program's user functions, with function number [id] replaced by [g]. *)
Definition with_user_fn (w : world) (id : nat) (g : list f64 -> option f64) : world :=
  {| l_sin := l_sin w; l_sinh := l_sinh w; l_asin := l_asin w; l_asinh := l_asinh w;
     l_cos := l_cos w; l_cosh := l_cosh w; l_acos := l_acos w; l_acosh := l_acosh w;
     l_tan := l_tan w; l_tanh := l_tanh w; l_atan := l_atan w; l_atanh := l_atanh w;
     l_atan2 := l_atan2 w; l_ln := l_ln w; l_log10 := l_log10 w; l_cbrt := l_cbrt w;
     l_exp := l_exp w; l_hypot := l_hypot w; l_powf := l_powf w; l_tgamma := l_tgamma w;
     sum_neg_zero := sum_neg_zero w; minmax_second := minmax_second w;
     hash_order := hash_order w;
     user_fn := fun i => if Nat.eqb i id then g else user_fn w i |}.

(** A Rust closure as a user function: [None] when it panics. *)
Definition closure_fn (f : list f64 -> out f64) : list f64 -> option f64 :=
  fun args => match f args with Val v => Some v | Boom _ => None end.
