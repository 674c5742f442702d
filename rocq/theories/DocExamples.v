(** * The examples of the documentation, run in the model

    Tests of the model, like [Conformance.v]: the assertions and printed
    comments of the doc comments in /repo/src/xprs.rs, parser.rs, context.rs,
    of /repo/README.md (repeated in lib.rs) and of /repo/examples.  Under the
    default features, a debug build and the nightly compiler.  [sin] is libm's
    and not modelled: the only value needed, sin 5, is taken from README.md's
    own result -11.507091295957661 (sin 2 never reaches a stated result). *)
From Coq Require Import ZArith NArith List String Ascii Bool.
From Verif Require Import F64 Syntax Factorial Builtins Context Element Parser Xprs Display.
From Verif Require Import TestWorld Conformance ContextEq.
Import ListNotations.
Local Open Scope string_scope.

Definition sin_5 (x : f64) : f64 := if feq x (lit "5") then fneg (lit "0.9589242746631385") else fnan.
Definition w_docs : world :=
  let f := fun x : f64 => x in
  let g := fun x y : f64 => fmul x y in
  mk_world sin_5 f f f f f f f f f f f g f f f f g pow_small f false false (fun s => s)
    (fun id args => match id, args with
                    | 0, [x] => Some (fmul (lit "2") x)                   (* double *)
                    | 2, [x; y] => Some (fadd (fmul (lit "2") x) y)       (* hof *)
                    | _, _ => None
                    end).
Definition doc_configs : list config := [default_config; debug_opt; nightly_config].
Ltac each_config := intros cfg H; repeat (destruct H as [<- | H]; [vm_compute; reflexivity|]); contradiction.

Definition is_value (r : out eval_result) (v : f64) : bool :=
  match r with Val (Eval_ok u) => same_f64 u v | _ => false end.
Definition is_missing (r : out eval_result) : bool :=
  match r with Val (Eval_err _) => true | _ => false end.
Definition prints (r : out xprs) (text : string) (vs : list string) : bool :=
  match r with Val x => String.eqb (display_xprs x) text && same_set (vars x) vs | Boom _ => false end.
Definition then_ (r : out xprs) (f : xprs -> out xprs) : out xprs :=
  match r with Val x => f x | Boom p => Boom p end.

(** xprs.rs:59-71 and 103-114 *)
Example eval_docs : forall cfg, In cfg doc_configs ->
  ok_and (try_from cfg w_docs "2 * x + y") (fun x =>
    is_value (eval w_docs x [("x", lit "3"); ("y", lit "2")]) (lit "8") &&
    is_missing (eval w_docs x []) &&
    match eval_unchecked w_docs x [("x", lit "3"); ("y", lit "2")] with Val v => same_f64 v (lit "8") | Boom _ => false end &&
    match eval_unchecked w_docs x [] with Val _ => false | Boom _ => true end) = true.
Proof. each_config. Qed.

(** xprs.rs:130-139 and 180-189 *)
Example simplify_for_docs : forall cfg, In cfg doc_configs ->
  ok_and (try_from cfg w_docs "2 * x + y") (fun x =>
    prints (Val x) "((2 * x) + y)" ["x"; "y"] &&
    prints (simplify_for cfg w_docs x ("x", lit "3")) "(6 + y)" ["y"] &&
    match simplify_for_in_place cfg w_docs x ("x", lit "3") with
    | Returned (mk_cell (Owned e) vs) => prints (Val (mk_xprs e vs)) "(6 + y)" ["y"]
    | _ => false
    end) = true.
Proof. each_config. Qed.

(** xprs.rs:206-215 and 236-245 *)
Example simplify_for_multiple_docs : forall cfg, In cfg doc_configs ->
  ok_and (try_from cfg w_docs "2 * x + y + 4z") (fun x =>
    prints (Val x) "(((2 * x) + y) + (4 * z))" ["x"; "y"; "z"] &&
    prints (simplify_for_multiple cfg w_docs x [("x", lit "3"); ("z", lit "2")]) "((6 + y) + 8)" ["y"] &&
    match simplify_for_multiple_in_place cfg w_docs x [("x", lit "3"); ("z", lit "2")] with
    | Returned (mk_cell (Owned e) vs) => prints (Val (mk_xprs e vs)) "((6 + y) + 8)" ["y"]
    | _ => false
    end) = true.
Proof. each_config. Qed.

(** xprs.rs:388-395, 419-426, 450-457, 481-488, 512-519, 543-550, 574-581, 605-612, 636-643 *)
Definition L (n : nat) : f64 := lit (display_nat n).
Definition bound {F} (r : out (bind_result F)) (call : F -> out f64) (v : f64) : bool :=
  match r with
  | Val (Bound f) => match call f with Val u => same_f64 u v | Boom _ => false end
  | _ => false
  end.
Definition bind_docs_hold (cfg : config) : bool :=
  ok_and (parse cfg w_docs ctx_default "x + 2") (fun e =>
    bound (bind cfg w_docs e "x") (fun f => f (L 3)) (L 5)) &&
  ok_and (parse cfg w_docs ctx_default "x + y") (fun e =>
    bound (bind2 cfg w_docs e "x" "y") (fun f => f (L 3) (L 2)) (L 5)) &&
  ok_and (parse cfg w_docs ctx_default "x + y + z") (fun e =>
    bound (bind3 cfg w_docs e "x" "y" "z") (fun f => f (L 3) (L 2) (L 1)) (L 6)) &&
  ok_and (parse cfg w_docs ctx_default "w + x + y + z") (fun e =>
    bound (bind4 cfg w_docs e "w" "x" "y" "z") (fun f => f (L 1) (L 2) (L 3) (L 4)) (L 10)) &&
  ok_and (parse cfg w_docs ctx_default "v + w + x + y + z") (fun e =>
    bound (bind5 cfg w_docs e "v" "w" "x" "y" "z") (fun f => f (L 1) (L 2) (L 3) (L 4) (L 5)) (L 15)) &&
  ok_and (parse cfg w_docs ctx_default "u + v + w + x + y + z") (fun e =>
    bound (bind6 cfg w_docs e "u" "v" "w" "x" "y" "z")
      (fun f => f (L 1) (L 2) (L 3) (L 4) (L 5) (L 6)) (L 21)) &&
  ok_and (parse cfg w_docs ctx_default "t + u + v + w + x + y + z") (fun e =>
    bound (bind7 cfg w_docs e "t" "u" "v" "w" "x" "y" "z")
      (fun f => f (L 1) (L 2) (L 3) (L 4) (L 5) (L 6) (L 7)) (L 28)) &&
  ok_and (parse cfg w_docs ctx_default "s + t + u + v + w + x + y + z") (fun e =>
    bound (bind8 cfg w_docs e "s" "t" "u" "v" "w" "x" "y" "z")
      (fun f => f (L 1) (L 2) (L 3) (L 4) (L 5) (L 6) (L 7) (L 8)) (L 36)) &&
  ok_and (parse cfg w_docs ctx_default "r + s + t + u + v + w + x + y + z") (fun e =>
    bound (bind9 cfg w_docs e "r" "s" "t" "u" "v" "w" "x" "y" "z")
      (fun f => f (L 1) (L 2) (L 3) (L 4) (L 5) (L 6) (L 7) (L 8) (L 9)) (L 45)).
Example bind_docs : forall cfg, In cfg doc_configs -> bind_docs_hold cfg = true.
Proof. each_config. Qed.

(** xprs.rs:673-680 and 707-714 *)
Example bind_n_docs : forall cfg, In cfg doc_configs ->
  ok_and (parse cfg w_docs ctx_default "a + b + c + d") (fun e =>
    bound (bind_n cfg w_docs e ["a"; "b"; "c"; "d"]) (fun f => f [L 1; L 2; L 3; L 4]) (L 10) &&
    match bind_n_runtime cfg w_docs e ["a"; "b"; "c"; "d"] with
    | Val (Bound f) => is_value (f [L 1; L 2; L 3; L 4]) (L 10)
    | _ => false
    end) = true.
Proof. each_config. Qed.

(** parser.rs:31-35 and 76-82 *)
Example parser_docs : forall cfg, In cfg doc_configs ->
  ok_and (parse cfg w_docs ctx_default "2 * (x + 1)") (fun _ => true) &&
  match parse cfg w_docs ctx_default "(x + 1" with Parse_err _ => true | _ => false end = true.
Proof. each_config. Qed.

(** context.rs:37-51; the function is a user function named "sin" *)
Definition user_sin : function := mk_function "sin" (Static_user 7) (Some 1).
Example context_docs :
  let context := with_expected_vars (with_fn (with_var ctx_default "x" (lit "42")) user_sin) ["y"] in
  match ctx_get context "x" with Some (S_Variable v) => same_f64 v (lit "42") | _ => false end = true /\
  ctx_get context "sin" = Some (S_Function user_sin) /\
  get_expected_vars context = Some ["y"].
Proof. split; [vm_compute; reflexivity|split; vm_compute; reflexivity]. Qed.

(** README.md "Crate Features": folding while parsing *)
Example features_docs : forall cfg, In cfg doc_configs ->
  ok_and (parse cfg w_docs ctx_default "1 + 2 * 3") (fun x => prints (Val x) "7" []) &&
  ok_and (parse cfg w_docs ctx_default "(x - x) * (y + 4z)") (fun x => prints (Val x) "0" []) = true.
Proof. each_config. Qed.

(** README.md "Simple examples": numbers *)
Example numbers_docs : forall cfg, In cfg doc_configs ->
  ok_and (parse cfg w_docs ctx_default "1e-3") (fun x => is_value (eval_no_vars w_docs x) (lit "0.001")) &&
  ok_and (parse cfg w_docs ctx_default "1_000_000e2") (fun x => is_value (eval_no_vars w_docs x) (lit "100000000")) = true.
Proof. each_config. Qed.

(** README.md "Context and Parser", examples/with_context.rs *)
Example with_context_docs : forall cfg, In cfg doc_configs ->
  let context := set_var (with_var (with_fn ctx_default (mk_function "double" (Static_user 0) (Some 1))) "foo" (lit "1"))
                   "bar" (lit "2") in
  ok_and (parse cfg w_docs context "double(foo) + bar") (fun x => is_value (eval_no_vars w_docs x) (lit "4")) = true.
Proof. each_config. Qed.

(** README.md, examples/with_allowed_variables.rs *)
Example allowed_variables_docs : forall cfg, In cfg doc_configs ->
  let context := with_expected_vars ctx_default ["x"; "y"] in
  ok_and (parse cfg w_docs context "x + y") (fun _ => true) &&
  match parse cfg w_docs context "x + z" with
  | Parse_err e => match pe_kind e with VariableNotDeclared n _ => String.eqb n "z" | _ => false end
  | _ => false
  end = true.
Proof. each_config. Qed.

(** README.md "Operations": -4! is -(4!), and ! of a fraction is NaN *)
Example factorial_docs : forall cfg, In cfg doc_configs ->
  ok_and (parse cfg w_docs ctx_default "-4!") (fun x => is_value (eval_no_vars w_docs x) (fneg (lit "24"))) &&
  ok_and (parse cfg w_docs ctx_default "(-4)!") (fun x => is_value (eval_no_vars w_docs x) fnan) &&
  ok_and (parse cfg w_docs ctx_default "2.5!") (fun x => is_value (eval_no_vars w_docs x) fnan) = true.
Proof. each_config. Qed.

(** README.md "Xprs simplification", examples/xprs_simplification.rs *)
Example simplification_docs : forall cfg, In cfg doc_configs ->
  ok_and (try_from cfg w_docs "w + sin(x + 2y) * (3 * z)") (fun x =>
    prints (Val x) "(w + (sin((x + (2 * y))) * (3 * z)))" ["w"; "x"; "y"; "z"] &&
    prints (simplify_for cfg w_docs x ("z", lit "4")) "(w + (sin((x + (2 * y))) * 12))" ["w"; "x"; "y"] &&
    prints (then_ (simplify_for cfg w_docs x ("z", lit "4"))
                  (fun x => simplify_for_multiple cfg w_docs x [("x", lit "1"); ("y", lit "2")]))
           "(w + -11.507091295957661)" ["w"]) = true.
Proof. each_config. Qed.

(** README.md "Higher order functions", examples/higher_order_functions.rs;
    the bound closure is user function 2 of [w_docs] *)
Example hof_docs : forall cfg, In cfg doc_configs ->
  ok_and (try_from cfg w_docs "2x + y") (fun e =>
    match bind2 cfg w_docs e "x" "y" with
    | Val (Bound f) =>
        match f (lit "2") (lit "3"), user_fn w_docs 2 [lit "2"; lit "3"] with
        | Val u, Some v => same_f64 u v
        | _, _ => false
        end
    | _ => false
    end) &&
  ok_and (parse cfg w_docs (with_fn ctx_default (mk_function "hof" (Dyn_user 2) (Some 2))) "hof(2, 3)")
    (fun x => is_value (eval_no_vars w_docs x) (lit "7")) = true.
Proof. each_config. Qed.
