(** * The project's own tests, run in the model

    These are tests of the model, not proofs of its properties: the cases of
    /repo/src/tests with the expected results written there.  Left out:
    thread_safety.rs (a statement about Rust's auto traits) and the three
    cases whose expected value comes from libm ("sin(-cos(2))" in
    comptime_optimizations.rs, "sin(-cos(2))" and "sin(2)^2" in eval.rs).
    Where the project compares floats up to EPSILON the comparison here is
    exact.  A wrong reading of the Rust code that contradicts the
    project's test-suite would fail here. *)
From Coq Require Import ZArith NArith List String Ascii Bool.
From Verif Require Import F64 Syntax Factorial Builtins Context Element Parser Xprs.
From Verif Require Import TestWorld.
Import ListNotations.
Local Open Scope string_scope.

(** [powf] for the exponents that occur below *)
Definition pow_small (x y : f64) : f64 :=
  if feq y (lit "2") then fmul x x
  else if feq y (lit "4") then fmul (fmul x x) (fmul x x)
  else if feq y (lit "5") then fmul x (fmul (fmul x x) (fmul x x))
  else fnan.
Definition w_tests : world :=
  let f := fun x : f64 => x in
  let g := fun x y : f64 => fmul x y in
  mk_world f f f f f f f f f f f f g f f f f g pow_small f false false (fun s => s)
    (fun id args => match id, args with
                    | 0, [x] => Some (fmul x (lit "2"))                   (* double *)
                    | 1, [x; y] => Some (fadd x y)                        (* add *)
                    | 2, [x; y] => Some (fadd (fmul (lit "2") x) y)       (* hof *)
                    | _, _ => None
                    end).

Definition pejmdas_opt : config :=
  {| pejmdas := true; optimize := true; nightly := false; overflow_checks := false |}.

Definition N' (s : string) : element := Number (lit s).
Definition same_set (a b : list string) : bool :=
  forallb (fun x => existsb (String.eqb x) b) a && forallb (fun x => existsb (String.eqb x) a) b.
Definition parses_as (cfg : config) (ctx : context) (t : string * element * list string) : bool :=
  let '(text, tree, vs) := t in
  ok_and (parse cfg w_tests ctx text) (fun x => same_tree (root x) tree && same_set (vars x) vs).
Definition is_error (cfg : config) (ctx : context) (text : string) : bool :=
  match parse cfg w_tests ctx text with Parse_err _ => true | _ => false end.
Definition equal_results (cfg : config) (t : string * string) : bool :=
  match parse cfg w_tests ctx_default (fst t), parse cfg w_tests ctx_default (snd t) with
  | Parse_ok x, Parse_ok y => same_tree (root x) (root y) && same_set (vars x) (vars y)
  | _, _ => false
  end.
Definition evals_to (cfg : config) (ctx : context) (t : string * list (string * f64) * f64) : bool :=
  let '(text, vs, v) := t in
  match parse cfg w_tests ctx text with
  | Parse_ok x => match eval w_tests x vs with Val (Eval_ok u) => same_f64 u v | _ => false end
  | _ => false
  end.

Notation "a + b" := (BinOp Plus a b) (only parsing).
Notation "a * b" := (BinOp Times a b) (only parsing).
Notation "a ^ b" := (BinOp Power a b) (only parsing).
Definition sin_ := builtin_function B_SIN.
Definition neg (e : element) := UnOp Minus e.

(** tests/parser/valid.rs:42-426, without compile-time optimisations *)
Definition valid_cases : list (string * element * list string) :=
  [ ("2", N' "2", []); ("((2))", N' "2", []);
    ("2 + pi", N' "2" + Number f64_PI, []);
    ("2 * y", N' "2" * Var "y", ["y"]);
    ("(2 + 1) + 3", (N' "2" + N' "1") + N' "3", []);
    ("-(2 + 1)^4", neg ((N' "2" + N' "1") ^ N' "4"), []);
    ("(-(2 + 1))^4", neg (N' "2" + N' "1") ^ N' "4", []);
    ("2 + 3", N' "2" + N' "3", []);
    ("2 + 3 * 4", N' "2" + (N' "3" * N' "4"), []);
    ("2 * 4 + 1", (N' "2" * N' "4") + N' "1", []);
    ("3 / 2 * 4", BinOp Divide (N' "3") (N' "2") * N' "4", []);
    ("3 % 2 * 4", BinOp Modulo (N' "3") (N' "2") * N' "4", []);
    ("2 + -5", N' "2" + neg (N' "5"), []);
    ("2 + 3 ^ 2 * 3 + 4", (N' "2" + ((N' "3" ^ N' "2") * N' "3")) + N' "4", []);
    ("2^2^(2^2 + 1)", BinOp Power (BinOp Power (N' "2") (N' "2")) (BinOp Power (N' "2") (N' "2") + N' "1"), []);
    ("2 * (3 + (4 - 1))", N' "2" * (N' "3" + BinOp Minus (N' "4") (N' "1")), []);
    ("sin(2)", Call sin_ [N' "2"], []);
    ("abs(sin(2))", Call (builtin_function B_ABS) [Call sin_ [N' "2"]], []);
    ("sin(-cos(2))", Call sin_ [neg (Call (builtin_function B_COS) [N' "2"])], []);
    ("sin(2)^2", Call sin_ [N' "2"] ^ N' "2", []);
    ("2 * x + 3y + 4x + 5",
      (((N' "2" * Var "x") + (N' "3" * Var "y")) + (N' "4" * Var "x")) + N' "5", ["x"; "y"]);
    ("-1 + 2", neg (N' "1") + N' "2", []);
    ("-1 * 2", neg (N' "1") * N' "2", []);
    ("1 / -2", BinOp Divide (N' "1") (neg (N' "2")), []);
    ("1 ^ -2", N' "1" ^ neg (N' "2"), []);
    ("-2 ^ 2", neg (N' "2" ^ N' "2"), []) ].
Example valid_rs : forallb (parses_as plain_config ctx_default) valid_cases = true
                /\ forallb (parses_as pejmdas_plain ctx_default) valid_cases = true.
Proof. split; vm_compute; reflexivity. Qed.

(** tests/parser/valid.rs:428-439 *)
Example whitespace_rs : forallb (equal_results plain_config)
  [("2 + 3", "2+3"); ("2 + 3 * 4", "2+3*4"); ("2 * 4 + 1", "2*4+1"); ("3 / 2 * 4", "3/2*4");
   ("3  %2*  4", "3%2*4"); ("2 +  - 5", "2+-5"); ("2 + 3 ^ 2 * 3 + 4", "2+3^2*3+4");
   ("2^ 2  ^ (2^ 2 + 1)", "2^2^(2^2+1)"); ("2 * (3 + (4 - 1) )", "2*(3+(4-1))");
   ("sin   ( 2 )  ^ 2", "sin(2)^2")] = true.
Proof. vm_compute. reflexivity. Qed.

(** tests/parser/error.rs; implicit_multiplication.rs:53; issue_15.rs:26 *)
Example error_rs : forall cfg, In cfg [plain_config; default_config; pejmdas_plain; pejmdas_opt; nightly_config] ->
  forallb (is_error cfg ctx_default)
    ["sin 2"; "sin+2"; "sin(2"; "2+ -3 +"; "(2 + 3"; "2 + 3)"; "2 * (3 + 4"; "2 * (3 + )"; "1 2"; "2 5"; "1.2e+"; "1.2e-"] = true.
Proof. intros cfg H. repeat (destruct H as [<- | H]; [vm_compute; reflexivity|]). contradiction. Qed.

(** tests/parser/implicit_multiplication.rs *)
Definition implicit_common : list (string * string) :=
  [("2(3)", "2*(3)"); ("2(3+4)", "2*(3+4)"); ("2 (3+4)5", "2*(3+4)*5"); ("2 (3+4) 5", "2*(3+4)*5");
   ("2(3+4)(5+6)", "2*(3+4)*(5+6)"); ("2x + 3 x y", "2*x + 3*x*y"); ("12 + 3-1x+3y x", "12 + 3-1*x+3*y*x")].
Example implicit_pemdas_rs : forall cfg, In cfg [plain_config; default_config; debug_plain; debug_opt; nightly_config] ->
  forallb (equal_results cfg) (implicit_common ++ [("6/2(2+1)", "6/2*(2+1)"); ("1/2x", "(1/2)*x")]) = true.
Proof. intros cfg H. repeat (destruct H as [<- | H]; [vm_compute; reflexivity|]). contradiction. Qed.
Example implicit_pejmdas_rs : forall cfg, In cfg [pejmdas_plain; pejmdas_opt] ->
  forallb (equal_results cfg) (implicit_common ++ [("6/2(2+1)", "6/(2*(2+1))"); ("1/2x", "1/(2*x)")]) = true.
Proof. intros cfg H. repeat (destruct H as [<- | H]; [vm_compute; reflexivity|]). contradiction. Qed.

(** tests/parser/comptime_optimizations.rs (nightly compares commuted operands) *)
Definition optimised_cases : list (string * element * list string) :=
  [ ("2 + pi", Number (fadd f64_PI (lit "2")), []);
    ("2 * y", N' "2" * Var "y", ["y"]); ("2 + 3 * 4", N' "14", []); ("2 * 4 + 1", N' "9", []);
    ("3 / 2 * 4", N' "6", []); ("3 % 2 * 4", N' "4", []); ("2 + -5", Number (fneg (lit "3")), []);
    ("2 + 3 ^ 2 * 3 + 4", N' "33", []); ("2^2^(2^2 + 1)", N' "1024", []); ("2 * (3 + (4 - 1))", N' "12", []);
    ("x - x", N' "0", []); ("(a + b) - (b + a)", N' "0", []) ].
Example comptime_rs : forallb (parses_as default_config ctx_default) optimised_cases = true
                   /\ forallb (parses_as nightly_config ctx_default) optimised_cases = true.
Proof. split; vm_compute; reflexivity. Qed.

(** tests/xprs/eval.rs; issue_15.rs *)
Definition eval_common : list (string * list (string * f64) * f64) :=
  [ ("2(3)", [], lit "6"); ("2 (3+4) 5", [], lit "70"); ("2 + 3 ^ 2 * 3 + 4", [], lit "33"); ("2^2^(2^2 + 1)", [], lit "1024");
    ("2 * x + 3y + 4x + 5", [("x", lit "2"); ("y", lit "3")], lit "26");
    ("12 + 3-1x+3y x", [("x", lit "2"); ("y", lit "3")], lit "31");
    ("1", [], lit "1"); ("1.2", [], lit "1.2"); ("1.2e3", [], lit "1200"); ("1.2e-3", [], lit "0.0012");
    ("1.2e+3", [], lit "1200"); ("1e", [], f64_E); ("1.2e", [], fmul (lit "1.2") f64_E);
    ("1.2e+ 1", [], fadd (fmul (lit "1.2") f64_E) (lit "1")); ("1.2e- 1", [], fsub (fmul (lit "1.2") f64_E) (lit "1")) ].
Example eval_pemdas_rs : forall cfg, In cfg [plain_config; default_config; debug_plain; debug_opt; nightly_config] ->
  forallb (evals_to cfg ctx_default)
    (eval_common ++ [("6/2(2+1)", [], lit "9"); ("1/2x", [("x", lit "2")], lit "1")]) = true.
Proof. intros cfg H. repeat (destruct H as [<- | H]; [vm_compute; reflexivity|]). contradiction. Qed.
Example eval_pejmdas_rs : forall cfg, In cfg [pejmdas_plain; pejmdas_opt] ->
  forallb (evals_to cfg ctx_default)
    (eval_common ++ [("6/2(2+1)", [], lit "1"); ("1/2x", [("x", lit "2")], lit "0.25")]) = true.
Proof. intros cfg H. repeat (destruct H as [<- | H]; [vm_compute; reflexivity|]). contradiction. Qed.
Example invalid_eval_rs :
  match parse plain_config w_tests ctx_default "2 * x + 3y + 4x + 5" with
  | Parse_ok x => match eval w_tests x [("x", lit "2")] with Val (Eval_err _) => true | _ => false end
  | _ => false
  end = true.
Proof. vm_compute. reflexivity. Qed.

(** tests/issues/issue_18.rs *)
Example issue_18_rs : forall cfg, In cfg [plain_config; default_config; pejmdas_plain; pejmdas_opt; nightly_config] ->
  ok_and (parse cfg w_tests ctx_default "x^4") (fun x => same_set (vars x) ["x"]) = true.
Proof. intros cfg H. repeat (destruct H as [<- | H]; [vm_compute; reflexivity|]). contradiction. Qed.

(** tests/factorial.rs *)
Example factorial_rs : forallb (fun t => same_f64 (factorial (fst t)) (snd t))
  [(fneg finf, fnan); (fneg (lit "5"), fnan); (fneg (lit "2.5"), fnan); (fneg (lit "1"), fnan); (fneg fzero, fone);
   (fzero, fone); (fone, fone); (lit "2.5", fnan); (lit "2", lit "2"); (lit "5", lit "120");
   (lit "169", lit "4.2690680090047027e304"); (lit "170", lit "7.257415615307994e306");
   (lit "171", finf); (finf, finf)] = true.
Proof. vm_compute. reflexivity. Qed.

(** tests/parser/ctx.rs *)
Definition DOUBLE := mk_function "double" (Static_user 0) (Some 1).
Definition ADD := mk_function "add" (Static_user 1) (Some 2).
Definition MEAN := mk_function "mean" (Static_user 3) None.
Definition ctx_rs_context : context :=
  set_fn (set_var (set_fn (set_fn (set_var (set_var ctx_default "x" (lit "2")) "phi" (lit "1.618033988749895")) DOUBLE) ADD) "y" (lit "1")) MEAN.
Definition two_phi_x := N' "2" + (N' "1.618033988749895" * N' "2").
Example ctx_rs : forallb (parses_as plain_config ctx_rs_context)
  [("y", N' "1", []); ("2 + phi", N' "2" + N' "1.618033988749895", []); ("2 + phi * x", two_phi_x, []);
   ("double(2 + phi * x)", Call DOUBLE [two_phi_x], []); ("add(2, 3)", Call ADD [N' "2"; N' "3"], []);
   ("mean(2, 3, 4)", Call MEAN [N' "2"; N' "3"; N' "4"], [])] = true.
Proof. vm_compute. reflexivity. Qed.

(** tests/xprs/hof.rs; the bound closure [2x + y] is user function 2 of [w_tests] *)
Definition hof_context : context := with_fn ctx_default (mk_function "hof" (Dyn_user 2) (Some 2)).
Example hof_rs :
  forallb (evals_to default_config hof_context)
    [("hof(2, 3)", [], lit "7"); ("hof(2, 3) + 3 * hof(4, 5)", [], lit "46"); ("hof(x, hof(2, 3))", [("x", lit "42")], lit "91")] = true /\
  is_error default_config hof_context "hof(2)" = true.
Proof. split; vm_compute; reflexivity. Qed.

(** tests/xprs/simplify.rs *)
Definition simplify_steps (cfg : config) : bool :=
  match parse cfg w_tests ctx_default "2x + 3y + 4x + 5z", parse cfg w_tests ctx_default "4 + 3y + 8 + 5z",
        parse cfg w_tests ctx_default "21 + 5z" with
  | Parse_ok x, Parse_ok y1, Parse_ok y2 =>
      match simplify_for cfg w_tests x ("x", lit "2") with
      | Val x1 =>
          match simplify_for cfg w_tests x1 ("y", lit "3") with
          | Val x2 =>
              match simplify_for cfg w_tests x2 ("unknown", lit "4") with
              | Val x3 => same_tree (root x1) (root y1) && same_set (vars x1) (vars y1) &&
                          same_tree (root x2) (root y2) && same_set (vars x2) (vars y2) &&
                          same_tree (root x3) (root y2) && same_set (vars x3) (vars y2)
              | Boom _ => false
              end
          | Boom _ => false
          end
      | Boom _ => false
      end
  | _, _, _ => false
  end.
Example simplify_rs : simplify_steps default_config = true /\ simplify_steps nightly_config = true.
Proof. split; vm_compute; reflexivity. Qed.
