(** * C57: functions made with the [xprs_fn!] macro *)
From Coq Require Import ZArith NArith List String Ascii Bool Lia.
From Verif Require Import F64 Syntax Factorial Builtins Context Element Parser Xprs Macro.
From Verif Require Import SpecTree SpecParse SpecApi PropertiesParse PropertiesEval TestWorld.
Import ListNotations.
Local Open Scope string_scope.

(** ** Specification: what an invocation is meant to denote

    [name, f], [name, dyn f], [f], [dyn f]: a variadic function;
    [name, f, n], [name, dyn f, n], [f, n], [dyn f, n]: a function of [n] numbers.
    Without [dyn] the function may not capture anything.  Without a name the text
    of the function is its name. *)
Definition given_name (named : option string) (source : string) : string :=
  match named with Some s => s | None => source end.
Definition invocation (named : option string) (dyn : bool) (f : arg_expr) (count : option nat) : list macro_arg :=
  (match named with Some s => [mk_arg false (E_str s)] | None => [] end ++
  [mk_arg dyn f] ++
  match count with Some n => [mk_arg false (E_int n)] | None => [] end)%list.

(** ** Theorems *)
(** All forms give what they say, except [f, n] *)
Theorem C57_macro_forms : forall named (dyn : bool) source captures count id,
  (captures = true -> dyn = true) -> (forall n, count = Some n -> n <= 9) ->
  ~ (named = None /\ dyn = false /\ count <> None) ->
  xprs_fn (invocation named dyn (E_fn source captures count id) count) =
  Some (mk_function (given_name named source) (if dyn then Dyn_user id else Static_user id) count).
Proof.
  intros named dyn source captures count id Hc Hn Hf.
  assert (Hd : (negb dyn && captures)%bool = false) by (destruct captures, dyn; auto; discriminate (Hc eq_refl)).
  destruct named as [s|], dyn, count as [n|]; cbn in *; unfold xprs_fn; cbn [invocation app expand];
    try (rewrite (proj2 (Nat.leb_le n 9) (Hn n eq_refl))); cbn; rewrite ?Hd, ?Nat.eqb_refl; auto.
  elim Hf. repeat split; congruence.
Qed.

(** [xprs_fn!(f, n)] never compiles, although the macro has an arm for it. *)
Theorem C57_unnamed_fixed_static_rejected : forall f n, xprs_fn (invocation None false f (Some n)) = None.
Proof. intros [s|k|s c p id] n; reflexivity. Qed.

(** Nothing else compiles: what does has one of those forms. *)
Theorem C57_only_these_forms : forall args fn, xprs_fn args = Some fn ->
  exists named dyn source captures count id,
    args = invocation named dyn (E_fn source captures count id) count /\
    (captures = true -> dyn = true) /\ (forall n, count = Some n -> n <= 9) /\
    ~ (named = None /\ dyn = false /\ count <> None) /\
    fn = mk_function (given_name named source) (if dyn then Dyn_user id else Static_user id) count.
Proof.
  intros args fn H. unfold xprs_fn in H.
  destruct args as [|[d1 e1] [|[d2 e2] [|[d3 e3] [|a args]]]]; try discriminate H.
  - destruct e1 as [s|k|src cap [k|] id]; destruct d1; cbn in H; try discriminate H.
    + injection H as <-. exists None, true, src, cap, None, id. repeat split; auto; try discriminate. intros [_ [H _]]; discriminate H.
    + destruct cap; [discriminate H|]. injection H as <-. exists None, false, src, false, None, id. repeat split; auto; try discriminate.
      intros [_ [_ H]]. congruence.
  - destruct d1, d2; cbn in H; try discriminate H.
    + destruct e2 as [s|n|]; try discriminate H. destruct (Nat.leb_spec n 9); [|discriminate H].
      destruct e1 as [s'|k|src cap [k|] id]; try discriminate H. cbn in H.
      destruct (Nat.eqb_spec k n); [|discriminate H]. subst k. injection H as <-.
      exists None, true, src, cap, (Some n), id. repeat split; auto; [intros ? [= <-]; auto|intros [_ [E _]]; discriminate E].
    + destruct e1 as [s'|k|]; try discriminate H. destruct e2 as [s|n|src cap [k|] id]; try discriminate H. cbn in H. injection H as <-.
      exists (Some s'), true, src, cap, None, id. repeat split; auto; try discriminate. intros [E _]; discriminate E.
    + destruct e1 as [s'|k|]; try discriminate H. destruct e2 as [s|n|src cap [k|] id]; try discriminate H. cbn in H.
      destruct cap; [discriminate H|]. injection H as <-.
      exists (Some s'), false, src, false, None, id. repeat split; auto; try discriminate. intros [E _]; discriminate E.
  - destruct e3 as [s3|n|]; [destruct d1, d2, d3, e2; cbn in H; discriminate H| |destruct d1, d2, d3, e2; cbn in H; discriminate H].
    destruct d1; [destruct d2, e2; cbn in H; discriminate H|]. destruct d2, d3; cbn in H; try discriminate H; (destruct (Nat.leb_spec n 9); [|discriminate H]);
      destruct e1 as [s'|k|]; try discriminate H; destruct e2 as [s|k|src cap [k|] id]; try discriminate H; cbn in H.
    + destruct (Nat.eqb_spec k n); [|discriminate H]. subst k. injection H as <-.
      exists (Some s'), true, src, cap, (Some n), id. repeat split; auto; [intros ? [= <-]; auto|intros [E _]; discriminate E].
    + destruct cap; [discriminate H|]. destruct (Nat.eqb_spec k n); [|discriminate H]. subst k. injection H as <-.
      exists (Some s'), false, src, false, (Some n), id. repeat split; auto; [intros ? [= <-]; auto|intros [E _]; discriminate E].
  - exfalso. destruct d1, d2, d3, e2, e3; cbn in H; discriminate H.
Qed.

(** Calls in a parsed expression pass exactly the argument values, in order: the
    wrapping closure never indexes out of bounds and never drops an argument. *)
Theorem C57_arguments_passed_in_order : forall cfg w ctx input x named dyn source captures n id g fn args rho vs v,
  xprs_fn (invocation named dyn (E_fn source captures (Some n) id) (Some n)) = Some fn ->
  (forall l, user_fn w id l = wrap n g l) ->
  parse cfg w ctx input = Parse_ok x -> sub (Call fn args) (root x) ->
  means_all w (lookup rho) args vs -> g vs = Some v ->
  List.length vs = n /\
  eval w {| root := Call fn args; vars := vars x |} rho = Val (Eval_ok v).
Proof.
  intros cfg w ctx input x named dyn source captures n id g fn args rho vs v Hfn Hw Hp Hs Hm Hg.
  destruct (C57_only_these_forms _ _ Hfn) as [named' [dyn' [source' [captures' [count' [id' [E [_ [_ [_ ->]]]]]]]]]].
  assert (Ec : count' = Some n /\ id' = id).
  { unfold invocation in E. destruct named, named', count' as [n'|]; cbn in E; try discriminate E; injection E; intros; subst; try discriminate; auto. }
  destruct Ec as [-> ->].
  destruct (C15_calls_have_declared_arity _ _ _ _ _ Hp _ _ Hs) as [_ Hl]. specialize (Hl n eq_refl).
  assert (HL : List.length vs = List.length args).
  { clear -Hm. induction Hm; cbn; auto. }
  rewrite Hl in HL. split; [exact HL|]. apply C21_eval_is_meaning. cbn [root]. econstructor; [exact Hm|].
  assert (Eu : user_fn w id vs = Some v).
  { rewrite Hw. unfold wrap. rewrite HL, Nat.leb_refl. rewrite <- HL, firstn_all. exact Hg. }
  unfold call_function. cbn [fn_ptr]. destruct dyn'; cbn [call_ptr]; rewrite Eu; reflexivity.
Qed.

(** A function of no arguments can be made but not called. *)
Theorem C57_no_argument_function_uncallable : forall cfg w ctx input x fn args,
  fn_nb_args fn = Some 0 -> parse cfg w ctx input = Parse_ok x -> ~ sub (Call fn args) (root x).
Proof.
  intros cfg w ctx input x fn args Hn Hp Hs. destruct (C15_calls_have_declared_arity _ _ _ _ _ Hp _ _ Hs) as [Ha Hl].
  specialize (Hl 0 Hn). destruct args; [congruence|discriminate Hl].
Qed.

(** README's [xprs_fn!("double", double, 1)], and a function without arguments. *)
Definition double_body (l : list f64) : option f64 := match l with [x] => Some (fadd x x) | _ => None end.
Definition no_args : function := mk_function "zero" (Static_user 2) (Some 0).
Example C57_witness :
  xprs_fn (invocation (Some "double") false (E_fn "double" false (Some 1) 0) (Some 1)) = Some double_fn /\
  (forall l, user_fn w0 0 l = wrap 1 double_body l) /\
  (exists x, parse plain_config w0 (with_fn ctx_default double_fn) "1 + double(x)" = Parse_ok x /\
     sub (Call double_fn [Var "x"]) (root x) /\
     means_all w0 (lookup [("x", fone)]) [Var "x"] [fone] /\ double_body [fone] = Some (fadd fone fone)) /\
  xprs_fn (invocation (Some "zero") false (E_fn "|| 1." false (Some 0) 2) (Some 0)) = Some no_args /\
  error_of (parse plain_config w0 (with_fn ctx_default no_args) "zero()") = Some (MissingArgument, 4%N, 2%N) /\
  error_of (parse plain_config w0 (with_fn ctx_default no_args) "zero(1)") = Some (TooManyArguments 0 1, 0%N, 7%N) /\
  error_of (parse plain_config w0 (with_fn ctx_default no_args) "zero") = Some (ExpectedToken "(", 4%N, 0%N) /\
  xprs_fn (invocation None true (E_fn "captures" true (Some 1) 3) (Some 1)) = Some (mk_function "captures" (Dyn_user 3) (Some 1)).
Proof.
  split; [reflexivity|]. split; [intros [|a [|b l]]; reflexivity|]. split.
  - pose proof (parses_to (parse plain_config w0 (with_fn ctx_default double_fn) "1 + double(x)")
      (BinOp Plus (Number fone) (Call double_fn [Var "x"]))) as H.
    destruct H as [x [Hx Er]]; [vm_compute; reflexivity|]. exists x. split; auto. rewrite Er.
    split; [apply sub_binr, sub_refl|]. split; [repeat constructor|reflexivity].
  - split; [reflexivity|]. split; [vm_compute; reflexivity|]. split; [vm_compute; reflexivity|]. split; [vm_compute; reflexivity|reflexivity].
Qed.
