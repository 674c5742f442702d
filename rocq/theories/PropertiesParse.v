(** * Properties of [Parser::parse] for every input (C01-C03, C13-C17, C45) *)
From Coq Require Import ZArith NArith List String Ascii Bool Lia Permutation.
From Verif Require Import SpecChars CharFacts.
From Verif Require Import F64 Syntax Factorial Builtins Context Element Parser Xprs.
From Verif Require Import ParserFacts SpecParse ParserInv SpecTree TreeFacts SimplifyFacts SpecApi ParserResults.
From Verif Require Import TestWorld.
Import ListNotations.
Local Open Scope string_scope.

(** ** C01: parsing terminates *)

(** [Parse_diverges] is the outcome of exhausting the recursion budget, which is
    the input length plus two. *)
Theorem C01_parse_terminates : forall cfg w ctx input,
  parse cfg w ctx input <> Parse_diverges.
Proof.
  intros cfg w ctx input H. unfold parse in H.
  pose proof (parse_impl_basic cfg w ctx input) as Hb.
  destruct (parse_impl cfg w ctx input) as [[r vs] c|e c|p|]; try discriminate; auto.
  destruct (get_expected_vars ctx); try discriminate. destruct (set_diff _ _); discriminate.
Qed.

(** A larger budget gives the same answer: the budget is not what ends the
    recursion, and calls of [element] nest at most [length input + 2] deep. *)
Theorem C01_nesting_linear : forall cfg w ctx input budget,
  String.length input + 2 <= budget ->
  element_at cfg w ctx input budget NO_PRECEDENCE 0
  = element_at cfg w ctx input (String.length input + 2) NO_PRECEDENCE 0
  /\ element_at cfg w ctx input budget NO_PRECEDENCE 0 <> PFuel.
Proof.
  intros cfg w ctx input b Hb.
  assert (Hn : element_at cfg w ctx input (String.length input + 2) NO_PRECEDENCE 0 <> PFuel).
  { intro E.
    assert (H : post ctx input (fun _ => True) (good_el input (fun _ => True)) 0 1
                  (String.length input + 2 < (List.length (bytes input) - 0) + 2)
                  (element_at cfg w ctx input (String.length input + 2) NO_PRECEDENCE 0)).
    { apply post_element; auto; [|lia]. intros e _. destruct (finish_element cfg w e); auto. }
    rewrite E in H. simpl in H. rewrite len_input in H. lia. }
  destruct (refines_element cfg w ctx input _ b NO_PRECEDENCE 0 Hb) as [E|E]; [contradiction|].
  rewrite E. auto.
Qed.

(** Deep nesting is really parsed, and nothing smaller than linear would do: *)
Example C01_witness : parses (parse default_config w0 ctx_default "((((((((x))))))))") = true
  /\ element_at default_config w0 ctx_default "((((((((x))))))))" 8 NO_PRECEDENCE 0 = PFuel.
Proof. split; vm_compute; reflexivity. Qed.

(** ** C02: when parsing panics *)

Lemma parse_empty : forall cfg w ctx, parse cfg w ctx "" =
  if overflow_checks cfg then Parse_panic ArithOverflow
  else Parse_err (mk_parse_error UnexpectedEndOfExpression (2 ^ 64 - 1) 0 "").
Proof. intros [a b c []] w ctx; vm_compute; reflexivity. Qed.

Theorem C02_plain_parse_panics_only_on_empty : forall cfg w ctx input p,
  optimize cfg = false ->
  (parse cfg w ctx input = Parse_panic p <->
   p = ArithOverflow /\ input = "" /\ overflow_checks cfg = true).
Proof.
  intros cfg w ctx input p Ho. split.
  - intro H. unfold parse in H.
    destruct (parse_impl cfg w ctx input) as [[r vs] c|e c|q|] eqn:E; try discriminate.
    + destruct (get_expected_vars ctx); try discriminate. destruct (set_diff _ _); discriminate.
    + injection H as ->. eapply parse_impl_plain_panic; eauto.
  - intros [-> [-> Hc]]. rewrite parse_empty, Hc. reflexivity.
Qed.

Theorem C02_optimised_parse_panics : forall cfg w ctx input p,
  context_functions_return w ctx -> ~ has_double_bang input ->
  parse cfg w ctx input = Parse_panic p ->
  p = ArithOverflow /\ input = "" /\ overflow_checks cfg = true.
Proof.
  intros cfg w ctx input p Hc Hd H. unfold parse in H.
  pose proof (parse_impl_safe cfg w ctx input Hc Hd) as Hs.
  destruct (parse_impl cfg w ctx input) as [[r vs] c|e c|q|] eqn:E; try discriminate.
  - destruct (get_expected_vars ctx); try discriminate. destruct (set_diff _ _); discriminate.
  - injection H as ->. auto.
Qed.

(** Both exceptions are real: a doubled '!' between numbers makes the optimising
    parser panic whatever libm is, and so does a panicking user function. *)
Theorem C02_double_bang_panics : forall w,
  parse default_config w ctx_default "5!!3" = Parse_panic Unreachable.
Proof. intro w. vm_compute. reflexivity. Qed.

Example C02_user_panic :
  parse default_config w0 (with_fn ctx_default bad_fn) "1 + bad(2)" = Parse_panic UserPanic
  /\ parses (parse plain_config w0 (with_fn ctx_default bad_fn) "1 + bad(2)") = true.
Proof. split; vm_compute; reflexivity. Qed.

(** Every built-in returns, so the default context meets the hypothesis; so does
    a context whose functions are total. *)
Lemma default_context_returns : forall w, context_functions_return w ctx_default.
Proof. intros w name f H. discriminate. Qed.

Lemma ctx1_returns : context_functions_return w0 ctx1.
Proof.
  intros name f H vs Hne Hn. unfold ctx1, with_expected_vars, with_fn, with_var in H.
  cbn [ctx_symbols ctx_default] in H. rewrite !sget_sinsert in H.
  destruct (String.eqb name (fn_name double_fn)); [|destruct (String.eqb name "k"); discriminate].
  injection H as <-. destruct vs as [|v vs]; [congruence|]. exists (fadd v v). reflexivity.
Qed.

(** a decision procedure, for the examples *)
Fixpoint no_bang_bang (l : list ascii) (after : bool) : bool :=
  match l with
  | [] => true
  | c :: l' => if Ascii.eqb c "!" then negb after && no_bang_bang l' true
               else no_bang_bang l' (after && a_blank c)
  end.

Lemma no_double_bang_check : forall input,
  no_bang_bang (list_ascii_of_string input) false = true -> ~ has_double_bang input.
Proof.
  intros input H [a [b [c [E Hb]]]]. rewrite E in H. clear E.
  assert (Hb' : no_bang_bang (b ++ "!"%char :: c)%list true = false).
  { clear H. induction Hb as [|y b Hy Hb IH]; cbn [app no_bang_bang]; [reflexivity|].
    destruct (Ascii.eqb y "!"); [reflexivity|]. rewrite Hy. exact IH. }
  assert (Hgo : forall after, no_bang_bang (a ++ "!"%char :: b ++ "!"%char :: c)%list after = false).
  { clear H. induction a as [|x a IH]; intros after; cbn [app no_bang_bang].
    - change (Ascii.eqb "!" "!") with true. cbv iota. rewrite Hb'. apply andb_false_r.
    - destruct (Ascii.eqb x "!"); rewrite IH; auto. apply andb_false_r. }
  rewrite Hgo in H. discriminate.
Qed.

Example C02_witness : context_functions_return w0 ctx1 /\ ~ has_double_bang "double(x!) ^ k - sin(3! + y)"
  /\ parses (parse default_config w0 ctx1 "double(x!) ^ k - sin(3! + y)") = true.
Proof.
  split; [exact ctx1_returns|]. split; [apply no_double_bang_check; reflexivity|vm_compute; reflexivity].
Qed.

(** ** C03: errors point into the source *)
Lemma parse_err_inv : forall cfg w ctx input e, parse cfg w ctx input = Parse_err e ->
  error_truthful ctx input e.
Proof.
  intros cfg w ctx input e H. unfold parse in H.
  pose proof (parse_impl_basic cfg w ctx input) as Hb.
  destruct (parse_impl cfg w ctx input) as [[r vs] c|e' c|q|] eqn:E; try discriminate.
  - destruct (get_expected_vars ctx); try discriminate.
    destruct (set_diff _ _); try discriminate. injection H as <-.
    split; [reflexivity|]. cbn. split; [reflexivity|]. now rewrite list_ascii_length.
  - injection H as <-. tauto.
Qed.

Theorem C03_error_spans_inside_source : forall cfg w ctx input e,
  parse cfg w ctx input = Parse_err e ->
  pe_src e = input /\
  ((pe_offset e + pe_length e <= N.of_nat (String.length input))%N
   \/ (input = "" /\ overflow_checks cfg = false /\
       pe_kind e = UnexpectedEndOfExpression /\ pe_offset e = (2 ^ 64 - 1)%N)).
Proof.
  intros cfg w ctx input e H. pose proof (parse_err_inv _ _ _ _ _ H) as [Hs Hk].
  split; [exact Hs|].
  destruct (string_dec input "") as [->|Hne].
  - right. rewrite parse_empty in H. destruct (overflow_checks cfg); [discriminate|].
    injection H as <-. split; [|split; [|split]]; reflexivity.
  - left. rewrite <- list_ascii_length in *.
    destruct (pe_kind e) eqn:Ek.
    + destruct Hk as [-> [[o [-> Ho]]|[Hi _]]]; [lia|congruence].
    + destruct Hk as [-> [o [-> Ho]]]. apply nth_error_Some_lt in Ho. lia.
    + destruct Hk as [_ [-> [_ [o [-> [Ho _]]]]]]. lia.
    + destruct Hk as [-> [_ [o [-> Ho]]]]. apply nth_error_Some_lt in Ho. lia.
    + destruct Hk as [-> [_ [o [-> [Ho _]]]]]. lia.
    + destruct Hk as [-> ->]. lia.
    + destruct Hk as [_ [o [l [n [name [f [-> [-> [_ [Ho _]]]]]]]]]]. lia.
    + destruct Hk as [_ [o [l [n [name [f [-> [-> [_ [Ho _]]]]]]]]]]. lia.
    + destruct Hk as [-> [o [-> Ho]]]. lia.
Qed.

Example C03_witness :
  error_of (parse default_config w0 ctx_default "1 + max(2, )") = Some (MissingArgument, 10%N, 2%N)
  /\ error_of (parse default_config w0 ctx_default "sin(1, 2) + 3") = Some (TooManyArguments 1 2, 0%N, 9%N)
  /\ error_of (parse default_config w0 ctx_default "") = Some (UnexpectedEndOfExpression, (2 ^ 64 - 1)%N, 0%N)
  /\ parse debug_plain w0 ctx_default "" = Parse_panic ArithOverflow.
Proof. repeat split; vm_compute; reflexivity. Qed.

(** ** C13: variable names come verbatim from the input *)
Theorem C13_variables_are_input_identifiers : forall cfg w ctx input x v,
  parse cfg w ctx input = Parse_ok x -> occurs v (root x) ->
  (exists o n, ident_at input o n v) /\
  sget v (ctx_symbols ctx) = None /\
  (forall f, ~ names_function ctx v f) /\
  Forall (fun c => (N_of_ascii c < 128)%N) (list_ascii_of_string v).
Proof.
  intros cfg w ctx input x v H Hv. destruct (parse_ok_inv _ _ _ _ _ H) as [c E].
  apply free_iff in Hv. revert v Hv.
  apply (parse_impl_tree cfg w ctx input
    (fun e => forall v, free v e -> (exists o n, ident_at input o n v) /\
       sget v (ctx_symbols ctx) = None /\ (forall f, ~ names_function ctx v f) /\
       Forall (fun c => (N_of_ascii c < 128)%N) (list_ascii_of_string v))) with (vs := vars x) (c := c); auto.
  - intros ? ? [].
  - intros o n name y Hid Hl Hr v Hv. cbn in Hv. subst y.
    destruct (resolve_variable ctx _ _ Hr) as [<- [Hs Hi]].
    split; [eauto|]. split; [auto|]. split.
    + intros f Hf. apply names_function_resolve in Hf. congruence.
    + destruct Hid as [_ [_ [_ [_ [Hall _]]]]]. eapply Forall_impl; [|exact Hall].
      intros a Ha. cbv beta in Ha. clear -Ha.
      unfold in_name, a_capital, a_small, a_digit, between in Ha.
      destruct (Ascii.eqb a "_") eqn:E1; [apply Ascii.eqb_eq in E1; subst; reflexivity|].
      destruct (Ascii.eqb a "'") eqn:E2; [apply Ascii.eqb_eq in E2; subst; reflexivity|].
      cbn [orb] in Ha.
      apply orb_true_iff in Ha. destruct Ha as [Ha|Ha].
      apply orb_true_iff in Ha. destruct Ha as [Ha|Ha].
      all: apply andb_true_iff in Ha; destruct Ha as [_ Ha]; apply N.leb_le in Ha;
        eapply N.le_lt_trans; [exact Ha|reflexivity].
  - intros o k name f args _ _ _ Ha _ v Hv. apply (free_call v f args), Exists_exists in Hv.
    destruct Hv as [a [Hi Hv]]. rewrite Forall_forall in Ha. eauto.
  - intros op l r _ Hl Hr v [Hv|Hv]; eauto.
  - intros e e' Hs He v Hv. apply He. eapply simplify_free; eauto.
Qed.

Example C13_witness : exists x, parse plain_config w0 ctx_default "2x_1' / y" = Parse_ok x
  /\ occurs "x_1'" (root x).
Proof.
  destruct (parses_to (parse plain_config w0 ctx_default "2x_1' / y")
    (BinOp Divide (BinOp Times (Number (lit "2")) (Var "x_1'")) (Var "y"))) as [x [H1 H2]].
  { vm_compute. reflexivity. }
  exists x. split; [exact H1|]. rewrite H2. apply occ_binl, occ_binr, occ_var.
Qed.

(** ** C15: arity *)
Fixpoint arity_ok (e : element) : Prop :=
  match e with
  | Number _ | Var _ => True
  | BinOp _ l r => arity_ok l /\ arity_ok r
  | UnOp _ a => arity_ok a
  | Call f args => (args <> [] /\ forall n, fn_nb_args f = Some n -> List.length args = n)
      /\ (fix go (l : list element) : Prop :=
            match l with [] => True | a :: l' => arity_ok a /\ go l' end) args
  end.

Lemma arity_ok_call : forall f args, arity_ok (Call f args) <->
  (args <> [] /\ forall n, fn_nb_args f = Some n -> List.length args = n) /\ Forall arity_ok args.
Proof.
  intros f args. simpl.
  assert (H : (fix go (l : list element) : Prop :=
            match l with [] => True | a :: l' => arity_ok a /\ go l' end) args <-> Forall arity_ok args).
  { induction args; split; intro H; auto; try (now constructor).
    - destruct H. constructor; tauto.
    - inversion H; subst. tauto. }
  tauto.
Qed.

Lemma arity_ok_sub : forall e, arity_ok e -> proper_arities e.
Proof.
  unfold proper_arities. induction e using element_ind'; intros He g bs Hs.
  - inversion Hs.
  - destruct He. inversion Hs; subst; eauto.
  - inversion Hs; subst; eauto.
  - apply arity_ok_call in He. destruct He as [He Ha]. inversion Hs; subst; auto.
    rewrite Forall_forall in *. eapply H; eauto.
  - inversion Hs.
Qed.

Lemma arity_ok_simplify : forall cfg w e e', simplify cfg w e = Val e' -> arity_ok e -> arity_ok e'.
Proof.
  intros cfg w. apply simplify_preserve; try (simpl; intuition; fail).
  - intros f args H. apply arity_ok_call in H. tauto.
  - intros f args args' H Ha Hl. apply arity_ok_call in H. apply arity_ok_call.
    rewrite Hl. destruct H as [[H1 H2] _]. repeat split; auto.
    destruct args; [congruence|]. destruct args'; [discriminate|discriminate].
Qed.

Theorem C15_calls_have_declared_arity : forall cfg w ctx input x,
  parse cfg w ctx input = Parse_ok x -> proper_arities (root x).
Proof.
  intros cfg w ctx input x H. destruct (parse_ok_inv _ _ _ _ _ H) as [c E].
  apply arity_ok_sub.
  apply (parse_impl_tree cfg w ctx input arity_ok) with (vs := vars x) (c := c); auto; try (simpl; auto; fail).
  - intros o k name f args _ _ Hne Ha Hn. apply arity_ok_call. auto.
  - apply arity_ok_simplify.
Qed.

Example C15_witness : exists x, parse default_config w0 ctx_default "hypot(x, max(y, 2, z))" = Parse_ok x
  /\ root x = Call (builtin_function B_HYPOT)
       [Var "x"; Call (builtin_function B_MAX) [Var "y"; Number (lit "2"); Var "z"]]
  /\ fn_nb_args (builtin_function B_HYPOT) = Some 2.
Proof.
  destruct (parses_to (parse default_config w0 ctx_default "hypot(x, max(y, 2, z))")
     (Call (builtin_function B_HYPOT)
       [Var "x"; Call (builtin_function B_MAX) [Var "y"; Number (lit "2"); Var "z"]])) as [x [H1 H2]].
  { vm_compute. reflexivity. }
  exists x. auto.
Qed.

(** ** C16: declared variables *)
Definition without_expected (ctx : context) : context :=
  {| ctx_symbols := ctx_symbols ctx; ctx_expected := None |}.

Lemma parse_impl_expected : forall cfg w ctx input,
  parse_impl cfg w (without_expected ctx) input = parse_impl cfg w ctx input.
Proof. intros. reflexivity. Qed.

(** With declared variables [s], parsing gives what it gives without any
    declaration, unless some variable of the expression is not in [s]; then it
    reports one such variable, with the declared set. *)
Theorem C16_expected_variables : forall cfg w ctx input s,
  fair_order w -> get_expected_vars ctx = Some s ->
  match parse cfg w (without_expected ctx) input with
  | Parse_ok x =>
      ((forall v, occurs v (root x) -> In v s) /\ parse cfg w ctx input = Parse_ok x)
      \/ (exists v available,
            occurs v (root x) /\ ~ In v s /\ Permutation s available /\
            parse cfg w ctx input =
              Parse_err (mk_parse_error (VariableNotDeclared v available)
                           0 (N.of_nat (String.length input)) input))
  | r => parse cfg w ctx input = r
  end.
Proof.
  intros cfg w ctx input s Hf Hs. unfold parse. rewrite parse_impl_expected, Hs.
  pose proof (parse_impl_basic cfg w ctx input) as Hb.
  destruct (parse_impl cfg w ctx input) as [[r vs] c|e c|q|] eqn:E; auto.
  cbn [get_expected_vars without_expected ctx_expected root].
  destruct (set_diff (hash_order w vs) s) as [|u rest] eqn:Ed.
  - left. split; auto. intros v Hv. apply free_iff in Hv.
    destruct (in_dec string_dec v s); auto. exfalso.
    assert (Hin : In v (set_diff (hash_order w vs) s)).
    { apply set_diff_In. split; auto. eapply Permutation_in; [apply Hf|]. subst vs.
      apply find_variables_In. auto. }
    rewrite Ed in Hin. inversion Hin.
  - right. exists u, (hash_order w s).
    assert (Hin : In u (set_diff (hash_order w vs) s)) by (rewrite Ed; now left).
    apply set_diff_In in Hin. destruct Hin as [Hi Hn].
    split; [|split; [auto|split; [apply Hf|reflexivity]]].
    apply free_iff. eapply Permutation_in in Hi; [|symmetry; apply Hf]. subst vs.
    apply find_variables_In in Hi. destruct Hi as [Hi|[]]. exact Hi.
Qed.

Example C16_witness : get_expected_vars ctx1 = Some ["x"; "y"]
  /\ parses (parse default_config w0 ctx1 "x + double(y)") = true
  /\ error_of (parse default_config w0 ctx1 "x + z") = Some (VariableNotDeclared "z" ["x"; "y"], 0%N, 5%N).
Proof. repeat split; vm_compute; reflexivity. Qed.

(** ** C17: [vars] is the set of variables *)
Theorem C17_vars_exact : forall cfg w ctx input x,
  parse cfg w ctx input = Parse_ok x ->
  NoDup (vars x) /\ forall v, In v (vars x) <-> occurs v (root x).
Proof.
  intros cfg w ctx input x H. destruct (parse_ok_inv _ _ _ _ _ H) as [c E].
  pose proof (parse_impl_basic cfg w ctx input) as Hb. rewrite E in Hb. rewrite Hb.
  split; [apply find_variables_NoDup; constructor|].
  intro v. rewrite find_variables_In, free_iff. simpl. tauto.
Qed.

Example C17_witness : exists x, parse default_config w0 ctx_default "x * (y + x) + y * 0 + 0 * z" = Parse_ok x
  /\ (if list_eq_dec string_dec (vars x) ["y"; "x"] then true else false) = true.
Proof. apply ok_and_spec. vm_compute. reflexivity. Qed.

(** ** C45: what errors say is true *)
Theorem C45_errors_truthful : forall cfg w ctx input e,
  parse cfg w ctx input = Parse_err e -> error_truthful ctx input e.
Proof. exact parse_err_inv. Qed.

Example C45_witness :
  error_of (parse default_config w0 ctx_default "2 * hypot(x)") = Some (TooFewArguments 2 1, 4%N, 8%N)
  /\ error_of (parse default_config w0 ctx_default "1..2") = Some (MalformedNumber "1..2", 0%N, 4%N)
  /\ error_of (parse default_config w0 ctx_default "(1") = Some (ExpectedToken ")", 2%N, 0%N)
  /\ error_of (parse default_config w0 ctx_default "1 + $") = Some (IllegalCharacter "$", 4%N, 0%N)
  /\ error_of (parse default_config w0 ctx_default "1 )") = Some (UnexpectedToken ")", 2%N, 0%N)
  /\ error_of (parse default_config w0 ctx_default "1 +") = Some (UnexpectedEndOfExpression, 2%N, 0%N).
Proof. repeat split; vm_compute; reflexivity. Qed.
