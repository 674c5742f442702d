(** * The compile-time-optimizations feature and simplify_for, against plain
    parsing and evaluation (C18, C19, C30) *)
From Coq Require Import ZArith NArith List String Ascii Bool Lia Permutation.
From Flocq Require Import BinarySingleNaN.
From Verif Require Import F64 Syntax Factorial Builtins Context Element Parser Xprs.
From Verif Require Import ParserFacts SpecParse ParserInv SpecTree TreeFacts SimplifyFacts SpecApi ParserResults.
From Verif Require Import SpecTokens SpecGrammar SpecRegular TokenFacts LexFacts LexExec TokenParser TokenSim TokenMono.
From Verif Require Import GrammarFacts GrammarEquiv JuxtaFacts FloatFacts OptFacts FlatFacts RegularFacts.
From Verif Require Import SpecScan ScanPrefix.
From Verif Require Import TestWorld PropertiesParse PropertiesGrammar PropertiesEval PropertiesEq PropertiesSimplify.
Import ListNotations.
Local Open Scope string_scope.

Lemma eval_check : forall w rho e v, is_val (eval_element_unchecked w rho e) v = true ->
  eval_element w rho e = Val (Eval_ok v).
Proof.
  intros w rho e v E. apply is_val_eq in E. rewrite unchecked_agrees in E.
  destruct (eval_element w rho e) as [[u|er]|p]; congruence.
Qed.

(** ** C18 *)

Lemma plain_accepts : forall cfg w ctx input ts t, optimize cfg = false -> get_expected_vars ctx = None ->
  input <> "" -> tokens_of input ts -> derives (pejmdas cfg) ctx true ts t ->
  exists x, parse cfg w ctx input = Parse_ok x /\ root x = t.
Proof.
  intros cfg w ctx input ts t Ho Hv Hne Hts Hd.
  apply (parse_by_derivation cfg w ctx input ts t Ho Hne Hts) in Hd.
  pose proof (parse_outcome cfg w ctx input ts Hne Hts) as H. rewrite Hd in H. cbn in H. rewrite Hv in H.
  apply outcome_gives in H. eexists. split; [exact H|reflexivity].
Qed.

(** Whatever the configuration that accepts a text, plain parsing accepts it
    too, in either precedence mode: in particular optimisation accepts nothing
    new. *)
Theorem C18_optimised_accepts_less : forall cfg cfg' w ctx input x,
  optimize cfg' = false -> get_expected_vars ctx = None ->
  parse cfg w ctx input = Parse_ok x -> exists y, parse cfg' w ctx input = Parse_ok y.
Proof.
  intros cfg cfg' w ctx input x Ho Hv H. destruct (string_dec input "") as [->|Hne].
  { rewrite parse_empty in H. destruct (overflow_checks cfg); discriminate H. }
  destruct (lexes_total (bytes input)) as [ts Hts].
  pose proof (parse_outcome cfg w ctx input ts Hne Hts) as E. rewrite H in E. cbn [outcome_of] in E. symmetry in E.
  apply token_gives in E. destruct E as [rest [E _]]. pose proof (ok_rest_nil _ _ _ _ _ _ _ E) as ->.
  destruct (accepted_derivable _ _ _ _ _ _ (pejmdas cfg') E) as [t Ht].
  destruct (plain_accepts cfg' w ctx input ts t Ho Hv Hne Hts Ht) as [y [Hy _]]. eauto.
Qed.

Lemma opt_outcomes : forall cfg cfg' w ctx input ts,
  optimize cfg = true -> optimize cfg' = false -> pejmdas cfg = pejmdas cfg' ->
  input <> "" -> tokens_of input ts -> no_number_after_parenthesis ts ->
  tracks (simplified_from cfg w) (t_parse cfg w ctx (parse_budget input) ts) (t_parse cfg' w ctx (parse_budget input) ts).
Proof. intros. apply opt_parse; auto. Qed.

Lemma token_error : forall cfg w ctx input ts k f u, input <> "" -> tokens_of input ts ->
  t_parse cfg w ctx (parse_budget input) ts = TErr k f u ->
  exists e, parse cfg w ctx input = Parse_err e /\ error_matches input e k f u.
Proof.
  intros cfg w ctx input ts k f u Hne Hts E. pose proof (sim_parse cfg w ctx input (nonempty_bytes _ Hne) ts Hts) as H.
  rewrite E in H. unfold parse. destruct (parse_impl cfg w ctx input) as [[r vs] c|e c|p|]; try contradiction. eauto.
Qed.

Lemma matching_errors : forall input e e' k from upto,
  error_matches input e k from upto -> error_matches input e' k from upto -> e = e'.
Proof.
  intros input [k1 o1 l1 s1] [k2 o2 l2 s2] k from upto [Hk [Hs [o [u [Ho [Hu E]]]]]] [Hk' [Hs' [o' [u' [Ho' [Hu' E']]]]]].
  cbn in *. subst. rewrite (tokens_begin_unique _ _ _ _ Ho' Ho), (tokens_begin_unique _ _ _ _ Hu' Hu), <- E in E'.
  now injection E' as -> ->.
Qed.

(** Where no number directly follows a closing parenthesis, the
    optimising and the plain parser give the same verdict: both accept, and the
    optimised tree is the plain one with parts replaced by their simplification,
    or both fail with the same error at the same place. *)
Theorem C18_same_verdict : forall cfg cfg' w ctx input ts,
  optimize cfg = true -> optimize cfg' = false -> pejmdas cfg = pejmdas cfg' ->
  get_expected_vars ctx = None -> context_functions_return w ctx ->
  input <> "" -> ~ has_double_bang input ->
  tokens_of input ts -> no_number_after_parenthesis ts ->
  (exists x y, parse cfg' w ctx input = Parse_ok x /\ parse cfg w ctx input = Parse_ok y /\
               simplified_from cfg w (root x) (root y)) \/
  (exists e, parse cfg' w ctx input = Parse_err e /\ parse cfg w ctx input = Parse_err e).
Proof.
  intros cfg cfg' w ctx input ts Ho Ho' Hp Hv Hc Hne Hd Hts Hn.
  pose proof (opt_outcomes cfg cfg' w ctx input ts Ho Ho' Hp Hne Hts Hn) as T.
  pose proof (parse_outcome cfg w ctx input ts Hne Hts) as E.
  pose proof (parse_outcome cfg' w ctx input ts Hne Hts) as E'.
  pose proof (C01_parse_terminates cfg w ctx input) as F.
  destruct (t_parse cfg w ctx (parse_budget input) ts) as [t' rest|k fr up|p|] eqn:Et.
  - destruct T as [t [T S]]. rewrite T in E'. cbn in E, E'. rewrite Hv in E, E'.
    apply outcome_gives in E, E'. left. do 2 eexists. split; [exact E'|]. split; [exact E|exact S].
  - cbn [tracks] in T. right.
    destruct (token_error cfg w ctx input ts _ _ _ Hne Hts Et) as [e [P M]].
    destruct (token_error cfg' w ctx input ts _ _ _ Hne Hts T) as [e' [P' M']].
    rewrite (matching_errors _ _ _ _ _ _ M M') in P. eauto.
  - exfalso. cbn in E. destruct (parse cfg w ctx input) eqn:P; try discriminate E.
    destruct (C02_optimised_parse_panics cfg w ctx input _ Hc Hd P) as [_ [X _]]. auto.
  - exfalso. cbn in E. destruct (parse cfg w ctx input); try discriminate E. auto.
Qed.

(** simplification introduces no variables *)
Lemma simplified_occurs : forall cfg w,
  (forall e e', simplified_from cfg w e e' -> forall y, occurs y e' -> occurs y e) /\
  (forall l l', simplified_all cfg w l l' -> forall y, (exists a, In a l' /\ occurs y a) -> exists a, In a l /\ occurs y a).
Proof.
  intros cfg w. apply simplified_mutind; intros; auto.
  - inversion H1; subst; [apply occ_binl|apply occ_binr]; auto.
  - inversion H0; subst; constructor; auto.
  - inversion H0; subst. destruct (H y) as [b [Hb Hb']]; eauto. econstructor; eauto.
  - apply H. apply free_iff. eapply simplify_free; [eassumption|]. now apply free_iff.
  - destruct H1 as [b [[->|Hb] Hb']]; [exists a; split; [now left|auto]|].
    destruct (H0 y) as [b2 [A B]]; eauto. exists b2. split; [now right|auto].
Qed.

(** With declared variables: what the plain parser accepts, the optimising one
    accepts (same condition on numbers). *)
Theorem C18_plain_accepted : forall cfg cfg' w ctx input ts x,
  optimize cfg = true -> optimize cfg' = false -> pejmdas cfg = pejmdas cfg' ->
  fair_order w -> context_functions_return w ctx -> ~ has_double_bang input ->
  tokens_of input ts -> no_number_after_parenthesis ts ->
  parse cfg' w ctx input = Parse_ok x ->
  exists y, parse cfg w ctx input = Parse_ok y /\ simplified_from cfg w (root x) (root y).
Proof.
  intros cfg cfg' w ctx input ts x Ho Ho' Hp Hf Hc Hd Hts Hn H.
  assert (Hne : input <> "").
  { intros ->. rewrite parse_empty in H. destruct (overflow_checks cfg'); discriminate H. }
  pose proof (opt_outcomes cfg cfg' w ctx input ts Ho Ho' Hp Hne Hts Hn) as T.
  pose proof (parse_outcome cfg w ctx input ts Hne Hts) as E.
  pose proof (parse_outcome cfg' w ctx input ts Hne Hts) as E'. rewrite H in E'. cbn [outcome_of] in E'. symmetry in E'.
  destruct (token_gives _ _ _ _ E') as [rest' [E2 Hvars]].
  pose proof (ok_rest_nil _ _ _ _ _ _ _ E2) as ->. rewrite E2 in E', T.
  pose proof (C01_parse_terminates cfg w ctx input) as F.
  destruct (t_parse cfg w ctx (parse_budget input) ts) as [t' rest|k|p|]; cbn [tracks] in T.
  - destruct T as [t [T S]]. injection T as <- <-.
    assert (D : declared ctx (root x)).
    { apply (declared_check w ctx (root x) Hf). rewrite E'. f_equal. destruct x as [r v]. cbn in *. now rewrite Hvars. }
    assert (D' : declared ctx t').
    { intros s Hs v Hv. apply (D s Hs). eapply simplified_occurs; eauto. }
    apply (declared_check w ctx t' Hf) in D'. rewrite D' in E. apply outcome_gives in E.
    eexists. split; [exact E|exact S].
  - discriminate T.
  - exfalso. cbn in E. destruct (parse cfg w ctx input) eqn:P; try discriminate E.
    destruct (C02_optimised_parse_panics cfg w ctx input _ Hc Hd P) as [_ [X _]]. auto.
  - exfalso. cbn in E. destruct (parse cfg w ctx input); try discriminate E. auto.
Qed.

(** The condition on numbers matters: the optimising parser folds (1+2) to a
    number, and a number is not multiplied by juxtaposition with a number, so it
    rejects "(1+2)3" ... *)
Theorem C18_folded_parenthesis_rejected :
  parses (parse plain_config w0 ctx_default "(1+2)3") = true /\
  parses (parse default_config w0 ctx_default "(1+2)3") = false.
Proof. split; vm_compute; reflexivity. Qed.

(** ... and even groups "x+(1+2)3" in another way: (x+3)*3 instead of
    x+(1+2)*3, so that x = 1 gives 12 instead of 10. *)
Theorem C18_folded_parenthesis_regroups : exists x y,
  parse plain_config w0 ctx_default "x+(1+2)3" = Parse_ok x /\
  parse default_config w0 ctx_default "x+(1+2)3" = Parse_ok y /\
  eval w0 x [("x", lit "1")] = Val (Eval_ok (lit "10")) /\
  eval w0 y [("x", lit "1")] = Val (Eval_ok (lit "12")).
Proof.
  destruct (parses_to (parse plain_config w0 ctx_default "x+(1+2)3")
    (BinOp Plus (Var "x") (BinOp Times (BinOp Plus (Number (lit "1")) (Number (lit "2"))) (Number (lit "3")))))
    as [x [Hx Ex]]; [vm_compute; reflexivity|].
  destruct (parses_to (parse default_config w0 ctx_default "x+(1+2)3")
    (BinOp Times (BinOp Plus (Var "x") (Number (lit "3"))) (Number (lit "3"))))
    as [y [Hy Ey]]; [vm_compute; reflexivity|].
  exists x, y. split; [exact Hx|]. split; [exact Hy|]. unfold eval. rewrite Ex, Ey. split.
  - apply eval_check. vm_compute. reflexivity.
  - apply eval_check. vm_compute. reflexivity.
Qed.

(** With declared variables the optimising parser accepts more: a variable that
    is simplified away needs no declaration. *)
Theorem C18_undeclared_may_vanish :
  let ctx := with_expected_vars ctx_default [] in
  parses (parse plain_config w0 ctx "0*x") = false /\ parses (parse default_config w0 ctx "0*x") = true.
Proof. split; vm_compute; reflexivity. Qed.

Definition mixed_text : string := "(x + 0)*1 - 0*y + 6/(1 + 1)".
Definition mixed_tokens : list token :=
  [TSym "("; TId "x"; TSym "+"; TNum "0"; TSym ")"; TSym "*"; TNum "1"; TSym "-"; TNum "0"; TSym "*"; TId "y";
   TSym "+"; TNum "6"; TSym "/"; TSym "("; TNum "1"; TSym "+"; TNum "1"; TSym ")"]%char.
Lemma mixed_tokens_ok : tokens_of mixed_text mixed_tokens.
Proof. apply tokens_check. vm_compute. reflexivity. Qed.
Lemma mixed_no_numbers : no_number_after_parenthesis mixed_tokens.
Proof.
  pose proof (proj2 (clear_check ctx_default mixed_tokens eq_refl)) as H.
  intros [u [a [b [v [E [Ea Eb]]]]]]. apply H. exists u, a, b, v. subst a. auto.
Qed.

(** a text on which all the hypotheses of [C18_same_verdict] hold *)
Example C18_witness : exists x y, parse plain_config w0 ctx_default mixed_text = Parse_ok x /\
  parse default_config w0 ctx_default mixed_text = Parse_ok y /\
  simplified_from default_config w0 (root x) (root y) /\
  root y = BinOp Plus (Var "x") (Number (lit "3")) /\
  context_functions_return w0 ctx_default /\ ~ has_double_bang mixed_text /\
  tokens_of mixed_text mixed_tokens /\ no_number_after_parenthesis mixed_tokens.
Proof.
  assert (D : ~ has_double_bang mixed_text) by (apply no_double_bang_check; reflexivity).
  destruct (parses_to (parse default_config w0 ctx_default mixed_text)
    (BinOp Plus (Var "x") (Number (lit "3")))) as [y [Hy Ey]]; [vm_compute; reflexivity|].
  destruct (C18_same_verdict default_config plain_config w0 ctx_default mixed_text mixed_tokens
    eq_refl eq_refl eq_refl eq_refl (default_context_returns w0) ltac:(discriminate) D mixed_tokens_ok mixed_no_numbers)
    as [[x [y' [Hx [Hy' S]]]]|[e [_ He]]]; [|congruence].
  assert (y' = y) as -> by congruence.
  exists x, y. split; [exact Hx|]. split; [exact Hy|]. split; [exact S|]. split; [exact Ey|].
  split; [apply default_context_returns|]. split; [exact D|]. split; [exact mixed_tokens_ok|exact mixed_no_numbers].
Qed.

(** ** C19 *)

Theorem C19_optimised_value : forall cfg cfg' w ctx input ts x y rho v,
  optimize cfg = true -> optimize cfg' = false -> pejmdas cfg = pejmdas cfg' ->
  tokens_of input ts -> no_number_after_parenthesis ts ->
  parse cfg' w ctx input = Parse_ok x -> parse cfg w ctx input = Parse_ok y ->
  regular w (lookup rho) (root x) v ->
  eval w x rho = Val (Eval_ok v) /\
  exists v', eval w y rho = Val (Eval_ok v') /\ same_value v v'.
Proof.
  intros cfg cfg' w ctx input ts x y rho v Ho Ho' Hp Hts Hn Hx Hy Hr.
  split; [apply C21_eval_is_meaning, regular_means, Hr|].
  assert (Hne : input <> "").
  { intros ->. rewrite parse_empty in Hx. destruct (overflow_checks cfg'); discriminate Hx. }
  pose proof (opt_outcomes cfg cfg' w ctx input ts Ho Ho' Hp Hne Hts Hn) as T.
  pose proof (parse_outcome cfg w ctx input ts Hne Hts) as E. rewrite Hy in E. cbn [outcome_of] in E. symmetry in E.
  pose proof (parse_outcome cfg' w ctx input ts Hne Hts) as E'. rewrite Hx in E'. cbn [outcome_of] in E'. symmetry in E'.
  apply token_gives in E, E'. destruct E as [r1 [E _]], E' as [r2 [E' _]]. rewrite E, E' in T. cbn [tracks] in T.
  destruct T as [t [T S]]. injection T as <- _.
  destruct (proj1 (simplified_from_preserves w (lookup rho) cfg) _ _ S v Hr) as [v' [Hv' Hs]].
  exists v'. split; [apply C21_eval_is_meaning, regular_means, Hv'|exact Hs].
Qed.

(** The same for any tree: simplifying preserves the value on regular
    expressions. *)
Theorem C19_simplify_value : forall cfg w e e' rho v,
  simplify cfg w e = Val e' -> regular w rho e v ->
  means w rho e v /\ exists v', means w rho e' v' /\ same_value v v'.
Proof.
  intros cfg w e e' rho v Hs Hr. split; [now apply regular_means|].
  destruct (simplify_preserves w rho _ _ _ Hs v Hr) as [v' [H S]]. exists v'. split; auto. now apply regular_means.
Qed.

Lemma not_zero_check : forall a : f64, feq a fzero = false -> ~ is_zero a.
Proof. intros a H Z. assert (E : feq a fzero = true) by (apply feq_cases; right; split; [exact Z|now exists false]). congruence. Qed.

Definition mixed_tree : element :=
  BinOp Plus
    (BinOp Minus (BinOp Times (BinOp Plus (Var "x") (Number (lit "0"))) (Number (lit "1")))
                 (BinOp Times (Number (lit "0")) (Var "y")))
    (BinOp Divide (Number (lit "6")) (BinOp Plus (Number (lit "1")) (Number (lit "1")))).
Definition mixed_rho : list (string * f64) := [("x", lit "3"); ("y", lit "5")].

Lemma mixed_regular : exists v, regular w0 (lookup mixed_rho) mixed_tree v /\ same_f64 v (lit "6") = true.
Proof.
  eexists. split.
  - apply RG_bin; [apply RG_bin; [apply RG_bin; [apply RG_bin; [apply RG_var; reflexivity|apply RG_number|]|apply RG_number|]
      |apply RG_bin; [apply RG_number|apply RG_var; reflexivity|]|]|apply RG_bin; [apply RG_number|apply RG_bin; [apply RG_number|apply RG_number|]|]|].
    all: cbn [regular_operands operation]. all: split; [vm_compute; reflexivity|]; try (vm_compute; reflexivity).
    split; [vm_compute; reflexivity|]. apply not_zero_check. vm_compute. reflexivity.
  - vm_compute. reflexivity.
Qed.

(** the text above, at x = 3 and y = 5 *)
Example C19_witness : exists x y v, parse plain_config w0 ctx_default mixed_text = Parse_ok x /\
  parse default_config w0 ctx_default mixed_text = Parse_ok y /\ root x <> root y /\
  regular w0 (lookup mixed_rho) (root x) v /\ v = lit "6" /\
  eval w0 y mixed_rho = Val (Eval_ok v).
Proof.
  destruct (parses_to (parse plain_config w0 ctx_default mixed_text) mixed_tree) as [x [Hx Ex]]; [vm_compute; reflexivity|].
  destruct (parses_to (parse default_config w0 ctx_default mixed_text)
    (BinOp Plus (Var "x") (Number (lit "3")))) as [y [Hy Ey]]; [vm_compute; reflexivity|].
  destruct mixed_regular as [v [Hv Ev]]. apply same_f64_eq in Ev. subst v.
  exists x, y, (lit "6"). split; [exact Hx|]. split; [exact Hy|]. rewrite Ex, Ey.
  split; [unfold mixed_tree; intro D; inversion D|].
  split; [exact Hv|]. split; [reflexivity|]. unfold eval. rewrite Ey.
  apply eval_check. vm_compute. reflexivity.
Qed.

(** Each condition of [regular] is needed: outside it, the optimised expression
    can have another value. *)
Definition values_differ (w : world) (text : string) (rho : list (string * f64)) (a b : f64) : Prop :=
  exists x y, parse plain_config w ctx_default text = Parse_ok x /\
    parse default_config w ctx_default text = Parse_ok y /\
    eval w x rho = Val (Eval_ok a) /\ eval w y rho = Val (Eval_ok b) /\ ~ same_value a b.

Definition differ_b (w : world) (text : string) (rho : list (string * f64)) (a b : f64) : bool :=
  match parse plain_config w ctx_default text, parse default_config w ctx_default text with
  | Parse_ok x, Parse_ok y =>
      is_val (eval_element_unchecked w rho (root x)) a && is_val (eval_element_unchecked w rho (root y)) b &&
      negb (feq a b) && negb (is_nan a && is_nan b)
  | _, _ => false
  end.
Lemma differ_check : forall w text rho a b, differ_b w text rho a b = true -> values_differ w text rho a b.
Proof.
  intros w text rho a b H. unfold differ_b in H.
  destruct (parse plain_config w ctx_default text) as [x| | |] eqn:P; try discriminate H.
  destruct (parse default_config w ctx_default text) as [y| | |] eqn:Q; try discriminate H.
  apply andb_true_iff in H. destruct H as [H H4]. apply andb_true_iff in H. destruct H as [H H3].
  apply andb_true_iff in H. destruct H as [H1 H2]. apply eval_check in H1, H2.
  exists x, y. split; auto. split; auto. split; [exact H1|]. split; [exact H2|].
  intros [X|[X Y]]; [rewrite X in H3; discriminate H3|rewrite X, Y in H4; discriminate H4].
Qed.

(** a world whose powf answers infinity for a zero base, as libm does for a
    negative exponent *)
Definition w_pow : world :=
  let f := fun x : f64 => x in
  let g := fun x y : f64 => if feq x fzero then finf else fmul x y in
  mk_world f f f f f f f f f f f f g f f f f g g f false false (fun s => s) (fun id args => None).

(** a world whose functions tell +0 from -0 *)
Definition w_sign : world :=
  let f := fun x : f64 => fdiv fone x in
  let g := fun x y : f64 => fmul x y in
  mk_world f f f f f f f f f f f f g f f f f g g f false false (fun s => s) (fun id args => None).

Theorem C19_conditions_needed :
  (* an infinite factor *)         values_differ w0 "0*x" [("x", finf)] fnan fzero /\
  (* infinite operands *)          values_differ w0 "x-x" [("x", finf)] fnan fzero /\
  (* a zero divisor *)             values_differ w0 "x/x" [("x", fzero)] fnan fone /\
  (* a zero divisor *)             values_differ w0 "x/0" [("x", fneg fone)] (fneg finf) finf /\
  (* a fraction modulo 1 *)        values_differ w0 "x%1" [("x", lit "2.5")] (lit "0.5") fzero /\
  (* a zero base *)                values_differ w_pow "0^x" [("x", fneg fone)] finf fzero /\
  (* a zero argument's sign *)     values_differ w_sign "sin(0+x)" [("x", fneg fzero)] finf (fneg finf) /\
  (* a zero divisor's sign *)      values_differ w0 "1/(0+x)" [("x", fneg fzero)] finf (fneg finf).
Proof. repeat match goal with |- _ /\ _ => split end; apply differ_check; vm_compute; reflexivity. Qed.

(** ** C30 *)

(** [rho'] assigns [c] to [name] and agrees with [rho] elsewhere *)
Definition extends (rho rho' : list (string * f64)) (name : string) (c : f64) : Prop :=
  forall y, lookup rho' y = if String.eqb y name then Some c else lookup rho y.

Theorem C30_simplify_for_value : forall cfg w x name c x' rho rho' v,
  extends rho rho' name c ->
  simplify_for cfg w x (name, c) = Val x' ->
  regular w (lookup rho') (root x) v ->
  eval w x rho' = Val (Eval_ok v) /\
  exists v', eval w x' rho = Val (Eval_ok v') /\ same_value v v'.
Proof.
  intros cfg w x name c x' rho rho' v He Hs Hr.
  split; [apply C21_eval_is_meaning, regular_means, Hr|].
  apply simplify_for_inv in Hs. destruct Hs as [Hs _]. cbn [fst snd] in Hs.
  destruct (specialises_el w (lookup rho) name c cfg _ _ Hs v) as [v' [Hv' S]].
  { eapply regular_ext; [|exact Hr]. intro y. rewrite He. reflexivity. }
  exists v'. split; [apply C21_eval_is_meaning, regular_means, Hv'|exact S].
Qed.

(** the valuation that gives the variables of [l] their values (the first pair
    for a name counts) and agrees with [rho] elsewhere *)
Definition with_all (l rho : list (string * f64)) (y : string) : option f64 :=
  match find (fun p => String.eqb (fst p) y) l with
  | Some p => Some (snd p)
  | None => lookup rho y
  end.

Theorem C30_simplify_for_multiple_value : forall cfg w x l x' rho rho' v,
  (forall y, lookup rho' y = with_all l rho y) ->
  simplify_for_multiple cfg w x l = Val x' ->
  regular w (lookup rho') (root x) v ->
  eval w x rho' = Val (Eval_ok v) /\
  exists v', eval w x' rho = Val (Eval_ok v') /\ same_value v v'.
Proof.
  intros cfg w x l x' rho rho' v He Hs Hr.
  split; [apply C21_eval_is_meaning, regular_means, Hr|].
  apply C32_multiple_is_iteration in Hs.
  assert (Hr' : regular w (with_all l rho) (root x) v) by (eapply regular_ext; [|exact Hr]; exact He). clear He Hr rho'.
  revert v Hr'. induction Hs as [x|x [n c] x1 l x' H1 H2 IH]; intros v Hr.
  - exists v. split; [|apply same_value_refl]. apply C21_eval_is_meaning, regular_means. exact Hr.
  - apply simplify_for_inv in H1. destruct H1 as [H1 _]. cbn [fst snd] in H1.
    destruct (specialises_el w (with_all l rho) n c cfg _ _ H1 v) as [v1 [Hv1 S1]].
    { eapply regular_ext; [|exact Hr]. intro y. unfold with_all, given. cbn [find fst snd].
      rewrite (String.eqb_sym n y). destruct (String.eqb y n); reflexivity. }
    destruct (IH v1 Hv1) as [v' [Hv' S']]. exists v'. split; [exact Hv'|].
    eapply same_trans; eauto.
Qed.

Example C30_witness : exists x x' v, parse plain_config w0 ctx_default mixed_text = Parse_ok x /\
  extends [("y", lit "5")] mixed_rho "x" (lit "3") /\
  simplify_for default_config w0 x ("x", lit "3") = Val x' /\ root x' <> root x /\
  regular w0 (lookup mixed_rho) (root x) v /\ v = lit "6" /\
  eval w0 x' [("y", lit "5")] = Val (Eval_ok v).
Proof.
  destruct (parses_to (parse plain_config w0 ctx_default mixed_text) mixed_tree) as [x [Hx Ex]]; [vm_compute; reflexivity|].
  destruct (parses_to (match simplify_for default_config w0 x ("x", lit "3") with
    Val x' => Parse_ok x' | _ => Parse_diverges end) (Number (lit "6"))) as [x' [Hx' Ex']].
  { unfold simplify_for, simplify_for_in_place. rewrite Ex. vm_compute. reflexivity. }
  destruct (simplify_for default_config w0 x ("x", lit "3")) as [x2|p] eqn:S; [|discriminate Hx'].
  assert (x2 = x') as -> by congruence.
  destruct mixed_regular as [v [Hv Ev]]. apply same_f64_eq in Ev. subst v.
  exists x, x', (lit "6"). split; [exact Hx|]. split.
  { intro y. unfold mixed_rho, lookup. cbn [find fst snd]. destruct (String.eqb y "x") eqn:E; [|destruct (String.eqb y "y") eqn:E2].
    all: cbv [lookup]; cbn; try rewrite E; try rewrite E2; auto. }
  split; [exact S|]. rewrite Ex, Ex'. split; [intro D; discriminate D|].
  split; [exact Hv|]. split; [reflexivity|]. unfold eval. rewrite Ex'. reflexivity.
Qed.

(** Outside the regular domain the two can differ: x*y at x = 0 and y infinite. *)
Theorem C30_conditions_needed : exists x x', parse plain_config w0 ctx_default "x*y" = Parse_ok x /\
  simplify_for default_config w0 x ("x", fzero) = Val x' /\
  eval w0 x [("x", fzero); ("y", finf)] = Val (Eval_ok fnan) /\
  eval w0 x' [("y", finf)] = Val (Eval_ok fzero).
Proof.
  destruct (parses_to (parse plain_config w0 ctx_default "x*y") (BinOp Times (Var "x") (Var "y"))) as [x [Hx Ex]]; [vm_compute; reflexivity|].
  exists x, (mk_xprs (Number fzero) (set_remove "x" (vars x))). split; [exact Hx|].
  split; [unfold simplify_for, simplify_for_in_place; rewrite Ex; reflexivity|].
  split; [unfold eval; rewrite Ex; reflexivity|reflexivity].
Qed.
