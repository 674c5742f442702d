(** * C95: [Xprs::try_from] *)
From Coq Require Import ZArith NArith List String Ascii Bool Lia Permutation.
From Verif Require Import F64 Syntax Factorial Builtins Context Element Parser Xprs SpecChars SpecTokens SpecGrammar SpecScan SpecRegular SpecRewrite.
From Verif Require Import SpecParse SpecTree TreeFacts TokenFacts SpecApi GrammarFacts ParserResults LexExec.
From Verif Require Import PropertiesParse PropertiesGrammar PropertiesScan PropertiesDefault PropertiesFrame TestWorld.
Import ListNotations.
Local Open Scope string_scope.

Lemma nothing_declared : forall t, declared ctx_default t.
Proof. intros t s H. discriminate H. Qed.

(** Without the optimisation the texts accepted are the sentences of the grammar
    in which every name is that of a built-in constant or function or a variable. *)
Theorem C95_accepts_exactly : forall cfg w input ts t,
  optimize cfg = false -> fair_order w -> tokens_of input ts -> clear_tokens ctx_default ts ->
  ((exists x, try_from cfg w input = Parse_ok x /\ root x = t) <-> sentence (pejmdas cfg) ctx_default ts t).
Proof.
  intros cfg w input ts t Ho Hf Hts Hc. unfold try_from.
  rewrite (C05_parser_decides_grammar cfg w ctx_default input ts t Ho Hf Hts Hc). pose proof (nothing_declared t). tauto.
Qed.

(** With the optimisation the same texts are accepted, and the expression is a
    simplified one. *)
Theorem C95_accepts_exactly_optimised : forall cfg w input ts,
  optimize cfg = true -> fair_order w -> tokens_of input ts -> clear_tokens ctx_default ts ->
  ((exists x, try_from cfg w input = Parse_ok x) <-> exists t, sentence (pejmdas cfg) ctx_default ts t) /\
  (forall x, try_from cfg w input = Parse_ok x -> exists t, sentence (pejmdas cfg) ctx_default ts t /\ simplified_from cfg w t (root x)).
Proof.
  intros cfg w input ts Ho Hf Hts Hc. unfold try_from.
  assert (K : forall x, parse cfg w ctx_default input = Parse_ok x -> exists t, sentence (pejmdas cfg) ctx_default ts t /\ simplified_from cfg w t (root x)).
  { intros x Hx. eapply C04_default_accepted_texts_are_sentences; eauto. }
  split; [|exact K]. split.
  - intros [x Hx]. destruct (K x Hx) as [t [Ht _]]. eauto.
  - intros [t Ht].
    destruct (C05_default_sentences_are_accepted cfg w ctx_default input ts t Ho Hf (default_context_returns w) Hts Hc Ht (nothing_declared t)) as [y [Hy _]]. eauto.
Qed.

(** A parser whose context defines none of the names of the text, and declares
    nothing, answers the same. *)
Theorem C95_as_any_parser : forall cfg w ctx input,
  (forall name, uses input name -> sget name (ctx_symbols ctx) = None) -> get_expected_vars ctx = None ->
  parse cfg w ctx input = try_from cfg w input.
Proof.
  intros cfg w ctx input Hn He. unfold try_from. apply C14_only_used_names_exact; [|exact He].
  intros name Hu. unfold stands_for. rewrite (Hn name Hu). reflexivity.
Qed.

(** A parser that declares variables accepts what try_from accepts as long as
    those used are among them. *)
Theorem C95_as_any_declaring_parser : forall cfg w ctx input s x, fair_order w ->
  (forall name, uses input name -> sget name (ctx_symbols ctx) = None) -> get_expected_vars ctx = Some s ->
  try_from cfg w input = Parse_ok x ->
  (parse cfg w ctx input = Parse_ok x <-> forall v, occurs v (root x) -> In v s).
Proof.
  intros cfg w ctx input s x Hf Hn He Hx. pose proof (C16_expected_variables cfg w ctx input s Hf He) as H.
  rewrite (C95_as_any_parser cfg w (without_expected ctx) input Hn eq_refl), Hx in H.
  destruct H as [[A B]|[v [l [Hv [Hs [_ E]]]]]]; [tauto|]. rewrite E. split; [intro K; discriminate K|]. intro K. exfalso. apply Hs, K, Hv.
Qed.

(** It never complains about undeclared variables. *)
Theorem C95_nothing_to_declare : forall cfg w input e v l,
  try_from cfg w input = Parse_err e -> pe_kind e <> VariableNotDeclared v l.
Proof.
  intros cfg w input e v l H E. unfold try_from, parse in H. change (get_expected_vars ctx_default) with (@None (list string)) in H.
  destruct (parse_impl cfg w ctx_default input) as [[r vs] c|e' c|p|] eqn:P; try discriminate H. injection H as ->.
  unfold parse_impl in P. pose proof (never_vnd cfg w ctx_default input (parse_budget input) NO_PRECEDENCE 0) as K.
  destruct (element_at _ _ _ _ _ _ _) as [a c'|e' c'|p|]; cbn [pbind] in P; try discriminate P.
  - destruct (next_trim input c') as [[t|] c2]; [|discriminate P]. injection P as <- _. discriminate E.
  - injection P as -> _. now apply (K v l).
Qed.

(** Names of a context, and declared variables, that do not occur: the same
    answer; x defined: another one. *)
Example C95_witness :
  tokens_of "2 sin(x) - pi" [TNum "2"; TId "sin"; TSym "("; TId "x"; TSym ")"; TSym "-"; TId "pi"] /\
  clear_tokens ctx_default [TNum "2"; TId "sin"; TSym "("; TId "x"; TSym ")"; TSym "-"; TId "pi"] /\
  (exists x, try_from default_config w0 "2 sin(x) - pi" = Parse_ok x /\ vars x = ["x"] /\
     (forall name, uses "2 sin(x) - pi" name -> sget name (ctx_symbols ctx1) = None) /\ get_expected_vars ctx1 = Some ["x"; "y"] /\
     parse default_config w0 ctx1 "2 sin(x) - pi" = Parse_ok x).
Proof.
  assert (Hts : tokens_of "2 sin(x) - pi" [TNum "2"; TId "sin"; TSym "("; TId "x"; TSym ")"; TSym "-"; TId "pi"]) by (apply tokens_check; vm_compute; reflexivity).
  split; [exact Hts|]. split; [apply clear_check; vm_compute; reflexivity|].
  destruct (try_from default_config w0 "2 sin(x) - pi") as [x|e|p|] eqn:E;
    [|exfalso; assert (K : match try_from default_config w0 "2 sin(x) - pi" with Parse_ok _ => true | _ => false end = true) by (vm_compute; reflexivity); rewrite E in K; discriminate K..].
  exists x. split; [reflexivity|].
  assert (Hv : vars x = ["x"]).
  { assert (K : match try_from default_config w0 "2 sin(x) - pi" with Parse_ok x => match vars x with [v] => String.eqb v "x" | _ => false end | _ => false end = true)
      by (vm_compute; reflexivity). rewrite E in K. destruct (vars x) as [|v [|? ?]]; try discriminate K. now apply String.eqb_eq in K as ->. }
  split; [exact Hv|].
  assert (Hn : forall name, uses "2 sin(x) - pi" name -> sget name (ctx_symbols ctx1) = None).
  { intros name [us [Hus Hi]]. rewrite (lexes_unique _ _ _ Hus Hts) in Hi.
    repeat (destruct Hi as [Hi|Hi]; [try discriminate Hi; injection Hi as <-; reflexivity|]). contradiction. }
  split; [exact Hn|]. split; [reflexivity|].
  apply (C95_as_any_declaring_parser default_config w0 ctx1 _ ["x"; "y"] x w0_fair Hn eq_refl E).
  intros v Ho. apply (C17_vars_exact _ _ _ _ _ E) in Ho. rewrite Hv in Ho. destruct Ho as [<-|[]]. now left.
Qed.
