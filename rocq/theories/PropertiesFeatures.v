(** * Properties: feature flags (C103) *)
From Coq Require Import ZArith List String Bool Permutation.
From Verif Require Import F64 Syntax Builtins Context Parser Xprs Features SpecFeatures SpecTokens SpecGrammar SpecParse SpecApi SpecRegular
  SpecTree TreeFacts LexExec ParserResults PropertiesParse PropertiesEq PropertiesEval RegularFacts PropertiesOptimise TestWorld.
Import ListNotations.
Local Open Scope string_scope.

Lemma feature_eqb_spec : forall a b, feature_eqb a b = true <-> a = b.
Proof. intros [] []; cbn; split; intro H; try reflexivity; discriminate H. Qed.

Lemma features_of_spec : forall d f, In f (features_of d) <-> asks d f.
Proof.
  intros [t l] f. unfold features_of, asks. cbn. rewrite in_app_iff. destruct t; cbn.
  - split.
    + intros [[<-|[<-|[]]]|H]; [right; split; [reflexivity|discriminate]|right; split; [reflexivity|discriminate]|now left].
    + intros [H|[_ H]]; [now right|]. left. destruct f; [now left|congruence|right; now left].
  - split; [intros [[]|H]; now left|]. intros [H|[H _]]; [now right|discriminate H].
Qed.

Lemma enabled_spec : forall deps f, enabled deps f = true <-> someone_asks deps f.
Proof.
  intros deps f. unfold enabled, unified, someone_asks. rewrite existsb_exists. split.
  - intros [g [Hg E]]. apply feature_eqb_spec in E. subst g. apply in_flat_map in Hg. destruct Hg as [d [Hd Hf]]. exists d. split; [exact Hd|]. now apply features_of_spec.
  - intros [d [Hd Hf]]. exists f. split; [|now apply feature_eqb_spec]. apply in_flat_map. exists d. split; [exact Hd|]. now apply features_of_spec.
Qed.

Lemma enabled_false : forall deps f, enabled deps f = false <-> ~ someone_asks deps f.
Proof. intros deps f. rewrite <- enabled_spec. destruct (enabled deps f); split; congruence. Qed.

(** ** Which build one gets *)
(** The crate compiles exactly if one of pemdas and pejmdas is asked for, but
    not both; and then it has what anyone asks for. *)
Theorem C103_build : forall ch debug deps cfg,
  build ch debug deps = Some cfg <->
  (pejmdas cfg = true /\ someone_asks deps F_pejmdas /\ ~ someone_asks deps F_pemdas \/
   pejmdas cfg = false /\ someone_asks deps F_pemdas /\ ~ someone_asks deps F_pejmdas) /\
  (optimize cfg = true <-> someone_asks deps F_optimizations) /\
  (nightly cfg = true <-> ch = Nightly) /\ overflow_checks cfg = debug.
Proof.
  intros ch debug deps cfg. unfold build. rewrite <- !enabled_false, <- !enabled_spec. split.
  - destruct (enabled deps F_pemdas) eqn:E1, (enabled deps F_pejmdas) eqn:E2; cbn; intro H; try discriminate H; injection H as <-; cbn;
      (split; [auto|]; split; [reflexivity|]; split; [|reflexivity]); destruct ch; cbn; split; congruence.
  - destruct cfg as [p o n c]. cbn. intros [Hp [Ho [Hn <-]]].
    assert (enabled deps F_optimizations = o) as ->.
    { destruct o; [now apply Ho|]. destruct (enabled deps F_optimizations); [|reflexivity]. discriminate (proj2 Ho eq_refl). }
    assert (is_nightly ch = n) as ->.
    { destruct n; [now rewrite (proj1 Hn eq_refl)|]. destruct ch; try reflexivity. discriminate (proj2 Hn eq_refl). }
    destruct Hp as [[-> [-> ->]]|[-> [-> ->]]]; reflexivity.
Qed.

(** It does not compile exactly if both are asked for, perhaps by different
    crates that do not know of each other, or neither. *)
Theorem C103_does_not_compile : forall ch debug deps,
  build ch debug deps = None <->
  (exists d d', In d deps /\ In d' deps /\ asks d F_pemdas /\ asks d' F_pejmdas) \/
  (forall d, In d deps -> ~ asks d F_pemdas /\ ~ asks d F_pejmdas).
Proof.
  intros ch debug deps. unfold build. destruct (enabled deps F_pemdas) eqn:E1, (enabled deps F_pejmdas) eqn:E2; cbn.
  - apply enabled_spec in E1, E2. destruct E1 as [d [Hd A]], E2 as [d' [Hd' A']]. split; [|reflexivity]. intros _. left. exists d, d'. auto.
  - apply enabled_spec in E1. apply enabled_false in E2. split; [discriminate|]. intros [[d [d' [_ [Hd' [_ A']]]]]|N].
    + exfalso. apply E2. now exists d'.
    + exfalso. destruct E1 as [d [Hd A]]. destruct (N d Hd). contradiction.
  - apply enabled_spec in E2. apply enabled_false in E1. split; [discriminate|]. intros [[d [d' [Hd [_ [A _]]]]]|N].
    + exfalso. apply E1. now exists d.
    + exfalso. destruct E2 as [d [Hd A]]. destruct (N d Hd). contradiction.
  - apply enabled_false in E1, E2. split; [|reflexivity]. intros _. right. intros d Hd. split; intro A; [apply E1|apply E2]; now exists d.
Qed.

(** With pejmdas nobody may take the default features, so nobody gets the
    optimisation without naming it. *)
Theorem C103_pejmdas_without_defaults : forall ch debug deps cfg, build ch debug deps = Some cfg -> pejmdas cfg = true ->
  forall d, In d deps -> takes_defaults d = false.
Proof.
  intros ch debug deps cfg H Hp d Hd. apply C103_build in H. destruct H as [[[_ [_ N]]|[E _]] _]; [|congruence].
  destruct (takes_defaults d) eqn:T; [|reflexivity]. exfalso. apply N. exists d. split; [exact Hd|]. right. split; [exact T|discriminate].
Qed.

(** Order and repetitions do not matter. *)
Theorem C103_order_irrelevant : forall ch debug deps deps',
  (forall d, In d deps <-> In d deps') -> build ch debug deps = build ch debug deps'.
Proof.
  intros ch debug deps deps' H. assert (E : forall f, enabled deps f = enabled deps' f).
  { intro f. destruct (enabled deps' f) eqn:E.
    - apply enabled_spec in E. apply enabled_spec. destruct E as [d [Hd A]]. exists d. split; [now apply H|exact A].
    - apply enabled_false in E. apply enabled_false. intros [d [Hd A]]. apply E. exists d. split; [now apply H|exact A]. }
  unfold build. now rewrite !E.
Qed.

(** ** One more crate in the program *)
(** If the program still compiles when a further dependent is added, the
    precedence, the compiler and the checks are as before, and the optimisation
    is on if it was. *)
Theorem C103_added_dependent : forall ch debug deps more cfg cfg',
  build ch debug deps = Some cfg -> build ch debug (deps ++ more) = Some cfg' ->
  pejmdas cfg' = pejmdas cfg /\ nightly cfg' = nightly cfg /\ overflow_checks cfg' = overflow_checks cfg /\
  (optimize cfg = true -> optimize cfg' = true) /\
  (optimize cfg = false -> optimize cfg' = true -> exists d, In d more /\ asks d F_optimizations).
Proof.
  intros ch debug deps more cfg cfg' H H'. apply C103_build in H, H'. destruct H as [Hp [Ho [Hn Hc]]], H' as [Hp' [Ho' [Hn' Hc']]].
  assert (Up : forall f, someone_asks deps f -> someone_asks (deps ++ more) f) by (intros f [d [Hd A]]; exists d; split; [apply in_or_app; now left|exact A]).
  split; [|split; [|split; [congruence|split]]].
  - destruct Hp as [[-> [A _]]|[-> [A _]]], Hp' as [[-> [_ N]]|[-> [_ N]]]; try reflexivity; exfalso; auto.
  - destruct (nightly cfg); [now apply Hn', Hn|]. destruct (nightly cfg'); [|reflexivity]. symmetry. now apply Hn, Hn'.
  - intro E. now apply Ho', Up, Ho.
  - intros E E'. apply Ho' in E'. destruct E' as [d [Hd A]]. apply in_app_or in Hd. destruct Hd as [Hd|Hd]; [|now exists d].
    exfalso. assert (K : optimize cfg = true) by (apply Ho; now exists d). congruence.
Qed.

(** What that does to a program written for the build without optimisation: a
    text without a number directly after ')' is accepted as before or rejected
    with the same error, and has the same values on the domain of C19. *)
Theorem C103_effect_on_texts : forall ch debug deps more cfg cfg' w ctx input ts,
  build ch debug deps = Some cfg -> build ch debug (deps ++ more) = Some cfg' -> optimize cfg = false ->
  get_expected_vars ctx = None -> context_functions_return w ctx ->
  input <> "" -> ~ has_double_bang input -> tokens_of input ts -> no_number_after_parenthesis ts ->
  (exists e, parse cfg w ctx input = Parse_err e /\ parse cfg' w ctx input = Parse_err e) \/
  (exists x y, parse cfg w ctx input = Parse_ok x /\ parse cfg' w ctx input = Parse_ok y /\
     forall rho v, regular w (lookup rho) (root x) v ->
       eval w x rho = Val (Eval_ok v) /\ exists v', eval w y rho = Val (Eval_ok v') /\ same_value v v').
Proof.
  intros ch debug deps more cfg cfg' w ctx input ts H H' Ho He Hc Hne Hd Hts Hn.
  destruct (C103_added_dependent _ _ _ _ _ _ H H') as [Hp [Hni [Hov _]]].
  destruct (optimize cfg') eqn:Eo.
  - destruct (C18_same_verdict cfg' cfg w ctx input ts Eo Ho Hp He Hc Hne Hd Hts Hn) as [[x [y [Hx [Hy _]]]]|[e [Hx Hy]]].
    + right. exists x, y. split; [exact Hx|]. split; [exact Hy|]. intros rho v Hr. eapply (C19_optimised_value cfg' cfg); eauto.
    + left. eauto.
  - assert (cfg' = cfg) as ->.
    { destruct cfg as [p o n c], cfg' as [p' o' n' c']. cbn in *. congruence. }
    destruct (parse cfg w ctx input) as [x|e|p|] eqn:E.
    + right. exists x, x. split; [reflexivity|]. split; [reflexivity|]. intros rho v Hr. apply regular_means, C21_eval_is_meaning in Hr. split; [exact Hr|].
      exists v. split; [exact Hr|]. apply same_value_refl.
    + left. eauto.
    + exfalso. apply (C02_plain_parse_panics_only_on_empty cfg w ctx input p Ho) in E. tauto.
    + exfalso. now apply (C01_parse_terminates cfg w ctx input).
Qed.

(** ** Limits and witness *)
(** Another crate that takes the default features turns the optimisation on for
    everyone: "(1+2)3" is accepted before and rejected after, and "x+(1+2)3" at
    x = 1 changes from 10 to 12. *)
Theorem C103_silent_change : exists deps more cfg cfg',
  build Stable false deps = Some cfg /\ build Stable false (deps ++ more) = Some cfg' /\ optimize cfg = false /\ optimize cfg' = true /\
  parses (parse cfg w0 ctx_default "(1+2)3") = true /\ parses (parse cfg' w0 ctx_default "(1+2)3") = false /\
  exists x y, parse cfg w0 ctx_default "x+(1+2)3" = Parse_ok x /\ parse cfg' w0 ctx_default "x+(1+2)3" = Parse_ok y /\
    eval w0 x [("x", lit "1")] = Val (Eval_ok (lit "10")) /\ eval w0 y [("x", lit "1")] = Val (Eval_ok (lit "12")).
Proof.
  exists [mk_dependency false [F_pemdas]], [mk_dependency true []], plain_config, default_config.
  split; [reflexivity|]. split; [reflexivity|]. split; [reflexivity|]. split; [reflexivity|].
  destruct C18_folded_parenthesis_rejected as [A B]. split; [exact A|]. split; [exact B|]. exact C18_folded_parenthesis_regroups.
Qed.

Example C103_witness : exists deps more cfg cfg' ts,
  build Stable false deps = Some cfg /\ build Stable false (deps ++ more) = Some cfg' /\ optimize cfg = false /\ optimize cfg' = true /\
  get_expected_vars ctx_default = None /\ context_functions_return w0 ctx_default /\
  mixed_text <> "" /\ ~ has_double_bang mixed_text /\ tokens_of mixed_text ts /\ no_number_after_parenthesis ts /\
  build Nightly true [mk_dependency false [F_pejmdas]; mk_dependency false [F_optimizations; F_pejmdas]] = Some (mk_config true true true true) /\
  build Nightly true [mk_dependency true [F_pejmdas]] = None.
Proof.
  exists [mk_dependency false [F_pemdas]], [mk_dependency true []], plain_config, default_config, mixed_tokens.
  split; [reflexivity|]. split; [reflexivity|]. split; [reflexivity|]. split; [reflexivity|]. split; [reflexivity|].
  split; [apply default_context_returns|]. split; [discriminate|]. split; [apply no_double_bang_check; reflexivity|].
  split; [exact mixed_tokens_ok|]. split; [exact mixed_no_numbers|]. split; reflexivity.
Qed.
