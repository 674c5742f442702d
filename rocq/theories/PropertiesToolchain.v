(** * C89: debug or release, stable or nightly *)
From Coq Require Import ZArith NArith List String Ascii Bool Lia Permutation.
From Flocq Require Import BinarySingleNaN.
From Verif Require Import F64 Syntax Factorial Builtins Context Element Parser Xprs Display.
From Verif Require Import SpecParse ParserInv SpecTree TreeFacts SpecApi ParserResults SpecTokens SpecGrammar SpecScan SpecRegular SpecRewrite SpecToolchain.
From Verif Require Import TokenFacts LexFacts LexExec TokenParser TokenSim TokenMono GrammarFacts OptFacts ScanPrefix BindFacts PortableFacts.
From Verif Require Import TestWorld PropertiesParse PropertiesGrammar PropertiesEval PropertiesEq PropertiesOptimise PropertiesBind PropertiesErrors PropertiesSpecial.
Import ListNotations.
Local Open Scope string_scope.

(** ** The same run of the parser, the same answer *)
Lemma same_run_same_parse : forall cfg cfg' w ctx input ts,
  input <> "" -> tokens_of input ts ->
  t_parse cfg w ctx (parse_budget input) ts = t_parse cfg' w ctx (parse_budget input) ts ->
  parse cfg w ctx input = parse cfg' w ctx input.
Proof.
  intros cfg cfg' w ctx input ts Hne Hts E.
  pose proof (sim_parse cfg w ctx input (nonempty_bytes _ Hne) ts Hts) as H.
  pose proof (sim_parse cfg' w ctx input (nonempty_bytes _ Hne) ts Hts) as H'. rewrite <- E in H'. unfold parse.
  destruct (parse_impl cfg w ctx input) as [[r vs] c|e c|p|], (t_parse cfg w ctx _ _) as [t rest|k f u|q|]; try contradiction;
    destruct (parse_impl cfg' w ctx input) as [[r' vs'] c'|e' c'|p'|]; try contradiction.
  - destruct H as [-> ->], H' as [-> ->]. reflexivity.
  - now rewrite (matching_errors _ _ _ _ _ _ H H').
  - now subst.
  - reflexivity.
Qed.

Lemma same_finish_same_parse : forall cfg cfg' w ctx input,
  input <> "" -> pejmdas cfg = pejmdas cfg' ->
  (forall el, finish_element cfg w el = finish_element cfg' w el) ->
  parse cfg w ctx input = parse cfg' w ctx input.
Proof.
  intros cfg cfg' w ctx input Hne Hp Hf. destruct (lexes_total (list_ascii_of_string input)) as [ts Hts].
  apply (same_run_same_parse cfg cfg' w ctx input ts Hne Hts).
  assert (Hi : implicit_precedence cfg = implicit_precedence cfg') by (unfold implicit_precedence; now rewrite Hp).
  apply (worlds_parse cfg cfg' Hi w w ctx (fun _ => True) (fun _ => True)); auto. apply Forall_forall. auto.
Qed.

(** ** Debug or release *)
Lemma simplify_same_compiler : forall cfg cfg' w, nightly cfg = nightly cfg' -> forall e, simplify cfg w e = simplify cfg' w e.
Proof.
  intros cfg cfg' w Hn e.
  assert (Hb : forall op l r, simplify_binop cfg w op l r = simplify_binop cfg' w op l r).
  { intros op l r. unfold simplify_binop. rewrite Hn. reflexivity. }
  induction e as [n|op l r IHl IHr|op e IHe|f args Hargs|y] using element_ind'; cbn [simplify]; auto.
  - rewrite IHl, IHr. destruct (simplify cfg' w l); auto. destruct (simplify cfg' w r); auto. apply Hb.
  - now rewrite IHe.
  - now rewrite (map_out_ext _ _ _ (simplify cfg' w)).
Qed.
Lemma simplify_for_same_compiler : forall cfg cfg' w, nightly cfg = nightly cfg' -> forall x v e, el_simplify_for cfg w x v e = el_simplify_for cfg' w x v e.
Proof.
  intros cfg cfg' w Hn x v e. pose proof (simplify_same_compiler cfg cfg' w Hn) as S.
  induction e as [n|op l r IHl IHr|op e IHe|f args Hargs|y] using element_ind'; cbn [el_simplify_for]; auto.
  - rewrite IHl, IHr. destruct (el_simplify_for cfg' w x v l); auto. destruct (el_simplify_for cfg' w x v r); auto. apply S.
  - rewrite IHe. destruct (el_simplify_for cfg' w x v e); auto. apply S.
  - rewrite (map_out_ext _ _ _ (el_simplify_for cfg' w x v)) by auto. destruct (map_out _ args); auto. apply S.
Qed.
Lemma multiple_same : forall cfg cfg' w, (forall x v e, el_simplify_for cfg w x v e = el_simplify_for cfg' w x v e) ->
  forall l o e vs, simplify_multiple_loop cfg w l o e vs = simplify_multiple_loop cfg' w l o e vs.
Proof.
  intros cfg cfg' w H. induction l as [|[x v] l IH]; intros o e vs; cbn [simplify_multiple_loop fst snd]; auto.
  rewrite H. destruct (el_simplify_for cfg' w x v e); auto.
Qed.

Theorem C89_debug_or_release : forall cfg cfg' w ctx input,
  same_features cfg cfg' -> nightly cfg = nightly cfg' -> input <> "" ->
  parse cfg w ctx input = parse cfg' w ctx input /\
  (forall e, parse cfg w ctx input = Parse_err e -> help cfg e = help cfg' e) /\
  (forall x var, simplify_for cfg w x var = simplify_for cfg' w x var) /\
  (forall x l, simplify_for_multiple cfg w x l = simplify_for_multiple cfg' w x l) /\
  (forall x names, fair_order w -> NoDup (vars x) -> few_missing x names -> bind_n cfg w x names = bind_n cfg' w x names).
Proof.
  intros cfg cfg' w ctx input [Hp Ho] Hn Hne. repeat split.
  - apply same_finish_same_parse; auto. intro el. unfold finish_element. rewrite Ho. destruct (optimize cfg'); auto.
    now apply simplify_same_compiler.
  - intros e He. apply C45_errors_truthful in He. unfold error_truthful in He. unfold help.
    destruct (pe_kind e); auto; destruct He as [_ [He _]]; unfold usize_sub.
    + destruct (N.leb_spec (N.of_nat got) (N.of_nat expected)) as [L|L]; [reflexivity|lia].
    + destruct (N.leb_spec (N.of_nat expected) (N.of_nat got)) as [L|L]; [reflexivity|lia].
  - intros x [y v]. unfold simplify_for, simplify_for_in_place. cbn [fst snd]. now rewrite (simplify_for_same_compiler cfg cfg' w Hn).
  - intros x l. unfold simplify_for_multiple, simplify_for_multiple_in_place.
    now rewrite (multiple_same cfg cfg' w (simplify_for_same_compiler cfg cfg' w Hn)).
  - intros x names Hf Hv Hm. unfold bind_n, bind_check. rewrite !from_diff_spec; auto; apply Hm; apply missing_names_ok; auto.
Qed.

(** The empty text is the one exception of [parse] (and 256 missing variables
    that of [bind], C26). *)
Theorem C89_empty_text_refuted : forall cfg cfg' w ctx, overflow_checks cfg = true -> overflow_checks cfg' = false ->
  parse cfg w ctx "" = Parse_panic ArithOverflow /\ exists e, parse cfg' w ctx "" = Parse_err e.
Proof. intros cfg cfg' w ctx H H'. rewrite !parse_empty, H, H'. eauto. Qed.

(** ** Stable or nightly *)

(** Without optimisation the compiler does not matter for parsing. *)
Theorem C89_unoptimised : forall cfg cfg' w ctx input,
  same_features cfg cfg' -> optimize cfg = false -> input <> "" ->
  parse cfg w ctx input = parse cfg' w ctx input.
Proof.
  intros cfg cfg' w ctx input [Hp Ho] H Hne. apply same_finish_same_parse; auto. intro el. unfold finish_element. now rewrite <- Ho, H.
Qed.

(** Nor does it with optimisation, when nothing is subtracted or negated. *)
Section Minus.
  Variables cfg cfg' : config.
  Variable w : world.

  Definition both (o o' : out element) : Prop := o = o' /\ forall y, o = Val y -> without_minus y.
  Lemma both_val : forall e, without_minus e -> both (Val e) (Val e).
  Proof. intros e H. split; [reflexivity|]. intros y E. now injection E as <-. Qed.
  Lemma both_boom : forall p, both (Boom p) (Boom p).
  Proof. intros p. split; [reflexivity|]. intros y E. discriminate E. Qed.
  Lemma both_if_eq : forall a b x x' y y', both x x' -> both y y' -> both (if_eq a b x y) (if_eq a b x' y').
  Proof. intros. unfold if_eq. destruct (el_eq a b) as [[]|]; auto. apply both_boom. Qed.
  Lemma both_fold : forall op l r, op <> Minus -> without_minus l -> without_minus r -> both (fold_binop w op l r) (fold_binop w op l r).
  Proof.
    intros op l r H Hl Hr. assert (both (Val (BinOp op l r)) (Val (BinOp op l r))) by (apply both_val; now constructor).
    unfold fold_binop. destruct l; auto. destruct r; auto. destruct (apply_binop _ _ _ _).
    - apply both_val. constructor.
    - apply both_boom.
  Qed.

  Lemma minus_binop : forall op l r, op <> Minus -> without_minus l -> without_minus r ->
    both (simplify_binop cfg w op l r) (simplify_binop cfg' w op l r).
  Proof.
    intros op l r Hop Hl Hr. assert (Hn : forall v, without_minus (Number v)) by (intro; constructor).
    assert (Hu : forall e, ~ without_minus (UnOp Minus e)) by (intros e H; inversion H; congruence).
    assert (Kl : forall A (f : element -> A) d, match l with UnOp Minus a => f a | _ => d end = d).
    { intros A f d. destruct l as [| |o a| |]; auto. destruct o; auto. exfalso. eapply Hu; eauto. }
    assert (Kr : forall A (f : element -> A) d, match r with UnOp Minus a => f a | _ => d end = d).
    { intros A f d. destruct r as [| |o a| |]; auto. destruct o; auto. exfalso. eapply Hu; eauto. }
    assert (Klr : forall A (f : element -> element -> A) d, match l, r with UnOp Minus a, UnOp Minus b => f a b | _, _ => d end = d).
    { intros A f d. destruct l as [| |o a| |]; auto. destruct o; auto. }
    assert (Kf : both (fold_binop w op l r) (fold_binop w op l r)) by (apply both_fold; auto).
    destruct op; unfold simplify_binop; cbv zeta; try congruence; rewrite ?Kl, ?Kr, ?Klr;
    repeat match goal with
    | |- both (if ?b then if ?c then _ else _ else _) _ => destruct b
    | |- both (if_eq _ _ _ _) _ => apply both_if_eq
    | |- both (Val _) _ => apply both_val; auto
    | |- both (if is_number ?a ?b then _ else _) _ => destruct (is_number a b)
    | |- both (if ?b then _ else _) _ => destruct b
    end; auto;
    try (destruct (nightly cfg'); assumption).
  Qed.

  Lemma minus_simplify : forall e, without_minus e -> both (simplify cfg w e) (simplify cfg' w e).
  Proof.
    intros e. induction e as [n|op l r IHl IHr|op e IHe|f args Hargs|y] using element_ind'; intro H; cbn [simplify]; try (now apply both_val); inversion H; subst.
    - destruct IHl as [El Gl]; auto. destruct IHr as [Er Gr]; auto. rewrite <- El, <- Er.
      destruct (simplify cfg w l) as [l'|]; [|apply both_boom]. destruct (simplify cfg w r) as [r'|]; [|apply both_boom].
      cbn. apply minus_binop; auto.
    - destruct IHe as [Ee Ge]; auto. rewrite <- Ee. destruct (simplify cfg w e) as [e'|]; [|apply both_boom]. cbn.
      pose proof (Ge _ eq_refl) as G. unfold simplify_unop.
      destruct op; try congruence; try apply both_boom; try (now apply both_val); destruct e'; apply both_val; constructor; auto.
    - assert (E : map_out (simplify cfg w) args = map_out (simplify cfg' w) args).
      { apply map_out_ext. rewrite Forall_forall in *. intros a Ha. now apply Hargs; auto. }
      rewrite <- E. destruct (map_out (simplify cfg w) args) as [args'|] eqn:Em; [|apply both_boom]. cbn.
      assert (G : Forall without_minus args').
      { eapply map_out_good; [|exact Em]. rewrite Forall_forall in *. intros a Ha. now apply Hargs; auto. }
      unfold simplify_call. cbv zeta. destruct (Nat.eqb _ _); [|apply both_val; now constructor].
      destruct (call_function _ _ _); [apply both_val; constructor|apply both_boom].
  Qed.

  Lemma minus_simplify_for : forall x v e, without_minus e -> both (el_simplify_for cfg w x v e) (el_simplify_for cfg' w x v e).
  Proof.
    intros x v e. induction e as [n|op l r IHl IHr|op e IHe|f args Hargs|y] using element_ind'; intro H; cbn [el_simplify_for]; inversion H; subst.
    - now apply both_val.
    - destruct IHl as [El Gl]; auto. destruct IHr as [Er Gr]; auto. rewrite <- El, <- Er.
      destruct (el_simplify_for cfg w x v l) as [l'|]; [|apply both_boom]. destruct (el_simplify_for cfg w x v r) as [r'|]; [|apply both_boom].
      apply minus_simplify. constructor; auto.
    - destruct IHe as [Ee Ge]; auto. rewrite <- Ee. destruct (el_simplify_for cfg w x v e) as [e'|]; [|apply both_boom].
      apply minus_simplify. constructor; auto.
    - assert (E : map_out (el_simplify_for cfg w x v) args = map_out (el_simplify_for cfg' w x v) args).
      { apply map_out_ext. rewrite Forall_forall in *. intros a Ha. now apply Hargs; auto. }
      rewrite <- E. destruct (map_out (el_simplify_for cfg w x v) args) as [args'|] eqn:Em; [|apply both_boom].
      apply minus_simplify. constructor; auto.
      eapply map_out_good; [|exact Em]. rewrite Forall_forall in *. intros a Ha. now apply Hargs; auto.
    - destruct (String.eqb y x); apply both_val; constructor.
  Qed.
End Minus.

Theorem C89_without_minus : forall cfg cfg' w ctx input ts,
  same_features cfg cfg' -> input <> "" -> tokens_of input ts -> ~ In (TSym "-"%char) ts ->
  parse cfg w ctx input = parse cfg' w ctx input /\
  forall x, parse cfg w ctx input = Parse_ok x ->
    without_minus (root x) /\ forall var, simplify_for cfg w x var = simplify_for cfg' w x var.
Proof.
  intros cfg cfg' w ctx input ts [Hp Ho] Hne Hts Hm.
  assert (Hi : implicit_precedence cfg = implicit_precedence cfg') by (unfold implicit_precedence; now rewrite Hp).
  set (T := fun t : token => t <> TSym "-"%char).
  assert (HT : Forall T ts). { apply Forall_forall. intros t Ht ->. contradiction. }
  assert (K : t_parse cfg w ctx (parse_budget input) ts = t_parse cfg' w ctx (parse_budget input) ts /\
              gives T without_minus (t_parse cfg w ctx (parse_budget input) ts)).
  { apply (worlds_parse cfg cfg' Hi w w ctx T without_minus); auto; try (intros; constructor; solve [auto|discriminate]).
    - intros c op l r Hc Ht Hl Hr. constructor; auto. intros ->.
      apply Ht. f_equal. clear - Hc. destruct c as [[] [] [] [] [] [] [] []]; try discriminate Hc; reflexivity.
    - intros el Hel. unfold finish_element. rewrite <- Ho. destruct (optimize cfg).
      + apply minus_simplify; auto.
      + split; [reflexivity|]. intros y E. now injection E as <-. }
  destruct K as [E G]. split; [exact (same_run_same_parse cfg cfg' w ctx input ts Hne Hts E)|].
  intros x Hx. pose proof (parse_outcome cfg w ctx input ts Hne Hts) as O. rewrite Hx in O. cbn [outcome_of] in O. symmetry in O.
  apply token_gives in O. destruct O as [rest [O _]]. destruct (G _ _ O) as [W _]. split; [exact W|].
  intros [y v]. unfold simplify_for, simplify_for_in_place. cbn [fst snd].
  now rewrite (proj1 (minus_simplify_for cfg cfg' w y v (root x) W)).
Qed.

(** In general the two compilers give the same errors, and expressions with the
    same values, for texts without a number right after ')' and values that
    meet no exception of C19. *)
Theorem C89_values : forall cfg cfg' w ctx input ts,
  same_features cfg cfg' -> optimize cfg = true ->
  get_expected_vars ctx = None -> context_functions_return w ctx ->
  input <> "" -> ~ has_double_bang input -> tokens_of input ts -> no_number_after_parenthesis ts ->
  (exists e, parse cfg w ctx input = Parse_err e /\ parse cfg' w ctx input = Parse_err e) \/
  exists x y z, parse cfg w ctx input = Parse_ok x /\ parse cfg' w ctx input = Parse_ok y /\
    parse (mk_config (pejmdas cfg) false (nightly cfg) (overflow_checks cfg)) w ctx input = Parse_ok z /\
    forall rho v, regular w (lookup rho) (root z) v ->
      exists v1 v2, eval w x rho = Val (Eval_ok v1) /\ eval w y rho = Val (Eval_ok v2) /\ same_value v1 v2.
Proof.
  intros cfg cfg' w ctx input ts [Hp Ho] H1 Hv Hc Hne Hd Hts Hn.
  set (p := mk_config (pejmdas cfg) false (nightly cfg) (overflow_checks cfg)).
  assert (H2 : optimize cfg' = true) by congruence.
  destruct (C18_same_verdict cfg p w ctx input ts H1 eq_refl eq_refl Hv Hc Hne Hd Hts Hn) as [[z [x [Hz [Hx _]]]]|[e [He Hx]]];
  destruct (C18_same_verdict cfg' p w ctx input ts H2 eq_refl (eq_sym Hp) Hv Hc Hne Hd Hts Hn) as [[z' [y [Hz' [Hy _]]]]|[e' [He' Hy]]].
  - right. exists x, y, z. split; [exact Hx|]. split; [exact Hy|]. split; [exact Hz|]. intros rho v Hr.
    destruct (C19_optimised_value cfg p w ctx input ts z x rho v H1 eq_refl eq_refl Hts Hn Hz Hx Hr) as [_ [v1 [E1 S1]]].
    destruct (C19_optimised_value cfg' p w ctx input ts z y rho v H2 eq_refl (eq_sym Hp) Hts Hn Hz Hy Hr) as [_ [v2 [E2 S2]]].
    exists v1, v2. split; [exact E1|]. split; [exact E2|]. rewrite same_value_iff in *.
    destruct S1 as [-> |[Z1 Z2]], S2 as [-> |[Z3 Z4]]; auto.
  - congruence.
  - congruence.
  - left. exists e. split; [exact Hx|]. congruence.
Qed.

(** ** Examples *)
Definition debug_config : config := mk_config false true false true.

Example C89_witness : exists x,
  parse default_config w0 ctx_default "2x + max(x, 0*y)!" = Parse_ok x /\
  parse debug_config w0 ctx_default "2x + max(x, 0*y)!" = Parse_ok x /\
  parse nightly_config w0 ctx_default "2x + max(x, 0*y)!" = Parse_ok x /\ without_minus (root x).
Proof.
  assert (Hne : "2x + max(x, 0*y)!" <> "") by discriminate.
  destruct (parses_ok (parse default_config w0 ctx_default "2x + max(x, 0*y)!")) as [x Hx]; [vm_compute; reflexivity|].
  assert (Hts : exists ts, tokens_of "2x + max(x, 0*y)!" ts /\ ~ In (TSym "-"%char) ts).
  { exists [TNum "2"; TId "x"; TSym "+"; TId "max"; TSym "("; TId "x"; TSym ","; TNum "0"; TSym "*"; TId "y"; TSym ")"; TSym "!"]%char.
    split; [apply tokens_check; vm_compute; reflexivity|]. cbn. intuition discriminate. }
  destruct Hts as [ts [Hts Hm]].
  destruct (C89_without_minus default_config nightly_config w0 ctx_default "2x + max(x, 0*y)!" ts (conj eq_refl eq_refl) Hne Hts Hm) as [E W].
  destruct (C89_debug_or_release default_config debug_config w0 ctx_default "2x + max(x, 0*y)!" (conj eq_refl eq_refl) eq_refl Hne) as [E' _].
  exists x. split; [exact Hx|]. split; [now rewrite <- E'|]. split; [now rewrite <- E|]. exact (proj1 (W x Hx)).
Qed.

(** A nightly build folds "-x+x" to the number 0: so it rejects a text that the
    stable build accepts, and gives 0 where the stable build gives NaN. *)
Theorem C89_nightly_refuted :
  parses (parse default_config w0 ctx_default "(-x+x) 5") = true /\
  parses (parse nightly_config w0 ctx_default "(-x+x) 5") = false /\
  exists x y, parse default_config w0 ctx_default "-x+x" = Parse_ok x /\ parse nightly_config w0 ctx_default "-x+x" = Parse_ok y /\
    eval w0 x [("x", finf)] = Val (Eval_ok fnan) /\ eval w0 y [("x", finf)] = Val (Eval_ok fzero).
Proof.
  split; [vm_compute; reflexivity|]. split; [vm_compute; reflexivity|].
  destruct (parses_to (parse default_config w0 ctx_default "-x+x") (BinOp Plus (UnOp Minus (Var "x")) (Var "x"))) as [x [Hx Ex]]; [vm_compute; reflexivity|].
  destruct (parses_to (parse nightly_config w0 ctx_default "-x+x") (Number fzero)) as [y [Hy Ey]]; [vm_compute; reflexivity|].
  exists x, y. split; [exact Hx|]. split; [exact Hy|].
  split; apply eval_check; rewrite ?Ex, ?Ey; vm_compute; reflexivity.
Qed.
