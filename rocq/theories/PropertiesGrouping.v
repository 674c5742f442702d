(** * C98: pemdas and pejmdas compared *)
From Coq Require Import ZArith NArith Reals List String Ascii Bool Lia Lra.
From Flocq Require Import Core BinarySingleNaN.
From Verif Require Import F64 Syntax Factorial Builtins Context Element Parser Xprs.
From Verif Require Import SpecChars ParserFacts ParserResults SpecParse SpecTree TreeFacts SpecApi SpecTokens SpecGrammar SpecScan SpecGrouping.
From Verif Require Import TokenFacts LexFacts LexExec TokenParser TokenSim TokenMono GrammarFacts GrammarEquiv JuxtaFacts ScanFacts GroupingFacts.
From Verif Require Import TestWorld PropertiesParse PropertiesGrammar PropertiesOptimise PropertiesScan PropertiesDefault PropertiesError.
Import ListNotations.
Local Open Scope string_scope.

(** ** the variables, in the order of the text *)
Definition note_name (ctx : context) (vs : list string) (t : token) : list string :=
  match t with
  | TId s => match stands_for ctx s with I_Variable x => set_insert x vs | _ => vs end
  | _ => vs
  end.

Lemma variables_in_order : forall pj ctx k,
  (forall p ts t q n, chain pj ctx k p ts t q n -> forall vs, find_variables t vs = fold_left (note_name ctx) ts vs) /\
  (forall ts t q, operand pj ctx k ts t q -> forall vs, find_variables t vs = fold_left (note_name ctx) ts vs) /\
  (forall ts t, primary pj ctx k ts t -> forall vs, find_variables t vs = fold_left (note_name ctx) ts vs) /\
  (forall ts l, arguments pj ctx k ts l -> forall vs, fold_left (fun s a => find_variables a s) l vs = fold_left (note_name ctx) ts vs).
Proof.
  intros pj ctx k.
  assert (Op : forall tok op vs, operator_token tok op -> note_name ctx vs tok = vs).
  { intros [s|s|c] op vs H; cbn in *; auto; contradiction. }
  apply chain_mutind.
  - auto.
  - intros p ts l q n tok op ts' r q' n' _ IHl Htok _ _ _ _ IHr vs. cbn [find_variables].
    rewrite IHl, IHr, fold_left_app. cbn [fold_left]. now rewrite (Op _ _ _ Htok).
  - intros p ts l q n ts' r q' n' j _ IHl _ _ _ _ IHr vs. cbn [find_variables]. now rewrite IHl, IHr, fold_left_app.
  - auto.
  - intros ts t _ IH vs. cbn [find_variables]. rewrite IH, fold_left_app. reflexivity.
  - intros c op ts t q n Hc _ IH vs. cbn [find_variables fold_left note_name]. apply IH.
  - reflexivity.
  - intros s v H vs. cbn. now rewrite H.
  - intros s v H vs. cbn. now rewrite H.
  - intros s f ts args H _ IH _ vs. cbn [find_variables fold_left note_name]. rewrite H, IH, fold_left_app. reflexivity.
  - intros ts t q n _ IH vs. cbn [fold_left note_name]. rewrite IH, fold_left_app. reflexivity.
  - intros ts t q n _ IH vs. cbn [fold_left]. apply IH.
  - intros ts t q n ts' l _ IH _ IH' vs. cbn [fold_left]. rewrite IH, IH', fold_left_app. reflexivity.
Qed.

(** Without the optimisation the two builds accept the same texts, report the
    same errors at the same places, and the expressions have the same
    variables. *)
Theorem C98_same_answer : forall cfg cfg' w ctx input, same_but_precedence cfg cfg' -> optimize cfg = false ->
  match parse cfg w ctx input, parse cfg' w ctx input with
  | Parse_ok x, Parse_ok y => vars x = vars y
  | Parse_err e, Parse_err e' => e = e'
  | Parse_panic p, Parse_panic p' => p = p'
  | _, _ => False
  end.
Proof.
  intros cfg cfg' w ctx input Hs Ho. assert (Ho' : optimize cfg' = false) by (destruct Hs; congruence).
  destruct (string_dec input "") as [->|Hne].
  - rewrite !parse_empty. destruct Hs as [_ [_ ->]]. destruct (overflow_checks cfg'); reflexivity.
  - destruct (C06_tokens_unique input) as [ts [Hts _]].
    pose proof (sim_parse cfg w ctx input (nonempty_bytes _ Hne) ts Hts) as A.
    pose proof (sim_parse cfg' w ctx input (nonempty_bytes _ Hne) ts Hts) as B.
    pose proof (scan_parse cfg w ctx Ho (parse_budget input) ts) as VA.
    pose proof (scan_parse cfg' w ctx Ho' (parse_budget input) ts) as VB.
    pose proof (parse_not_fuel cfg w ctx input ts Hne Hts) as FA.
    pose proof (parse_not_fuel cfg' w ctx input ts Hne Hts) as FB. unfold parse.
    destruct (parse_impl cfg w ctx input) as [[r vs] c|e c|p|], (t_parse cfg w ctx (parse_budget input) ts) as [t rest|k f u|q|] eqn:EA;
      try contradiction; try congruence;
    destruct (parse_impl cfg' w ctx input) as [[r' vs'] c'|e' c'|p'|], (t_parse cfg' w ctx (parse_budget input) ts) as [t' rest'|k' f' u'|q'|] eqn:EB;
      try contradiction; try congruence.
    + destruct A as [-> ->], B as [-> ->].
      pose proof (ok_rest_nil _ _ _ _ _ _ _ EA) as ->. pose proof (ok_rest_nil _ _ _ _ _ _ _ EB) as ->.
      apply (parse_by_derivation cfg w ctx input ts t Ho Hne Hts) in EA. apply (parse_by_derivation cfg' w ctx input ts t' Ho' Hne Hts) in EB.
      destruct EA as [q [n EA]], EB as [q' [n' EB]].
      rewrite (proj1 (variables_in_order _ _ _) _ _ _ _ _ EA), (proj1 (variables_in_order _ _ _) _ _ _ _ _ EB).
      destruct (get_expected_vars ctx) as [s|]; [|reflexivity]. destruct (set_diff _ _); reflexivity.
    + rewrite VA in VB. injection VB as <- <- <-. exact (C52_verdict_fixes_error _ _ _ _ _ _ A B).
Qed.

(** How the trees differ: pejmdas keeps juxtaposed operands together as right
    operand of an explicit [*], [/] or [%], pemdas takes only the first.  If no
    [/] or [%] is followed by juxtaposed operands they differ in the grouping
    of products only, and mean the same on paper. *)
Theorem C98_regrouped : forall cfg cfg' w ctx input ts x y,
  optimize cfg = false -> optimize cfg' = false -> pejmdas cfg = false -> pejmdas cfg' = true ->
  tokens_of input ts -> clear_tokens ctx ts ->
  parse cfg w ctx input = Parse_ok x -> parse cfg' w ctx input = Parse_ok y ->
  regrouped (root x) (root y) /\
  (~ divides_juxtaposed ctx ts -> same_product (root x) (root y)).
Proof.
  intros cfg cfg' w ctx input ts x y Ho Ho' Hp Hp' Hts Hc Px Py.
  pose proof (C04_accepted_texts_are_sentences cfg w ctx input ts x Ho Hts Hc Px) as Sx. rewrite Hp in Sx.
  pose proof (C04_accepted_texts_are_sentences cfg' w ctx input ts y Ho' Hts Hc Py) as Sy. rewrite Hp' in Sy.
  destruct (to_pemdas ctx) as [_ [_ [_ [_ [_ [_ [_ T]]]]]]]. destruct (T _ _ Sy) as [t [St [R S]]].
  rewrite (C06_sentences_unique _ _ _ _ _ Sx St). now split.
Qed.

Theorem C98_same_on_paper : forall cfg cfg' w ctx input ts x y,
  optimize cfg = false -> optimize cfg' = false -> pejmdas cfg = false -> pejmdas cfg' = true ->
  tokens_of input ts -> clear_tokens ctx ts -> ~ divides_juxtaposed ctx ts ->
  parse cfg w ctx input = Parse_ok x -> parse cfg' w ctx input = Parse_ok y ->
  forall power remainder factorial call rho,
    on_paper power remainder factorial call rho (root x) = on_paper power remainder factorial call rho (root y).
Proof.
  intros cfg cfg' w ctx input ts x y Ho Ho' Hp Hp' Hts Hc Hd Px Py power remainder factorial call rho.
  destruct (C98_regrouped cfg cfg' w ctx input ts x y Ho Ho' Hp Hp' Hts Hc Px Py) as [_ S].
  exact (proj1 (same_on_paper _ _ _ _ _) _ _ (S Hd)).
Qed.

(** The documented grammars: every sentence of the one with pejmdas is one of
    the other; the converse holds too on texts without the parser's own
    productions. *)
Theorem C98_same_sentences : forall ctx ts,
  ((exists t, sentence true ctx ts t) -> exists t, sentence false ctx ts t) /\
  (clear_tokens ctx ts -> (exists t, sentence false ctx ts t) -> exists t, sentence true ctx ts t).
Proof.
  intros ctx ts. split.
  - intros [t H]. destruct (to_pemdas ctx) as [_ [_ [_ [_ [_ [_ [_ T]]]]]]]. destruct (T _ _ H) as [t0 [S _]]. eauto.
  - intros C [t H]. destruct (to_pejmdas ctx) as [_ [_ [_ [_ [_ [_ [_ T]]]]]]]. exact (T _ _ H C).
Qed.

(** With the optimisation the same holds of acceptance and errors, as long as no
    variables are declared. *)
Theorem C98_default_same_answer : forall cfg cfg' w ctx input ts, same_but_precedence cfg cfg' -> optimize cfg = true ->
  input <> "" -> context_functions_return w ctx -> get_expected_vars ctx = None ->
  tokens_of input ts -> clear_tokens ctx ts ->
  match parse cfg w ctx input, parse cfg' w ctx input with
  | Parse_ok _, Parse_ok _ => True
  | Parse_err e, Parse_err e' => e = e'
  | _, _ => False
  end.
Proof.
  intros cfg cfg' w ctx input ts Hs Ho Hne Hr He Hts Hc. assert (Ho' : optimize cfg' = true) by (destruct Hs; congruence).
  destruct (clear_parts ctx input ts Hts Hc) as [Hb Hn].
  pose proof (C52_default_verdict cfg w ctx input ts Ho Hne Hr Hb Hts Hn) as A.
  pose proof (C52_default_verdict cfg' w ctx input ts Ho' Hne Hr Hb Hts Hn) as B.
  destruct (verdict_of ctx ts) as [|k f u].
  - destruct A as [[x ->]|[K _]]; [|contradiction]. destruct B as [[y ->]|[K _]]; [|contradiction]. exact I.
  - destruct A as [e [-> A]], B as [e' [-> B]]. exact (C52_verdict_fixes_error _ _ _ _ _ _ A B).
Qed.

(** ** The conditions are needed, and a concrete case *)
Definition grouping_paper : element -> R := on_paper (fun a _ => a) (fun a _ => a) (fun a => a) (fun _ _ => 0%R) (fun _ => 2%R).

Lemma paper_one : B2R (lit "1") = 1%R.
Proof. destruct (B2R_of (lit "1") false 4503599627370496 (-52)) as [-> _]; [vm_compute; reflexivity|]. unfold F2R. cbn. lra. Qed.
Lemma paper_two : B2R (lit "2") = 2%R.
Proof. destruct (B2R_of (lit "2") false 4503599627370496 (-51)) as [-> _]; [vm_compute; reflexivity|]. unfold F2R. cbn. lra. Qed.

Theorem C98_division_differs : exists x y,
  parse plain_config w0 ctx_default "1/2x" = Parse_ok x /\ parse pejmdas_plain w0 ctx_default "1/2x" = Parse_ok y /\
  regrouped (root x) (root y) /\ divides_juxtaposed ctx_default [TNum "1"; TSym "/"; TNum "2"; TId "x"] /\
  grouping_paper (root x) = 1%R /\ grouping_paper (root y) = (/ 4)%R.
Proof.
  destruct (C09_juxtaposition_differs w0) as [x [y [Px [Py [Ex Ey]]]]]. exists x, y. split; [exact Px|]. split; [exact Py|].
  rewrite Ex, Ey. generalize paper_one paper_two. assert (L : match literal_value "2" with Some _ => true | None => false end = true) by (vm_compute; reflexivity).
  destruct (literal_value "2") as [tok_value|] eqn:LV; [|discriminate L]. clear L.
  generalize (lit "1") (lit "2"). intros one two E1 E2. split; [|split; [|split]].
  - eapply RG_product with (l := Number one) (p := BinOp Times (Number two) (Var "x")); [auto|constructor|constructor; constructor|].
    apply spread_next, spread_first.
  - exists [TNum "1"]%list, "/"%char, [TNum "2"]%list, (Number tok_value), (TId "x"), []%list. split; [reflexivity|]. split; [auto|]. split; [|reflexivity].
    now apply S_power, W_postfix, F_prim, P_number.
  - unfold grouping_paper. cbn. rewrite E1, E2. field.
  - unfold grouping_paper. cbn. rewrite E1, E2. field.
Qed.

(** Rounding is different: 0.1*0.2y for y = 0.3. *)
Theorem C98_rounding_differs : exists x y u v,
  parse plain_config w0 ctx_default "0.1*0.2y" = Parse_ok x /\ parse pejmdas_plain w0 ctx_default "0.1*0.2y" = Parse_ok y /\
  same_product (root x) (root y) /\
  eval w0 x [("y", lit "0.3")] = Val (Eval_ok u) /\ eval w0 y [("y", lit "0.3")] = Val (Eval_ok v) /\ feq u v = false.
Proof.
  destruct (parses_to (parse plain_config w0 ctx_default "0.1*0.2y")
    (BinOp Times (BinOp Times (Number (lit "0.1")) (Number (lit "0.2"))) (Var "y"))) as [x [Px Ex]]; [vm_compute; reflexivity|].
  destruct (parses_to (parse pejmdas_plain w0 ctx_default "0.1*0.2y")
    (BinOp Times (Number (lit "0.1")) (BinOp Times (Number (lit "0.2")) (Var "y")))) as [y [Py Ey]]; [vm_compute; reflexivity|].
  exists x, y, (fmul (fmul (lit "0.1") (lit "0.2")) (lit "0.3")), (fmul (lit "0.1") (fmul (lit "0.2") (lit "0.3"))).
  split; [exact Px|]. split; [exact Py|]. unfold eval. rewrite Ex, Ey. split; [apply SP_regroup|].
  split; [apply eval_check; vm_compute; reflexivity|]. split; [apply eval_check; vm_compute; reflexivity|vm_compute; reflexivity].
Qed.

(** With the optimisation a variable can cancel in one grouping only; if
    variables are declared, this decides whether the text is accepted. *)
Theorem C98_declared_refuted :
  let ctx := with_expected_vars ctx_default ["y"] in
  (exists x, parse default_config w0 ctx "x/x y" = Parse_ok x /\ root x = Var "y") /\
  error_of (parse (mk_config true true false false) w0 ctx "x/x y") = Some (VariableNotDeclared "x" ["y"], 0%N, 5%N).
Proof. split; [apply parses_to; vm_compute; reflexivity|vm_compute; reflexivity]. Qed.

Lemma signed_some : forall pj ctx ts t, signed pj ctx ts t -> ts <> [].
Proof.
  intros pj ctx.
  assert (P : forall ts t, prim pj ctx ts t -> ts <> []) by (intros ts t H; destruct H; discriminate).
  assert (F : forall ts t, postfix pj ctx ts t -> ts <> []).
  { intros ts t H. inversion H; subst; [eapply P; eauto|]. destruct ts0; discriminate. }
  assert (W : forall ts t, power pj ctx ts t -> ts <> []).
  { intros ts t H. inversion H; subst; [eapply F; eauto|]. destruct ts0; discriminate. }
  intros ts t H. inversion H; subst; [eapply W; eauto|discriminate|]. destruct ts0; discriminate.
Qed.

Definition grouping_text : string := "2x*y(z+1)/4".
Example C98_witness :
  let ts := [TNum "2"; TId "x"; TSym "*"; TId "y"; TSym "("; TId "z"; TSym "+"; TNum "1"; TSym ")"; TSym "/"; TNum "4"]%list in
  tokens_of grouping_text ts /\ clear_tokens ctx_default ts /\ ~ divides_juxtaposed ctx_default ts /\
  exists x y, parse plain_config w0 ctx_default grouping_text = Parse_ok x /\
    parse pejmdas_plain w0 ctx_default grouping_text = Parse_ok y /\ root x <> root y /\ same_product (root x) (root y).
Proof.
  intro ts. assert (T : tokens_of grouping_text ts) by (apply tokens_check; vm_compute; reflexivity).
  assert (C : clear_tokens ctx_default ts) by (apply clear_check; vm_compute; reflexivity).
  assert (D : ~ divides_juxtaposed ctx_default ts).
  { intros [u [c [o [t [b [v [E [Hc [Ho _]]]]]]]]]. unfold ts in E.
    do 9 (destruct u as [|? u]; cbn in E;
      [injection E as E0 E; destruct Hc as [Hc | Hc]; subst c; discriminate|injection E as _ E]).
    destruct u as [|? u]; cbn in E; injection E as E0 E.
    - destruct o as [|o1 [|o2 o]]; cbn in E; try discriminate E.
      now elim (signed_some _ _ _ _ Ho).
    - destruct u as [|? u]; cbn in E; [discriminate E|]. injection E as _ E. destruct u; discriminate E. }
  split; [exact T|]. split; [exact C|]. split; [exact D|].
  destruct (parses_to (parse plain_config w0 ctx_default grouping_text)
    (BinOp Divide (BinOp Times (BinOp Times (BinOp Times (Number (lit "2")) (Var "x")) (Var "y")) (BinOp Plus (Var "z") (Number (lit "1")))) (Number (lit "4")))) as [x [Px Ex]]; [vm_compute; reflexivity|].
  destruct (parses_to (parse pejmdas_plain w0 ctx_default grouping_text)
    (BinOp Divide (BinOp Times (BinOp Times (Number (lit "2")) (Var "x")) (BinOp Times (Var "y") (BinOp Plus (Var "z") (Number (lit "1"))))) (Number (lit "4")))) as [y [Py Ey]]; [vm_compute; reflexivity|].
  exists x, y. split; [exact Px|]. split; [exact Py|]. split.
  - rewrite Ex, Ey. generalize (lit "2") (lit "1") (lit "4"). intros a b c K. discriminate K.
  - exact (proj2 (C98_regrouped plain_config pejmdas_plain w0 ctx_default grouping_text ts x y eq_refl eq_refl eq_refl eq_refl T C Px Py) D).
Qed.
