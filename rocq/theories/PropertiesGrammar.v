(** * What the parser accepts, as a grammar (C04-C10) *)
From Coq Require Import ZArith NArith List String Ascii Bool Lia Permutation.
From Verif Require Import SpecChars CharFacts.
From Verif Require Import F64 Syntax Factorial Builtins Context Element Parser Xprs.
From Verif Require Import ParserFacts SpecParse ParserInv SpecTree TreeFacts SimplifyFacts SpecApi ParserResults.
From Verif Require Import SpecTokens SpecGrammar TokenFacts LexFacts LexExec TokenParser TokenSim TokenMono GrammarFacts GrammarEquiv JuxtaFacts.
From Verif Require Import TestWorld PropertiesParse.
Import ListNotations.
Local Open Scope string_scope.

(** ** From bytes to tokens *)
Lemma nonempty_bytes : forall input : string, input <> "" -> 0 < List.length (bytes input).
Proof. intros [|c s] H; [congruence|]. cbn. lia. Qed.

(** the outcome of a parse, with errors reduced to their kind *)
Inductive outcome :=
| Gives (x : xprs)
| Fails (k : error_kind)
| Panics (p : panic)
| Diverges.
Definition outcome_of (r : parse_result) : outcome :=
  match r with
  | Parse_ok x => Gives x
  | Parse_err e => Fails (pe_kind e)
  | Parse_panic p => Panics p
  | Parse_diverges => Diverges
  end.

(** the same computed from the token parser *)
Definition token_outcome (w : world) (ctx : context) (r : tres element) : outcome :=
  match r with
  | TOk t _ =>
      let vars := find_variables t [] in
      match get_expected_vars ctx with
      | None => Gives (mk_xprs t vars)
      | Some expected =>
          match set_diff (hash_order w vars) expected with
          | [] => Gives (mk_xprs t vars)
          | v :: _ => Fails (VariableNotDeclared v (hash_order w expected))
          end
      end
  | TErr k _ _ => Fails k
  | TPanic p => Panics p
  | TFuel => Diverges
  end.

Lemma parse_outcome : forall cfg w ctx input ts, input <> "" -> tokens_of input ts ->
  outcome_of (parse cfg w ctx input) = token_outcome w ctx (t_parse cfg w ctx (parse_budget input) ts).
Proof.
  intros cfg w ctx input ts Hne Hts. pose proof (sim_parse cfg w ctx input (nonempty_bytes _ Hne) ts Hts) as H. unfold parse.
  destruct (parse_impl cfg w ctx input) as [[r vs] c|e c|p|], (t_parse _ _ _ _ _) as [t rest|k f u|q|]; try contradiction; cbn.
  - destruct H as [<- ->]. destruct (get_expected_vars ctx); auto. destruct (set_diff _ _); auto.
  - destruct H as [-> _]. reflexivity.
  - now rewrite H.
  - reflexivity.
Qed.

Lemma parse_not_fuel : forall cfg w ctx input ts, input <> "" -> tokens_of input ts ->
  t_parse cfg w ctx (parse_budget input) ts <> TFuel.
Proof.
  intros cfg w ctx input ts Hne Hts E. pose proof (parse_outcome cfg w ctx input ts Hne Hts) as H. rewrite E in H. cbn in H.
  pose proof (C01_parse_terminates cfg w ctx input). destruct (parse cfg w ctx input); try discriminate H. congruence.
Qed.

Lemma ok_rest_nil : forall cfg w ctx b ts t rest, t_parse cfg w ctx b ts = TOk t rest -> rest = [].
Proof.
  intros cfg w ctx b ts t rest H. unfold t_parse in H. destruct (t_element _ _ _ _ _ _) as [a [|x r]| | |]; cbn in H; congruence.
Qed.

Lemma declared_check : forall w ctx t, fair_order w ->
  (token_outcome w ctx (TOk t []) = Gives (mk_xprs t (find_variables t []))) <-> declared ctx t.
Proof.
  intros w ctx t Hf. unfold token_outcome, declared. destruct (get_expected_vars ctx) as [s|]; [|split; auto; discriminate].
  destruct (set_diff (hash_order w (find_variables t [])) s) as [|u l] eqn:E.
  - split; auto. intros _ s' [= <-] v Hv. destruct (in_dec string_dec v s); auto. exfalso.
    assert (Hin : In v (set_diff (hash_order w (find_variables t [])) s)).
    { apply set_diff_In. split; auto. eapply Permutation_in; [apply Hf|]. apply find_variables_In. left. now apply free_iff. }
    rewrite E in Hin. inversion Hin.
  - split; [discriminate|]. intro H. exfalso.
    assert (Hin : In u (set_diff (hash_order w (find_variables t [])) s)) by (rewrite E; now left).
    apply set_diff_In in Hin. destruct Hin as [Hi Hn]. apply Hn. apply (H s eq_refl). apply free_iff.
    eapply Permutation_in in Hi; [|symmetry; apply Hf]. apply find_variables_In in Hi. destruct Hi as [Hi|[]]. exact Hi.
Qed.

Lemma outcome_gives : forall r x, outcome_of r = Gives x <-> r = Parse_ok x.
Proof. intros [] y; cbn; split; intro H; congruence. Qed.

Lemma token_gives : forall w ctx r x, token_outcome w ctx r = Gives x ->
  exists rest, r = TOk (root x) rest /\ vars x = find_variables (root x) [].
Proof.
  intros w ctx [t rest|k|p|] x H; cbn in H; try discriminate H. exists rest.
  destruct (get_expected_vars ctx); [destruct (set_diff _ _); [|discriminate H]|]; injection H as <-; auto.
Qed.

(** the parser's answer does not depend on the budget *)
Lemma parse_by_derivation : forall cfg w ctx input ts t, optimize cfg = false -> input <> "" -> tokens_of input ts ->
  (t_parse cfg w ctx (parse_budget input) ts = TOk t [] <-> derives (pejmdas cfg) ctx true ts t).
Proof.
  intros cfg w ctx input ts t Ho Hne Hts. rewrite <- (t_parse_iff cfg w ctx Ho). split; [eauto|].
  intros [b Hb]. rewrite <- Hb. apply same_answer; [now apply parse_not_fuel|]. rewrite Hb. discriminate.
Qed.

(** ** C04: accepted texts *)

(** An unoptimised parse returns tree [t] exactly when [t] is derivable from the
    text's tokens ([derives] with the implementation's own two productions) and
    its variables are declared. *)
Theorem C04_accepted_exactly : forall cfg w ctx input ts t,
  optimize cfg = false -> fair_order w -> input <> "" -> tokens_of input ts ->
  ((exists x, parse cfg w ctx input = Parse_ok x /\ root x = t) <->
   derives (pejmdas cfg) ctx true ts t /\ declared ctx t).
Proof.
  intros cfg w ctx input ts t Ho Hf Hne Hts. pose proof (parse_outcome cfg w ctx input ts Hne Hts) as Hp.
  rewrite <- (parse_by_derivation cfg w ctx input ts t Ho Hne Hts). split.
  - intros [x [Hx <-]]. rewrite Hx in Hp. cbn in Hp. symmetry in Hp.
    destruct (token_gives _ _ _ _ Hp) as [rest [E Hv]]. pose proof (ok_rest_nil _ _ _ _ _ _ _ E). subst rest.
    split; [exact E|]. apply (declared_check w ctx (root x) Hf). rewrite E in Hp. rewrite Hp. rewrite <- Hv. now destruct x.
  - intros [E Hd]. rewrite E in Hp. rewrite (proj2 (declared_check w ctx t Hf) Hd) in Hp. apply outcome_gives in Hp.
    eexists. split; [exact Hp|reflexivity].
Qed.

(** On texts without the two special adjacencies, what is accepted is a sentence
    of the documented grammar, with exactly that tree. *)
Theorem C04_accepted_texts_are_sentences : forall cfg w ctx input ts x,
  optimize cfg = false -> tokens_of input ts -> clear_tokens ctx ts ->
  parse cfg w ctx input = Parse_ok x ->
  sentence (pejmdas cfg) ctx ts (root x).
Proof.
  intros cfg w ctx input ts x Ho Hts Hc Hx.
  assert (Hne : input <> "").
  { intros ->. rewrite parse_empty in Hx. destruct (overflow_checks cfg); discriminate Hx. }
  pose proof (parse_outcome cfg w ctx input ts Hne Hts) as Hp. rewrite Hx in Hp. cbn in Hp. symmetry in Hp.
  destruct (token_gives _ _ _ _ Hp) as [rest [E Hv]]. pose proof (ok_rest_nil _ _ _ _ _ _ _ E). subst rest.
  apply (parse_by_derivation cfg w ctx input ts (root x) Ho Hne Hts) in E.
  apply sentence_derives. destruct E as [q [n E]]. exists q, n. now apply chain_clear.
Qed.

(** ** C05: every sentence is accepted *)
Theorem C05_sentences_are_accepted : forall cfg w ctx input ts t,
  optimize cfg = false -> fair_order w -> tokens_of input ts ->
  sentence (pejmdas cfg) ctx ts t -> declared ctx t ->
  exists x, parse cfg w ctx input = Parse_ok x /\ root x = t.
Proof.
  intros cfg w ctx input ts t Ho Hf Hts Hs Hd.
  apply sentence_derives in Hs. destruct Hs as [q [n Hs]]. apply chain_more in Hs.
  assert (Hne : input <> "").
  { apply tokens_nonempty with ts; auto. destruct (proj1 (chain_last _ _) _ _ _ _ _ Hs) as [u [a [-> _]]]. destruct u; discriminate. }
  apply (C04_accepted_exactly cfg w ctx input ts t Ho Hf Hne Hts). split; auto. exists q, n. auto.
Qed.

(** Together: without the two adjacencies the parser decides the documented
    grammar. *)
Theorem C05_parser_decides_grammar : forall cfg w ctx input ts t,
  optimize cfg = false -> fair_order w -> tokens_of input ts -> clear_tokens ctx ts ->
  ((exists x, parse cfg w ctx input = Parse_ok x /\ root x = t) <->
   sentence (pejmdas cfg) ctx ts t /\ declared ctx t).
Proof.
  intros cfg w ctx input ts t Ho Hf Hts Hc. split.
  - intros [x [Hx <-]]. split; [eapply C04_accepted_texts_are_sentences; eauto|].
    assert (Hne : input <> "").
    { intros ->. rewrite parse_empty in Hx. destruct (overflow_checks cfg); discriminate Hx. }
    apply (C04_accepted_exactly cfg w ctx input ts (root x) Ho Hf Hne Hts). eauto.
  - intros [Hs Hd]. eapply C05_sentences_are_accepted; eauto.
Qed.

(** ** C06: unambiguity *)
Theorem C06_derivations_unique : forall pj ctx ts t t',
  derives pj ctx true ts t -> derives pj ctx true ts t' -> t = t'.
Proof.
  intros pj ctx ts t t' H H'.
  set (cfg := {| pejmdas := pj; optimize := false; nightly := false; overflow_checks := false |}).
  apply (proj2 (t_parse_iff cfg w0 ctx eq_refl ts t)) in H. apply (proj2 (t_parse_iff cfg w0 ctx eq_refl ts t')) in H'.
  destruct H as [b H], H' as [b' H'].
  assert (E : t_parse cfg w0 ctx b ts = t_parse cfg w0 ctx b' ts).
  { apply same_answer; [rewrite H|rewrite H']; discriminate. }
  rewrite H, H' in E. congruence.
Qed.

Theorem C06_sentences_unique : forall pj ctx ts t t',
  sentence pj ctx ts t -> sentence pj ctx ts t' -> t = t'.
Proof.
  intros pj ctx ts t t' H H'. apply sentence_derives in H. apply sentence_derives in H'.
  destruct H as [q [n H]], H' as [q' [n' H']]. apply chain_more in H. apply chain_more in H'.
  eapply C06_derivations_unique; [exists q, n; exact H|exists q', n'; exact H'].
Qed.

(** Every text has exactly one token sequence. *)
Theorem C06_tokens_unique : forall input, exists ts, tokens_of input ts /\ forall ts', tokens_of input ts' -> ts' = ts.
Proof.
  intro input. destruct (lexes_total (list_ascii_of_string input)) as [ts H]. exists ts. split; [exact H|].
  intros ts' H'. eapply lexes_unique; eauto.
Qed.

(** ** C07: whitespace *)

(** Texts with the same tokens have the same outcome: the same expression, an
    error of the same kind, or the same panic. *)
Theorem C07_only_tokens_matter : forall cfg w ctx input input' ts,
  input <> "" -> input' <> "" -> tokens_of input ts -> tokens_of input' ts ->
  outcome_of (parse cfg w ctx input) = outcome_of (parse cfg w ctx input').
Proof.
  intros cfg w ctx input input' ts Hne Hne' Hts Hts'.
  rewrite (parse_outcome cfg w ctx input ts Hne Hts), (parse_outcome cfg w ctx input' ts Hne' Hts').
  f_equal. apply same_answer; now apply parse_not_fuel.
Qed.

(** Adding whitespace between two token sequences, or at either end. *)
Theorem C07_whitespace_between : forall cfg w ctx a b ts ts' c whole,
  tokens_of a ts -> tokens_of b ts' -> a_blank c = true ->
  whole <> "" -> tokens_of whole (ts ++ ts') ->
  outcome_of (parse cfg w ctx (a ++ String c b)) = outcome_of (parse cfg w ctx whole).
Proof.
  intros cfg w ctx a b ts ts' c whole Ha Hb Hc Hne Hw. apply C07_only_tokens_matter with (ts ++ ts')%list; auto.
  - destruct a; discriminate.
  - unfold tokens_of. rewrite list_ascii_app. cbn. now apply lexes_space.
Qed.

Theorem C07_padding : forall cfg w ctx input c, input <> "" -> a_blank c = true ->
  outcome_of (parse cfg w ctx (input ++ String c "")) = outcome_of (parse cfg w ctx input) /\
  outcome_of (parse cfg w ctx (String c input)) = outcome_of (parse cfg w ctx input).
Proof.
  intros cfg w ctx input c Hne Hc. destruct (C06_tokens_unique input) as [ts [Hts _]]. split.
  - apply (C07_whitespace_between cfg w ctx input "" ts []%list); auto; [apply L_end|now rewrite app_nil_r].
  - apply (C07_whitespace_between cfg w ctx "" input []%list ts); auto. apply L_end.
Qed.

(** ** C08: juxtaposition is multiplication *)

(** With pemdas, whatever the optimisation setting: writing out the products of
    a text changes nothing, neither the expression nor the kind of error. *)
Theorem C08_juxtaposition_is_product : forall cfg w ctx input input' ts,
  pejmdas cfg = false -> input <> "" -> tokens_of input ts -> clear_tokens ctx ts ->
  input' <> "" -> tokens_of input' (insert_stars ctx ts) ->
  outcome_of (parse cfg w ctx input) = outcome_of (parse cfg w ctx input').
Proof.
  intros cfg w ctx input input' ts Hpe Hne Hts Hc Hne' Hts'.
  rewrite (parse_outcome cfg w ctx input ts Hne Hts), (parse_outcome cfg w ctx input' _ Hne' Hts').
  pose proof (parse_not_fuel cfg w ctx input ts Hne Hts) as Hf.
  pose proof (parse_not_fuel cfg w ctx input' _ Hne' Hts') as Hf'.
  pose proof (star_parse cfg w ctx Hpe (parse_budget input) ts Hc) as Hs.
  rewrite (same_answer cfg w ctx (parse_budget input') (parse_budget input)); auto.
  - destruct (t_parse cfg w ctx (parse_budget input) ts); cbn [alike] in Hs; [now rewrite Hs| |now rewrite Hs|now rewrite Hs].
    destruct Hs as [f [u ->]]. reflexivity.
  - destruct (t_parse cfg w ctx (parse_budget input) ts); cbn [alike] in Hs; try (rewrite Hs; discriminate); [|congruence].
    destruct Hs as [f [u ->]]. discriminate.
Qed.

(** ** C09: pemdas and pejmdas *)
Definition same_but_precedence (cfg cfg' : config) : Prop :=
  optimize cfg = optimize cfg' /\ nightly cfg = nightly cfg' /\ overflow_checks cfg = overflow_checks cfg'.

Lemma finish_precedence : forall cfg cfg' w el, same_but_precedence cfg cfg' -> finish_element cfg w el = finish_element cfg' w el.
Proof.
  intros cfg cfg' w el [H1 [H2 H3]]. unfold finish_element. rewrite H1. destruct (optimize cfg'); auto.
  assert (Hb : forall op l r, simplify_binop cfg w op l r = simplify_binop cfg' w op l r).
  { intros op l r. unfold simplify_binop. rewrite H2. reflexivity. }
  induction el using element_ind'; cbn [simplify]; auto.
  - rewrite IHel1, IHel2. destruct (simplify cfg' w el1); auto. destruct (simplify cfg' w el2); auto. apply Hb.
  - rewrite IHel. reflexivity.
  - assert (E : map_out (simplify cfg w) args = map_out (simplify cfg' w) args).
    { induction H as [|e l He Hl IH]; auto. cbn. now rewrite He, IH. }
    now rewrite E.
Qed.

Theorem C09_precedences_agree : forall cfg cfg' w ctx input ts,
  same_but_precedence cfg cfg' -> input <> "" -> tokens_of input ts -> ~ juxtaposed ctx ts ->
  outcome_of (parse cfg w ctx input) = outcome_of (parse cfg' w ctx input).
Proof.
  intros cfg cfg' w ctx input ts [H1 [H2 H3]] Hne Hts Hj.
  rewrite (parse_outcome cfg w ctx input ts Hne Hts), (parse_outcome cfg' w ctx input ts Hne Hts).
  f_equal. apply same_parse; auto. intro el. apply finish_precedence. repeat split; auto.
Qed.

(** ** C10: parentheses *)
Lemma paren_step : forall cfg w ctx input x, optimize cfg = false ->
  parse cfg w ctx input = Parse_ok x -> parse cfg w ctx ("(" ++ input ++ ")") = Parse_ok x.
Proof.
  intros cfg w ctx input x Ho Hx.
  assert (Hne : input <> "").
  { intros ->. rewrite parse_empty in Hx. destruct (overflow_checks cfg); discriminate Hx. }
  assert (Hne' : "(" ++ input ++ ")" <> "") by discriminate.
  destruct (C06_tokens_unique input) as [ts [Hts _]]. pose proof (tokens_parens _ _ Hts) as Hts'.
  pose proof (parse_outcome cfg w ctx input ts Hne Hts) as Hp. rewrite Hx in Hp. cbn in Hp. symmetry in Hp.
  destruct (token_gives _ _ _ _ Hp) as [rest [E Hv]]. pose proof (ok_rest_nil _ _ _ _ _ _ _ E). subst rest.
  assert (E' : t_parse cfg w ctx (parse_budget ("(" ++ input ++ ")")) (TSym "(" :: ts ++ [TSym ")"])%list = TOk (root x) []%list).
  { apply (parse_by_derivation cfg w ctx _ _ (root x) Ho Hne' Hts').
    apply (parse_by_derivation cfg w ctx input ts (root x) Ho Hne Hts) in E. destruct E as [q [n E]].
    do 2 eexists. apply C_operand. apply O_plain. eapply R_paren. exact E. }
  pose proof (parse_outcome cfg w ctx _ _ Hne' Hts') as Hp'. rewrite E' in Hp'. rewrite E in Hp. rewrite Hp in Hp'.
  now apply outcome_gives.
Qed.

(** Wrapping an accepted text in any number of parentheses gives the same
    expression, hence the same values. *)
Theorem C10_parentheses_transparent : forall cfg w ctx input x n, optimize cfg = false ->
  parse cfg w ctx input = Parse_ok x -> parse cfg w ctx (in_parentheses n input) = Parse_ok x.
Proof. induction n as [|n IH]; intros Ho Hx; cbn [in_parentheses]; auto. now apply paren_step; auto. Qed.

(** ** Witnesses and exceptions *)

(** The documented grammar alone does not describe the parser: "1+2 3" is
    accepted, as (1+2)*3, in every configuration, and has no documented reading. *)
Definition quirk_tree (a b c : string) : element :=
  BinOp Times (BinOp Plus (Number (lit a)) (Number (lit b))) (Number (lit c)).

Lemma quirk_no_sentence : forall pj ctx a b c t,
  derives pj ctx true [TNum a; TSym "+"; TNum b; TNum c] (BinOp Times (BinOp Plus t (Number (lit "2"))) (Number (lit "3"))) ->
  forall t', ~ sentence pj ctx [TNum a; TSym "+"; TNum b; TNum c] t'.
Proof.
  intros pj ctx a b c t H t' H'. apply sentence_derives in H'.
  assert (E : t' = BinOp Times (BinOp Plus t (Number (lit "2"))) (Number (lit "3"))).
  { destruct H' as [q [n H']]. eapply C06_derivations_unique; [exists q, n; apply chain_more; exact H'|exact H]. }
  subst t'. clear H. destruct H' as [q [n H]]. generalize dependent (Number (lit "2")). generalize (Number (lit "3")).
  intros e3 e2 H.
  assert (Hop : forall ts u q, operand pj ctx false (TNum a :: ts) (BinOp u e2 e3) q -> False).
  { intros ts u q0 Ho. inversion Ho; subst. match goal with H : primary _ _ _ _ _ |- _ => inversion H end. }
  assert (Hop' : forall ts u x y q, operand pj ctx false (TNum a :: ts) (BinOp u x y) q -> False).
  { intros ts u x y q0 Ho. inversion Ho; subst. match goal with H : primary _ _ _ _ _ |- _ => inversion H end. }
  inversion H; subst.
  - eapply Hop'; eauto.
  - (* an explicit product needs its token *)
    match goal with H : operator_token ?tok Times |- _ => 
      assert (Hin : In tok [TNum a; TSym "+"; TNum b; TNum c]) by
        (match goal with E : (_ ++ _ :: _)%list = _ |- _ => rewrite <- E; apply in_or_app; right; left; reflexivity end);
      cbn in Hin; destruct Hin as [<-|[<-|[<-|[<-|[]]]]]; cbn in H; try contradiction; discriminate H end.
  - match goal with H : chain _ _ _ _ ?ts (BinOp Plus _ _) ?q _, E : (?ts ++ _)%list = _, Hq : _ \/ _ |- _ =>
      destruct Hq as [Hq|[Hq _]]; [|discriminate Hq]; inversion H; subst end.
    + match goal with H : operand _ _ _ ?ts _ _, E : (?ts ++ _)%list = _ |- _ => destruct ts as [|t0 ts]; cbn in E end.
      * match goal with H : operand _ _ _ [] _ _ |- _ => inversion H; subst end.
        match goal with H : primary _ _ _ _ _ |- _ => inversion H end.
      * match goal with E : _ :: _ = _ |- _ => injection E as -> _ end. eapply Hop'; eauto.
    + match goal with Hj : j <= _ |- _ => subst j; unfold implicit_strength in Hj; destruct pj; cbn [strength] in Hj; lia end.
Qed.

Lemma quirk_accepted : forall cfg w, optimize cfg = false -> exists x,
  parse cfg w ctx_default "1+2 3" = Parse_ok x /\ root x = quirk_tree "1" "2" "3".
Proof. intros [[] [] [] []] w H; cbn in H; try discriminate H; apply parses_to; vm_compute; reflexivity. Qed.

Theorem C04_number_after_number_refuted : forall cfg w, optimize cfg = false ->
  exists ts x, tokens_of "1+2 3" ts /\ parse cfg w ctx_default "1+2 3" = Parse_ok x /\
    root x = BinOp Times (BinOp Plus (Number (lit "1")) (Number (lit "2"))) (Number (lit "3")) /\
    forall t, ~ sentence (pejmdas cfg) ctx_default ts t.
Proof.
  intros cfg w Ho. destruct (quirk_accepted cfg w Ho) as [x [Hx Hr]].
  exists [TNum "1"; TSym "+"; TNum "2"; TNum "3"]%list, x.
  assert (Hts : tokens_of "1+2 3" [TNum "1"; TSym "+"; TNum "2"; TNum "3"]%list) by (apply tokens_check; vm_compute; reflexivity).
  split; [exact Hts|]. split; [exact Hx|]. split; [exact Hr|].
  apply quirk_no_sentence with (t := Number (lit "1")).
  change (BinOp Times (BinOp Plus (Number (lit "1")) (Number (lit "2"))) (Number (lit "3"))) with (quirk_tree "1" "2" "3").
  rewrite <- Hr. apply (parse_by_derivation cfg w ctx_default "1+2 3"); auto; [discriminate|].
  assert (Hne : "1+2 3" <> "") by discriminate.
  pose proof (parse_outcome cfg w ctx_default _ _ Hne Hts) as Hp. rewrite Hx in Hp. cbn [outcome_of] in Hp. symmetry in Hp.
  destruct (token_gives _ _ _ _ Hp) as [rest [E Hv]]. pose proof (ok_rest_nil _ _ _ _ _ _ _ E). subst rest. exact E.
Qed.

(** Such adjacency is otherwise an error: *)
Example C04_numbers_not_juxtaposed :
  error_of (parse plain_config w0 ctx_default "2 3") = Some (UnexpectedToken "3", 2%N, 0%N) /\
  error_of (parse plain_config w0 ctx_default "(2)3") = Some (UnexpectedToken "3", 3%N, 0%N) /\
  error_of (parse plain_config w0 ctx_default "pi 3") = Some (UnexpectedToken "3", 3%N, 0%N) /\
  parses (parse plain_config w0 ctx_default "x 3") = true /\
  parses (parse plain_config w0 ctx_default "(x)3") = true.
Proof. repeat split; vm_compute; reflexivity. Qed.

Definition sample := "-2x^2! + hypot(y, 3 % z)/4(1-w) - x2 y'".
Definition sample_tokens : list token :=
  [TSym "-"; TNum "2"; TId "x"; TSym "^"; TNum "2"; TSym "!"; TSym "+"; TId "hypot"; TSym "("; TId "y"; TSym ",";
   TNum "3"; TSym "%"; TId "z"; TSym ")"; TSym "/"; TNum "4"; TSym "("; TNum "1"; TSym "-"; TId "w"; TSym ")";
   TSym "-"; TId "x2"; TId "y'"]%list.
(** in pemdas: ((-2)*x^(2!) + (hypot(y, 3%z)/4)*(1-w)) - x2*y' *)
Definition sample_tree : element :=
  BinOp Minus
    (BinOp Plus
      (BinOp Times (UnOp Minus (Number (lit "2"))) (BinOp Power (Var "x") (UnOp Factorial (Number (lit "2")))))
      (BinOp Times
        (BinOp Divide (Call (builtin_function B_HYPOT) [Var "y"; BinOp Modulo (Number (lit "3")) (Var "z")]) (Number (lit "4")))
        (BinOp Minus (Number (lit "1")) (Var "w"))))
    (BinOp Times (Var "x2") (Var "y'")).

(** C04, C05, C06: a sentence of the documented grammar *)
Example C04_witness : tokens_of sample sample_tokens /\ clear_tokens ctx_default sample_tokens /\
  (exists x, parse plain_config w0 ctx_default sample = Parse_ok x /\ root x = sample_tree) /\
  sentence false ctx_default sample_tokens sample_tree /\ declared ctx_default sample_tree.
Proof.
  assert (Hts : tokens_of sample sample_tokens) by (apply tokens_check; vm_compute; reflexivity).
  assert (Hc : clear_tokens ctx_default sample_tokens) by (apply clear_check; vm_compute; reflexivity).
  assert (Hx : exists x, parse plain_config w0 ctx_default sample = Parse_ok x /\ root x = sample_tree) by
    (apply parses_to; vm_compute; reflexivity).
  split; [exact Hts|]. split; [exact Hc|]. split; [exact Hx|]. split.
  - destruct Hx as [x [Hx <-]]. apply (C04_accepted_texts_are_sentences plain_config w0 ctx_default sample sample_tokens x); auto.
  - intros s Hs. discriminate Hs.
Qed.

(** C07 *)
Example C07_witness : tokens_of "1e5+x y" [TNum "1e5"; TSym "+"; TId "x"; TId "y"]%list /\
  tokens_of "  1e5 +x   y " [TNum "1e5"; TSym "+"; TId "x"; TId "y"]%list /\
  tokens_of "1 e5+xy" [TNum "1"; TId "e5"; TSym "+"; TId "xy"]%list.
Proof. repeat split; apply tokens_check; vm_compute; reflexivity. Qed.

(** C08 *)
Example C08_witness : tokens_of "2x(y+1)/3!z" [TNum "2"; TId "x"; TSym "("; TId "y"; TSym "+"; TNum "1"; TSym ")"; TSym "/"; TNum "3"; TSym "!"; TId "z"]%list /\
  tokens_of "2*x*(y+1)/3!*z" (insert_stars ctx_default
     [TNum "2"; TId "x"; TSym "("; TId "y"; TSym "+"; TNum "1"; TSym ")"; TSym "/"; TNum "3"; TSym "!"; TId "z"]%list) /\
  clear_tokens ctx_default [TNum "2"; TId "x"; TSym "("; TId "y"; TSym "+"; TNum "1"; TSym ")"; TSym "/"; TNum "3"; TSym "!"; TId "z"]%list /\
  parses (parse default_config w0 ctx_default "2x(y+1)/3!z") = true.
Proof.
  split; [apply tokens_check; vm_compute; reflexivity|]. split; [apply tokens_check; vm_compute; reflexivity|].
  split; [apply clear_check; vm_compute; reflexivity|vm_compute; reflexivity].
Qed.

(** The rewritten text really has no implicit product left. *)
Theorem C08_stars_explicit : forall ctx ts, ~ juxtaposed ctx (insert_stars ctx ts).
Proof. exact insert_stars_explicit. Qed.

(** Without the condition on numbers: "(1+2)3" is rejected by the optimising
    parser, "(1+2)*3" is not. *)
Theorem C08_folded_constant_refuted : forall w,
  error_of (parse default_config w ctx_default "(1+2)3") = Some (UnexpectedToken "3", 5%N, 0%N) /\
  parses (parse default_config w ctx_default "(1+2)*3") = true /\
  parses (parse plain_config w ctx_default "(1+2)3") = true.
Proof. intro w. repeat split; vm_compute; reflexivity. Qed.

(** C09: agreement is not vacuous, and with juxtaposition the two differ. *)
Example C09_witness : exists ts, tokens_of "1/2*x - sin(y)!^2" ts /\ ~ juxtaposed ctx_default ts /\
  parses (parse pejmdas_plain w0 ctx_default "1/2*x - sin(y)!^2") = true.
Proof.
  eexists. split; [apply tokens_check; vm_compute; reflexivity|].
  split; [apply no_juxta_check; vm_compute; reflexivity|vm_compute; reflexivity].
Qed.

Theorem C09_juxtaposition_differs : forall w, exists x y,
  parse plain_config w ctx_default "1/2x" = Parse_ok x /\
  parse pejmdas_plain w ctx_default "1/2x" = Parse_ok y /\
  root x = BinOp Times (BinOp Divide (Number (lit "1")) (Number (lit "2"))) (Var "x") /\
  root y = BinOp Divide (Number (lit "1")) (BinOp Times (Number (lit "2")) (Var "x")).
Proof.
  intro w.
  destruct (parses_to (parse plain_config w ctx_default "1/2x")
    (BinOp Times (BinOp Divide (Number (lit "1")) (Number (lit "2"))) (Var "x"))) as [x [Hx Ex]]; [vm_compute; reflexivity|].
  destruct (parses_to (parse pejmdas_plain w ctx_default "1/2x")
    (BinOp Divide (Number (lit "1")) (BinOp Times (Number (lit "2")) (Var "x")))) as [y [Hy Ey]]; [vm_compute; reflexivity|].
  exists x, y. split; [exact Hx|]. split; [exact Hy|]. split; [exact Ex|exact Ey].
Qed.

(** C10: with optimisation, parentheses may cause further folding. *)
Example C10_witness : exists x, parse plain_config w0 ctx_default "2x - y!" = Parse_ok x /\
  parse plain_config w0 ctx_default "(((2x - y!)))" = Parse_ok x.
Proof.
  destruct (parses_ok (parse plain_config w0 ctx_default "2x - y!")) as [x Hx]; [vm_compute; reflexivity|].
  exists x. split; [exact Hx|]. apply (C10_parentheses_transparent plain_config w0 ctx_default "2x - y!" x 3 eq_refl Hx).
Qed.

Theorem C10_optimised_refuted : forall w, exists x y,
  parse default_config w ctx_default "0-5" = Parse_ok x /\
  parse default_config w ctx_default "(0-5)" = Parse_ok y /\
  root x = UnOp Minus (Number (lit "5")) /\ root y = Number (fneg (lit "5")).
Proof.
  intro w.
  destruct (parses_to (parse default_config w ctx_default "0-5") (UnOp Minus (Number (lit "5")))) as [x [Hx Ex]]; [vm_compute; reflexivity|].
  destruct (parses_to (parse default_config w ctx_default "(0-5)") (Number (fneg (lit "5")))) as [y [Hy Ey]]; [vm_compute; reflexivity|].
  exists x, y. split; [exact Hx|]. split; [exact Hy|]. split; [exact Ex|exact Ey].
Qed.
