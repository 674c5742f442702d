(** * Reading from left to right, in every configuration (C53, C54) *)
From Coq Require Import ZArith NArith List String Ascii Bool Lia.
From Verif Require Import SpecChars CharFacts.
From Verif Require Import F64 Syntax Factorial Builtins Context Element Parser Xprs.
From Verif Require Import ParserFacts SpecParse SpecTree SpecApi SpecTokens SpecGrammar SpecScan TokenFacts LexFacts LexExec TokenParser TokenSim TokenMono.
From Verif Require Import ScanPrefix PrefixFacts.
From Verif Require Import TestWorld PropertiesParse PropertiesGrammar PropertiesOptimise PropertiesScan PropertiesDefault.
Import ListNotations.
Local Open Scope string_scope.

Lemma stopped_token : forall cfg w ctx input ts e, input <> "" -> tokens_of input ts ->
  parse cfg w ctx input = Parse_err e -> (forall v l, pe_kind e <> VariableNotDeclared v l) ->
  exists f u, t_parse cfg w ctx (parse_budget input) ts = TErr (pe_kind e) f u /\ tokens_begin input (N.to_nat (stopped_at e)) u.
Proof.
  intros cfg w ctx input ts e Hne Hts He Hk. pose proof (parse_outcome cfg w ctx input ts Hne Hts) as H. rewrite He in H. cbn [token_outcome outcome_of] in H; cbv zeta in H.
  pose proof (parse_within cfg w ctx (parse_budget input) ts) as Hw.
  destruct (t_parse cfg w ctx (parse_budget input) ts) as [t r|k f u|p|] eqn:Et; try discriminate H.
  { exfalso. cbn [token_outcome outcome_of] in H; cbv zeta in H. destruct (get_expected_vars ctx) as [s|]; [|discriminate H]. destruct (set_diff _ _) as [|v l]; [discriminate H|].
    injection H as H. exact (Hk _ _ H). }
  cbn [token_outcome outcome_of] in H; cbv zeta in H. injection H as <-. exists f, u. split; [reflexivity|].
  destruct (token_error cfg w ctx input ts _ f u Hne Hts Et) as [e' [He' Hm]]. rewrite He in He'. injection He' as <-.
  destruct Hm as [_ [_ [o [u' [Hf [Hu E]]]]]]. destruct Hw as [_ Hp].
  assert (Es : N.to_nat (stopped_at e) = u'); [|rewrite Es; exact Hu].
  pose proof (C45_errors_truthful cfg w ctx input e He) as [_ Ht].
  assert (Hsame : f = u -> o = u') by (intros ->; eapply tokens_begin_unique; eauto).
  unfold stopped_at. destruct (pe_kind e) eqn:Ek; cbn [span_for] in E.
  - apply pair_equal_spec in E. destruct E as [Eo El]. destruct Hp as [-> ->].
    assert (Hn : 0 < String.length input) by (destruct input; [congruence|cbn; lia]).
    assert (Hb : tokens_begin input (String.length input) []).
    { split; [lia|]. rewrite <- list_ascii_length, skipn_all. split; [constructor|auto]. }
    rewrite (tokens_begin_unique _ _ _ _ Hu Hb). lia.
  - apply pair_equal_spec in E. destruct E as [Eo El]. specialize (Hsame Hp). lia.
  - apply pair_equal_spec in E. destruct E as [Eo El]. specialize (Hsame Hp). lia.
  - apply pair_equal_spec in E. destruct E as [Eo El]. specialize (Hsame Hp). lia.
  - apply pair_equal_spec in E. destruct E as [Eo El]. specialize (Hsame Hp). lia.
  - contradiction.
  - apply pair_equal_spec in E. destruct E as [Eo El]. destruct Ht as [_ [o' [l' [n [nm [g [Eo' [El' [Hl _]]]]]]]]]. lia.
  - apply pair_equal_spec in E. destruct E as [Eo El]. destruct Ht as [_ [o' [l' [n [nm [g [Eo' [El' [Hl _]]]]]]]]]. lia.
  - apply pair_equal_spec in E. destruct E as [Eo El]. specialize (Hsame Hp). assert (u' <> 0); [|lia]. intros ->.
    pose proof (begin_at_0 _ _ _ Hts Hu) as ->. unfold t_parse in Et.
    destruct (t_element cfg w ctx (parse_budget input) NO_PRECEDENCE u) as [x [|t r]|k f0 u0|p|] eqn:Ee; try discriminate Et; cbn in Et.
    injection Et as -> -> ->. apply missing_later in Ee. lia.
Qed.

(** As C54, in every configuration and for every text. *)
Theorem C54_every_configuration : forall cfg w ctx input ts e, input <> "" -> tokens_of input ts ->
  parse cfg w ctx input = Parse_err e -> (forall v l, pe_kind e <> VariableNotDeclared v l) ->
  exists pre rest, ts = (pre ++ rest)%list /\ tokens_begin input (N.to_nat (stopped_at e)) rest /\
    forall t rest1 input' rest', rest = t :: rest1 -> tokens_of input' (pre ++ t :: rest')%list ->
      exists e', parse cfg w ctx input' = Parse_err e' /\ pe_kind e' = pe_kind e /\
        tokens_begin input' (N.to_nat (stopped_at e')) (t :: rest').
Proof.
  intros cfg w ctx input ts e Hne Hts He Hk.
  destruct (stopped_token cfg w ctx input ts e Hne Hts He Hk) as [f [u [Et Hu]]].
  pose proof (parse_within cfg w ctx (parse_budget input) ts) as Hw. rewrite Et in Hw. destruct Hw as [[pre ->] _].
  exists pre, u. split; [reflexivity|]. split; [exact Hu|]. intros t r input' r' -> Hts'.
  assert (Hne' : input' <> "").
  { intros ->. assert (E : [] = (pre ++ t :: r')%list) by (eapply lexes_unique; [apply L_end|exact Hts']). destruct pre; discriminate E. }
  destruct (parse_steady cfg w ctx _ _ _ _ r' _ _ Et) as [f' Et'].
  assert (Et2 : t_parse cfg w ctx (parse_budget input') (pre ++ t :: r') = TErr (pe_kind e) f' (t :: r')).
  { rewrite <- Et'. apply same_answer; [now apply parse_not_fuel|]. rewrite Et'. discriminate. }
  destruct (token_error cfg w ctx input' _ _ _ _ Hne' Hts' Et2) as [e' [He' Hm']].
  exists e'. split; [exact He'|]. pose proof Hm' as [Hk' _]. split; [exact Hk'|].
  destruct (stopped_token cfg w ctx input' _ e' Hne' Hts' He') as [f2 [u2 [Ev2 Hu2]]].
  { intros v l. rewrite Hk'. apply Hk. }
  rewrite Et2 in Ev2. injection Ev2 as _ _ <-. exact Hu2.
Qed.

Lemma filler_no_bang : forall pre suf, Forall filler suf -> ~ adjacent (fun a b => a = TSym "!" /\ b = TSym "!") pre ->
  ~ adjacent (fun a b => a = TSym "!" /\ b = TSym "!") (pre ++ suf).
Proof.
  intros pre suf Hf Hp [u [a [b [v [E [Ea Eb]]]]]]. apply Hp.
  assert (Hb : ~ In (TSym "!") suf).
  { intro K. rewrite Forall_forall in Hf. specialize (Hf _ K). inversion Hf. }
  assert (Hlen : List.length (u ++ [a; b])%list <= List.length pre).
  { destruct (Nat.le_gt_cases (List.length (u ++ [a; b])%list) (List.length pre)) as [L|L]; auto. exfalso. apply Hb.
    assert (K : nth_error (pre ++ suf) (S (List.length u)) = Some b).
    { rewrite E. rewrite nth_error_app2 by lia. replace (S (List.length u) - List.length u) with 1 by lia. reflexivity. }
    rewrite app_length in L. cbn in L. rewrite nth_error_app2 in K by lia. subst b. eapply nth_error_In; eauto. }
  exists u, a, b, (skipn (List.length (u ++ [a; b])%list) pre). split; [|auto].
  assert (K : firstn (List.length (u ++ [a; b])%list) pre = (u ++ [a; b])%list).
  { apply (f_equal (firstn (List.length (u ++ [a; b])%list))) in E. rewrite firstn_app in E.
    replace (List.length (u ++ [a; b])%list - List.length pre) with 0 in E by lia. cbn in E. rewrite app_nil_r in E. rewrite E.
    change (u ++ a :: b :: v)%list with (u ++ [a; b] ++ v)%list. rewrite app_assoc, firstn_app, firstn_all, Nat.sub_diag. cbn. now rewrite app_nil_r. }
  rewrite <- (firstn_skipn (List.length (u ++ [a; b])%list) pre) at 1. rewrite K. now rewrite <- app_assoc.
Qed.

(** As C53, in every configuration; with optimisation for texts without "!!"
    (where it may panic). *)
Theorem C53_every_configuration : forall cfg w ctx input ts e, get_expected_vars ctx = None ->
  (optimize cfg = true -> context_functions_return w ctx /\ ~ adjacent (fun a b => a = TSym "!" /\ b = TSym "!") ts) ->
  input <> "" -> tokens_of input ts -> parse cfg w ctx input = Parse_err e ->
  exists suffix,
    match parse cfg w ctx (substring 0 (N.to_nat (stopped_at e)) input ++ " " ++ suffix) with
    | Parse_ok _ => True
    | Parse_err e' => exists expected got, pe_kind e' = TooManyArguments expected got
    | _ => False
    end.
Proof.
  intros cfg w ctx input ts e Hg Hopt Hne Hts He.
  assert (Hk : forall v l, pe_kind e <> VariableNotDeclared v l).
  { intros v l Hk. pose proof (parse_outcome cfg w ctx input ts Hne Hts) as H. rewrite He in H. cbn [token_outcome outcome_of] in H; cbv zeta in H. rewrite Hk in H.
    pose proof (parse_within cfg w ctx (parse_budget input) ts) as Hw.
    destruct (t_parse cfg w ctx (parse_budget input) ts) as [t r|k f u|p|]; try discriminate H.
    - cbn [token_outcome outcome_of] in H; cbv zeta in H. rewrite Hg in H. discriminate H.
    - cbn [token_outcome outcome_of] in H; cbv zeta in H. injection H as <-. destruct Hw as [_ Hw]. exact Hw. }
  destruct (stopped_token cfg w ctx input ts e Hne Hts He Hk) as [f [u [Et Hu]]].
  pose proof (parse_within cfg w ctx (parse_budget input) ts) as Hw. rewrite Et in Hw. destruct Hw as [[pre ->] _].
  pose proof (text_before _ _ _ _ Hts Hu) as Hpre.
  destruct (parse_completes cfg w ctx _ _ _ _ _ Et) as [suf [Hf [B0 Hgood]]].
  exists (string_of_list_ascii (spell suf)).
  set (text := (substring 0 (N.to_nat (stopped_at e)) input ++ " " ++ string_of_list_ascii (spell suf))%string).
  assert (Htext : tokens_of text (pre ++ suf)).
  { unfold tokens_of, text. rewrite !bytes_app, prefix_bytes. cbn [list_ascii_of_string app].
    rewrite list_ascii_of_string_of_list_ascii. apply lexes_join; [exact Hpre|]. now apply spell_lexes. }
  assert (Hnt : text <> ""%string) by (apply nonempty_app; right; discriminate).
  assert (Hgo : good (fun _ => True) [] (t_parse cfg w ctx (parse_budget text) (pre ++ suf)%list)).
  { assert (K : t_parse cfg w ctx (parse_budget text) (pre ++ suf) = t_parse cfg w ctx (B0 + parse_budget text) (pre ++ suf)).
    { pose proof (parse_not_fuel cfg w ctx text _ Hnt Htext) as N. destruct (mono_parse cfg w ctx (parse_budget text) (B0 + parse_budget text) (pre ++ suf) ltac:(lia)); congruence. }
    rewrite K. apply Hgood. lia. }
  pose proof (parse_outcome cfg w ctx text _ Hnt Htext) as H.
  destruct (t_parse cfg w ctx (parse_budget text) (pre ++ suf)) as [t r|k f' u'|p|]; cbn in Hgo.
  - cbn [token_outcome outcome_of] in H; cbv zeta in H. rewrite Hg in H. destruct (parse cfg w ctx text); try discriminate H. exact I.
  - destruct k; try contradiction. cbn [token_outcome outcome_of] in H; cbv zeta in H. destruct (parse cfg w ctx text); try discriminate H. injection H as ->. eauto.
  - exfalso. cbn [token_outcome outcome_of] in H; cbv zeta in H. destruct (parse cfg w ctx text) eqn:P; try discriminate H. injection H as ->. destruct (optimize cfg) eqn:Ho.
    + destruct (Hopt eq_refl) as [Hc Hb].
      assert (Hd : ~ has_double_bang text).
      { intro K. apply (double_bang_tokens _ _ Htext) in K. revert K. apply filler_no_bang; auto.
        intro K. apply Hb. now apply adjacent_left. }
      destruct (C02_optimised_parse_panics cfg w ctx text _ Hc Hd P) as [_ [X _]]. auto.
    + destruct (proj1 (C02_plain_parse_panics_only_on_empty cfg w ctx text p Ho) P) as [_ [X _]]. auto.
  - contradiction.
Qed.

(** The number after the parenthesis folds away in the default build, which then
    points to it; without optimisation the text is accepted. *)
Example C53_every_configuration_witness :
  (exists e, parse default_config w0 ctx_default "x * ((1+2) 3)" = Parse_err e /\ stopped_at e = 11%N) /\
  parses (parse default_config w0 ctx_default "x * ((1+2)  )") = true /\
  get_expected_vars ctx_default = None /\ context_functions_return w0 ctx_default /\
  (exists ts, tokens_of "x * ((1+2) 3)" ts /\ ~ adjacent (fun a b => a = TSym "!" /\ b = TSym "!") ts).
Proof.
  split; [eexists; split; vm_compute; reflexivity|]. split; [vm_compute; reflexivity|]. split; [reflexivity|].
  split; [intros a g Hg; discriminate Hg|].
  eexists. split; [apply tokens_check; vm_compute; reflexivity|].
  intros [u [a [b [v [E [-> ->]]]]]].
  repeat (destruct u as [|? u]; [discriminate E|cbn in E; injection E as _ E]). destruct u; discriminate E.
Qed.

Example C54_every_configuration_witness : exists e e',
  parse default_config w0 ctx_default "x * ((1+2) 3)" = Parse_err e /\ pe_kind e = ExpectedToken ")" /\ stopped_at e = 11%N /\
  parse default_config w0 ctx_default "x*((1+2) 3!!" = Parse_err e' /\ pe_kind e' = ExpectedToken ")" /\ stopped_at e' = 9%N.
Proof. eexists _, _. split; [vm_compute; reflexivity|]. split; [reflexivity|]. split; [reflexivity|]. split; [vm_compute; reflexivity|]. split; reflexivity. Qed.
