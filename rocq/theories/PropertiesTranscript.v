(** * Properties: the REPL's output, read by a script or typed in again (C82) *)
From Coq Require Import ZArith NArith List String Ascii Bool Lia Permutation Reals Lra.
From Flocq Require Import Core BinarySingleNaN.
From Verif Require Import F64 FloatFacts Syntax Factorial Builtins Context Element Parser Xprs Display Repl
  SpecChars SpecTokens SpecNumber SpecNames SpecGrammar SpecDisplay SpecApi SpecRegular NumberFacts DisplayFacts LexFacts DebugText SpecDebug DebugFacts
  ParserFacts SpecParse ParserResults TreeFacts SpecTree SpecUtf8 SpecRepl ReplFacts PropertiesDisplay PropertiesDefault PropertiesParse PropertiesGrammar PropertiesNumber
  LexExec PropertiesEval PropertiesRepl PropertiesDebug IdentityFacts RegularFacts TestWorld.
From Verif Require Import Transcript SpecTranscript TranscriptFacts.
Import ListNotations.
Local Open Scope string_scope.

(** [session stdin values]: the lines are expressions, each followed by one
    number for each of its variables, and texts that are no expressions and whose
    report has no line that looks like a result; then "exit".  [values] are the
    values of the expressions under the answers. *)
Inductive session (report : parse_error -> string) (cfg : config) (w : world) : list string -> list f64 -> Prop :=
| S_exit : forall line rest, says_exit line -> session report cfg w (line :: rest) []
| S_value : forall line x answers values v rest vs, ~ says_exit line ->
    parse cfg w ctx_default line = Parse_ok x ->
    List.length answers = List.length (vars x) -> Forall2 answers_with answers values ->
    means w (lookup (combine (hash_order w (vars x)) values)) (root x) v ->
    session report cfg w rest vs -> session report cfg w (line :: answers ++ rest)%list (v :: vs)
| S_error : forall line e rest vs, ~ says_exit line -> parse cfg w ctx_default line = Parse_err e ->
    results (">> " ++ report e) = [] ->
    session report cfg w rest vs -> session report cfg w (line :: rest) vs.

(** ** Quiet texts *)
Lemma number_chars_quiet : forall l, Forall number_char l -> quiet (string_of_list_ascii l).
Proof.
  intros l H. apply quiet_word. rewrite las_sol. apply forallb_forall. intros c Hc. rewrite Forall_forall in H. now apply number_char_facts, H.
Qed.
Lemma display_number_quiet : forall v, quiet (display_f64 v).
Proof.
  assert (U : forall u : f64, u = finf \/ u = fzero \/ (fis_finite u = true /\ (0 < B2R u)%R) -> quiet (display_f64 u)).
  { intros u [->|[->|[Hf Hp]]]; try colonless. destruct (debug_positive u Hf Hp) as [c [p [Hc [_ [_ [-> _]]]]]].
    apply number_chars_quiet. destruct (positional_spec c p ltac:(lia)) as [m [k [Hm _]]].
    eapply Forall_impl; [|eapply mantissa_chars; exact Hm]. intros a Ha. now left. }
  intro v. destruct (f64_classes v) as [->|[->|[->|[H|[u [-> Hu]]]]]]; try colonless; [now apply U; auto|].
  destruct (positive_not_nan u Hu) as [Hn Hs]. destruct (C50_special_texts u) as [_ [_ [_ E]]]. rewrite (E Hn Hs). apply quiet_app; [colonless|now apply U].
Qed.
Lemma name_quiet : forall s, is_name s -> quiet s.
Proof.
  intros s [_ [H _]]. apply quiet_word. apply forallb_forall. intros c Hc. rewrite Forall_forall in H. now apply name_char_word, H.
Qed.
Lemma display_quiet : forall ctx e, well_named ctx e -> quiet (display_element e).
Proof.
  intros ctx. induction e as [n|op l r IHl IHr|op e IHe|f args Hargs|y] using element_ind'; intro W; cbn [display_element].
  - apply display_number_quiet.
  - destruct W as [W1 W2]. repeat (apply quiet_app; [first [now apply IHl|now apply IHr|destruct op; colonless|colonless]|]). colonless.
  - destruct W as [_ W]. repeat (apply quiet_app; [first [now apply IHe|destruct op; colonless|colonless]|]). colonless.
  - apply well_named_call in W. destruct W as [[Wn _] Wa]. apply quiet_app; [now apply name_quiet|]. apply quiet_app; [colonless|].
    apply quiet_app; [|colonless]. apply quiet_join; [colonless|]. rewrite Forall_map. rewrite Forall_forall in *. auto.
  - destruct W as [W _]. now apply name_quiet.
Qed.

Lemma operator_fields : forall op, fields_quiet (debug_operator op).
Proof. intros []; constructor; colonless. Qed.
Ltac fields := repeat (constructor; [colon_at_end|]); constructor.
Lemma function_fields : forall f, is_name (fn_name f) -> fields_quiet (debug_function f).
Proof.
  intros f Hf. unfold debug_function. apply FQ_struct; [colonless|fields|].
  constructor; [constructor; apply wf_words; now apply quoted_word|]. constructor.
  - cbn. unfold debug_pointer. destruct (fn_ptr f); constructor; colonless.
  - constructor; [|constructor]. cbn. unfold debug_arity. destruct (fn_nb_args f); [|constructor; colonless].
    apply FQ_tuple; [colonless|]. constructor; [|constructor]. constructor. apply wf_words, display_nat_word.
Qed.
Lemma element_fields : forall ctx e, well_named ctx e -> fields_quiet (debug_element e).
Proof.
  intros ctx. induction e as [n|op l r IHl IHr|op e IHe|f args Hargs|y] using element_ind'; intro W; cbn [debug_element].
  - apply FQ_tuple; [colonless|]. constructor; [|constructor]. constructor. apply wf_words, debug_word.
  - destruct W as [W1 W2]. apply FQ_tuple; [colonless|]. constructor; [|constructor].
    apply FQ_struct; [colonless|fields|].
    constructor; [apply operator_fields|]. constructor; [now apply IHl|]. constructor; [now apply IHr|constructor].
  - destruct W as [_ W]. apply FQ_tuple; [colonless|]. constructor; [|constructor].
    apply FQ_struct; [colonless|fields|].
    constructor; [apply operator_fields|]. constructor; [now apply IHe|constructor].
  - apply well_named_call in W. destruct W as [[Wn _] Wa]. apply FQ_tuple; [colonless|]. constructor; [|constructor].
    apply FQ_struct; [colonless|fields|].
    constructor; [now apply function_fields|]. constructor; [|constructor]. cbn. constructor. rewrite Forall_forall in *. intros d Hd.
    apply in_map_iff in Hd. destruct Hd as [a [<- Ha]]. apply Hargs; auto.
  - destruct W as [W _]. apply FQ_tuple; [colonless|]. constructor; [|constructor]. constructor. now apply wf_words, quoted_word.
Qed.

Lemma transcript_app : forall report w a b, transcript report w (a ++ b)%list = transcript report w a ++ transcript report w b.
Proof. intros report w a b. induction a as [|e a IH]; cbn; [reflexivity|]. now rewrite IH, sapp_assoc. Qed.
Lemma prompts_words : forall report w names, Forall is_name names -> forall s, 
  exists l, words (transcript report w (map Ask names) ++ s) = (l ++ words s)%list.
Proof.
  intros report w names H. induction H as [|n names Hn _ IH]; intro s; [now exists []|].
  cbn [map transcript text_of]. destruct (IH s) as [l E]. exists (words (n ++ ":") ++ l)%list.
  replace (((n ++ ": ") ++ transcript report w (map Ask names)) ++ s) with ((n ++ ":") ++ " " ++ (transcript report w (map Ask names) ++ s)).
  - now rewrite words_app, E, app_assoc.
  - change ": " with (":" ++ " "). now rewrite !sapp_assoc.
Qed.
Lemma prompts_line : forall report w names, Forall is_name names -> ~ In "010"%char (list_ascii_of_string (transcript report w (map Ask names))).
Proof.
  intros report w names H. induction H as [|n names Hn _ IH]; [intros []|].
  cbn [map transcript text_of]. rewrite !las_app. intro K. apply in_app_or in K as [K|K]; [|now apply IH].
  apply in_app_or in K as [K|K]; [|destruct K as [K|[K|[]]]; discriminate K].
  destruct Hn as [_ [Hn _]]. rewrite Forall_forall in Hn. specialize (Hn _ K). discriminate Hn.
Qed.
Lemma debug_plain : forall v, debug_f64 v <> "" /\ ~ In " "%char (list_ascii_of_string (debug_f64 v)) /\ ~ In "010"%char (list_ascii_of_string (debug_f64 v)).
Proof.
  intro v. destruct (debug_word v) as [H1 H2]. rewrite forallb_forall in H2. split; [exact H1|].
  split; intro K; specialize (H2 _ K); discriminate H2.
Qed.

Lemma value_results : forall report cfg w line x v rest, fair_order w ->
  parse cfg w ctx_default line = Parse_ok x ->
  results (transcript report w (PropertiesRepl.shown w x ++ heading (vars x) ++ map Ask (hash_order w (vars x)) ++ [Evaluated v])%list ++ rest)
  = debug_f64 v :: results rest.
Proof.
  intros report cfg w line x v rest Hf Hp.
  assert (Ho : obtained cfg w ctx_default x) by (exists line, x, []; split; [exact Hp|now destruct x]).
  destruct (obtained_named _ _ _ _ default_names_agree Ho) as [W V].
  assert (V' : Forall is_name (hash_order w (vars x))).
  { rewrite Forall_forall in *. intros y Hy. apply V. eapply Permutation_in; [apply Permutation_sym, Hf|exact Hy]. }
  destruct (debug_plain v) as [D1 [D2 D3]].
  rewrite !transcript_app. cbn [transcript text_of]. rewrite sapp_nil.
  set (prompts := transcript report w (map Ask (hash_order w (vars x)))).
  assert (L : results (prompts ++ "Evaluated: " ++ debug_f64 v) = [debug_f64 v]).
  { unfold results, lines. rewrite pieces_none.
    - cbn [flat_map]. rewrite app_nil_r. unfold result_of.
      destruct (prompts_words report w _ V' ("Evaluated: " ++ debug_f64 v)) as [l E]. unfold prompts. rewrite E.
      change ("Evaluated: " ++ debug_f64 v) with ("Evaluated:" ++ " " ++ debug_f64 v). rewrite words_app.
      rewrite (words_word (debug_f64 v) D1 D2). change (words "Evaluated:") with ["Evaluated:"].
      rewrite !rev_app_distr. reflexivity.
    - rewrite !las_app. intro K. apply in_app_or in K as [K|K]; [exact (prompts_line _ _ _ V' K)|].
      apply in_app_or in K as [K|K]; [|now apply D3]. cbn in K. repeat (destruct K as [K|K]; [discriminate K|]). exact K. }
  assert (H : exists q, quiet q /\ transcript report w (PropertiesRepl.shown w x) ++ transcript report w (heading (vars x)) = q ++ nl).
  { set (shown' := ">> " ++ ("Interpreted as: " ++ display_xprs x ++ nl) ++ (pretty (debug_xprs w x) ++ nl) ++ "Variables: " ++ compact (D_set (map (fun y => D_word (quoted y)) (hash_order w (vars x))))).
    assert (Q : quiet shown').
    { unfold shown'. rewrite <- !sapp_assoc. change ((">> " ++ "Interpreted as: ")) with (">> Interpreted as: ").
      apply quiet_app.
      - apply quiet_app; [|colon_at_end]. apply quiet_app; [|colonless]. apply quiet_app.
        + apply quiet_app; [|colonless]. apply quiet_app; [colon_at_end|]. unfold display_xprs. eapply display_quiet; exact W.
        + apply pretty_quiet. unfold debug_xprs. apply FQ_struct; [colonless|fields|].
          constructor; [cbn; eapply element_fields; exact W|]. constructor; [|constructor]. cbn. unfold debug_vars. constructor.
          rewrite Forall_map. eapply Forall_impl; [|exact V']. intros y Hy. constructor. now apply wf_words, quoted_word.
      - cbn [compact]. apply quiet_app; [colonless|]. apply quiet_app; [|colonless]. apply quiet_join; [colonless|].
        rewrite map_map, Forall_map. eapply Forall_impl; [|exact V']. intros y Hy. cbn. now apply wf_words, quoted_word. }
    assert (E : transcript report w (PropertiesRepl.shown w x) = shown' ++ nl).
    { unfold PropertiesRepl.shown, shown'. cbn [transcript text_of]. rewrite !sapp_assoc. rewrite sapp_nil. reflexivity. }
    rewrite E. unfold heading. destruct (vars x).
    - exists shown'. split; [exact Q|]. cbn [transcript]. now rewrite sapp_nil.
    - exists (shown' ++ nl ++ "Please enter the following variables:"). split.
      + apply quiet_app; [exact Q|]. apply quiet_app; [colonless|]. colon_at_end.
      + cbn [transcript text_of]. now rewrite sapp_nil, !sapp_assoc. }
  destruct H as [q [Q E]].
  replace ((transcript report w (PropertiesRepl.shown w x) ++ transcript report w (heading (vars x)) ++ prompts ++ "Evaluated: " ++ debug_f64 v ++ nl) ++ rest)
    with (q ++ nl ++ ((prompts ++ "Evaluated: " ++ debug_f64 v) ++ nl ++ rest)).
  - rewrite !results_app, (quiet_no_result q Q), L. reflexivity.
  - rewrite <- (sapp_assoc (transcript report w (PropertiesRepl.shown w x))). rewrite E. now rewrite !sapp_assoc.
Qed.

(** ** A script reads exactly the values *)
(** Whatever is computed in a session, the script of SpecTranscript.v gets from
    the output: one text for each expression, in order, that reads as its value. *)
Theorem C82_script_reads_the_values : forall report cfg w stdin values, fair_order w ->
  session report cfg w stdin values ->
  exists n, snd (rounds cfg w n stdin) = Finished /\
    results (output report cfg w n stdin) = map debug_f64 values /\
    map (fun t => f64_from_str (list_ascii_of_string t)) (results (output report cfg w n stdin)) = map Some values.
Proof.
  intros report cfg w stdin values Hf H.
  assert (K : exists n, snd (rounds cfg w n stdin) = Finished /\
    results (transcript report w (fst (rounds cfg w n stdin))) = map debug_f64 values).
  { induction H as [line rest Hx|line x answers vals v rest vs He Hp Hl Hv Hm Hs [n [IH1 IH2]]|line e rest vs He Hp Hr Hs [n [IH1 IH2]]].
    - exists 1%nat. cbn [rounds]. unfold turn. cbn [read_line]. apply exit_iff in Hx. rewrite Hx. split; reflexivity.
    - exists (S n). cbn [rounds]. change (line :: answers ++ rest)%list with ((line :: answers) ++ rest)%list.
      rewrite (C67_reply cfg w (line :: answers) _ rest Hf (R_value cfg w line x answers vals v He Hp Hl Hv Hm)).
      destruct (rounds cfg w n rest) as [ev st]. cbn [fst snd] in *. split; [exact IH1|].
      rewrite transcript_app, (value_results report cfg w line x v _ Hf Hp), IH2. reflexivity.
    - exists (S n). cbn [rounds]. change (line :: rest) with ([line] ++ rest)%list.
      rewrite (C67_reply cfg w [line] _ rest Hf (R_error cfg w line e He Hp)).
      destruct (rounds cfg w n rest) as [ev st]. cbn [fst snd] in *. split; [exact IH1|].
      rewrite transcript_app. cbn [transcript text_of]. rewrite sapp_nil, !sapp_assoc, <- (sapp_assoc ">> "), results_app, Hr, IH2. reflexivity. }
  destruct K as [n [K1 K2]]. exists n. split; [exact K1|]. unfold output, banner. rewrite !sapp_assoc. rewrite results_app, results_app, K2.
  rewrite (quiet_no_result "Welcome to the XPRS REPL!") by colonless. rewrite (quiet_no_result "Feel free to type in expressions and see the AST.") by colonless.
  cbn [app]. split; [reflexivity|]. rewrite map_map. apply map_ext. intro v. apply C76_number_reads_back.
Qed.

(** ** Results typed in again *)
Lemma decimal_token : forall l m k rest, decimal_list l m k -> (exists d t, l = d :: t /\ decimal_digit d) ->
  ~ head_is in_mantissa rest -> ~ exponent_follows rest -> ~ head_is a_digit rest -> number_token l rest.
Proof.
  intros l m k rest [a [b [k' [x [-> [Hm [Hx _]]]]]]] [d [t [El Hd]]] R1 R2 R3.
  assert (Ha : head_is (fun c => a_digit c || Ascii.eqb c ".") a).
  { destruct a as [|c a].
    - exfalso. inversion Hm as [i Hi Hn E1 E2|i f Hi Hf Hn E1 E2]; [congruence|destruct i; discriminate E1].
    - injection El as -> _. cbn. now rewrite decimal_is_digit. }
  assert (Hc : Forall (fun c => in_mantissa c = true) a).
  { eapply Forall_impl; [|eapply mantissa_chars; exact Hm]. apply plain_char_number. }
  assert (Hds : forall ds, all_digits ds -> Forall (fun c => a_digit c = true) ds).
  { intros ds H. eapply Forall_impl; [|exact H]. apply decimal_is_digit. }
  inversion Hx as [|c ds Hc' Hd' Hn|c ds Hc' Hd' Hn|c ds Hc' Hd' Hn]; subst.
  - rewrite app_nil_r. now apply NT_plain.
  - apply NT_exp; auto. destruct Hc' as [-> | ->]; reflexivity.
  - apply NT_signed_exp; auto. destruct Hc' as [-> | ->]; reflexivity.
  - apply NT_signed_exp; auto. destruct Hc' as [-> | ->]; reflexivity.
Qed.

Lemma simplified_number : forall cfg w n e, simplified_from cfg w (Number n) e -> e = Number n.
Proof.
  intros cfg w n e H. remember (Number n) as a eqn:Ea. revert Ea.
  induction H as [n'|x|op l r l' r' Hl _ Hr _|op a a' Ha _|f args args' Hargs|a a1 a2 Ha IH Hs]; intro Ea; try discriminate Ea.
  - reflexivity.
  - specialize (IH Ea). subst a a1. cbn in Hs. injection Hs as <-. reflexivity.
Qed.
Lemma simplified_minus : forall cfg w n e, simplified_from cfg w (UnOp Minus (Number n)) e -> e = UnOp Minus (Number n) \/ e = Number (fneg n).
Proof.
  intros cfg w n e H. remember (UnOp Minus (Number n)) as a eqn:Ea. revert Ea.
  induction H as [n'|x|op l r l' r' Hl _ Hr _|op a a' Ha _|f args args' Hargs|a a1 a2 Ha IH Hs]; intro Ea; try discriminate Ea.
  - injection Ea as -> ->. apply simplified_number in Ha. subst a'. now left.
  - specialize (IH Ea). subst a. destruct IH as [-> | ->]; cbn in Hs; injection Hs as <-; now right.
Qed.

Lemma constant_vars : forall cfg w ctx input x, parse cfg w ctx input = Parse_ok x -> (forall y, ~ occurs y (root x)) -> vars x = [].
Proof.
  intros cfg w ctx input x Hp Hn. destruct (C17_vars_exact _ _ _ _ _ Hp) as [_ H]. destruct (vars x) as [|y l] eqn:E; [reflexivity|].
  exfalso. apply (Hn y). apply H. now left.
Qed.

Lemma positive_tokens : forall u : f64, u = fzero \/ (fis_finite u = true /\ (0 < B2R u)%R) ->
  lexes (list_ascii_of_string (debug_f64 u ++ nl)) [TNum (debug_f64 u)] /\ literal_value (debug_f64 u) = Some u.
Proof.
  intros u [->|[Hf Hp]].
  - split; [apply tokens_check; reflexivity|reflexivity].
  - destruct (debug_positive u Hf Hp) as [c [p [Hc [-> [Hr _]]]]]. destruct (shown_decimal u c p) as [m [k [Hl Hv]]]; [lia|]. split.
    + rewrite las_app, las_sol. apply L_num; [|apply L_ws; [reflexivity|apply L_end]].
      eapply decimal_token; [exact Hl|apply shown_head|intros K; discriminate K| |intros K; discriminate K]. intros [].
    + unfold literal_value, strip_underscores. rewrite las_sol.
      replace (filter _ (shown_list u c p)) with (shown_list u c p); [eapply decimal_parses; eauto|].
      symmetry. apply filter_all. intros a Ha. pose proof (decimal_chars _ _ _ Hl) as Hch. rewrite Forall_forall in Hch.
      destruct (number_char_facts a (Hch a Ha)) as [_ ->]. reflexivity.
Qed.
Lemma adjacent_one : forall P a, ~ adjacent P [a].
Proof. intros P a [[|u1 [|u2 u]] [b [c [v [E _]]]]]; discriminate E. Qed.
Lemma adjacent_two : forall (P : token -> token -> Prop) a b, adjacent P [a; b] -> P a b.
Proof.
  intros P a b [[|u1 [|u2 [|u3 u]]] [c [d [v [E H]]]]]; try discriminate E. injection E as <- <- _. exact H.
Qed.
Lemma typed_back : forall cfg w (v : f64), fair_order w -> fis_finite v = true ->
  exists x, parse cfg w ctx_default (debug_f64 v ++ nl) = Parse_ok x /\ vars x = [] /\ forall rho, means w rho (root x) v.
Proof.
  intros cfg w v Hf Hv.
  assert (G : forall ts t, tokens_of (debug_f64 v ++ nl) ts -> clear_tokens ctx_default ts -> sentence (pejmdas cfg) ctx_default ts t ->
    (forall e, simplified_from cfg w t e -> (forall y, ~ occurs y e) /\ forall rho, means w rho e v) ->
    exists x, parse cfg w ctx_default (debug_f64 v ++ nl) = Parse_ok x /\ vars x = [] /\ forall rho, means w rho (root x) v).
  { intros ts t Ht Hc Hs H. assert (D : declared ctx_default t) by (intros s K; discriminate K).
    assert (P : exists x, parse cfg w ctx_default (debug_f64 v ++ nl) = Parse_ok x /\ simplified_from cfg w t (root x)).
    { destruct (optimize cfg) eqn:Ho.
      - destruct (C05_default_sentences_are_accepted cfg w ctx_default _ ts t Ho Hf (default_context_returns w) Ht Hc Hs D) as [x [Hx [S _]]]. eauto.
      - destruct (C05_sentences_are_accepted cfg w ctx_default _ ts t Ho Hf Ht Hs D) as [x [Hx <-]]. exists x. split; [exact Hx|].
        apply simplified_refl. }
    destruct P as [x [Hx S]]. destruct (H _ S) as [Hn Hm]. exists x. split; [exact Hx|]. split; [|exact Hm]. eapply constant_vars; eauto. }
  destruct (f64_classes v) as [->|[->|[->|[H|[u [-> Hu]]]]]]; try discriminate Hv.
  - destruct (positive_tokens fzero (or_introl eq_refl)) as [T L]. apply (G [TNum (debug_f64 fzero)] (Number fzero) T).
    + split; apply adjacent_one.
    + apply U_term, T_factor, K_signed, S_power, W_postfix, F_prim, P_number, L.
    + intros e S. apply simplified_number in S. subst e. split; [intros y K; inversion K|intro rho; constructor].
  - destruct (positive_tokens v (or_intror H)) as [T L]. apply (G [TNum (debug_f64 v)] (Number v) T).
    + split; apply adjacent_one.
    + apply U_term, T_factor, K_signed, S_power, W_postfix, F_prim, P_number, L.
    + intros e S. apply simplified_number in S. subst e. split; [intros y K; inversion K|intro rho; constructor].
  - assert (Hu' : u = fzero \/ (fis_finite u = true /\ (0 < B2R u)%R)) by (destruct Hu as [->|Hu]; [discriminate Hv|exact Hu]).
    destruct (positive_not_nan u Hu) as [Hn Hs]. destruct (positive_tokens u Hu') as [T L].
    assert (T' : tokens_of (debug_f64 (fneg u) ++ nl) [TSym "-"; TNum (debug_f64 u)]).
    { rewrite (debug_neg u Hn Hs). unfold tokens_of. cbn [append list_ascii_of_string]. apply sym_check; [reflexivity|exact T]. }
    apply (G _ (UnOp Minus (Number u)) T').
    + split; intros K; apply adjacent_two in K; destruct K as [K _]; discriminate K.
    + apply U_term, T_factor, K_signed. apply S_sign; [now right|]. apply S_power, W_postfix, F_prim, P_number, L.
    + intros e S. apply simplified_minus in S. destruct S as [-> | ->].
      * split; [intros y K; inversion K; subst; match goal with K : occurs _ (Number _) |- _ => inversion K end|]. intro rho. apply M_unminus. constructor.
      * split; [intros y K; inversion K|intro rho; constructor].
Qed.

(** Any result is an answer that stands for itself. *)
Theorem C82_result_as_answer : forall v : f64, answers_with (debug_f64 v) v /\ answers_with (debug_f64 v ++ nl) v.
Proof.
  intro v. pose proof (proj1 (from_str_iff _ _) (C76_number_reads_back v)) as H.
  split; exists (list_ascii_of_string (debug_f64 v)); (split; [exact H|]).
  - exists [], []. split; [constructor|]. split; [constructor|]. cbn. now rewrite app_nil_r.
  - exists [], ["010"%char]. split; [constructor|]. split; [|cbn [app]; rewrite las_app; reflexivity].
    apply (B_cons ["010"%char] 10 []); [|left; lia|constructor].
    destruct (proj1 (white_space_iff ["010"%char])) as [u [U _]]; [right; now left|]. inversion U; subst. assumption.
Qed.

(** A finite result typed in as the next expression is answered with itself, and
    nothing is asked. *)
Theorem C82_result_typed_again : forall cfg w (v : f64) rest, fair_order w -> fis_finite v = true ->
  exists x, turn cfg w ((debug_f64 v ++ nl) :: rest) =
    ([Prompt; Interpreted (display_xprs x); Tree x; Variables (hash_order w []); Evaluated v], Running rest).
Proof.
  intros cfg w v rest Hf Hv. destruct (typed_back cfg w v Hf Hv) as [x [Hp [Hx Hm]]].
  assert (He : ~ says_exit (debug_f64 v ++ nl)).
  { intro K. apply exit_iff in K. destruct (C82_result_as_answer v) as [_ A]. apply answers_iff in A. apply String.eqb_eq in K.
    apply (f_equal list_ascii_of_string) in K. rewrite las_sol in K. rewrite K in A. discriminate A. }
  exists x.
  pose proof (C67_reply cfg w [debug_f64 v ++ nl] _ rest Hf (R_value cfg w _ x [] [] v He Hp ltac:(now rewrite Hx) (Forall2_nil _) (Hm _))) as R.
  cbn [app] in R. rewrite R. unfold PropertiesRepl.shown, heading. rewrite Hx.
  replace (hash_order w []) with (@nil string); [reflexivity|]. symmetry. apply Permutation_nil, Hf.
Qed.

(** The results that are not finite are names to the parser: the variable of
    that name is asked for. *)
Theorem C82_infinite_results_are_names : forall cfg w,
  debug_f64 finf = "inf" /\ debug_f64 (fneg finf) = "-inf" /\ debug_f64 fnan = "NaN" /\
  (exists x, parse cfg w ctx_default ("inf" ++ nl) = Parse_ok x /\ vars x = ["inf"]) /\
  (exists x, parse cfg w ctx_default ("-inf" ++ nl) = Parse_ok x /\ vars x = ["inf"]) /\
  (exists x, parse cfg w ctx_default ("NaN" ++ nl) = Parse_ok x /\ vars x = ["NaN"]).
Proof.
  intros cfg w. split; [reflexivity|]. split; [reflexivity|]. split; [reflexivity|].
  assert (K : forall r, ok_and r (fun x => if list_eq_dec string_dec (vars x) ["inf"] then true else false) = true -> exists x, r = Parse_ok x /\ vars x = ["inf"]).
  { intros r H. destruct (ok_and_spec _ _ H) as [x [E F]]. exists x. split; [exact E|]. destruct (list_eq_dec _ _ _); [assumption|discriminate]. }
  assert (K' : forall r, ok_and r (fun x => if list_eq_dec string_dec (vars x) ["NaN"] then true else false) = true -> exists x, r = Parse_ok x /\ vars x = ["NaN"]).
  { intros r H. destruct (ok_and_spec _ _ H) as [x [E F]]. exists x. split; [exact E|]. destruct (list_eq_dec _ _ _); [assumption|discriminate]. }
  destruct cfg as [[] [] [] []]; (split; [apply K; vm_compute; reflexivity|split; [apply K; vm_compute; reflexivity|apply K'; vm_compute; reflexivity]]).
Qed.

(** The result stands behind the questions on the same line, since the answers
    are not printed: a script that looks for "Evaluated:" at the beginning of
    the lines misses it. *)
Definition asked_session : list string := ["x + 1" ++ nl; "2.5" ++ nl; "exit" ++ nl].
Theorem C82_result_behind_questions : forall report,
  session report default_config w0 asked_session [lit "3.5"] /\
  In "x: Evaluated: 3.5" (lines (output report default_config w0 2 asked_session)) /\
  Forall (fun l => hd "" (words l) <> "Evaluated:") (lines (output report default_config w0 2 asked_session)) /\
  results (output report default_config w0 2 asked_session) = ["3.5"].
Proof.
  intro report. split.
  - set (t := BinOp Plus (Var "x") (Number (lit "1"))).
    destruct (ok_and_spec (parse default_config w0 ctx_default ("x + 1" ++ nl)) (fun x => same_tree (root x) t &&
      (if list_eq_dec string_dec (vars x) ["x"] then true else false))) as [[rx vx] [Hx Ex]]; [vm_compute; reflexivity|].
    cbn [root vars] in *. apply andb_true_iff in Ex. destruct Ex as [E1 E2]. apply same_tree_eq in E1.
    destruct (list_eq_dec string_dec vx ["x"]) as [->|]; [|discriminate E2]. subst rx.
    apply (S_value report default_config w0 ("x + 1" ++ nl) (mk_xprs t ["x"]) ["2.5" ++ nl] [lit "2.5"] (lit "3.5") ["exit" ++ nl] []).
    + intro K. apply exit_iff in K. revert K. clear. vm_compute. discriminate.
    + exact Hx.
    + reflexivity.
    + constructor; [|constructor]. replace ("2.5" ++ nl) with (debug_f64 (lit "2.5") ++ nl) by (apply String.eqb_eq; vm_compute; reflexivity).
      apply C82_result_as_answer.
    + clear. cbn [root vars]. replace (lit "3.5") with (fadd (lit "2.5") (lit "1")) by (apply same_f64_eq; vm_compute; reflexivity).
      apply M_plus; [|constructor]. apply M_var. reflexivity.
    + apply S_exit. apply exit_iff. reflexivity.
  - set (check := fun out => existsb (String.eqb "x: Evaluated: 3.5") (lines out) && forallb (fun l => negb (String.eqb (hd "" (words l)) "Evaluated:")) (lines out) &&
       (if list_eq_dec string_dec (results out) ["3.5"] then true else false)).
    assert (E : check (output report default_config w0 2 asked_session) = true) by (vm_compute; reflexivity).
    generalize dependent (output report default_config w0 2 asked_session). intros out E. unfold check in E.
    apply andb_true_iff in E. destruct E as [E E3]. apply andb_true_iff in E. destruct E as [E1 E2].
    split; [|split].
    + apply existsb_exists in E1. destruct E1 as [l [Hl E1]]. apply String.eqb_eq in E1. now subst l.
    + apply Forall_forall. intros l Hl. rewrite forallb_forall in E2. specialize (E2 l Hl). apply negb_true_iff in E2. now apply String.eqb_neq in E2.
    + destruct (list_eq_dec string_dec (results out) ["3.5"]) as [K|]; [exact K|discriminate E3].
Qed.


(** The output of a session, byte by byte (with "error at ..." for the report). *)
Definition text_lines (l : list string) : string := String.concat nl l.
Example C82_transcript :
  output (fun e => "error at " ++ display_nat (N.to_nat (pe_offset e))) default_config w0 3
    ["sin(x) + 1" ++ nl; "0" ++ nl; "2 +" ++ nl; " exit " ++ nl] = text_lines
  ["Welcome to the XPRS REPL!";
   "Feel free to type in expressions and see the AST.";
   ">> Interpreted as: (sin(x) + 1)";
   "Xprs {";
   "    root: BinOp(";
   "        BinOp {";
   "            op: Plus,";
   "            lhs: Function(";
   "                FunctionCall {";
   "                    desc: Function {";
   "                        name: ""sin"",";
   "                        func: Static,";
   "                        nb_args: Some(";
   "                            1,";
   "                        ),";
   "                    },";
   "                    args: [";
   "                        Variable(";
   "                            ""x"",";
   "                        ),";
   "                    ],";
   "                },";
   "            ),";
   "            rhs: Number(";
   "                1.0,";
   "            ),";
   "        },";
   "    ),";
   "    vars: {";
   "        ""x"",";
   "    },";
   "}";
   "Variables: {""x""}";
   "Please enter the following variables:";
   "x: Evaluated: 1.0";
   ">> error at 3";
   ">> Bye!";
   ""].
Proof.
  apply String.eqb_eq. vm_compute. reflexivity.
Qed.

(** witnesses: a text that is no expression may be typed as well; a result typed
    in again *)
Example C82_witness : fair_order w0 /\
  (exists e, parse default_config w0 ctx_default ("2 +" ++ nl) = Parse_err e) /\ results (">> " ++ "error: unexpected end") = [] /\
  fis_finite (fneg (lit "2.5e-7")) = true /\ debug_f64 (fneg (lit "2.5e-7")) = "-2.5e-7".
Proof.
  split; [exact w0_fair|]. split; [|split; [reflexivity|split]].
  - assert (H : match parse default_config w0 ctx_default ("2 +" ++ nl) with Parse_err _ => true | _ => false end = true) by (vm_compute; reflexivity).
    destruct (parse default_config w0 ctx_default ("2 +" ++ nl)) as [x|e|q|]; try discriminate H. now exists e.
  - vm_compute. reflexivity.
  - apply String.eqb_eq. vm_compute. reflexivity.
Qed.
