(** * Names, contexts, built-ins (C14, C41, C44) *)
From Coq Require Import ZArith NArith List String Ascii Bool Lia.
From Verif Require Import SpecChars CharFacts.
From Verif Require Import F64 Syntax Factorial Builtins Context Element Parser Xprs.
From Verif Require Import ParserFacts SpecParse SpecTree TreeFacts ParserResults.
From Verif Require Import SpecTokens SpecGrammar SpecNames TokenFacts LexFacts LexExec TokenParser TokenSim TokenMono GrammarFacts JuxtaFacts.
From Verif Require Import TestWorld PropertiesParse PropertiesGrammar.
Import ListNotations.
Local Open Scope string_scope.

(** ** C44: the built-in names *)
Lemma builtin_cases : forall w s,
  (exists r, In (s, r) (function_arities w) /\ exists f, identifier_from_str s = I_Function f /\ fn_nb_args f = r) \/
  (In s constants /\ exists v, identifier_from_str s = I_Constant v) \/
  (~ In s constants /\ ~ In s (map fst (function_arities w)) /\ identifier_from_str s = I_Variable s).
Proof.
  intros w s. unfold identifier_from_str.
  repeat (match goal with |- context [if s =? ?n then _ else _] => destruct (String.eqb_spec s n) as [->|?] end;
    [first [left; eexists; split; [cbn; tauto|eexists; split; reflexivity] | right; left; split; [cbn; tauto|eexists; reflexivity]]|]).
  destruct (String.eqb_spec s "invert") as [->|?]; cbn [orb]; [left; eexists; split; [cbn; tauto|eexists; split; reflexivity]|].
  repeat (match goal with |- context [if s =? ?n then _ else _] => destruct (String.eqb_spec s n) as [->|?] end;
    [first [left; eexists; split; [cbn; tauto|eexists; split; reflexivity] | right; left; split; [cbn; tauto|eexists; reflexivity]]|]).
  right; right. split; [|split; [|reflexivity]].
  - cbn. intros [H|[H|[]]]; congruence.
  - intro H. cbn in H. decompose [or] H; congruence.
Qed.

(** The default context's functions are exactly the documented ones, with their
    documented arities. *)
Theorem C44_functions_exactly : forall w s r,
  In (s, r) (function_arities w) <-> exists f, stands_for ctx_default s = I_Function f /\ fn_nb_args f = r.
Proof.
  intros w s r. change (stands_for ctx_default s) with (identifier_from_str s). split.
  - intro H. cbn in H. repeat (destruct H as [H|H]; [injection H as <- <-; eexists; split; reflexivity|]). destruct H.
  - intros [f [Hf Hr]]. destruct (builtin_cases w s) as [[r' [Hin [f' [E Hr']]]]|[[_ [v E]]|[_ [_ E]]]]; try congruence.
Qed.

Theorem C44_constants_exactly : forall s v,
  stands_for ctx_default s = I_Constant v <-> (s = "pi" /\ v = f64_PI) \/ (s = "e" /\ v = f64_E).
Proof.
  intros s v. change (stands_for ctx_default s) with (identifier_from_str s). split.
  - intro H. destruct (builtin_cases w0 s) as [[r' [Hin [f' [E Hr']]]]|[[[<-|[<-|[]]] [v' E]]|[_ [_ E]]]]; try congruence.
    + left. split; auto. change (identifier_from_str "pi") with (I_Constant f64_PI) in H. generalize dependent f64_PI. intros; congruence.
    + right. split; auto. change (identifier_from_str "e") with (I_Constant f64_E) in H. generalize dependent f64_E. intros; congruence.
  - intros [[-> ->]|[-> ->]]; reflexivity.
Qed.

(** Everything else is a variable. *)
Theorem C44_other_names_are_variables : forall w s x,
  stands_for ctx_default s = I_Variable x <->
  x = s /\ ~ In s constants /\ ~ In s (map fst (function_arities w)).
Proof.
  intros w s x. change (stands_for ctx_default s) with (identifier_from_str s).
  destruct (builtin_cases w s) as [[r' [Hin [f' [E Hr']]]]|[[Hc [v' E]]|[H1 [H2 E]]]]; rewrite E.
  - split; [discriminate|]. intros [_ [_ H]]. exfalso. apply H. apply in_map_iff. exists (s, r'). auto.
  - split; [discriminate|]. intros [_ [H _]]. contradiction.
  - split; [intros [= ->]; auto|]. intros [-> _]. reflexivity.
Qed.

(** What they compute, observed through parse and eval. *)
Theorem C44_unary_functions_compute : forall cfg w name g a,
  In (name, g) (unary_functions w) -> exists x,
  parse cfg w ctx_default (name ++ "(x)") = Parse_ok x /\ eval w x [("x", a)] = Val (Eval_ok (g a)).
Proof.
  intros [[] [] [] []] w name g a H; cbn in H;
  repeat (destruct H as [H|H]; [injection H as <- <-; eexists; split; [vm_compute; reflexivity|reflexivity]|]); destruct H.
Qed.

Theorem C44_binary_functions_compute : forall cfg w name g a b,
  In (name, g) (binary_functions w) -> exists x,
  parse cfg w ctx_default (name ++ "(x, y)") = Parse_ok x /\ eval w x [("x", a); ("y", b)] = Val (Eval_ok (g a b)).
Proof.
  intros [[] [] [] []] w name g a b H; cbn in H;
  repeat (destruct H as [H|H]; [injection H as <- <-; eexists; split; [vm_compute; reflexivity|reflexivity]|]); destruct H.
Qed.

(** No built-in can be called without arguments, not even the variadic ones for
    which the README documents a result. *)
Theorem C44_no_empty_calls : forall cfg w name r, In (name, r) (function_arities w) ->
  outcome_of (parse cfg w ctx_default (name ++ "()")) = Fails MissingArgument.
Proof.
  intros [[] [] [] []] w name r H; cbn in H;
  repeat (destruct H as [H|H]; [injection H as <- <-; vm_compute; reflexivity|]); destruct H.
Qed.

(** The constants are spelt in lower case only (the README's table has PI, E). *)
Theorem C44_upper_case_constants_refuted : forall w,
  (exists x, parse default_config w ctx_default "PI" = Parse_ok x /\ root x = Var "PI") /\
  (exists x, parse default_config w ctx_default "E" = Parse_ok x /\ root x = Var "E").
Proof. intro w. split; eexists; split; reflexivity. Qed.

(** ** C41: context updates *)
Lemma updates_snoc : forall c l u, apply_updates c (l ++ [u]) = apply_update (apply_updates c l) u.
Proof. intros. unfold apply_updates. now rewrite fold_left_app. Qed.

Lemma spare_get : forall c u name, spares name u -> ctx_get (apply_update c u) name = ctx_get c name.
Proof.
  intros c [n v|n v|f|f|m|s|s] name H; unfold spares in H; auto; try contradiction;
  unfold ctx_get; cbn [apply_update set_var with_var set_fn with_fn ctx_symbols]; rewrite sget_sinsert;
  match goal with |- context [String.eqb name ?y] => destruct (String.eqb_spec name y); congruence end.
Qed.

Lemma write_get : forall c u name s, writes u name s -> ctx_get (apply_update c u) name = s.
Proof.
  intros c u name s H. destruct H; unfold ctx_get; cbn [apply_update set_var with_var set_fn with_fn with_symbols ctx_symbols]; rewrite ?sget_sinsert, ?String.eqb_refl; auto.
  - destruct (sget n m) as [s'|] eqn:E.
    + apply sget_In in E. f_equal. clear c. induction m as [|[n' t] m IH]; [destruct H|].
      cbn in *. inversion H0; subst. destruct H as [H|H], E as [E|E].
      * congruence.
      * injection H as -> ->. exfalso. apply H3. apply in_map_iff. exists (n, s'). auto.
      * injection E as -> ->. exfalso. apply H3. apply in_map_iff. exists (n, s). auto.
      * auto.
    + apply sget_None in E. exfalso. apply E. apply in_map_iff. exists (n, s). auto.
  - now apply sget_None.
Qed.

(** After any sequence of updates, a name has what the last update writing it
    wrote; if none did, what the context had before. *)
Theorem C41_last_write_wins : forall c before u after name s,
  writes u name s -> Forall (spares name) after ->
  ctx_get (apply_updates c (before ++ u :: after)) name = s.
Proof.
  intros c before u after name s Hw Ha. unfold apply_updates. rewrite fold_left_app. cbn [fold_left].
  pose proof (write_get (fold_left apply_update before c) u name s Hw) as H.
  revert H. generalize (apply_update (fold_left apply_update before c) u). induction Ha as [|v l Hv Hl IH]; intros c' H; auto.
  cbn [fold_left]. apply IH. now rewrite spare_get.
Qed.

Theorem C41_untouched_names_keep_their_symbol : forall c l name,
  Forall (spares name) l -> ctx_get (apply_updates c l) name = ctx_get c name.
Proof.
  intros c l name H. revert c. unfold apply_updates. induction H as [|u l Hu Hl IH]; intro c; auto.
  cbn [fold_left]. rewrite IH. now apply spare_get.
Qed.

(** The expected variables are those of the last update that set them. *)
Theorem C41_expected_variables : forall c before u after s,
  expects u = Some s -> Forall (fun v => expects v = None) after ->
  get_expected_vars (apply_updates c (before ++ u :: after)) = Some s.
Proof.
  intros c before u after s Hu Ha. unfold apply_updates. rewrite fold_left_app. cbn [fold_left].
  assert (H : get_expected_vars (apply_update (fold_left apply_update before c) u) = Some s).
  { destruct u; try discriminate Hu; injection Hu as ->; reflexivity. }
  revert H. generalize (apply_update (fold_left apply_update before c) u). induction Ha as [|v l Hv Hl IH]; intros c' H; auto.
  cbn [fold_left]. apply IH. destruct v; try discriminate Hv; exact H.
Qed.

Theorem C41_expected_variables_kept : forall c l, Forall (fun v => expects v = None) l ->
  get_expected_vars (apply_updates c l) = get_expected_vars c.
Proof.
  intros c l H. revert c. unfold apply_updates. induction H as [|u l Hu Hl IH]; intro c; auto.
  cbn [fold_left]. rewrite IH. destruct u; try discriminate Hu; reflexivity.
Qed.

(** The two styles agree, and an update changes nothing else. *)
Theorem C41_set_is_with : forall c name v f s,
  set_var c name v = with_var c name v /\ set_fn c f = with_fn c f /\ set_expected_vars c s = with_expected_vars c s.
Proof. intros. repeat split. Qed.

Example C41_witness :
  let c := apply_updates ctx_default
    [U_set_var "a" fone; U_with_fn double_fn; U_with_expected ["x"]; U_set_var "double" fzero;
     U_with_symbols [("b", S_Variable fone); ("c", S_Function bad_fn)]; U_set_var "a" fzero; U_set_fn double_fn] in
  ctx_get c "a" = Some (S_Variable fzero) /\ ctx_get c "double" = Some (S_Function double_fn) /\
  ctx_get c "b" = Some (S_Variable fone) /\ ctx_get c "x" = None /\ get_expected_vars c = Some ["x"].
Proof. repeat split. Qed.

(** ** C14: name resolution *)

(** The parse of a name alone. *)
Lemma name_tokens : forall s, is_name s -> tokens_of s [TId s].
Proof.
  intros s Hs. unfold tokens_of. rewrite <- (string_of_list_ascii_of_string s) at 2.
  rewrite <- (app_nil_r (list_ascii_of_string s)) at 1. apply L_name; [exact Hs|apply L_end].
Qed.

Lemma parse_name : forall cfg w ctx s, is_name s ->
  outcome_of (parse cfg w ctx s) =
  match stands_for ctx s with
  | I_Function _ => Fails (ExpectedToken "(")
  | I_Constant v => token_outcome w ctx (TOk (Number v) [])
  | I_Variable x => token_outcome w ctx (TOk (Var x) [])
  end.
Proof.
  intros cfg w ctx s Hs. pose proof (name_tokens s Hs) as Hts.
  assert (Hne : s <> "") by (intros ->; destruct Hs as [[] _]).
  rewrite (parse_outcome cfg w ctx s [TId s] Hne Hts).
  assert (E : t_parse cfg w ctx (parse_budget s) [TId s] =
    match stands_for ctx s with I_Function _ => TErr (ExpectedToken "(") [] [] | I_Constant v => TOk (Number v) [] | I_Variable x => TOk (Var x) [] end).
  { unfold t_parse, parse_budget. cbn [Nat.add t_element t_atom]. unfold t_identifier. rewrite resolve_stands.
    destruct (stands_for ctx s); cbn; auto; unfold finish_element; destruct (optimize cfg); reflexivity. }
  rewrite E. now destruct (stands_for ctx s).
Qed.

Lemma constant_outcome : forall w ctx v, fair_order w ->
  token_outcome w ctx (TOk (Number v) []) = Gives (mk_xprs (Number v) []).
Proof.
  intros w ctx v Hf. apply (declared_check w ctx (Number v) Hf). intros e _ x Hx. inversion Hx.
Qed.

(** A symbol of the context takes priority over everything else: its variables
    are replaced by their value, its functions are called. *)
Theorem C14_context_variable_first : forall cfg w ctx s v, fair_order w -> is_name s ->
  ctx_get ctx s = Some (S_Variable v) ->
  parse cfg w ctx s = Parse_ok (mk_xprs (Number v) []).
Proof.
  intros cfg w ctx s v Hf Hs E. apply outcome_gives. rewrite (parse_name cfg w ctx s Hs). unfold stands_for.
  change (sget s (ctx_symbols ctx)) with (ctx_get ctx s). rewrite E. now apply constant_outcome.
Qed.

Lemma call_tokens : forall s text ts, is_name s -> tokens_of text ts ->
  tokens_of (s ++ "(" ++ text ++ ")") (TId s :: TSym "(" :: ts ++ [TSym ")"]).
Proof.
  intros s text ts Hs Ht. unfold tokens_of. rewrite list_ascii_app. rewrite <- (string_of_list_ascii_of_string s) at 2.
  apply L_name.
  - destruct Hs as [H1 [H2 _]]. split; auto. split; auto. cbn. discriminate.
  - apply (tokens_parens text ts Ht).
Qed.

Lemma stands_context : forall ctx s, stands_for ctx s =
  match ctx_get ctx s with
  | Some (S_Variable v) => I_Constant v | Some (S_Function f) => I_Function f | None => stands_for ctx_default s
  end.
Proof. intros. reflexivity. Qed.

Lemma parse_call : forall cfg w ctx s f text ts args, is_name s -> stands_for ctx s = I_Function f ->
  optimize cfg = false -> fair_order w -> tokens_of text ts -> args_of (pejmdas cfg) ctx ts args ->
  SpecGrammar.arity_ok f args -> declared ctx (Call f args) ->
  exists x, parse cfg w ctx (s ++ "(" ++ text ++ ")") = Parse_ok x /\ root x = Call f args.
Proof.
  intros cfg w ctx s f text ts args Hs E Ho Hf Ht Hargs Har Hd.
  apply (C05_sentences_are_accepted cfg w ctx _ (TId s :: TSym "(" :: ts ++ [TSym ")"]) (Call f args) Ho Hf); auto.
  - now apply call_tokens.
  - apply U_term, T_factor, K_signed, S_power, W_postfix, F_prim. now apply P_call.
Qed.

Theorem C14_context_function_first : forall cfg w ctx s f, is_name s ->
  ctx_get ctx s = Some (S_Function f) ->
  outcome_of (parse cfg w ctx s) = Fails (ExpectedToken "(") /\
  forall text ts args, optimize cfg = false -> fair_order w ->
    tokens_of text ts -> args_of (pejmdas cfg) ctx ts args -> SpecGrammar.arity_ok f args -> declared ctx (Call f args) ->
    exists x, parse cfg w ctx (s ++ "(" ++ text ++ ")") = Parse_ok x /\ root x = Call f args.
Proof.
  intros cfg w ctx s f Hs E. assert (Es : stands_for ctx s = I_Function f) by now rewrite stands_context, E.
  split.
  - rewrite (parse_name cfg w ctx s Hs), Es. reflexivity.
  - intros. eapply parse_call; eauto.
Qed.

(** Names the context does not define: built-in constants, then built-in
    functions, then variables. *)
Theorem C14_builtins_second : forall cfg w ctx s, fair_order w -> is_name s -> ctx_get ctx s = None ->
  (s = "pi" -> parse cfg w ctx s = Parse_ok (mk_xprs (Number f64_PI) [])) /\
  (s = "e" -> parse cfg w ctx s = Parse_ok (mk_xprs (Number f64_E) [])) /\
  (forall r, In (s, r) (function_arities w) -> exists f,
     stands_for ctx_default s = I_Function f /\ fn_nb_args f = r /\
     outcome_of (parse cfg w ctx s) = Fails (ExpectedToken "(") /\
     forall text ts args, optimize cfg = false ->
       tokens_of text ts -> args_of (pejmdas cfg) ctx ts args -> SpecGrammar.arity_ok f args -> declared ctx (Call f args) ->
       exists x, parse cfg w ctx (s ++ "(" ++ text ++ ")") = Parse_ok x /\ root x = Call f args).
Proof.
  intros cfg w ctx s Hf Hs E.
  assert (Es : stands_for ctx s = stands_for ctx_default s) by now rewrite stands_context, E.
  repeat split.
  - intro Ep. apply outcome_gives. rewrite (parse_name cfg w ctx s Hs), Es.
    rewrite (proj2 (C44_constants_exactly s f64_PI)) by auto. now apply constant_outcome.
  - intro Ep. apply outcome_gives. rewrite (parse_name cfg w ctx s Hs), Es.
    rewrite (proj2 (C44_constants_exactly s f64_E)) by auto. now apply constant_outcome.
  - intros r Hr. apply C44_functions_exactly in Hr. destruct Hr as [f [Hfn Ha]]. exists f. split; auto. split; auto. split.
    + rewrite (parse_name cfg w ctx s Hs), Es, Hfn. reflexivity.
    + intros. eapply parse_call; eauto. congruence.
Qed.

Theorem C14_variables_last : forall cfg w ctx s, fair_order w -> is_name s ->
  ctx_get ctx s = None -> ~ In s constants -> ~ In s (map fst (function_arities w)) ->
  (forall e, get_expected_vars ctx = Some e -> In s e) ->
  parse cfg w ctx s = Parse_ok (mk_xprs (Var s) [s]).
Proof.
  intros cfg w ctx s Hf Hs E Hc Hn Hd. apply outcome_gives. rewrite (parse_name cfg w ctx s Hs).
  rewrite stands_context, E, (proj2 (C44_other_names_are_variables w s s)) by auto.
  apply (declared_check w ctx (Var s) Hf). intros e He x Hx. inversion Hx; subst. auto.
Qed.

(** Nothing else in the context matters. *)
Section Agree.
  Variable cfg : config.
  Variable w : world.
  Variables c c' : context.
  Definition agree (ts : list token) : Prop := forall s, In (TId s) ts -> ctx_get c s = ctx_get c' s.

  Lemma agree_suffix : forall u ts, agree (u ++ ts) -> agree ts.
  Proof. intros u ts H s Hs. apply H. apply in_or_app. auto. Qed.
  Lemma agree_read : forall ts rest, agree ts -> read c' ts rest -> agree rest.
  Proof. intros ts rest H Hr. destruct (read_suffix _ _ _ Hr) as [u ->]. now apply agree_suffix in H. Qed.

  Section Open.
    Variables elem elem' : nat -> list token -> tres element.
    Hypothesis He : forall p ts, agree ts -> elem p ts = elem' p ts.
    Hypothesis Hr : forall p ts t rest, elem' p ts = TOk t rest -> read c' ts rest.

    Lemma agree_loop : forall b p el ts, agree ts -> t_loop cfg elem b p el ts = t_loop cfg elem' b p el ts.
    Proof.
      induction b as [|b IH]; intros p el ts Hj; cbn [t_loop]; auto.
      destruct (t_goi cfg el p ts) as [[[op k]|] ts'] eqn:E; auto.
      destruct (goi_rest cfg _ _ _ _ _ _ E) as [u' ->]. apply agree_suffix in Hj. rewrite He by auto.
      destruct (elem' k ts') as [rhs r| | |] eqn:Ee; cbn; auto. apply IH. eapply agree_read; eauto.
    Qed.

    Lemma agree_arguments : forall b acc ts, agree ts -> t_arguments elem b acc ts = t_arguments elem' b acc ts.
    Proof.
      induction b as [|b IH]; intros acc ts Hj; cbn; auto. unfold t_argument. rewrite He by auto.
      destruct (elem' NO_PRECEDENCE ts) as [arg r|k| |] eqn:Ee; cbn; auto.
      - destruct r as [|[s|s|d] r]; auto. destruct (Ascii.eqb d ","); auto. apply IH.
        apply (agree_suffix [TSym d]). cbn. eapply agree_read; eauto.
      - destruct k; reflexivity.
    Qed.

    Lemma agree_atom : forall b ts, agree ts -> t_atom c elem b ts = t_atom c' elem' b ts.
    Proof.
      intros b [|t ts] Hj; auto. assert (Ht : agree ts) by now apply (agree_suffix [t]).
      destruct t as [s|s|d]; cbn; auto.
      - unfold t_identifier. assert (Es : resolve c s = resolve c' s) by (unfold resolve; rewrite (Hj s); cbn; auto).
        rewrite Es. destruct (resolve c' s); auto. destruct (t_consume "(" ts) as [[] r] eqn:Ec; auto.
        rewrite agree_arguments; auto. apply consume_true in Ec. subst ts. now apply (agree_suffix [TSym "("]).
      - rewrite !He by auto. reflexivity.
    Qed.
  End Open.

  Lemma agree_element : forall b p ts, agree ts -> t_element cfg w c b p ts = t_element cfg w c' b p ts.
  Proof.
    induction b as [|b IH]; intros p ts Hj; cbn [t_element]; auto.
    rewrite (agree_atom _ _ IH (read_element cfg w c' b) _ _ Hj).
    destruct (t_atom c' (t_element cfg w c' b) b ts) as [el r| | |] eqn:Ea; cbn [tbind]; auto.
    destruct (read_atom c' _ (read_element cfg w c' b) _ _ _ _ Ea) as [u [a [-> _]]].
    assert (Hr : agree r). { apply (agree_suffix (u ++ [a])). now rewrite <- app_assoc. }
    destruct (t_consume "!" r) as [bang r2] eqn:Ec.
    assert (Hr2 : agree r2).
    { destruct bang; [apply consume_true in Ec; subst r; now apply (agree_suffix [TSym "!"])|].
      apply consume_false in Ec. now subst r2. }
    now rewrite (agree_loop _ _ IH (read_element cfg w c' b) _ _ _ _ Hr2).
  Qed.
End Agree.

Theorem C14_only_used_names_matter : forall cfg w c c' input ts, tokens_of input ts ->
  (forall s, In (TId s) ts -> ctx_get c s = ctx_get c' s) -> get_expected_vars c = get_expected_vars c' ->
  outcome_of (parse cfg w c input) = outcome_of (parse cfg w c' input).
Proof.
  intros cfg w c c' input ts Hts Ha Hx. destruct (String.string_dec input "") as [->|Hne].
  - rewrite !parse_empty. reflexivity.
  - rewrite !(parse_outcome cfg w _ input ts Hne Hts). unfold t_parse. rewrite (agree_element cfg w c c' _ _ _ Ha).
    unfold token_outcome. rewrite Hx. reflexivity.
Qed.

(** witnesses: a context shadowing a built-in constant and a built-in function,
    one with an unrelated extra symbol *)
Definition shadowing : context :=
  with_var (with_fn (with_var ctx_default "pi" fzero) (mk_function "sin" (Static_user 0) (Some 2))) "zz" fone.
Lemma is_name_check : forall s, (head_is a_letter (list_ascii_of_string s)) ->
  forallb in_name (list_ascii_of_string s) = true -> is_name s.
Proof. intros s H1 H2. split; auto. split; [|intros []]. apply Forall_forall. now apply forallb_forall. Qed.

Example C14_witness :
  is_name "pi" /\ is_name "sin" /\ is_name "cos" /\ is_name "x'_1" /\
  ctx_get shadowing "pi" = Some (S_Variable fzero) /\ ctx_get shadowing "cos" = None /\
  ctx_get shadowing "sin" = Some (S_Function (mk_function "sin" (Static_user 0) (Some 2))) /\
  exists x, parse plain_config w0 shadowing "sin(x, pi)" = Parse_ok x /\
    root x = Call (mk_function "sin" (Static_user 0) (Some 2)) [Var "x"; Number fzero].
Proof.
  do 4 (split; [apply is_name_check; reflexivity|]). do 3 (split; [reflexivity|]).
  apply (C14_context_function_first plain_config w0 shadowing "sin" _ (is_name_check "sin" eq_refl eq_refl) eq_refl) with
    (text := "x, pi") (ts := ([TId "x"] ++ TSym "," :: [TId "pi"])%list); try reflexivity.
  - apply w0_fair.
  - apply tokens_check. reflexivity.
  - apply A_more; [|apply A_last]; apply U_term, T_factor, K_signed, S_power, W_postfix, F_prim;
      [apply P_variable|apply P_constant]; reflexivity.
  - discriminate.
Qed.
