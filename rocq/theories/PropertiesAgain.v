(** * The same program run again (C93)

    Nothing but the order in which names are listed depends on the seeds of the
    hash tables. *)
From Coq Require Import NArith List String Ascii Bool Lia Permutation PeanoNat FunctionalExtensionality.
From Verif Require Import F64 Syntax Factorial Builtins Context Element Parser Xprs Display.
From Verif Require Repl.
From Verif Require Import SpecParse ParserInv SpecTree TreeFacts SpecApi ParserResults SpecTokens SpecGrammar SpecScan SpecPortable SpecAgain.
From Verif Require Import TokenFacts LexFacts LexExec TokenParser TokenSim TokenMono BindFacts GrammarFacts PortableFacts.
From Verif Require Import TestWorld PropertiesParse PropertiesGrammar PropertiesPortable PropertiesEval.
Import Repl.

Import ListNotations.
Local Open Scope string_scope.

(** ** Values *)
Lemma seed_simplify : forall cfg w h e, simplify cfg (reseed w h) e = simplify cfg w e.
Proof.
  intros cfg w h. induction e as [n|op l r IHl IHr|op e IHe|f args Hargs|y] using element_ind'; cbn [simplify].
  - reflexivity.
  - rewrite IHl. destruct (simplify cfg w l) as [l'|p]; cbn [bind_out]; [|reflexivity].
    rewrite IHr. reflexivity.
  - now rewrite IHe.
  - rewrite (map_out_ext _ _ _ (simplify cfg w) args Hargs). reflexivity.
  - reflexivity.
Qed.
Lemma seed_for : forall cfg w h x v e, el_simplify_for cfg (reseed w h) x v e = el_simplify_for cfg w x v e.
Proof.
  intros cfg w h x v. induction e as [n|op l r IHl IHr|op e IHe|f args Hargs|y] using element_ind'; cbn [el_simplify_for].
  - reflexivity.
  - rewrite IHl. destruct (el_simplify_for cfg w x v l) as [l'|p]; cbn [bind_out]; [|reflexivity].
    rewrite IHr. destruct (el_simplify_for cfg w x v r) as [r'|p]; cbn [bind_out]; [|reflexivity]. apply seed_simplify.
  - rewrite IHe. destruct (el_simplify_for cfg w x v e) as [e'|p]; cbn [bind_out]; [|reflexivity]. apply seed_simplify.
  - rewrite (map_out_ext _ _ _ (el_simplify_for cfg w x v) args Hargs).
    destruct (map_out (el_simplify_for cfg w x v) args) as [a'|p]; cbn [bind_out]; [|reflexivity]. apply seed_simplify.
  - reflexivity.
Qed.
Lemma seed_loop : forall cfg w h l o t vs, simplify_multiple_loop cfg (reseed w h) l o t vs = simplify_multiple_loop cfg w l o t vs.
Proof.
  intros cfg w h. induction l as [|[x v] l IH]; intros o t vs; cbn [simplify_multiple_loop fst snd]; [reflexivity|].
  rewrite seed_for. destruct (el_simplify_for cfg w x v t); auto.
Qed.
Lemma seed_eval : forall w h m e, eval_element (reseed w h) m e = eval_element w m e.
Proof. reflexivity. Qed.
Lemma seed_eval_unchecked : forall w h m e, eval_element_unchecked (reseed w h) m e = eval_element_unchecked w m e.
Proof. reflexivity. Qed.

Theorem C93_values : forall cfg w h x,
  (forall m, eval (reseed w h) x m = eval w x m) /\
  (forall m, eval_unchecked (reseed w h) x m = eval_unchecked w x m) /\
  eval_no_vars (reseed w h) x = eval_no_vars w x /\
  eval_no_vars_unchecked (reseed w h) x = eval_no_vars_unchecked w x /\
  (forall v, simplify_for cfg (reseed w h) x v = simplify_for cfg w x v) /\
  (forall l, simplify_for_multiple cfg (reseed w h) x l = simplify_for_multiple cfg w x l) /\
  (forall v, simplify_for_in_place cfg (reseed w h) x v = simplify_for_in_place cfg w x v) /\
  (forall l, simplify_for_multiple_in_place cfg (reseed w h) x l = simplify_for_multiple_in_place cfg w x l).
Proof.
  intros cfg w h x.
  assert (F : forall v, simplify_for_in_place cfg (reseed w h) x v = simplify_for_in_place cfg w x v).
  { intro v. unfold simplify_for_in_place. now rewrite seed_for. }
  assert (M : forall l, simplify_for_multiple_in_place cfg (reseed w h) x l = simplify_for_multiple_in_place cfg w x l).
  { intro l. unfold simplify_for_multiple_in_place. apply seed_loop. }
  split; [intro; apply seed_eval|]. split; [intro; apply seed_eval_unchecked|]. split; [apply seed_eval|]. split; [apply seed_eval_unchecked|].
  split; [intro v; unfold simplify_for; now rewrite F|]. split; [intro l; unfold simplify_for_multiple; now rewrite M|]. auto.
Qed.

(** ** Parsing *)
Lemma seed_finish : forall cfg w h e, finish_element cfg (reseed w h) e = finish_element cfg w e.
Proof. intros. unfold finish_element. now rewrite seed_simplify. Qed.

Lemma seed_t_parse : forall cfg w h ctx b ts, t_parse cfg w ctx b ts = t_parse cfg (reseed w h) ctx b ts.
Proof.
  intros. apply (worlds_parse cfg cfg eq_refl w (reseed w h) ctx (fun _ => True) (fun _ => True)); auto.
  - intros el _. rewrite seed_finish. auto.
  - apply Forall_forall. auto.
Qed.

(** The answer is the same, except that of several undeclared variables another
    may be named, and that the declared ones may be listed in another order. *)
Theorem C93_parsing : forall cfg w h ctx input, fair_order w -> fair_order (reseed w h) ->
  same_reply (parse cfg w ctx input) (parse cfg (reseed w h) ctx input) /\
  (get_expected_vars ctx = None -> parse cfg w ctx input = parse cfg (reseed w h) ctx input) /\
  (forall x, parse cfg w ctx input = Parse_ok x <-> parse cfg (reseed w h) ctx input = Parse_ok x).
Proof.
  intros cfg w h ctx input Hf Hf'.
  assert (K : same_reply (parse cfg w ctx input) (parse cfg (reseed w h) ctx input) /\
    (get_expected_vars ctx = None -> parse cfg w ctx input = parse cfg (reseed w h) ctx input)).
  { destruct (string_dec input "") as [->|Hne]. { rewrite !parse_empty. split; [now left|auto]. }
    destruct (lexes_total (list_ascii_of_string input)) as [ts Hts].
    apply (same_tokens_same_reply cfg w (reseed w h) ctx input ts Hf Hf' Hne Hts). apply seed_t_parse. }
  destruct K as [A B]. split; [exact A|]. split; [exact B|].
  intro x. destruct A as [->|[v [v' [l [l' [n [i [_ [-> ->]]]]]]]]]; [tauto|]. split; intro H; discriminate H.
Qed.

(** ** Binding *)
Lemma seed_missing : forall w h x names, fair_order w -> fair_order (reseed w h) ->
  Permutation (missing_names w x names) (missing_names (reseed w h) x names).
Proof.
  intros w h x names Hf Hf'. unfold missing_names. 
  assert (P : Permutation (hash_order w (vars x)) (hash_order (reseed w h) (vars x))).
  { eapply perm_trans; [apply Permutation_sym, Hf|apply Hf']. }
  unfold set_diff. induction P; cbn [filter]; auto.
  - destruct (negb _); auto.
  - destruct (negb _), (negb _); auto. apply perm_swap.
  - eapply perm_trans; eauto.
Qed.

Definition same_check (r r' : out (option bind_error)) : Prop :=
  r = r' \/ exists e e', r = Val (Some e) /\ r' = Val (Some e') /\ same_names e e'.

Lemma seed_check : forall cfg w h x names, fair_order w -> fair_order (reseed w h) ->
  same_check (bind_check cfg w x names) (bind_check cfg (reseed w h) x names).
Proof.
  intros cfg w h x names Hf Hf'. pose proof (seed_missing w h x names Hf Hf') as P.
  change (bind_check cfg w x names) with (from_diff cfg (missing_names w x names)).
  change (bind_check cfg (reseed w h) x names) with (from_diff cfg (missing_names (reseed w h) x names)).
  set (m := missing_names w x names) in *. set (m' := missing_names (reseed w h) x names) in *. clearbody m m'.
  unfold from_diff. rewrite !from_diff_loop_spec by lia. rewrite (Permutation_length P).
  destruct (overflow_checks cfg && _)%bool; [now left|]. cbn [bind_out append].
  destruct ((0 + N.of_nat (List.length m')) mod 256)%N as [|[p|p|]]; [now left| | |]; right; eexists _, _; (split; [reflexivity|]; split; [reflexivity|]);
    exists m, m'; auto.
Qed.

Lemma seed_bound : forall F cfg w h x names (k k' : F), fair_order w -> fair_order (reseed w h) -> k = k' ->
  same_bound (do e <- bind_check cfg w x names; Val (match e with Some err => Bind_err err | None => Bound k end))
             (do e <- bind_check cfg (reseed w h) x names; Val (match e with Some err => Bind_err err | None => Bound k' end)).
Proof.
  intros F cfg w h x names k k' Hf Hf' <-. destruct (seed_check cfg w h x names Hf Hf') as [->|[e [e' [-> [-> H]]]]]; [now left|].
  right. exists e, e'. auto.
Qed.

Theorem C93_binding : forall cfg w h x, fair_order w -> fair_order (reseed w h) ->
  (forall a, same_bound (bind cfg w x a) (bind cfg (reseed w h) x a)) /\
  (forall a b, same_bound (bind2 cfg w x a b) (bind2 cfg (reseed w h) x a b)) /\
  (forall a b c, same_bound (bind3 cfg w x a b c) (bind3 cfg (reseed w h) x a b c)) /\
  (forall a b c d, same_bound (bind4 cfg w x a b c d) (bind4 cfg (reseed w h) x a b c d)) /\
  (forall a b c d e, same_bound (bind5 cfg w x a b c d e) (bind5 cfg (reseed w h) x a b c d e)) /\
  (forall a b c d e f, same_bound (bind6 cfg w x a b c d e f) (bind6 cfg (reseed w h) x a b c d e f)) /\
  (forall a b c d e f g, same_bound (bind7 cfg w x a b c d e f g) (bind7 cfg (reseed w h) x a b c d e f g)) /\
  (forall a b c d e f g i, same_bound (bind8 cfg w x a b c d e f g i) (bind8 cfg (reseed w h) x a b c d e f g i)) /\
  (forall a b c d e f g i j, same_bound (bind9 cfg w x a b c d e f g i j) (bind9 cfg (reseed w h) x a b c d e f g i j)) /\
  (forall names, same_bound (bind_n cfg w x names) (bind_n cfg (reseed w h) x names)) /\
  (forall names, same_bound (bind_n_runtime cfg w x names) (bind_n_runtime cfg (reseed w h) x names)).
Proof.
  intros cfg w h x Hf Hf'.
  repeat (match goal with |- _ /\ _ => split end); intros; apply seed_bound; auto;
    repeat (apply functional_extensionality; intro); symmetry; (apply seed_eval_unchecked || apply seed_eval).
Qed.

(** ** The interactive program *)
Lemma ask_for_variables_none : forall w answers s y, fair_order w -> ~ In y s ->
  sget y (ask_for_variables w answers s) = None.
Proof.
  intros w answers s y Hf Hy. unfold ask_for_variables.
  assert (Hy' : ~ In y (hash_order w s)). { intro H. apply Hy. eapply Permutation_in; [apply Permutation_sym, Hf|auto]. } clear Hy.
  assert (Hg : forall l m, ~ In y l -> sget y m = None -> sget y (fold_left (fun acc v => sinsert v (answers v) acc) l m) = None).
  { induction l as [|a l IH]; intros m H E; cbn [fold_left]; auto. apply IH. { intro. apply H. now right. }
    rewrite sget_sinsert. destruct (String.eqb_spec y a) as [->|]; auto. exfalso. apply H. now left. }
  apply Hg; auto.
Qed.

(** Answers given by name lead to the same value ... *)
Theorem C93_answers_by_name : forall cfg w h line answers, fair_order w -> fair_order (reseed w h) ->
  repl_turn cfg (reseed w h) line answers = repl_turn cfg w line answers.
Proof.
  intros cfg w h line answers Hf Hf'. unfold repl_turn.
  destruct (C93_parsing cfg w h ctx_default line Hf Hf') as [_ [E _]]. rewrite <- (E eq_refl).
  destruct (parse cfg w ctx_default line) as [x|e|p|]; try reflexivity.
  unfold eval. rewrite seed_eval.
  assert (G : eval w x (ask_for_variables (reseed w h) answers (vars x)) = eval w x (ask_for_variables w answers (vars x))).
  { apply C22_eval_depends_on_occurring_variables. intros y _. destruct (in_dec string_dec y (vars x)) as [Hy|Hy].
    - rewrite !ask_for_variables_get by auto. reflexivity.
    - rewrite !ask_for_variables_none by auto. reflexivity. }
  unfold eval in G. now rewrite G.
Qed.

(** ... but the program asks for the variables in the order of iteration, so
    answers given by position lead to the same session only if no expression
    has two variables. *)
Lemma fair_single : forall w s, fair_order w -> List.length s <= 1 -> hash_order w s = s.
Proof.
  intros w s Hf Hl. pose proof (Hf s) as P. destruct s as [|a [|b s]]; cbn in Hl; [| |lia].
  - now apply Permutation_nil in P.
  - now apply Permutation_length_1_inv in P.
Qed.

Lemma ask_reads : forall names stdin acc events m rest, ask names stdin acc = (events, Some (m, rest)) -> incl rest stdin.
Proof.
  induction names as [|n names IH]; intros stdin acc events m rest H; cbn [ask] in H.
  - injection H as _ _ ->. apply incl_refl.
  - destruct (read_line stdin) as [input r] eqn:E. destruct (f64_from_str _) as [v|]; [|discriminate].
    destruct (ask names r (sinsert n v acc)) as [ev [[m' r']|]] eqn:A; [|discriminate H]. injection H as _ _ ->.
    apply IH in A. intros l Hl. apply A in Hl. destruct stdin as [|i s]; cbn in E; injection E as _ <-; [exact Hl|now right].
Qed.

Lemma turn_reads : forall cfg w stdin events rest, turn cfg w stdin = (events, Running rest) -> incl rest stdin.
Proof.
  intros cfg w stdin events rest H. unfold turn in H. destruct (read_line stdin) as [line r] eqn:E.
  assert (I : incl r stdin). { destruct stdin as [|i s]; cbn in E; injection E as _ <-; [apply incl_refl|intros l Hl; now right]. }
  destruct (String.eqb _ "exit"); [discriminate H|].
  destruct (parse cfg w ctx_default line) as [x|e|p|]; try discriminate H.
  - unfold ask_variables in H. destruct (ask (hash_order w (vars x)) r []) as [ev [[m r']|]] eqn:A; [|discriminate H].
    destruct (eval w x m) as [[v|y]|p]; try discriminate H. injection H as _ <-. apply ask_reads in A. eapply incl_tran; eauto.
  - injection H as _ <-. exact I.
Qed.

Theorem C93_sessions_with_single_variables : forall cfg w h n stdin, fair_order w -> fair_order (reseed w h) ->
  (forall line x, In line stdin -> parse cfg w ctx_default line = Parse_ok x -> List.length (vars x) <= 1) ->
  rounds cfg (reseed w h) n stdin = rounds cfg w n stdin.
Proof.
  intros cfg w h n stdin Hf Hf'. revert stdin.
  induction n as [|n IH]; intros stdin Hs; cbn [rounds]; [reflexivity|].
  assert (T : turn cfg (reseed w h) stdin = turn cfg w stdin).
  { unfold turn. destruct (read_line stdin) as [line r] eqn:E. destruct (String.eqb _ "exit"); [reflexivity|].
    destruct (C93_parsing cfg w h ctx_default line Hf Hf') as [_ [P _]]. rewrite <- (P eq_refl).
    destruct (parse cfg w ctx_default line) as [x|e|p|] eqn:Px; try reflexivity.
    assert (L : List.length (vars x) <= 1).
    { destruct stdin as [|i s]; cbn in E; injection E as <- <-; [|apply (Hs i); [now left|exact Px]].
      rewrite parse_empty in Px. destruct (overflow_checks cfg); discriminate Px. }
    unfold ask_variables. rewrite !(fair_single _ (vars x)) by auto. reflexivity. }
  rewrite T. destruct (turn cfg w stdin) as [events st] eqn:Et. destruct st as [rest| | |p]; try reflexivity.
  rewrite IH; [reflexivity|]. intros line x Hl. apply Hs. eapply turn_reads; eauto.
Qed.

(** With two variables the order is not fixed: the same input can be answered
    differently in another run. *)
Definition evaluated (events : list event) : list f64 :=
  flat_map (fun e => match e with Evaluated v => [v] | _ => [] end) events.
Theorem C93_two_variables_refuted : fair_order w0 /\ fair_order (reseed w0 (@rev string)) /\
  match evaluated (fst (rounds default_config w0 1 ["x - y"; "5"; "3"])),
        evaluated (fst (rounds default_config (reseed w0 (@rev string)) 1 ["x - y"; "5"; "3"])) with
  | [u], [v] => (same_f64 u (fneg (lit "2")) && same_f64 v (lit "2"))%bool
  | _, _ => false
  end = true.
Proof. split; [exact w0_fair|]. split; [exact w1_fair|]. vm_compute. reflexivity. Qed.

Example C93_witness : fair_order w0 /\ fair_order (reseed w0 (@rev string)) /\
  (* an undeclared variable: another one is named, the declared ones are listed in another order *)
  match parse default_config w0 ctx1 "x + a*b", parse default_config (reseed w0 (@rev string)) ctx1 "x + a*b" with
  | Parse_err (mk_parse_error (VariableNotDeclared v l) 0%N 7%N _), Parse_err (mk_parse_error (VariableNotDeclared v' l') 0%N 7%N _) =>
      (negb (String.eqb v v') && String.eqb (String.concat "," l) "x,y" && String.eqb (String.concat "," l') "y,x")%bool
  | _, _ => false
  end = true /\
  (* missing names in two orders *)
  match parse default_config w0 ctx_default "x + y" with
  | Parse_ok x =>
      match bind default_config w0 x "z", bind default_config (reseed w0 (@rev string)) x "z" with
      | Val (Bind_err (MultipleVariables s)), Val (Bind_err (MultipleVariables s')) => (String.eqb s "y, x" && String.eqb s' "x, y")%bool
      | _, _ => false
      end
  | _ => false
  end = true /\
  (* a session with single variables *)
  match evaluated (fst (rounds default_config w0 3 ["2x"; "5"; "y!"; "3"; "exit"])) with
  | [u; v] => (same_f64 u (lit "10") && same_f64 v (lit "6"))%bool
  | _ => false
  end = true /\
  (forall line x, In line ["2x"; "5"; "y!"; "3"; "exit"] -> parse default_config w0 ctx_default line = Parse_ok x -> List.length (vars x) <= 1).
Proof.
  split; [exact w0_fair|]. split; [exact w1_fair|]. split; [vm_compute; reflexivity|]. split; [vm_compute; reflexivity|].
  split; [vm_compute; reflexivity|].
  assert (K : forallb (fun line => match parse default_config w0 ctx_default line with Parse_ok x => Nat.leb (List.length (vars x)) 1 | _ => true end)
    ["2x"; "5"; "y!"; "3"; "exit"] = true) by (vm_compute; reflexivity).
  intros line x Hl Hx. rewrite forallb_forall in K. apply K in Hl. rewrite Hx in Hl. now apply Nat.leb_le.
Qed.
