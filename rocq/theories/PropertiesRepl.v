(** * Whole sessions of the REPL (C67) *)
From Coq Require Import ZArith NArith List String Ascii Bool Lia Permutation.
From Verif Require Import F64 Syntax Factorial Builtins Context Element Parser Xprs Display Repl.
From Verif Require Import ParserFacts SpecParse SpecTree TreeFacts SpecApi ParserResults SpecUtf8 SpecRepl ReplFacts.
From Verif Require Import TestWorld PropertiesParse PropertiesEval.
Import ListNotations.
Local Open Scope nat_scope.
Local Open Scope list_scope.

(** The heading is printed only if there is something to ask. *)
Definition heading (names : list string) : list event := match names with [] => [] | _ => [Please_enter] end.
Definition shown (w : world) (x : xprs) : list event :=
  [Prompt; Interpreted (display_xprs x); Tree x; Variables (hash_order w (vars x))].

(** [reply consumed events]: an expression, followed by one numeric answer for
    each of its variables, is answered with its value under these answers; a
    text that is not an expression with the error that [parse] gives. *)
Inductive reply (cfg : config) (w : world) : list string -> list event -> Prop :=
| R_value : forall line x answers values v, ~ says_exit line ->
    parse cfg w ctx_default line = Parse_ok x ->
    List.length answers = List.length (vars x) -> Forall2 answers_with answers values ->
    means w (lookup (combine (hash_order w (vars x)) values)) (root x) v ->
    reply cfg w (line :: answers)
      (shown w x ++ heading (vars x) ++ map Ask (hash_order w (vars x)) ++ [Evaluated v])
| R_error : forall line e, ~ says_exit line -> parse cfg w ctx_default line = Parse_err e ->
    reply cfg w [line] [Prompt; Report e].

Lemma ask_ok : forall lines values, Forall2 answers_with lines values ->
  forall names acc rest, NoDup names -> List.length names = List.length lines ->
  exists m, ask names (lines ++ rest) acc = (map Ask names, Some (m, rest)) /\
    forall y, sget y m = match sget y (combine names values) with Some v => Some v | None => sget y acc end.
Proof.
  induction 1 as [|line v lines values Hv Hl IH]; intros names acc rest Hn Hlen.
  - destruct names; [|discriminate]. exists acc. split; [reflexivity|]. reflexivity.
  - destruct names as [|x names]; [discriminate|]. inversion Hn as [|? ? Hx Hn']; subst. injection Hlen as Hlen.
    cbn [ask app read_line]. rewrite (proj2 (answers_iff line v) Hv).
    destruct (IH names (sinsert x v acc) rest Hn' Hlen) as [m [E Hm]]. rewrite E. exists m. split; [reflexivity|].
    intro y. rewrite Hm. cbn [combine sget]. rewrite sget_sinsert. destruct (String.eqb y x) eqn:Ey; [|reflexivity].
    apply String.eqb_eq in Ey. subst y. destruct (sget x (combine names values)) eqn:K; [|reflexivity].
    exfalso. apply Hx. clear -K. revert values K. induction names as [|a names IH]; intros [|b values] K; try discriminate.
    cbn in K. destruct (String.eqb_spec x a) as [->|]; [now left|right; eauto].
Qed.

Lemma answered_length : forall lines values, Forall2 answers_with lines values -> List.length lines = List.length values.
Proof. induction 1; cbn; congruence. Qed.

Lemma not_exit : forall line, ~ says_exit line ->
  String.eqb (string_of_list_ascii (trim (list_ascii_of_string line))) "exit" = false.
Proof. intros line H. destruct (String.eqb _ _) eqn:E; [|reflexivity]. exfalso. apply H. now apply exit_iff. Qed.

(** The program answers an exchange exactly so, whatever is typed afterwards,
    and is then ready for the next one. *)
Theorem C67_reply : forall cfg w consumed events rest, fair_order w ->
  reply cfg w consumed events -> turn cfg w (consumed ++ rest) = (events, Running rest).
Proof.
  intros cfg w consumed events rest Hf H. destruct H as [line x answers values v He Hp Hl Hv Hm|line e He Hp].
  - unfold turn. cbn [app read_line]. rewrite (not_exit _ He), Hp. unfold ask_variables.
    pose proof (C17_vars_exact _ _ _ _ _ Hp) as [Hnd _].
    assert (Hnd' : NoDup (hash_order w (vars x))) by (eapply Permutation_NoDup; [apply Hf|exact Hnd]).
    destruct (ask_ok answers values Hv (hash_order w (vars x)) [] rest Hnd') as [m [E Em]].
    { rewrite <- (Permutation_length (Hf (vars x))). symmetry. exact Hl. }
    rewrite E.
    assert (Ev : eval w x m = Val (Eval_ok v)).
    { apply C21_eval_is_meaning. eapply means_local; [|exact Hm]. intros y _. unfold lookup. rewrite Em. cbn [sget].
      destruct (sget y _); reflexivity. }
    cbv beta iota zeta. rewrite Ev. f_equal. unfold shown, heading. destruct (vars x); reflexivity.
  - unfold turn. cbn [app read_line]. rewrite (not_exit _ He), Hp. reflexivity.
Qed.

(** A session: any number of exchanges, then "exit" (with any blanks around it)
    and whatever follows. *)
Theorem C67_session : forall cfg w exchanges last rest, fair_order w ->
  Forall (fun ce => reply cfg w (fst ce) (snd ce)) exchanges -> says_exit last ->
  rounds cfg w (S (List.length exchanges)) (List.concat (map fst exchanges) ++ last :: rest)
  = (List.concat (map snd exchanges) ++ [Prompt; Bye], Finished).
Proof.
  intros cfg w exchanges last rest Hf H Hx. induction H as [|[c e] l Hc Hl IH].
  - cbn [List.length rounds map List.concat app]. unfold turn. cbn [read_line]. apply exit_iff in Hx. rewrite Hx. reflexivity.
  - cbn [map List.concat fst snd List.length] in *. rewrite <- app_assoc. cbn [rounds]. rewrite (C67_reply _ _ _ _ _ Hf Hc).
    cbn [rounds] in IH. rewrite IH. now rewrite app_assoc.
Qed.

Lemma ask_cases : forall names stdin acc,
  (exists lines values rest, stdin = lines ++ rest /\ List.length lines = List.length names /\ Forall2 answers_with lines values) \/
  (exists k lines values rest, k < List.length names /\ List.length lines = k /\ stdin = lines ++ rest /\ Forall2 answers_with lines values /\
     (rest = [] \/ exists l r, rest = l :: r /\ forall v, ~ answers_with l v) /\
     ask names stdin acc = (map Ask (firstn (S k) names), None)).
Proof.
  induction names as [|x names IH]; intros stdin acc.
  - left. exists [], [], stdin. auto.
  - cbn [ask]. destruct stdin as [|line stdin].
    + right. exists 0, [], [], []. cbn. split; [lia|]. repeat split; auto.
    + cbn [read_line]. destruct (f64_from_str (trim (list_ascii_of_string line))) as [v|] eqn:E.
      * pose proof (proj1 (answers_iff _ _) E) as Hv. destruct (IH stdin (sinsert x v acc)) as [[lines [values [rest [-> [Hl Hf]]]]]|[k [lines [values [rest [Hk [Hl [-> [Hf [Hr Ha]]]]]]]]]].
        -- left. exists (line :: lines), (v :: values), rest. cbn. split; [reflexivity|]. split; [now f_equal|now constructor].
        -- right. exists (S k), (line :: lines), (v :: values), rest. cbn [List.length]. split; [lia|]. split; [now f_equal|]. split; [reflexivity|].
           split; [now constructor|]. split; [exact Hr|]. rewrite Ha. reflexivity.
      * right. exists 0, [], [], (line :: stdin). cbn [List.length]. split; [lia|]. split; [reflexivity|]. split; [reflexivity|]. split; [constructor|].
        split; [|reflexivity]. right. exists line, stdin. split; [reflexivity|]. intros v Hv. apply answers_iff in Hv. congruence.
Qed.

(** Nothing else can happen: a round says goodbye, or answers an exchange, or
    stops at the first answer that is not a number (or at the end of the input
    while answers are due).  Lines with "!!" are excluded, and the empty line in
    a debug build, which only the end of the input can produce. *)
Theorem C67_rounds_complete : forall cfg w line rest, fair_order w ->
  ~ has_double_bang line -> (line = ""%string -> overflow_checks cfg = false) ->
  (says_exit line /\ turn cfg w (line :: rest) = ([Prompt; Bye], Finished)) \/
  (exists consumed events rest', line :: rest = consumed ++ rest' /\ reply cfg w consumed events /\
     turn cfg w (line :: rest) = (events, Running rest')) \/
  (exists x k answers rest', parse cfg w ctx_default line = Parse_ok x /\ k < List.length (vars x) /\
     rest = answers ++ rest' /\ List.length answers = k /\ Forall (fun a => exists v, answers_with a v) answers /\
     (rest' = [] \/ exists l r, rest' = l :: r /\ forall v, ~ answers_with l v) /\
     turn cfg w (line :: rest) = (shown w x ++ [Please_enter] ++ map Ask (firstn (S k) (hash_order w (vars x))), Not_a_number)).
Proof.
  intros cfg w line rest Hf Hd He.
  destruct (String.eqb (string_of_list_ascii (trim (list_ascii_of_string line))) "exit") eqn:Ex.
  { left. split; [now apply exit_iff|]. unfold turn. cbn [read_line]. now rewrite Ex. }
  assert (Nx : ~ says_exit line) by (intro K; apply exit_iff in K; congruence).
  right. destruct (parse cfg w ctx_default line) as [x|e|p|] eqn:Ep.
  - pose proof (C17_vars_exact _ _ _ _ _ Ep) as [Hnd _].
    assert (Hlen : List.length (hash_order w (vars x)) = List.length (vars x)) by (symmetry; apply Permutation_length, Hf).
    assert (Hnd' : NoDup (hash_order w (vars x))) by (eapply Permutation_NoDup; [apply Hf|exact Hnd]).
    destruct (ask_cases (hash_order w (vars x)) rest []) as [[lines [values [rest' [-> [Hl Hv]]]]]|[k [lines [values [rest' [Hk [Hl [-> [Hv [Hr Ha]]]]]]]]]].
    + left. pose proof (parse_obtained _ _ _ _ Hd Ep) as Ho. destruct (obtained_inv _ _ _ Ho) as [Hs [_ Hvars]].
      destruct (eval_total_ok w (combine (hash_order w (vars x)) values) (root x) Hs) as [v Ev].
      { intros y Hy. assert (Hin : In y (hash_order w (vars x))) by (eapply Permutation_in; [apply Hf|now apply Hvars]).
        destruct (sget_combine_some f64 y (hash_order w (vars x)) values) as [u Hu]; [rewrite <- (answered_length _ _ Hv), Hl; reflexivity|exact Hin|]. congruence. }
      assert (R : reply cfg w (line :: lines) (shown w x ++ heading (vars x) ++ map Ask (hash_order w (vars x)) ++ [Evaluated v])).
      { apply (R_value cfg w line x lines values v); auto; [now rewrite Hl|]. now apply C21_eval_is_meaning. }
      eexists (line :: lines), _, rest'. split; [reflexivity|]. split; [exact R|]. exact (C67_reply cfg w _ _ rest' Hf R).
    + right. exists x, k, lines, rest'. split; [reflexivity|]. split; [now rewrite <- Hlen|]. split; [reflexivity|]. split; [exact Hl|].
      split. { clear -Hv. induction Hv; constructor; eauto. }
      split; [exact Hr|]. unfold turn. cbn [read_line]. rewrite Ex, Ep. unfold ask_variables. rewrite Ha. cbv beta iota zeta.
      unfold shown. destruct (vars x) as [|a l] eqn:Evs; [|reflexivity]. cbn in Hlen. lia.
  - left. exists [line], [Prompt; Report e], rest. split; [reflexivity|].
    assert (R : reply cfg w [line] [Prompt; Report e]) by (apply R_error; auto). split; [exact R|]. exact (C67_reply cfg w _ _ rest Hf R).
  - exfalso. destruct (C02_optimised_parse_panics cfg w ctx_default line p (default_context_returns w) Hd Ep) as [_ [-> Hc]].
    rewrite He in Hc; [discriminate|reflexivity].
  - exfalso. eapply C01_parse_terminates; eauto.
Qed.

(** Each variable is asked for exactly once, and the answers are used for it. *)
Theorem C67_asks_each_variable_once : forall cfg w line x, fair_order w -> parse cfg w ctx_default line = Parse_ok x ->
  NoDup (hash_order w (vars x)) /\ forall y, In y (hash_order w (vars x)) <-> occurs y (root x).
Proof.
  intros cfg w line x Hf H. destruct (C17_vars_exact _ _ _ _ _ H) as [Hn Hv]. split.
  - eapply Permutation_NoDup; [apply Hf|exact Hn].
  - intro y. rewrite <- Hv. split; apply Permutation_in; [symmetry|]; apply Hf.
Qed.

(** ** Reports *)
(** The place a report points to lies inside the line typed. *)
Theorem C67_reports_point_into_the_line : forall cfg w line rest events status e, line <> ""%string ->
  turn cfg w (line :: rest) = (events, status) -> In (Report e) events ->
  pe_src e = line /\ (pe_offset e + pe_length e <= N.of_nat (String.length line))%N.
Proof.
  intros cfg w line rest events st e Hne Ht Hin. unfold turn in Ht. cbn [read_line] in Ht.
  assert (NA : forall vs l acc, ~ In (Report e) (fst (ask vs l acc))).
  { induction vs as [|v vs IH]; intros l acc; cbn [ask]; [intros []|].
    destruct (read_line l) as [i r]. destruct (f64_from_str _) as [n|]; [|intros [H|[]]; discriminate H].
    specialize (IH r (sinsert v n acc)). destruct (ask vs r (sinsert v n acc)) as [ev o]. intros [H|H]; [discriminate H|exact (IH H)]. }
  assert (NV : forall set l, ~ In (Report e) (fst (ask_variables w set l))).
  { intros set l. unfold ask_variables. specialize (NA (hash_order w set) l []). destruct (ask _ _ _) as [ev o].
    destruct set; [exact NA|]. intros [H|H]; [discriminate H|exact (NA H)]. }
  destruct (String.eqb _ _); [injection Ht as <- <-; destruct Hin as [H|[H|[]]]; discriminate H|].
  destruct (parse cfg w ctx_default line) as [x|e'|p|] eqn:E.
  - specialize (NV (vars x) rest). destruct (ask_variables w (vars x) rest) as [asked r]. cbn [fst] in NV.
    assert (NS : forall l : list event, In (Report e) ([Prompt; Interpreted (display_xprs x); Tree x; Variables (hash_order w (vars x))] ++ asked ++ l) -> In (Report e) l).
    { intros l H. apply in_app_or in H as [H|H]; [cbn in H; repeat (destruct H as [H|H]; [discriminate H|]); destruct H|].
      apply in_app_or in H as [H|H]; [now elim NV|exact H]. }
    exfalso. destruct r as [[m rest']|].
    + destruct (eval w x m) as [[v|y]|p]; injection Ht as <- <-.
      * apply NS in Hin. destruct Hin as [H|[]]. discriminate H.
      * exact (NS [] ltac:(rewrite app_nil_r; exact Hin)).
      * exact (NS [] ltac:(rewrite app_nil_r; exact Hin)).
    + injection Ht as <- <-. exact (NS [] ltac:(rewrite app_nil_r; exact Hin)).
  - injection Ht as <- <-. destruct Hin as [H|[H|[]]]; [discriminate H|]. injection H as <-.
    destruct (C03_error_spans_inside_source _ _ _ _ _ E) as [S [H|[H _]]]; [split; auto|congruence].
  - injection Ht as <- <-. destruct Hin as [H|[]]. discriminate H.
  - injection Ht as <- <-. destruct Hin as [H|[]]. discriminate H.
Qed.

(** ** The end of the input *)
(** A release build does not notice: it prints prompts and reports the same error
    again and again.  The error points outside the empty text ... *)
Theorem C67_end_of_input_loops : forall cfg w, overflow_checks cfg = false ->
  exists e, pe_kind e = UnexpectedEndOfExpression /\ pe_src e = ""%string /\ pe_offset e = (2 ^ 64 - 1)%N /\
  forall n, rounds cfg w n [] = (List.concat (repeat [Prompt; Report e] n), Running []).
Proof.
  intros cfg w Hc. exists (mk_parse_error UnexpectedEndOfExpression (2 ^ 64 - 1) 0 "").
  split; [reflexivity|]. split; [reflexivity|]. split; [reflexivity|].
  assert (E : parse cfg w ctx_default "" = Parse_err (mk_parse_error UnexpectedEndOfExpression (2 ^ 64 - 1) 0 "")).
  { destruct cfg as [a b c d]. cbn in Hc. subst d. vm_compute. reflexivity. }
  induction n as [|n IH]; [reflexivity|].
  cbn [rounds]. unfold turn at 1. cbn [read_line]. change (String.eqb _ "exit") with false. cbv iota. rewrite E, IH. reflexivity.
Qed.
(** ... and a debug build panics there. *)
Theorem C67_end_of_input_panics : forall cfg w, overflow_checks cfg = true ->
  turn cfg w [] = ([Prompt], Panicked ArithOverflow).
Proof. intros [a b c d] w Hc. cbn in Hc. subst d. vm_compute. reflexivity. Qed.

(** A session in full: an expression with two variables, a text that is not an
    expression, and the end.  In this world y is asked for first: 2 * 2 + 3! = 10. *)
Definition newline : string := String (ascii_of_N 10) "".
Definition session1 : list string :=
  [("2x + y!" ++ newline)%string; ("+3.0" ++ newline)%string; (" 0.2e1 " ++ newline)%string;
   ("1 +" ++ newline)%string; ("  exit" ++ newline)%string; "never read"%string].
Example C67_witness : fair_order w0 /\
  match rounds default_config w0 3 session1 with
  | ([Prompt; Interpreted text; Tree x; Variables [a; b]; Please_enter; Ask a'; Ask b'; Evaluated v; Prompt; Report e; Prompt; Bye], Finished) =>
      String.eqb text "((2 * x) + (!y))" && String.eqb a a' && String.eqb b b' && same_f64 v (lit "10")
  | _ => false
  end = true /\
  match rounds default_config w0 3 ["x"%string; "three"%string] with
  | ([Prompt; Interpreted _; Tree _; Variables _; Please_enter; Ask _], Not_a_number) => true
  | _ => false
  end = true /\
  match rounds default_config w0 3 ["x+1"%string; "-Infinity"%string; "exit"%string] with
  | ([Prompt; Interpreted _; Tree _; Variables _; Please_enter; Ask _; Evaluated v; Prompt; Bye], Finished) => same_f64 v (fneg finf)
  | _ => false
  end = true.
Proof. split; [exact w0_fair|]. split; [vm_compute; reflexivity|]. split; vm_compute; reflexivity. Qed.
