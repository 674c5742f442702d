(** * The texts of errors (C51) *)
From Coq Require Import ZArith NArith List String Ascii Bool Lia Permutation.
From Verif Require Import F64 Syntax Factorial Builtins Context Element Parser Xprs Display.
From Verif Require Import ParserFacts SpecParse ParserInv SpecTree SpecApi ParserResults SpecNumber DisplayFacts.
From Verif Require Import TestWorld PropertiesParse.
Import ListNotations.
Local Open Scope string_scope.

(** [counts text n]: the text is [n] in decimal, without leading zeros. *)
Definition counts (text : string) (n : nat) : Prop :=
  exists d ds, list_ascii_of_string text = d :: ds /\ all_digits (d :: ds) /\
    digits_value (d :: ds) = Z.of_nat n /\ (d = "0"%char -> ds = []).

Lemma digits_of_counts : forall n, counts (string_of_list_ascii (digits_of (N.of_nat n))) n.
Proof.
  intro n. unfold counts. rewrite las_sol. destruct (digits_of_spec (N.of_nat n)) as [H1 [H2 H3]].
  destruct n as [|n].
  - exists "0"%char, []. split; [reflexivity|]. split; [exact H1|]. split; [reflexivity|auto].
  - destruct (digits_of_head (N.of_nat (S n))) as [d [l [E Nz]]]; [lia|].
    rewrite E in *. exists d, l. split; [reflexivity|].
    split; [exact H1|]. split; [rewrite H3; lia|]. intro. contradiction.
Qed.

(** one "argument", several "arguments" *)
Definition argument_word (n : nat) : string := match n with 1 => " argument." | _ => " arguments." end.

(** Whatever error [parse] returns, asking for its message and for help never
    panics, in any build. *)
Theorem C51_help_never_panics : forall cfg cfg' w ctx input e,
  parse cfg w ctx input = Parse_err e -> exists text, help cfg' e = Val text.
Proof.
  intros cfg cfg' w ctx input e H. apply C45_errors_truthful in H. unfold error_truthful in H. unfold help.
  destruct (pe_kind e); eauto.
  - destruct H as [_ [H _]]. unfold usize_sub. destruct (N.leb_spec (N.of_nat got) (N.of_nat expected)) as [L|L]; [|lia]. cbn [bind_out]. eauto.
  - destruct H as [_ [H _]]. unfold usize_sub. destruct (N.leb_spec (N.of_nat expected) (N.of_nat got)) as [L|L]; [|lia]. cbn [bind_out]. eauto.
Qed.

(** Help for a wrong number of arguments names the exact difference. *)
Theorem C51_help_counts_arguments : forall cfg cfg' w ctx input e expected got,
  parse cfg w ctx input = Parse_err e ->
  (pe_kind e = TooFewArguments expected got ->
     exists n text, got + n = expected /\ 0 < n /\ counts text n /\
       help cfg' e = Val ("Try adding " ++ text ++ argument_word n)) /\
  (pe_kind e = TooManyArguments expected got ->
     exists n text, expected + n = got /\ 0 < n /\ counts text n /\
       help cfg' e = Val ("Try removing " ++ text ++ argument_word n)).
Proof.
  intros cfg cfg' w ctx input e expected got H. apply C45_errors_truthful in H. unfold error_truthful in H.
  assert (Hw : forall n, 0 < n -> (" argument" ++ plural (N.of_nat n) ++ ".")%string = argument_word n).
  { intros n Hn. unfold plural. destruct (N.ltb_spec 1 (N.of_nat n)) as [L|L].
    - destruct n as [|[|n]]; try lia. reflexivity.
    - replace n with 1 by lia. reflexivity. }
  split; intro E; unfold help; rewrite E in *; destruct H as [_ [H _]]; unfold usize_sub.
  - destruct (N.leb_spec (N.of_nat got) (N.of_nat expected)) as [L|L]; [|lia]. cbn [bind_out].
    exists (expected - got), (string_of_list_ascii (digits_of (N.of_nat (expected - got)))).
    split; [lia|]. split; [lia|]. split; [apply digits_of_counts|]. rewrite <- Hw by lia.
    replace (N.of_nat (expected - got)) with (N.of_nat expected - N.of_nat got)%N by lia. reflexivity.
  - destruct (N.leb_spec (N.of_nat expected) (N.of_nat got)) as [L|L]; [|lia]. cbn [bind_out].
    exists (got - expected), (string_of_list_ascii (digits_of (N.of_nat (got - expected)))).
    split; [lia|]. split; [lia|]. split; [apply digits_of_counts|]. rewrite <- Hw by lia.
    replace (N.of_nat (got - expected)) with (N.of_nat got - N.of_nat expected)%N by lia. reflexivity.
Qed.

(** The two messages state both counts exactly. *)
Theorem C51_messages_count_arguments : forall e expected got,
  (pe_kind e = TooFewArguments expected got -> exists t1 t2, counts t1 expected /\ counts t2 got /\
     display_parse_error e = "Too few arguments for function call, expected " ++ t1 ++ " got " ++ t2) /\
  (pe_kind e = TooManyArguments expected got -> exists t1 t2, counts t1 expected /\ counts t2 got /\
     display_parse_error e = "Too many arguments for function call, expected " ++ t1 ++ " got " ++ t2).
Proof.
  intros e expected got. unfold display_parse_error, display_error_kind, display_nat.
  split; intro E; rewrite E; eexists _, _; (split; [apply digits_of_counts|]); (split; [apply digits_of_counts|]); reflexivity.
Qed.

Lemma no_expected_no_undeclared : forall cfg w ctx input e v a, get_expected_vars ctx = None ->
  parse cfg w ctx input = Parse_err e -> pe_kind e <> VariableNotDeclared v a.
Proof.
  intros cfg w ctx input e v a Hn H. unfold parse in H. pose proof (parse_impl_basic cfg w ctx input) as Hb.
  destruct (parse_impl cfg w ctx input) as [[r vs] c|e' c|q|]; try discriminate H.
  - rewrite Hn in H. discriminate H.
  - injection H as <-. apply Hb.
Qed.

(** An undeclared variable: the message names a variable of the text that is not
    declared, the help lists the declared ones, each once. *)
Theorem C51_undeclared_variable_texts : forall cfg cfg' w ctx input e v available,
  fair_order w -> parse cfg w ctx input = Parse_err e -> pe_kind e = VariableNotDeclared v available ->
  exists s, get_expected_vars ctx = Some s /\ ~ In v s /\ Permutation s available /\
    display_parse_error e = "Variable not previously declared: `" ++ v ++ "`" /\
    help cfg' e = Val ("Try replacing it with one of the following: `" ++ String.concat "`, `" available ++ "`.").
Proof.
  intros cfg cfg' w ctx input e v available Hf H E.
  destruct (get_expected_vars ctx) as [s|] eqn:Es.
  - pose proof (C16_expected_variables cfg w ctx input s Hf Es) as H16.
    assert (Hno : forall e', parse cfg w (without_expected ctx) input = Parse_err e' -> pe_kind e' <> VariableNotDeclared v available).
    { intros e' He' Ek. eapply no_expected_no_undeclared; [|exact He'|exact Ek]. reflexivity. }
    destruct (parse cfg w (without_expected ctx) input) as [x|e'|p|] eqn:Ep.
    + destruct H16 as [[_ H16]|[v' [av [_ [Hn [Hp H16]]]]]]; rewrite H16 in H; [discriminate H|].
      injection H as <-. cbn [pe_kind] in E. injection E as -> ->. exists s. split; [reflexivity|]. split; [exact Hn|].
      split; [exact Hp|]. split; reflexivity.
    + rewrite H16 in H. injection H as <-. exact (False_ind _ (Hno _ eq_refl E)).
    + rewrite H16 in H. discriminate H.
    + rewrite H16 in H. discriminate H.
  - exfalso. eapply no_expected_no_undeclared; eauto.
Qed.

(** The character that the message about an illegal character shows is one that
    occurs in the text, if it is an ASCII character... *)
Theorem C51_illegal_character_shown : forall cfg w ctx input e c,
  parse cfg w ctx input = Parse_err e -> pe_kind e = IllegalCharacter c -> (N_of_ascii c < 128)%N ->
  display_parse_error e = "Illegal character: `" ++ String c "`" /\
  In c (list_ascii_of_string input) /\ begins_nothing c.
Proof.
  intros cfg w ctx input e c H E Hc. apply C45_errors_truthful in H. unfold error_truthful in H. rewrite E in H.
  destruct H as [_ [_ [Hb [o [_ Ho]]]]]. split; [|split; [eapply nth_error_In; eauto|exact Hb]].
  unfold display_parse_error. rewrite E. cbn [display_error_kind]. unfold display_char.
  rewrite (proj2 (N.ltb_lt _ _) Hc). reflexivity.
Qed.

(** ... but of any other character only the first byte is reported, as if it were
    a character of its own: the two bytes of U+00E9 (e with acute) are reported as
    U+00C3 (A with tilde), which does not occur in the text. *)
Theorem C51_illegal_character_mangled : exists e,
  let e_acute := String (ascii_of_N 195) (String (ascii_of_N 169) "") in
  let a_tilde := String (ascii_of_N 195) (String (ascii_of_N 131) "") in
  parse plain_config w0 ctx_default e_acute = Parse_err e /\
  display_parse_error e = "Illegal character: `" ++ a_tilde ++ "`".
Proof. eexists. split; vm_compute; reflexivity. Qed.

Example C51_witness :
  let texts input := match parse plain_config w0 ctx1 input with
                     | Parse_err e => (display_parse_error e, help plain_config e)
                     | _ => ("", Val "")
                     end in
  texts "2 * hypot(x)" = ("Too few arguments for function call, expected 2 got 1", Val "Try adding 1 argument.") /\
  texts "hypot(1,2,3,4,5,6,7,8,9,10,11,12,13)" =
    ("Too many arguments for function call, expected 2 got 13", Val "Try removing 11 arguments.") /\
  texts "x + z" = ("Variable not previously declared: `z`", Val "Try replacing it with one of the following: `x`, `y`.") /\
  texts "hypot(1,)" = ("Missing argument for function call", Val "Either remove comma or add argument.") /\
  texts "(1" = ("Expected token: `)`", Val "Try adding a `)` here.").
Proof. repeat split; vm_compute; reflexivity. Qed.
