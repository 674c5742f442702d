(** * C51: every message and every help text of a parse error *)
From Coq Require Import ZArith NArith List String Ascii Bool Lia.
From Verif Require Import F64 Syntax Builtins Context Parser Xprs Display SpecUtf8 SpecParse ParserFacts SpecApi SpecNumber DisplayFacts.
From Verif Require DebugFacts.
From Verif Require Import PropertiesParse PropertiesUtf8 PropertiesHash PropertiesErrors PropertiesUnwrap TestWorld.
Import ListNotations.
Local Open Scope string_scope.

(** [spells s c]: the text [s] is the one character whose number is the byte [c] *)
Definition spells (s : string) (c : ascii) : Prop := utf8_char (list_ascii_of_string s) (N_of_ascii c).

(** what the message of an error of each kind says *)
Inductive says : error_kind -> string -> Prop :=
| Says_end : says UnexpectedEndOfExpression "Unexpected end of expression"
| Says_token : forall c s, spells s c -> says (UnexpectedToken c) ("Unexpected token: `" ++ s ++ "`")
| Says_number : forall s, says (MalformedNumber s) ("Malformed number: `" ++ s ++ "`")
| Says_character : forall c s, spells s c -> says (IllegalCharacter c) ("Illegal character: `" ++ s ++ "`")
| Says_expected : forall c s, spells s c -> says (ExpectedToken c) ("Expected token: `" ++ s ++ "`")
| Says_variable : forall v l, says (VariableNotDeclared v l) ("Variable not previously declared: `" ++ v ++ "`")
| Says_few : forall want got s t, counts s want -> counts t got ->
    says (TooFewArguments want got) ("Too few arguments for function call, expected " ++ s ++ " got " ++ t)
| Says_many : forall want got s t, counts s want -> counts t got ->
    says (TooManyArguments want got) ("Too many arguments for function call, expected " ++ s ++ " got " ++ t)
| Says_missing : says MissingArgument "Missing argument for function call".

(** what the help for an error of each kind says *)
Inductive advises : error_kind -> string -> Prop :=
| Adv_end : advises UnexpectedEndOfExpression "Something might be missing here?"
| Adv_token : forall c, advises (UnexpectedToken c) "Try removing it?"
| Adv_number : forall s, advises (MalformedNumber s) "Did you enter a number with multiple decimal points?"
| Adv_character : forall c, advises (IllegalCharacter c) "Try removing this character."
| Adv_expected : forall c s, spells s c -> advises (ExpectedToken c) ("Try adding a `" ++ s ++ "` here.")
| Adv_variable : forall v l, advises (VariableNotDeclared v l)
    ("Try replacing it with one of the following: `" ++ String.concat "`, `" l ++ "`.")
| Adv_few : forall want got n s, got + n = want -> 0 < n -> counts s n -> advises (TooFewArguments want got) ("Try adding " ++ s ++ argument_word n)
| Adv_many : forall want got n s, want + n = got -> 0 < n -> counts s n -> advises (TooManyArguments want got) ("Try removing " ++ s ++ argument_word n)
| Adv_missing : advises MissingArgument "Either remove comma or add argument.".

Lemma is_str_app : forall a b, is_str a -> is_str b -> is_str (a ++ b).
Proof.
  unfold is_str. intros a b. rewrite DebugFacts.las_app. generalize (list_ascii_of_string a) as l. generalize (list_ascii_of_string b) as m.
  intros m l H K. induction H; cbn; auto. rewrite <- app_assoc. econstructor; eauto.
Qed.
Lemma is_str_ascii : forall s, forallb (fun c => (code c <=? 127)%N) (list_ascii_of_string s) = true -> is_str s.
Proof. intros s H. rewrite forallb_forall in H. apply utf8_seven. intros b Hb. apply N.leb_le. now apply H. Qed.
Lemma is_str_spells : forall s c, spells s c -> is_str s.
Proof. unfold spells, is_str. intros s c H. rewrite <- (app_nil_r (list_ascii_of_string s)). econstructor; [exact H|constructor]. Qed.
Lemma is_str_counts : forall s n, counts s n -> is_str s.
Proof.
  intros s n [d [ds [E [H _]]]]. unfold is_str. rewrite E. apply utf8_seven. intros b Hb. unfold all_digits in H. rewrite Forall_forall in H.
  specialize (H b Hb). unfold decimal_digit in H. unfold seven, code in *. lia.
Qed.
Lemma is_str_join : forall sep l, is_str sep -> Forall is_str l -> is_str (String.concat sep l).
Proof.
  intros sep l Hs H. induction H as [|a l Ha Hl IH]; [constructor|]. destruct l as [|b l]; [exact Ha|].
  change (String.concat sep (a :: b :: l)) with (a ++ sep ++ String.concat sep (b :: l)). repeat apply is_str_app; auto.
Qed.
Lemma display_char_spells : forall c, spells (display_char c) c.
Proof. exact display_char_utf8. Qed.

(** Every message is the one for its kind. *)
Theorem C51_every_message : forall e, says (pe_kind e) (display_parse_error e).
Proof.
  intro e. unfold display_parse_error. destruct (pe_kind e); cbn [display_error_kind]; constructor; auto using display_char_spells; apply digits_of_counts.
Qed.

(** Every error that [parse] returns has a help text, the one for its kind. *)
Theorem C51_every_help : forall cfg cfg' w ctx input e, parse cfg w ctx input = Parse_err e ->
  exists text, help cfg' e = Val text /\ advises (pe_kind e) text.
Proof.
  intros cfg cfg' w ctx input e H.
  destruct (pe_kind e) as [|t|m|t|t|v av|want got|want got|] eqn:K.
  7: destruct (C51_help_counts_arguments cfg cfg' w ctx input e want got H) as [F _]; destruct (F K) as [n [s [E [L [C Hh]]]]]; eexists; split; [exact Hh|econstructor; eauto].
  7: destruct (C51_help_counts_arguments cfg cfg' w ctx input e want got H) as [_ F]; destruct (F K) as [n [s [E [L [C Hh]]]]]; eexists; split; [exact Hh|econstructor; eauto].
  all: unfold help; rewrite K; eexists; split; [reflexivity|constructor; apply display_char_spells].
Qed.

(** Both are text (UTF-8). *)
Theorem C51_messages_are_text : forall cfg cfg' w ctx input e, fair_order w -> context_in_range ctx ->
  is_str input -> usize (N.of_nat (String.length input)) -> parse cfg w ctx input = Parse_err e ->
  is_str (display_parse_error e) /\ exists text, help cfg' e = Val text /\ is_str text.
Proof.
  intros cfg cfg' w ctx input e Hw Hc Hi Hl H. destruct (C79_reported_errors cfg w ctx input e Hw Hc Hi Hl H) as [R _].
  pose proof (C51_every_message e) as M. destruct (C51_every_help cfg cfg' w ctx input e H) as [text [Ht A]].
  split; [|exists text; split; [exact Ht|]; clear Ht].
  - revert R M. generalize (display_parse_error e). generalize (pe_kind e). intros k s R M.
    destruct M; cbn [kind_in_range] in R; repeat apply is_str_app; eauto using is_str_spells, is_str_counts; try (apply is_str_ascii; reflexivity); tauto.
  - revert R A. generalize (pe_kind e). intros k R A. clear M.
    destruct A as [| | | | | |want got n s E L C|want got n s E L C|]; cbn [kind_in_range] in R; repeat apply is_str_app; eauto using is_str_spells, is_str_counts; try (apply is_str_ascii; reflexivity).
    + apply is_str_join; [apply is_str_ascii; reflexivity|tauto].
    + destruct n as [|[|n]]; apply is_str_ascii; reflexivity.
    + destruct n as [|[|n]]; apply is_str_ascii; reflexivity.
Qed.

(** A stray accented letter after a number: its first byte is C3, and the message
    shows the character with that number, in two bytes. *)
Example C51_character_text_witness :
  let input := "2 " ++ String (ascii_of_N 195) (String (ascii_of_N 169) "") in
  let shown := String (ascii_of_N 195) (String (ascii_of_N 131) "") in
  is_str input /\ usize (N.of_nat (String.length input)) /\ context_in_range ctx_default /\ spells shown (ascii_of_N 195) /\
  exists e, parse plain_config w0 ctx_default input = Parse_err e /\
    display_parse_error e = "Unexpected token: `" ++ shown ++ "`".
Proof.
  cbn zeta. split; [|split; [reflexivity|split; [|split]]].
  - apply is_str_app; [apply is_str_ascii; reflexivity|]. apply (is_str_spells _ (ascii_of_N 233)). unfold spells.
    change (N_of_ascii (ascii_of_N 233)) with ((code (ascii_of_N 195) - 192) * 64 + (code (ascii_of_N 169) - 128))%N. apply U2; unfold within, code; cbn; lia.
  - split; [intros name f n H; discriminate H|intros s H; discriminate H].
  - unfold spells. change (N_of_ascii (ascii_of_N 195)) with ((code (ascii_of_N 195) - 192) * 64 + (code (ascii_of_N 131) - 128))%N.
    apply U2; unfold within, code; cbn; lia.
  - eexists. split; vm_compute; reflexivity.
Qed.
