(** * What a failed unwrap prints (C92) *)
From Coq Require Import ZArith NArith List String Ascii Bool Lia.
From Verif Require Import F64 Syntax Builtins Context Parser Xprs Display SpecUtf8 SpecLiteral DebugText DebugErrors SpecDebug DebugFacts LiteralFacts DebugLiteralFacts.
From Verif Require Import SpecParse ParserFacts SpecApi SpecNumber SpecTokens SpecGrammar DisplayFacts PropertiesParse PropertiesDebug PropertiesUtf8 PropertiesHash TestWorld.
Import ListNotations.
Local Open Scope string_scope.

(** What is used of the standard library's tables: control characters are not
    printed as they are, the printable ASCII characters are. *)
Definition usual (shown : N -> bool) : Prop :=
  (forall u, (u < 32)%N -> shown u = false) /\ (forall u, (32 <= u <= 126)%N -> shown u = true).

(** ** Literals *)
Lemma las_debug_str : forall shown s, list_ascii_of_string (debug_str shown s) = (quote :: escape_bytes shown quote (list_ascii_of_string s) ++ [quote])%list.
Proof. intros. apply list_ascii_of_string_of_list_ascii. Qed.
Lemma las_debug_char : forall shown c, list_ascii_of_string (debug_char shown c) = (tick :: escape_bytes shown tick (list_ascii_of_string (display_char c)) ++ [tick])%list.
Proof. intros. apply list_ascii_of_string_of_list_ascii. Qed.

(** The text printed for a string is a Rust literal for that string. *)
Theorem C92_strings_as_literals : forall shown s, usual shown -> is_str s -> str_literal (debug_str shown s) s.
Proof.
  intros shown s [Hs _] H. eexists. split; [apply las_debug_str|]. apply escape_denotes; auto.
Qed.

Lemma display_char_utf8 : forall c, utf8_char (list_ascii_of_string (display_char c)) (code c).
Proof.
  intro c. unfold display_char. fold (code c). pose proof (code_bound c) as B. destruct (N.ltb_spec (code c) 128) as [L|L].
  - cbn [list_ascii_of_string]. constructor. unfold within. lia.
  - cbn [list_ascii_of_string].
    pose proof (N.div_mod (code c) 64 ltac:(lia)) as Hd. pose proof (N.mod_lt (code c) 64 ltac:(lia)) as Hm.
    set (d := (code c / 64)%N) in *. set (m := (code c mod 64)%N) in *. clearbody d m.
    assert (E1 : code (ascii_of_N (192 + d)) = (192 + d)%N) by (unfold code; apply N_ascii_embedding; lia).
    assert (E2 : code (ascii_of_N (128 + m)) = (128 + m)%N) by (unfold code; apply N_ascii_embedding; lia).
    replace (code c) with ((code (ascii_of_N (192 + d)) - 192) * 64 + (code (ascii_of_N (128 + m)) - 128))%N by lia.
    constructor; unfold within; lia.
Qed.

(** And for a character a literal for that character (a byte [c] cast with
    [as char] is the character number [c]). *)
Theorem C92_characters_as_literals : forall shown c, usual shown -> char_literal (debug_char shown c) (N_of_ascii c).
Proof.
  intros shown c [Hs _]. eexists _, _. split; [apply las_debug_char|]. split; [apply display_char_utf8|]. apply escape_denotes; auto.
  rewrite <- (app_nil_r (list_ascii_of_string _)). econstructor; [apply display_char_utf8|constructor].
Qed.

(** A literal stands for one text only. *)
Theorem C92_literals_read_back : forall text s s', str_literal text s -> str_literal text s' -> s = s'.
Proof.
  intros text s s' [l [E H]] [l' [E' H']]. rewrite E in E'. injection E' as <-. apply las_inj.
  destruct (denotes_read quote l _ ltac:(reflexivity) ltac:(discriminate) H l _ [] [] H' eq_refl) as [_ [K _]]. exact K.
Qed.

Lemma debug_str_inj : forall shown s t, usual shown -> is_str s -> is_str t -> debug_str shown s = debug_str shown t -> s = t.
Proof.
  intros shown s t Hu Hs Ht E. pose proof (C92_strings_as_literals shown s Hu Hs) as H. rewrite E in H.
  eapply C92_literals_read_back; [exact H|]. now apply C92_strings_as_literals.
Qed.
Lemma debug_char_inj : forall shown c d, usual shown -> debug_char shown c = debug_char shown d -> c = d.
Proof.
  intros shown c d Hu E. destruct (C92_characters_as_literals shown c Hu) as [l [ch [El [Hc H]]]].
  destruct (C92_characters_as_literals shown d Hu) as [l' [ch' [El' [Hc' H']]]]. rewrite E, El' in El. injection El as <-.
  destruct (denotes_read tick l' _ ltac:(reflexivity) ltac:(discriminate) H l' _ [] [] H' eq_refl) as [_ [K _]]. subst ch'.
  apply code_inj. destruct (utf8_char_prefix _ _ _ _ [] [] Hc Hc' eq_refl) as [_ [K _]]. exact K.
Qed.

(** Printable ASCII without quotes and backslashes is printed as it is. *)
Theorem C92_plain_text_unchanged : forall shown s, usual shown ->
  Forall (fun c => 32 <= code c <= 126 /\ c <> """"%char /\ c <> "\"%char)%N (list_ascii_of_string s) ->
  debug_str shown s = quoted s.
Proof.
  intros shown s [_ Hs] H. apply las_inj. rewrite las_debug_str. unfold quoted. rewrite !las_app. cbn [list_ascii_of_string app]. f_equal. f_equal.
  induction H as [|c l [Hc [Nq Nb]] _ IH]; [reflexivity|]. cbn [escape_bytes]. fold (code c).
  destruct (N.ltb_spec (code c) 128) as [_|L]; [|lia]. rewrite IH. unfold escape_char.
  repeat match goal with |- context [(code c =? ?k)%N] => destruct (N.eqb_spec (code c) k) as [E|_]; [exfalso|] end; try lia.
  - apply Nb, code_inj. exact E.
  - apply Nq, code_inj. exact E.
  - rewrite Hs by lia. reflexivity.
Qed.

(** ** No line ends inside literals *)
Lemma body_skip : forall q a l, Ascii.eqb a "\" = false -> Ascii.eqb a q = false -> newline a = false -> body q false (a :: l) = body q false l.
Proof. intros q a l H1 H2 H3. cbn [body]. now rewrite H1, H2, H3. Qed.
Lemma body_skips : forall q h l, Forall (fun a => Ascii.eqb a "\" = false /\ Ascii.eqb a q = false /\ newline a = false) h -> body q false (h ++ l) = body q false l.
Proof. intros q h l H. induction H as [|a h [H1 [H2 H3]] _ IH]; [reflexivity|]. cbn [app]. now rewrite body_skip. Qed.
Lemma high_byte : forall a q, is_quote q = true -> (128 <= code a)%N -> Ascii.eqb a "\" = false /\ Ascii.eqb a q = false /\ newline a = false.
Proof.
  intros a q Hq L. assert (K : forall c, (code c < 128)%N -> Ascii.eqb a c = false).
  { intros c Hc. apply Ascii.eqb_neq. intro E. subst c. lia. }
  split; [apply K; reflexivity|]. split; [|apply K; reflexivity]. apply K. unfold is_quote in Hq. apply orb_true_iff in Hq.
  destruct Hq as [E|E]; apply Ascii.eqb_eq in E; subst q; reflexivity.
Qed.
Lemma hex_byte : forall a d q, is_quote q = true -> hex_value a = Some d -> Ascii.eqb a "\" = false /\ Ascii.eqb a q = false /\ newline a = false.
Proof.
  intros a d q Hq H. unfold is_quote in Hq. apply orb_true_iff in Hq. assert (K : (if Ascii.eqb a "\" || Ascii.eqb a quote || Ascii.eqb a tick || newline a then hex_value a else None) = None).
  { destruct a as [[] [] [] [] [] [] [] []]; reflexivity. }
  destruct (Ascii.eqb a "\"); [cbn in K; congruence|]. destruct (Ascii.eqb a quote) eqn:E1; [cbn in K; congruence|].
  destruct (Ascii.eqb a tick) eqn:E2; [cbn in K; congruence|]. destruct (newline a); [cbn in K; congruence|].
  destruct Hq as [E|E]; apply Ascii.eqb_eq in E; subst q; auto.
Qed.
Lemma hex_bytes : forall h u q, is_quote q = true -> hex_number h u -> Forall (fun a => Ascii.eqb a "\" = false /\ Ascii.eqb a q = false /\ newline a = false) h.
Proof.
  intros h u q Hq H. induction H as [|l n c d _ IH Hc]; [constructor|]. apply Forall_app. split; [exact IH|]. constructor; [|constructor]. eapply hex_byte; eauto.
Qed.

Lemma denotes_body : forall q l v, is_quote q = true -> denotes q l v -> body q false l = true.
Proof.
  intros q l v Hq H. assert (Nb : Ascii.eqb q "\" = false /\ newline q = false /\ Ascii.eqb "{" q = false /\ Ascii.eqb "}" q = false).
  { unfold is_quote in Hq. apply orb_true_iff in Hq. destruct Hq as [E|E]; apply Ascii.eqb_eq in E; subst q; auto. }
  destruct Nb as [Nb [Nn [No Ncl]]].
  induction H as [|ch u l v Hc H32 Hb Hqu H IH|c b l v Hs H IH|h u ch l v Hh Hn Hc H IH].
  - cbn [body]. rewrite Nb, Nn, Ascii.eqb_refl. reflexivity.
  - rewrite body_skips; [exact IH|]. destruct (N.lt_ge_cases u 128) as [L|L].
    + destruct (utf8_char_ascii _ _ Hc L) as [a [-> Ea]]. constructor; [|constructor]. subst u. split; [|split].
      * apply Ascii.eqb_neq. congruence.
      * apply Ascii.eqb_neq. congruence.
      * unfold newline. apply Ascii.eqb_neq. intro E. subst a. cbn in H32. lia.
    + eapply Forall_impl; [|eapply utf8_char_bytes; eauto]. intros a Ha. now apply high_byte.
  - cbn [body]. rewrite IH. assert (newline c = false) as ->; [|reflexivity].
    destruct (newline c) eqn:E; [|reflexivity]. apply Ascii.eqb_eq in E. subst c. discriminate Hs.
  - change (body q false ("\"%char :: "u"%char :: ("{"%char :: (h ++ "}"%char :: l)))) with (body q false ("{"%char :: (h ++ "}"%char :: l))).
    rewrite body_skip by (auto). rewrite body_skips by (eapply hex_bytes; eauto). rewrite body_skip by auto. exact IH.
Qed.

Lemma debug_str_token : forall shown s, usual shown -> is_str s -> spelled (debug_str shown s).
Proof.
  intros shown s Hu Hs. destruct (C92_strings_as_literals shown s Hu Hs) as [l [E H]]. right. exists quote, l. split; [exact E|]. split; [reflexivity|]. eapply denotes_body; eauto.
Qed.
Lemma debug_char_token : forall shown c, usual shown -> spelled (debug_char shown c).
Proof.
  intros shown c Hu. destruct (C92_characters_as_literals shown c Hu) as [l [ch [E [_ H]]]]. right. exists tick, l. split; [exact E|]. split; [reflexivity|]. eapply denotes_body; eauto.
Qed.
Lemma digits_bare : forall n, bare (string_of_list_ascii (digits_of n)).
Proof.
  intro n. destruct (digits_of_spec n) as [Hd [Hn _]]. split.
  - destruct (digits_of n); [congruence|discriminate].
  - rewrite list_ascii_of_string_of_list_ascii. apply forallb_forall. intros c Hc. unfold all_digits in Hd. rewrite Forall_forall in Hd. specialize (Hd c Hc). clear - Hd.
    assert (K : ((48 <=? N_of_ascii c) && (N_of_ascii c <=? 57))%N = true -> bare_char c = true) by (destruct c as [[] [] [] [] [] [] [] []]; vm_compute; auto).
    apply K. unfold decimal_digit in Hd. apply andb_true_iff. split; apply N.leb_le; lia.
Qed.
Lemma digits_inj : forall n m, string_of_list_ascii (digits_of n) = string_of_list_ascii (digits_of m) -> n = m.
Proof.
  intros n m E. apply (f_equal list_ascii_of_string) in E. rewrite !list_ascii_of_string_of_list_ascii in E.
  destruct (digits_of_spec n) as [_ [_ V1]]. destruct (digits_of_spec m) as [_ [_ V2]]. rewrite E in V1. lia.
Qed.

(** ** Errors *)
Ltac closed_bare := split; [discriminate|reflexivity].
Lemma kind_wfq : forall shown k, usual shown -> kind_in_range k -> wfq (debug_error_kind shown k).
Proof.
  assert (T1 : forall n t, bare n -> spelled t -> wfq (D_tuple n [D_word t])).
  { intros n t Hn Ht. constructor; [exact Hn|discriminate|]. constructor; [now constructor|constructor]. }
  assert (T2 : forall n t t', bare n -> spelled t -> spelled t' -> wfq (D_tuple n [D_word t; D_word t'])).
  { intros n t t' Hn Ht Ht'. constructor; [exact Hn|discriminate|]. constructor; [now constructor|]. constructor; [now constructor|constructor]. }
  intros shown k Hu Hk. destruct k as [|c|s|c|c|v l|e g|e g|]; cbn [debug_error_kind kind_in_range] in *.
  - constructor. left. closed_bare.
  - apply T1; [closed_bare|now apply debug_char_token].
  - apply T1; [closed_bare|now apply debug_str_token].
  - apply T1; [closed_bare|now apply debug_char_token].
  - apply T1; [closed_bare|now apply debug_char_token].
  - destruct Hk as [Hv [Hl _]]. constructor; [closed_bare|discriminate|]. constructor; [constructor; now apply debug_str_token|]. constructor; [|constructor].
    constructor. rewrite Forall_forall in *. intros d Hd. apply in_map_iff in Hd. destruct Hd as [x [<- Hx]]. constructor. apply debug_str_token; auto.
  - apply T2; [closed_bare|left; apply digits_bare|left; apply digits_bare].
  - apply T2; [closed_bare|left; apply digits_bare|left; apply digits_bare].
  - constructor. left. closed_bare.
Qed.
Lemma error_wfq : forall shown e, usual shown -> in_range e -> wfq (debug_parse_error shown e).
Proof.
  intros shown e Hu [Hk [_ [_ Hs]]]. unfold debug_parse_error, debug_span.
  constructor; [closed_bare|discriminate|repeat (constructor; [closed_bare|]); constructor|].
  constructor; [now apply kind_wfq|]. constructor.
  - cbn [snd]. constructor; [closed_bare|discriminate|repeat (constructor; [closed_bare|]); constructor|].
    constructor; [cbn [snd]|constructor; [cbn [snd]|constructor]].
    + constructor; [closed_bare|discriminate|]. constructor; [|constructor]. constructor. left. apply digits_bare.
    + constructor. left. apply digits_bare.
  - constructor; [|constructor]. cbn [snd]. constructor. now apply debug_str_token.
Qed.

Lemma kind_inj : forall shown k k', usual shown -> kind_in_range k -> kind_in_range k' -> debug_error_kind shown k = debug_error_kind shown k' -> k = k'.
Proof.
  assert (DN : forall a b, display_nat a = display_nat b -> a = b) by (intros a b E; apply digits_inj in E; lia).
  intros shown k k' Hu Hk Hk' E.
  destruct k as [|c|s|c|c|v l|e g|e g|], k' as [|c'|s'|c'|c'|v' l'|e' g'|e' g'|]; cbn [debug_error_kind kind_in_range] in *; try discriminate E; try reflexivity.
  - assert (E' : debug_char shown c = debug_char shown c') by congruence. f_equal. eapply debug_char_inj; eauto.
  - assert (E' : debug_str shown s = debug_str shown s') by congruence. f_equal. eapply debug_str_inj; eauto.
  - assert (E' : debug_char shown c = debug_char shown c') by congruence. f_equal. eapply debug_char_inj; eauto.
  - assert (E' : debug_char shown c = debug_char shown c') by congruence. f_equal. eapply debug_char_inj; eauto.
  - assert (E1 : debug_str shown v = debug_str shown v') by congruence.
    assert (E2 : map (fun x => D_word (debug_str shown x)) l = map (fun x => D_word (debug_str shown x)) l') by congruence.
    destruct Hk as [Hv [Hl _]], Hk' as [Hv' [Hl' _]]. f_equal; [eapply debug_str_inj; eauto|].
    clear E E1. revert l' Hl' E2. induction Hl as [|x l Hx Hl IH]; intros [|y l'] Hl' E2; try reflexivity; try discriminate E2.
    inversion Hl'; subst. cbn [map] in E2. assert (E3 : debug_str shown x = debug_str shown y) by congruence. f_equal; [eapply debug_str_inj; eauto|].
    apply IH; [assumption|]. congruence.
  - f_equal; apply DN; congruence.
  - f_equal; apply DN; congruence.
Qed.

(** The text of an error, on one line ([unwrap], [expect]) or on several ([dbg!]),
    tells its kind, its place and the whole text that was parsed. *)
Theorem C92_parse_error_told : forall shown e e', usual shown -> in_range e -> in_range e' ->
  compact (debug_parse_error shown e) = compact (debug_parse_error shown e') \/
  pretty (debug_parse_error shown e) = pretty (debug_parse_error shown e') -> e = e'.
Proof.
  intros shown e e' Hu He He' E. assert (D : debug_parse_error shown e = debug_parse_error shown e').
  { destruct E as [E|E]; [apply compact_determines in E|apply pretty_determines in E]; auto using error_wfq. }
  clear E. destruct e as [k o n s], e' as [k' o' n' s']. destruct He as [Hk [_ [_ Hs]]], He' as [Hk' [_ [_ Hs']]].
  unfold debug_parse_error, debug_span in D. cbn [pe_kind pe_offset pe_length pe_src] in *.
  assert (E1 : debug_error_kind shown k = debug_error_kind shown k') by congruence.
  assert (E2 : string_of_list_ascii (digits_of o) = string_of_list_ascii (digits_of o')) by congruence.
  assert (E3 : string_of_list_ascii (digits_of n) = string_of_list_ascii (digits_of n')) by congruence.
  assert (E4 : debug_str shown s = debug_str shown s') by congruence.
  f_equal; [eapply kind_inj; eauto|now apply digits_inj|now apply digits_inj|eapply debug_str_inj; eauto].
Qed.

(** So for the errors that parsing reports: two failures that print the same text,
    whatever the texts, parsers and builds, are the same failure of the same text. *)
Theorem C92_same_message_same_text : forall shown cfg cfg' w w' ctx ctx' input input' e e', usual shown ->
  fair_order w -> fair_order w' -> context_in_range ctx -> context_in_range ctx' ->
  is_str input -> is_str input' -> usize (N.of_nat (String.length input)) -> usize (N.of_nat (String.length input')) ->
  parse cfg w ctx input = Parse_err e -> parse cfg' w' ctx' input' = Parse_err e' ->
  compact (debug_parse_error shown e) = compact (debug_parse_error shown e') \/
  pretty (debug_parse_error shown e) = pretty (debug_parse_error shown e') -> input = input' /\ e = e'.
Proof.
  intros shown cfg cfg' w w' ctx ctx' input input' e e' Hu Hw Hw' Hc Hc' Hs Hs' Hl Hl' He He' E.
  assert (K : e = e'). { eapply C92_parse_error_told; eauto using C79_reported_errors. }
  split; [|exact K]. destruct (C03_error_spans_inside_source _ _ _ _ _ He) as [<- _]. destruct (C03_error_spans_inside_source _ _ _ _ _ He') as [<- _]. now rewrite K.
Qed.

(** The message ends with a literal for the text: a failure can be reproduced from
    the log. *)
Theorem C92_message_contains_the_text : forall shown cfg w ctx input e, usual shown -> is_str input ->
  parse cfg w ctx input = Parse_err e ->
  exists before text, compact (debug_parse_error shown e) = before ++ text ++ " }" /\ str_literal text input.
Proof.
  intros shown cfg w ctx input e Hu Hs He. destruct (C03_error_spans_inside_source _ _ _ _ _ He) as [Hsrc _].
  exists ("ParseError { kind: " ++ compact (debug_error_kind shown (pe_kind e)) ++ ", span: " ++ compact (debug_span (pe_offset e) (pe_length e)) ++ ", src: "), (debug_str shown (pe_src e)).
  split; [|rewrite Hsrc; now apply C92_strings_as_literals].
  assert (A : forall a b c, (a ++ b) ++ c = a ++ b ++ c) by (induction a as [|x a IH]; intros; cbn; [reflexivity|now rewrite IH]).
  unfold debug_parse_error. remember (debug_error_kind shown (pe_kind e)) as k. remember (debug_span (pe_offset e) (pe_length e)) as p.
  cbn [compact map fst snd]. unfold join. cbn [String.concat]. rewrite !A. reflexivity.
Qed.

(** The two other errors. *)
Theorem C92_eval_error_told : forall shown x y, usual shown -> is_str x -> is_str y ->
  compact (debug_eval_error shown x) = compact (debug_eval_error shown y) \/ pretty (debug_eval_error shown x) = pretty (debug_eval_error shown y) -> x = y.
Proof.
  intros shown x y Hu Hx Hy E. assert (W : forall s, is_str s -> wfq (debug_eval_error shown s)).
  { intros s Hs. constructor; [closed_bare|discriminate|]. constructor; [|constructor]. constructor. now apply debug_str_token. }
  assert (D : debug_eval_error shown x = debug_eval_error shown y) by (destruct E as [E|E]; [apply compact_determines in E|apply pretty_determines in E]; auto).
  eapply debug_str_inj; eauto. unfold debug_eval_error in D. congruence.
Qed.
Theorem C92_bind_error_told : forall shown x y, usual shown -> is_str (bind_error_text x) -> is_str (bind_error_text y) ->
  compact (debug_bind_error shown x) = compact (debug_bind_error shown y) \/ pretty (debug_bind_error shown x) = pretty (debug_bind_error shown y) -> x = y.
Proof.
  intros shown x y Hu Hx Hy E. assert (W : forall s, is_str (bind_error_text s) -> wfq (debug_bind_error shown s)).
  { intros [s|s] Hs; (constructor; [closed_bare|discriminate|]; constructor; [|constructor]; constructor; now apply debug_str_token). }
  assert (D : debug_bind_error shown x = debug_bind_error shown y) by (destruct E as [E|E]; [apply compact_determines in E|apply pretty_determines in E]; auto).
  destruct x as [s|s], y as [t|t]; cbn [debug_bind_error bind_error_text] in *; try discriminate D; f_equal; eapply debug_str_inj; eauto; congruence.
Qed.

(** ** On one line *)
Definition quiet (l : list ascii) : Prop := Forall (fun c => 32 <= code c)%N l.
Lemma denotes_quiet : forall q l v, is_quote q = true -> denotes q l v -> quiet l.
Proof.
  intros q l v Hq H. unfold quiet.
  induction H as [|ch u l v Hc H32 Hb Hqu H IH|c b l v Hs H IH|h u ch l v Hh Hn Hc H IH].
  - constructor; [|constructor]. unfold is_quote in Hq. apply orb_true_iff in Hq. destruct Hq as [E|E]; apply Ascii.eqb_eq in E; subst q; unfold code; cbn; lia.
  - apply Forall_app. split; [|exact IH]. destruct (N.lt_ge_cases u 128) as [L|L].
    + destruct (utf8_char_ascii _ _ Hc L) as [a [-> Ea]]. constructor; [lia|constructor].
    + eapply Forall_impl; [|eapply utf8_char_bytes; eauto]. cbn. intros a Ha. lia.
  - constructor; [unfold code; cbn; lia|]. constructor; [|exact IH].
    assert (K : match simple_escape c with Some _ => (32 <=? code c)%N = true | None => True end).
    { clear. destruct c as [[] [] [] [] [] [] [] []]; vm_compute; auto. }
    rewrite Hs in K. now apply N.leb_le.
  - constructor; [unfold code; cbn; lia|]. constructor; [unfold code; cbn; lia|]. constructor; [unfold code; cbn; lia|].
    apply Forall_app. split; [|constructor; [unfold code; cbn; lia|exact IH]].
    clear - Hn. induction Hn as [|l n c d _ IH Hc]; [constructor|]. apply Forall_app. split; [exact IH|]. constructor; [|constructor].
    assert (K : match hex_value c with Some _ => (32 <=? code c)%N = true | None => True end).
    { clear. destruct c as [[] [] [] [] [] [] [] []]; vm_compute; auto. }
    rewrite Hc in K. now apply N.leb_le.
Qed.
Definition quiet_s (s : string) : Prop := quiet (list_ascii_of_string s).
Lemma quiet_app : forall a b, quiet_s a -> quiet_s b -> quiet_s (a ++ b).
Proof. intros a b Ha Hb. unfold quiet_s, quiet in *. rewrite las_app. apply Forall_app. auto. Qed.
Lemma quiet_const : forall s, forallb (fun c => (32 <=? code c)%N) (list_ascii_of_string s) = true -> quiet_s s.
Proof. intros s H. unfold quiet_s, quiet. apply Forall_forall. rewrite forallb_forall in H. intros c Hc. apply N.leb_le. auto. Qed.
Inductive quiet_d : dbg -> Prop :=
| QD_word : forall t, quiet_s t -> quiet_d (D_word t)
| QD_tuple : forall n l, quiet_s n -> Forall quiet_d l -> quiet_d (D_tuple n l)
| QD_struct : forall n l, quiet_s n -> Forall (fun f => quiet_s (fst f)) l -> Forall (fun f => quiet_d (snd f)) l -> quiet_d (D_struct n l)
| QD_list : forall l, Forall quiet_d l -> quiet_d (D_list l)
| QD_set : forall l, Forall quiet_d l -> quiet_d (D_set l)
| QD_entry : forall k v, quiet_s k -> quiet_d v -> quiet_d (D_entry k v).
Lemma quiet_join : forall A (f : A -> string) l, (forall x, In x l -> quiet_s (f x)) -> quiet_s (join ", " (map f l)).
Proof.
  intros A f l H. induction l as [|a l IH]; [constructor|]. destruct l as [|b l]; [apply H; now left|].
  change (join ", " (map f (a :: b :: l))) with (f a ++ ", " ++ join ", " (map f (b :: l))).
  apply quiet_app; [apply H; now left|]. apply quiet_app; [now apply quiet_const|]. apply IH. intros x Hx. apply H. now right.
Qed.
Lemma quiet_compact : forall d, quiet_d d -> quiet_s (compact d).
Proof.
  induction d as [t|n l IH|n l IH|l IH|l IH|k v IH] using dbg_ind'; intro W; inversion W; subst; cbn [compact]; rewrite ?Forall_forall in *.
  - assumption.
  - apply quiet_app; [assumption|]. apply quiet_app; [now apply quiet_const|]. apply quiet_app; [|now apply quiet_const]. apply quiet_join. auto.
  - apply quiet_app; [assumption|]. apply quiet_app; [now apply quiet_const|]. apply quiet_app; [|now apply quiet_const]. apply quiet_join.
    intros f Hf. apply quiet_app; [auto|]. apply quiet_app; [now apply quiet_const|]. apply IH; auto.
  - apply quiet_app; [now apply quiet_const|]. apply quiet_app; [|now apply quiet_const]. apply quiet_join. auto.
  - apply quiet_app; [now apply quiet_const|]. apply quiet_app; [|now apply quiet_const]. apply quiet_join. auto.
  - apply quiet_app; [assumption|]. apply quiet_app; [now apply quiet_const|auto].
Qed.
Lemma debug_str_quiet : forall shown s, usual shown -> is_str s -> quiet_s (debug_str shown s).
Proof.
  intros shown s Hu Hs. destruct (C92_strings_as_literals shown s Hu Hs) as [l [E H]]. unfold quiet_s. rewrite E. constructor; [unfold code; cbn; lia|]. exact (denotes_quiet quote _ _ eq_refl H).
Qed.
Lemma debug_char_quiet : forall shown c, usual shown -> quiet_s (debug_char shown c).
Proof.
  intros shown c Hu. destruct (C92_characters_as_literals shown c Hu) as [l [ch [E [_ H]]]]. unfold quiet_s. rewrite E. constructor; [unfold code; cbn; lia|]. exact (denotes_quiet tick _ _ eq_refl H).
Qed.
Lemma digits_quiet : forall n, quiet_s (string_of_list_ascii (digits_of n)).
Proof.
  intro n. apply quiet_const. destruct (digits_bare n) as [_ H]. rewrite forallb_forall in *. intros c Hc. specialize (H c Hc).
  destruct (digits_of_spec n) as [Hd _]. unfold all_digits in Hd. rewrite Forall_forall in Hd. rewrite list_ascii_of_string_of_list_ascii in Hc. specialize (Hd c Hc).
  apply N.leb_le. unfold decimal_digit, code in *. lia.
Qed.

(** Whatever the text contains (line ends, tabs, escape sequences of terminals),
    the message is one line without control characters. *)
Theorem C92_one_line : forall shown e, usual shown -> in_range e ->
  Forall (fun c => 32 <= N_of_ascii c)%N (list_ascii_of_string (compact (debug_parse_error shown e))).
Proof.
  intros shown e Hu [Hk [_ [_ Hs]]]. apply quiet_compact.
  assert (K : quiet_d (debug_error_kind shown (pe_kind e))).
  { destruct (pe_kind e) as [|c|s|c|c|v l|x g|x g|]; cbn [debug_error_kind kind_in_range] in *.
    - constructor. now apply quiet_const.
    - constructor; [now apply quiet_const|]. constructor; [constructor; now apply debug_char_quiet|constructor].
    - constructor; [now apply quiet_const|]. constructor; [constructor; now apply debug_str_quiet|constructor].
    - constructor; [now apply quiet_const|]. constructor; [constructor; now apply debug_char_quiet|constructor].
    - constructor; [now apply quiet_const|]. constructor; [constructor; now apply debug_char_quiet|constructor].
    - destruct Hk as [Hv [Hl _]]. constructor; [now apply quiet_const|]. constructor; [constructor; now apply debug_str_quiet|]. constructor; [|constructor].
      constructor. rewrite Forall_forall in *. intros d Hd. apply in_map_iff in Hd. destruct Hd as [y [<- Hy]]. constructor. apply debug_str_quiet; auto.
    - constructor; [now apply quiet_const|]. constructor; [constructor; apply digits_quiet|]. constructor; [constructor; apply digits_quiet|constructor].
    - constructor; [now apply quiet_const|]. constructor; [constructor; apply digits_quiet|]. constructor; [constructor; apply digits_quiet|constructor].
    - constructor. now apply quiet_const. }
  unfold debug_parse_error, debug_span. constructor; [now apply quiet_const| |].
  - constructor; [now apply quiet_const|]. constructor; [now apply quiet_const|]. constructor; [now apply quiet_const|constructor].
  - constructor; [exact K|]. constructor; [|constructor; [constructor; now apply debug_str_quiet|constructor]]. cbn [snd].
    constructor; [now apply quiet_const| |].
    + constructor; [now apply quiet_const|]. constructor; [now apply quiet_const|constructor].
    + constructor; [|constructor; [constructor; apply digits_quiet|constructor]]. cbn [snd]. constructor; [now apply quiet_const|].
      constructor; [constructor; apply digits_quiet|constructor].
Qed.

(** ** Concrete cases *)
(** ASCII as in core::unicode; beyond it everything from U+00A1 on but U+00AD *)
Definition shown_latin (u : N) : bool := ((32 <=? u) && (u <=? 126) || (161 <=? u) && negb (u =? 173))%N.
Lemma shown_latin_usual : usual shown_latin.
Proof.
  unfold usual, shown_latin. split; intros u H.
  - apply orb_false_iff. split; apply andb_false_iff; left; apply N.leb_gt; lia.
  - apply orb_true_iff. left. apply andb_true_iff. split; apply N.leb_le; lia.
Qed.

Definition message (input : string) : string :=
  match parse default_config w0 ctx_default input with
  | Parse_err e => compact (debug_parse_error shown_latin e)
  | _ => ""
  end.

(** A text with a quote, a line end, an accented letter and a soft hyphen. *)
Definition odd_text : string := "1 + " ++ String "010" ("""" ++ e_acute ++ String (ascii_of_N 194) (String (ascii_of_N 173) "")).

Example C92_witness :
  is_str odd_text /\
  message "(1 + 2" = "ParseError { kind: ExpectedToken(')'), span: SourceSpan { offset: SourceOffset(6), length: 0 }, src: ""(1 + 2"" }" /\
  message "2 ' x" = "ParseError { kind: UnexpectedToken('\''), span: SourceSpan { offset: SourceOffset(2), length: 0 }, src: ""2 ' x"" }" /\
  message odd_text = "ParseError { kind: IllegalCharacter('""'), span: SourceSpan { offset: SourceOffset(5), length: 0 }, src: ""1 + \n\""" ++ e_acute ++ "\u{ad}"" }".
Proof.
  split.
  { unfold is_str. change (list_ascii_of_string odd_text) with (["1"%char] ++ [" "%char] ++ ["+"%char] ++ [" "%char] ++ ["010"%char] ++ [quote] ++ [ascii_of_N 195; ascii_of_N 169] ++ [ascii_of_N 194; ascii_of_N 173] ++ [])%list.
    repeat (eapply utf8_cons; [first [apply U1; unfold within, code; cbn; lia | apply U2; unfold within, code; cbn; lia]|]). constructor. }
  split; [apply String.eqb_eq; vm_compute; reflexivity|]. split; apply String.eqb_eq; vm_compute; reflexivity.
Qed.

(** The text shown to users ([{}]) does not tell as much: these two failures, at
    different places of different texts, read the same. *)
Theorem C92_display_tells_less :
  exists e e', parse default_config w0 ctx_default "(1 + 2" = Parse_err e /\ parse default_config w0 ctx_default "2 * (x" = Parse_err e' /\
    e <> e' /\ display_parse_error e = display_parse_error e'.
Proof.
  destruct (parse default_config w0 ctx_default "(1 + 2") as [x|e|p|] eqn:E1; try (exfalso; apply (f_equal error_of) in E1; vm_compute in E1; discriminate E1).
  destruct (parse default_config w0 ctx_default "2 * (x") as [x|e'|p|] eqn:E2; try (exfalso; apply (f_equal error_of) in E2; vm_compute in E2; discriminate E2).
  exists e, e'. split; [reflexivity|]. split; [reflexivity|].
  destruct (C03_error_spans_inside_source _ _ _ _ _ E1) as [S1 _]. destruct (C03_error_spans_inside_source _ _ _ _ _ E2) as [S2 _].
  split; [intros ->; rewrite S1 in S2; discriminate S2|].
  assert (K1 : pe_kind e = ExpectedToken ")").
  { assert (K : option_map (fun t => fst (fst t)) (error_of (Parse_err e)) = Some (ExpectedToken ")")) by (rewrite <- E1; vm_compute; reflexivity).
    cbn [error_of option_map fst] in K. congruence. }
  assert (K2 : pe_kind e' = ExpectedToken ")").
  { assert (K : option_map (fun t => fst (fst t)) (error_of (Parse_err e')) = Some (ExpectedToken ")")) by (rewrite <- E2; vm_compute; reflexivity).
    cbn [error_of option_map fst] in K. congruence. }
  unfold display_parse_error. now rewrite K1, K2.
Qed.
