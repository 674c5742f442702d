(** * C52-C54: the error reported for a text, and where

    For parsing without compile-time optimisation. *)
From Coq Require Import ZArith NArith List String Ascii Bool Lia.
From Verif Require Import F64 Syntax Factorial Builtins Context Element Parser ParserFacts Xprs.
From Verif Require Import SpecChars SpecTokens SpecTree SpecGrammar SpecParse SpecScan.
From Verif Require Import TokenFacts LexFacts LexExec TokenParser TokenSim ScanFacts ScanPrefix.
From Verif Require Import PropertiesParse PropertiesGrammar TestWorld.
Import ListNotations.
Local Open Scope nat_scope.

(** ** C52: the verdict *)
Theorem C52_verdict : forall cfg w ctx input ts, optimize cfg = false -> input <> ""%string -> tokens_of input ts ->
  match verdict_of ctx ts with
  | Accepts => (exists x, parse cfg w ctx input = Parse_ok x) \/
      (get_expected_vars ctx <> None /\ exists e v l, parse cfg w ctx input = Parse_err e /\ pe_kind e = VariableNotDeclared v l)
  | Rejects k from upto => exists e, parse cfg w ctx input = Parse_err e /\ error_matches input e k from upto
  end.
Proof.
  intros cfg w ctx input ts Ho Hne Hts.
  pose proof (sim_parse cfg w ctx input (nonempty_bytes _ Hne) ts Hts) as Hs.
  pose proof (scan_parse cfg w ctx Ho (parse_budget input) ts) as Hv.
  pose proof (parse_not_fuel cfg w ctx input ts Hne Hts) as Hf. unfold parse.
  destruct (parse_impl cfg w ctx input) as [[r vs] c|e c|p|], (t_parse cfg w ctx (parse_budget input) ts) as [t rest|k f u|q|];
    try contradiction; try congruence.
  - rewrite Hv. destruct (get_expected_vars ctx) as [s|]; [|left; eauto].
    destruct (set_diff _ _) as [|x l]; [left; eauto|]. right. split; [discriminate|]. eexists _, _, _. split; reflexivity.
  - rewrite Hv. eauto.
Qed.

(** the verdict leaves no freedom in the error *)
Theorem C52_verdict_fixes_error : forall input e e' k from upto,
  error_matches input e k from upto -> error_matches input e' k from upto -> e = e'.
Proof.
  intros input [k1 o1 l1 s1] [k2 o2 l2 s2] k from upto [Hk [Hs [o [u [Ho [Hu E]]]]]] [Hk' [Hs' [o' [u' [Ho' [Hu' E']]]]]].
  cbn in *. subst. rewrite (tokens_begin_unique _ _ _ _ Ho' Ho), (tokens_begin_unique _ _ _ _ Hu' Hu), <- E in E'.
  now injection E' as -> ->.
Qed.

(** what the verdicts look like *)
Lemma verdict_places : forall ctx m s ts k f u, scan ctx m s ts = Rejects k f u ->
  match k with
  | TooFewArguments _ _ | TooManyArguments _ _ => True
  | UnexpectedEndOfExpression => f = [] /\ u = []
  | VariableNotDeclared _ _ => False
  | _ => f = u
  end.
Proof.
  assert (Ho : forall ctx first s t r v, read_operand ctx first s t (t :: r) = inr v ->
     match v with Rejects k f u => f = u /\ match k with UnexpectedEndOfExpression | VariableNotDeclared _ _ => False | _ => True end | Accepts => False end).
  { intros ctx first s t r v H. destruct t as [x|x|c]; cbn [read_operand] in H.
    - destruct (literal_value x); [discriminate H|]. injection H as <-. auto.
    - destruct (stands_for ctx x); discriminate H.
    - destruct (_ || _)%bool; [discriminate H|]. destruct (Ascii.eqb c "("); [discriminate H|].
      destruct (Ascii.eqb c ")"); injection H as <-; cbn; auto. destruct (within_call s); auto. }
  assert (Hc : forall bare s t r v, read_close bare s t (t :: r) = inr v ->
     match v with Rejects k f u => match k with UnexpectedEndOfExpression | VariableNotDeclared _ _ => False | TooFewArguments _ _ | TooManyArguments _ _ => True | _ => f = u end | Accepts => False end).
  { intros bare s t r v H. destruct s as [|[x|f n fr] s]; cbn [read_close] in H.
    - injection H as <-. cbn. reflexivity.
    - assert (E : v = Rejects (ExpectedToken ")") (t :: r) (t :: r)).
      { destruct t as [z|z|c]; try congruence. destruct c as [[] [] [] [] [] [] [] []]; congruence. }
      subst v. reflexivity.
    - assert (E : v = misfit s (t :: r) \/ exists m, v = Rejects (TooFewArguments m (S n)) fr (t :: r) \/ v = Rejects (TooManyArguments m (S n)) fr (t :: r)).
      { destruct t as [z|z|c]; try (left; congruence).
        destruct c as [[] [] [] [] [] [] [] []]; try (left; congruence); try discriminate H.
        destruct (fn_nb_args f) as [m|]; [|discriminate H]. right. exists m.
        destruct (Nat.compare (S n) m); [discriminate H|left|right]; congruence. }
      destruct E as [-> | [m [-> | ->]]]; auto. cbn. destruct (within_call s); auto. }
  intros ctx m s ts. revert m s. induction ts as [|t r IH]; intros m s k f u H.
  - cbn in H. destruct m as [a|g fr|a b]; cbn in H; [injection H as <- <- <-; auto..|].
    destruct s as [|[x|g n fr] s]; [discriminate H|injection H as <- <- <-; auto..].
  - cbn [scan] in H. destruct (read_token ctx m s t (t :: r)) as [[m' s']|v] eqn:E; [exact (IH _ _ _ _ _ H)|]. subst v.
    destruct m as [first|g fr|bare pf]; cbn [read_token] in E.
    + apply Ho in E. destruct E as [-> E]. destruct k; auto; contradiction.
    + assert (E' : Rejects k f u = Rejects (ExpectedToken "(") (t :: r) (t :: r)).
      { destruct t as [z|z|c]; try congruence. destruct c as [[] [] [] [] [] [] [] []]; congruence. }
      injection E' as -> -> ->. reflexivity.
    + assert (E' : (if multiplies bare t then read_operand ctx false s t (t :: r) else read_close bare s t (t :: r)) = inr (Rejects k f u)).
      { destruct t as [z|z|c]; try exact E. destruct (Ascii.eqb c "!" && pf)%bool; [discriminate E|].
        destruct (is_operator c); [discriminate E|]. exact E. }
      destruct (multiplies bare t).
      * apply Ho in E'. destruct E' as [-> E']. destruct k; auto; contradiction.
      * apply Hc in E'. destruct k; auto; contradiction.
Qed.

Lemma missing_not_first : forall ctx ts f u, verdict_of ctx ts = Rejects MissingArgument f u -> List.length u < List.length ts.
Proof.
  intros ctx [|t r] f u H; [discriminate H|]. unfold verdict_of in H. cbn [scan] in H.
  destruct (read_token ctx (Need true) [] t (t :: r)) as [[m s]|v] eqn:E.
  - apply scan_divides in H. destruct H as [pre [_ [_ [-> _]]]]. cbn. rewrite app_length. lia.
  - subst v. exfalso. destruct t as [x|x|c]; cbn in E.
    + destruct (literal_value x); discriminate E.
    + destruct (stands_for ctx x); discriminate E.
    + destruct (_ || _)%bool; [discriminate E|]. destruct (Ascii.eqb c "("); [discriminate E|]. destruct (Ascii.eqb c ")"); discriminate E.
Qed.

Lemma begin_at_0 : forall input ts rest, tokens_of input ts -> tokens_begin input 0 rest -> ts = rest.
Proof. intros input ts rest H [_ [H' _]]. eapply lexes_unique; eauto. Qed.

Lemma where_stopped : forall cfg w ctx input ts e, optimize cfg = false -> input <> ""%string -> tokens_of input ts ->
  parse cfg w ctx input = Parse_err e -> (forall v l, pe_kind e <> VariableNotDeclared v l) ->
  exists f u, verdict_of ctx ts = Rejects (pe_kind e) f u /\ tokens_begin input (N.to_nat (stopped_at e)) u.
Proof.
  intros cfg w ctx input ts e Ho Hne Hts He Hk. pose proof (C52_verdict cfg w ctx input ts Ho Hne Hts) as H.
  destruct (verdict_of ctx ts) as [|k f u] eqn:Ev.
  { destruct H as [[x Hx]|[_ [e' [v [l [He' Hk']]]]]]; [congruence|]. rewrite He in He'. injection He' as <-. elim (Hk v l Hk'). }
  destruct H as [e' [He' Hm]]. rewrite He in He'. injection He' as <-. destruct Hm as [<- [_ [o [u' [Hf [Hu E]]]]]].
  exists f, u. split; auto. assert (Es : N.to_nat (stopped_at e) = u'); [|rewrite Es; exact Hu].
  pose proof (verdict_places _ _ _ _ _ _ _ Ev) as Hp. pose proof (C45_errors_truthful cfg w ctx input e He) as [_ Ht].
  assert (Hsame : f = u -> o = u') by (intros ->; eapply tokens_begin_unique; eauto).
  unfold stopped_at. destruct (pe_kind e) eqn:Ek; cbn [span_for] in E.
  - apply pair_equal_spec in E. destruct E as [Eo El]. destruct Hp as [-> ->].
    assert (Hn : 0 < String.length input) by (destruct input; [congruence|cbn; lia]).
    assert (Hb : tokens_begin input (String.length input) []).
    { split; [lia|]. rewrite <- list_ascii_length, skipn_all. split; [constructor|auto]. }
    rewrite (tokens_begin_unique _ _ _ _ Hu Hb). lia.
  - apply pair_equal_spec in E. destruct E as [Eo El]. specialize (Hsame Hp). lia.
  - apply pair_equal_spec in E. destruct E as [Eo El]. specialize (Hsame Hp). lia.
  - apply pair_equal_spec in E. destruct E as [Eo El]. specialize (Hsame Hp). lia.
  - apply pair_equal_spec in E. destruct E as [Eo El]. specialize (Hsame Hp). lia.
  - contradiction.
  - apply pair_equal_spec in E. destruct E as [Eo El]. destruct Ht as [_ [o' [l' [n [nm [g [Eo' [El' [Hl _]]]]]]]]]. lia.
  - apply pair_equal_spec in E. destruct E as [Eo El]. destruct Ht as [_ [o' [l' [n [nm [g [Eo' [El' [Hl _]]]]]]]]]. lia.
  - apply pair_equal_spec in E. destruct E as [Eo El]. specialize (Hsame Hp). assert (u' <> 0); [|lia]. intros ->.
    pose proof (begin_at_0 _ _ _ Hts Hu) as ->. apply missing_not_first in Ev. lia.
Qed.

Lemma nonempty_app : forall a b, a <> ""%string \/ b <> ""%string -> (a ++ b)%string <> ""%string.
Proof. intros [|c a] b H; [destruct H; [congruence|exact H]|discriminate]. Qed.

Lemma lexes_join : forall a pre b rest, lexes a pre -> lexes b rest -> lexes (a ++ " "%char :: b) (pre ++ rest).
Proof.
  assert (Hsep : forall p s b, ~ head_is p s -> p " "%char = false -> ~ head_is p (s ++ " "%char :: b)).
  { intros p [|x s] b H Hp; cbn in *; [congruence|exact H]. }
  assert (Hexp : forall s b, ~ exponent_follows s -> ~ exponent_follows (s ++ " "%char :: b)).
  { intros [|x [|y [|z s]]] b H H'; cbn in *.
    - destruct b as [|y b]; [exact H'|]. destruct H' as [H' _]. discriminate H'.
    - destruct H' as [_ [H'|[H' _]]]; discriminate H'.
    - apply H. destruct H' as [H1 [H2|[_ H2]]]; [auto|discriminate H2].
    - exact (H H'). }
  intros a pre b rest Ha Hb. induction Ha as [|c s ts Hw H IH|m s ts Hm H IH|m s ts Hm H IH|c s ts Hw Hd Hp Ha' H IH]; cbn [app].
  - now apply L_ws.
  - now apply L_ws.
  - rewrite <- app_assoc. apply L_num; auto. inversion Hm; subst; [apply NT_plain|apply NT_exp|apply NT_signed_exp]; auto.
  - rewrite <- app_assoc. apply L_name; auto. destruct Hm as [H1 [H2 H3]]. repeat split; auto.
  - now apply L_sym.
Qed.

Lemma prefix_bytes : forall u s, list_ascii_of_string (substring 0 u s) = firstn u (list_ascii_of_string s).
Proof. induction u as [|u IH]; intros [|c s]; cbn; auto. now rewrite IH. Qed.

Lemma bytes_app : forall a b, list_ascii_of_string (a ++ b) = (list_ascii_of_string a ++ list_ascii_of_string b)%list.
Proof. induction a as [|c a IH]; intro b; cbn; auto. now rewrite IH. Qed.

Lemma ends_well_same : forall ctx ts m s m' s', same_mode m m' -> Forall2 same_frame s s' ->
  ends_well (scan ctx m s ts) -> ends_well (scan ctx m' s' ts).
Proof.
  intros ctx. induction ts as [|t r IH]; intros m s m' s' Hm Hs H.
  - cbn in *. destruct m, m'; cbn in Hm; try contradiction; try discriminate Hm; auto.
    cbn in *. destruct Hs as [|a b s s' Hab Hs]; auto. destruct a, b; cbn in Hab; try contradiction; exact H.
  - cbn [scan] in *. pose proof (token_same ctx m m' s s' t r r Hm Hs) as Ht.
    destruct (read_token ctx m s t (t :: r)) as [[m1 s1]|v].
    + cbn in Ht. destruct Ht as [m2 [s2 [-> [Hm2 Hs2]]]]. eauto.
    + cbn in Ht. destruct v as [|k f u]; [contradiction|]. destruct Ht as [-> [f' ->]].
      destruct H as [H|[n [m0 [f0 [u0 H]]]]]; [discriminate H|]. injection H as -> _ _. right. eauto.
Qed.

(** ** C53: everything before the reported place was fine

    The text up to where reading stopped can be continued to a text that parses;
    the only obstacle to that is a call that has too many arguments already. *)
Theorem C53_prefix_completable : forall cfg w ctx input e, optimize cfg = false -> get_expected_vars ctx = None -> input <> ""%string ->
  parse cfg w ctx input = Parse_err e ->
  exists suffix,
    match parse cfg w ctx (substring 0 (N.to_nat (stopped_at e)) input ++ " " ++ suffix) with
    | Parse_ok _ => True
    | Parse_err e' => exists expected got, pe_kind e' = TooManyArguments expected got
    | _ => False
    end.
Proof.
  intros cfg w ctx input e Ho Hg Hne He. destruct (C06_tokens_unique input) as [ts [Hts _]].
  assert (Hk : forall v l, pe_kind e <> VariableNotDeclared v l).
  { intros v l Hk. pose proof (C52_verdict cfg w ctx input ts Ho Hne Hts) as H. destruct (verdict_of ctx ts) as [|k f u] eqn:Ev.
    - destruct H as [[x Hx]|[H _]]; congruence.
    - destruct H as [e' [He' [Hk' _]]]. assert (e' = e) as -> by congruence. rewrite Hk' in Hk. subst k. apply verdict_places in Ev. exact Ev. }
  destruct (where_stopped cfg w ctx input ts e Ho Hne Hts He Hk) as [f [u [Ev Hu]]].
  apply scan_divides in Ev. destruct Ev as [pre [m1 [s1 [-> [Hrun _]]]]].
  destruct (same_refl (Need true) []) as [Hm Hs].
  destruct (Hrun _ _ [] Hm Hs) as [m2 [s2 [_ [_ _]]]]. clear m2 s2.
  pose proof (text_before _ _ _ _ Hts Hu) as Hpre.
  (* all states alike are completed alike: choose by the state itself *)
  destruct (complete ctx m1 s1) as [suf [Hf [_ Hw]]].
  assert (Hw' : ends_well (verdict_of ctx (pre ++ suf))).
  { destruct (Hrun _ _ suf Hm Hs) as [m2 [s2 [Hm2 [Hs2 E]]]]. unfold verdict_of. rewrite E. clear E.
    eapply ends_well_same; eauto. }
  exists (string_of_list_ascii (spell suf)).
  set (text := (substring 0 (N.to_nat (stopped_at e)) input ++ " " ++ string_of_list_ascii (spell suf))%string).
  assert (Htext : tokens_of text (pre ++ suf)).
  { unfold tokens_of, text. rewrite !bytes_app, prefix_bytes. cbn [list_ascii_of_string app].
    rewrite list_ascii_of_string_of_list_ascii. apply lexes_join; [exact Hpre|]. now apply spell_lexes. }
  assert (Hnt : text <> ""%string) by (apply nonempty_app; right; discriminate).
  pose proof (C52_verdict cfg w ctx text _ Ho Hnt Htext) as H.
  destruct Hw' as [E|[n [m [f' [u' E]]]]]; rewrite E in H.
  - destruct H as [[x ->]|[H _]]; [exact I|congruence].
  - destruct H as [e' [-> [Hk' _]]]. eauto.
Qed.

(** ** C54: nothing after the reported place could have helped

    Reading stops at a token (or the end).  Any other text with the same tokens up
    to and including that token is rejected at that token, for the same reason. *)
Theorem C54_no_way_on : forall cfg w ctx input ts e, optimize cfg = false -> input <> ""%string -> tokens_of input ts ->
  parse cfg w ctx input = Parse_err e -> (forall v l, pe_kind e <> VariableNotDeclared v l) ->
  exists pre rest, ts = (pre ++ rest)%list /\ tokens_begin input (N.to_nat (stopped_at e)) rest /\
    forall t rest1 input' rest', rest = t :: rest1 -> tokens_of input' (pre ++ t :: rest')%list ->
      exists e', parse cfg w ctx input' = Parse_err e' /\ pe_kind e' = pe_kind e /\
        tokens_begin input' (N.to_nat (stopped_at e')) (t :: rest').
Proof.
  intros cfg w ctx input ts e Ho Hne Hts He Hk.
  destruct (where_stopped cfg w ctx input ts e Ho Hne Hts He Hk) as [f [u [Ev Hu]]].
  apply scan_divides in Ev. destruct Ev as [pre [m1 [s1 [-> [Hrun [Hlast _]]]]]].
  exists pre, u. split; [reflexivity|]. split; [exact Hu|]. intros t r input' r' -> Hts'.
  destruct Hlast as [f1 Hlast]. destruct (same_refl (Need true) []) as [Hm Hs].
  assert (Hv : exists f', verdict_of ctx (pre ++ t :: r') = Rejects (pe_kind e) f' (t :: r')).
  { destruct (Hrun _ _ (t :: r') Hm Hs) as [m2 [s2 [Hm2 [Hs2 E]]]]. unfold verdict_of. rewrite E. cbn [scan].
    pose proof (token_same ctx m1 m2 s1 s2 t r r' Hm2 Hs2) as Ht. rewrite Hlast in Ht. cbn in Ht.
    destruct Ht as [_ [f' ->]]. eauto. }
  destruct Hv as [f' Hv].
  assert (Hne' : input' <> ""%string).
  { intros ->. assert (E : [] = (pre ++ t :: r')%list) by (eapply lexes_unique; [apply L_end|exact Hts']). destruct pre; discriminate E. }
  pose proof (C52_verdict cfg w ctx input' _ Ho Hne' Hts') as H. rewrite Hv in H. destruct H as [e' [He' Hm']].
  exists e'. split; [exact He'|]. pose proof Hm' as [Hk' _]. split; [exact Hk'|].
  destruct (where_stopped cfg w ctx input' _ e' Ho Hne' Hts' He') as [f2 [u2 [Ev2 Hu2]]].
  { intros v l. rewrite Hk'. apply Hk. }
  rewrite Hv in Ev2. injection Ev2 as _ <- <-. exact Hu2.
Qed.

(** A misfit in the arguments of an inner call is blamed on the outer one. *)
Example C52_witness : exists ts, tokens_of "max(sin(1 2), 3)" ts /\
  (exists from upto, verdict_of ctx_default ts = Rejects MissingArgument from upto /\
     tokens_begin "max(sin(1 2), 3)" 10 upto) /\
  error_of (parse plain_config w0 ctx_default "max(sin(1 2), 3)") = Some (MissingArgument, 9%N, 2%N) /\
  error_of (parse plain_config w0 ctx_default "sin(1 2)") = Some (UnexpectedToken "2", 6%N, 0%N) /\
  error_of (parse plain_config w0 ctx_default "(1 5)") = Some (ExpectedToken ")", 3%N, 0%N).
Proof.
  exists [TId "max"; TSym "("; TId "sin"; TSym "("; TNum "1"; TNum "2"; TSym ")"; TSym ","; TNum "3"; TSym ")"].
  split; [apply tokens_check; vm_compute; reflexivity|].
  split; [|split; [vm_compute; reflexivity|split; vm_compute; reflexivity]].
  eexists _, _. split; [vm_compute; reflexivity|]. split; [cbn; lia|].
  split; [|cbn; discriminate]. apply (tokens_check "2), 3)"). vm_compute. reflexivity.
Qed.

(** "1 + max(2, )" can be continued after the comma, "hypot(1, 2, 3)" cannot. *)
Example C53_witness :
  (exists e, parse plain_config w0 ctx_default "1 + max(2, )" = Parse_err e /\ stopped_at e = 11%N) /\
  parses (parse plain_config w0 ctx_default "1 + max(2,  1)") = true /\
  (exists e, parse plain_config w0 ctx_default "hypot(1, 2, 3" = Parse_err e /\ stopped_at e = 13%N).
Proof.
  split; [|split; [vm_compute; reflexivity|]]; (eexists; split; vm_compute; reflexivity).
Qed.

Example C54_witness : exists e e',
  parse plain_config w0 ctx_default "2 * ) + 1" = Parse_err e /\ pe_kind e = UnexpectedToken ")" /\ stopped_at e = 4%N /\
  parse plain_config w0 ctx_default "2*) sin(" = Parse_err e' /\ pe_kind e' = UnexpectedToken ")" /\ stopped_at e' = 2%N.
Proof. eexists _, _. split; [vm_compute; reflexivity|]. split; [reflexivity|]. split; [reflexivity|]. split; [vm_compute; reflexivity|]. split; reflexivity. Qed.
