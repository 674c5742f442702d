(** * The default configuration: with compile-time optimisation
    (C04, C05, C10, C11, C52-C54)

    The parser simplifies every operand as soon as it has read it.  Where no
    number directly follows ")", that does not
    influence what it reads. *)
From Coq Require Import ZArith NArith List String Ascii Bool Lia.
From Flocq Require Import BinarySingleNaN.
From Verif Require Import SpecChars CharFacts.
From Verif Require Import F64 Syntax Factorial Builtins Context Element Parser Xprs Display.
From Verif Require Import ParserFacts SpecParse ParserInv SpecTree TreeFacts SimplifyFacts SpecApi ParserResults.
From Verif Require Import SpecTokens SpecGrammar SpecRegular SpecScan SpecNames SpecDisplay SpecRewrite TokenFacts LexFacts LexExec TokenParser TokenSim TokenMono.
From Verif Require Import GrammarFacts GrammarEquiv JuxtaFacts FloatFacts OptFacts FlatFacts RegularFacts ScanFacts ScanPrefix.
From Verif Require Import TestWorld PropertiesParse PropertiesGrammar PropertiesEval PropertiesEq PropertiesSimplify PropertiesOptimise PropertiesScan PropertiesDisplay PropertiesNormal.
Import ListNotations.
Local Open Scope string_scope.

(** ** "!!" in terms of tokens *)
Lemma bang_not_word : forall c, in_mantissa c = true \/ exponent_mark c = true \/ a_sign c = true \/ a_digit c = true \/ in_name c = true -> c <> "!"%char.
Proof.
  assert (B : forall c, (negb (in_mantissa c || exponent_mark c || a_sign c || a_digit c || in_name c) || negb (Ascii.eqb c "!")) = true).
  { apply byte_cases. vm_compute. reflexivity. }
  intros c H ->. specialize (B "!"%char). vm_compute in H. intuition discriminate.
Qed.

Lemma number_no_bang : forall m s, number_token m s -> ~ In "!"%char m.
Proof.
  assert (F : forall (p : ascii -> bool) m, (forall c, p c = true -> c <> "!"%char) -> Forall (fun c => p c = true) m -> ~ In "!"%char m).
  { intros p m H Hm Hi. rewrite Forall_forall in Hm. exact (H _ (Hm _ Hi) eq_refl). }
  intros m s H. destruct H as [m s Hh Fm N X|m e ds s Hh Fm He Hn Fd Nd|m e sg ds s Hh Fm He Hs Hn Fd Nd].
  - eapply F; [|exact Fm]. intros c Hc. apply bang_not_word. auto.
  - intro Hi. apply in_app_or in Hi. destruct Hi as [Hi|[Hi|Hi]].
    + revert Hi. eapply F; [|exact Fm]. intros c Hc. apply bang_not_word. auto.
    + subst e. discriminate He.
    + revert Hi. eapply F; [|exact Fd]. intros c Hc. apply bang_not_word. auto.
  - intro Hi. apply in_app_or in Hi. destruct Hi as [Hi|[Hi|[Hi|Hi]]].
    + revert Hi. eapply F; [|exact Fm]. intros c Hc. apply bang_not_word. auto.
    + subst e. discriminate He.
    + subst sg. discriminate Hs.
    + revert Hi. eapply F; [|exact Fd]. intros c Hc. apply bang_not_word. auto.
Qed.

Lemma name_no_bang : forall m s, name_token m s -> ~ In "!"%char m.
Proof.
  intros m s [_ [F _]] Hi. rewrite Forall_forall in F. apply (bang_not_word "!"%char); [|reflexivity]. auto 6.
Qed.

Lemma split_past : forall (m : list ascii) a s r, ~ In "!"%char m -> (m ++ s)%list = (a ++ "!"%char :: r)%list ->
  exists a', s = (a' ++ "!"%char :: r)%list.
Proof.
  induction m as [|c m IH]; intros a s r Hi E; [exists a; exact E|].
  destruct a as [|x a]; cbn in E; injection E as -> E.
  - elim Hi. now left.
  - apply (IH a); [|exact E]. intro K. apply Hi. now right.
Qed.

Lemma lexes_bang : forall s ts, lexes s ts -> forall a r, s = (a ++ "!"%char :: r)%list ->
  exists u v, ts = (u ++ TSym "!" :: v)%list /\ lexes r v.
Proof.
  induction 1 as [|c s ts Hw H IH|m s ts Hm H IH|m s ts Hm H IH|c s ts Hw Hd Hp Ha H IH]; intros a r E.
  - destruct a; discriminate E.
  - destruct a as [|x a]; cbn in E; injection E as -> E; [discriminate Hw|]. eauto.
  - destruct (split_past m a s r (number_no_bang _ _ Hm) E) as [a' E'].
    destruct (IH _ _ E') as [u [v [-> Hv]]]. exists (TNum (string_of_list_ascii m) :: u), v. auto.
  - destruct (split_past m a s r (name_no_bang _ _ Hm) E) as [a' E'].
    destruct (IH _ _ E') as [u [v [-> Hv]]]. exists (TId (string_of_list_ascii m) :: u), v. auto.
  - destruct a as [|x a]; cbn in E; injection E as -> E.
    + subst s. exists [], ts. auto.
    + destruct (IH _ _ E) as [u [v [-> Hv]]]. exists (TSym x :: u), v. auto.
Qed.

Lemma lexes_blanks : forall b s ts, Forall (fun x => a_blank x = true) b -> lexes (b ++ s) ts -> lexes s ts.
Proof.
  induction b as [|c b IH]; intros s ts F H; [exact H|]. inversion F as [|? ? Hc Fb]; subst.
  apply IH; [assumption|]. destruct (lexes_total (b ++ s)%list) as [ts' H'].
  rewrite (lexes_unique _ _ _ H (L_ws _ _ _ Hc H')). exact H'.
Qed.

Lemma double_bang_tokens : forall input ts, tokens_of input ts -> has_double_bang input ->
  adjacent (fun a b => a = TSym "!" /\ b = TSym "!") ts.
Proof.
  intros input ts Hts [a [b [c [E F]]]]. destruct (lexes_bang _ _ Hts _ _ E) as [u [v [-> Hv]]].
  apply lexes_blanks in Hv; [|exact F].
  destruct (lexes_total c) as [v' Hv']. 
  assert (E' : v = TSym "!" :: v') by (eapply lexes_unique; [exact Hv|]; apply L_sym; auto).
  subst v. exists u, (TSym "!"), (TSym "!"), v'. auto.
Qed.

Lemma clear_parts : forall ctx input ts, tokens_of input ts -> clear_tokens ctx ts ->
  ~ has_double_bang input /\ no_number_after_parenthesis ts.
Proof.
  intros ctx input ts Hts [H1 H2]. split; [intro K; apply H1; eapply double_bang_tokens; eauto|].
  intros [u [a [b [v [E [Ea Eb]]]]]]. apply H2. exists u, a, b, v. subst a. auto.
Qed.

(** the same build without the optimisation *)
Definition plain (cfg : config) : config :=
  {| pejmdas := pejmdas cfg; optimize := false; nightly := nightly cfg; overflow_checks := overflow_checks cfg |}.

(** ** C04, C05 *)

(** Every sentence is accepted; the result is its tree with parts simplified,
    and has its value wherever simplifying preserves values (see C19). *)
Theorem C05_default_sentences_are_accepted : forall cfg w ctx input ts t,
  optimize cfg = true -> fair_order w -> context_functions_return w ctx ->
  tokens_of input ts -> clear_tokens ctx ts -> sentence (pejmdas cfg) ctx ts t -> declared ctx t ->
  exists y, parse cfg w ctx input = Parse_ok y /\ simplified_from cfg w t (root y) /\
    forall rho v, regular w (lookup rho) t v -> exists v', eval w y rho = Val (Eval_ok v') /\ same_value v v'.
Proof.
  intros cfg w ctx input ts t Ho Hf Hc Hts Hcl Hs Hd. destruct (clear_parts ctx input ts Hts Hcl) as [Hb Hn].
  destruct (C05_sentences_are_accepted (plain cfg) w ctx input ts t eq_refl Hf Hts Hs Hd) as [x [Hx <-]].
  destruct (C18_plain_accepted cfg (plain cfg) w ctx input ts x Ho eq_refl eq_refl Hf Hc Hb Hts Hn Hx) as [y [Hy S]].
  exists y. split; [exact Hy|]. split; [exact S|]. intros rho v Hr.
  destruct (C19_optimised_value cfg (plain cfg) w ctx input ts x y rho v Ho eq_refl eq_refl Hts Hn Hx Hy Hr) as [_ K]. exact K.
Qed.

(** What is accepted is a sentence, and the result is its tree with parts
    simplified. *)
Theorem C04_default_accepted_texts_are_sentences : forall cfg w ctx input ts y,
  optimize cfg = true -> tokens_of input ts -> clear_tokens ctx ts ->
  parse cfg w ctx input = Parse_ok y ->
  exists t, sentence (pejmdas cfg) ctx ts t /\ simplified_from cfg w t (root y).
Proof.
  intros cfg w ctx input ts y Ho Hts Hcl Hy. destruct (clear_parts ctx input ts Hts Hcl) as [Hb Hn].
  assert (Hne : input <> "").
  { intros ->. rewrite parse_empty in Hy. destruct (overflow_checks cfg); discriminate Hy. }
  pose proof (opt_outcomes cfg (plain cfg) w ctx input ts Ho eq_refl eq_refl Hne Hts Hn) as T.
  pose proof (parse_outcome cfg w ctx input ts Hne Hts) as E. rewrite Hy in E. cbn [outcome_of] in E. symmetry in E.
  apply token_gives in E. destruct E as [rest [E _]]. pose proof (ok_rest_nil _ _ _ _ _ _ _ E) as ->.
  rewrite E in T. cbn [tracks] in T. destruct T as [t [T S]]. exists t. split; [|exact S].
  apply (parse_by_derivation (plain cfg) w ctx input ts t eq_refl Hne Hts) in T.
  apply sentence_derives. destruct T as [q [n T]]. exists q, n. now apply chain_clear.
Qed.

(** ** C52-C54 *)
Theorem C52_default_verdict : forall cfg w ctx input ts, optimize cfg = true -> input <> "" ->
  context_functions_return w ctx -> ~ has_double_bang input ->
  tokens_of input ts -> no_number_after_parenthesis ts ->
  match verdict_of ctx ts with
  | Accepts => (exists x, parse cfg w ctx input = Parse_ok x) \/
      (get_expected_vars ctx <> None /\ exists e v l, parse cfg w ctx input = Parse_err e /\ pe_kind e = VariableNotDeclared v l)
  | Rejects k from upto => exists e, parse cfg w ctx input = Parse_err e /\ error_matches input e k from upto
  end.
Proof.
  intros cfg w ctx input ts Ho Hne Hc Hd Hts Hn.
  pose proof (opt_outcomes cfg (plain cfg) w ctx input ts Ho eq_refl eq_refl Hne Hts Hn) as T.
  pose proof (scan_parse (plain cfg) w ctx eq_refl (parse_budget input) ts) as Hv.
  pose proof (parse_not_fuel (plain cfg) w ctx input ts Hne Hts) as Hf.
  pose proof (parse_outcome cfg w ctx input ts Hne Hts) as E.
  destruct (t_parse cfg w ctx (parse_budget input) ts) as [t' rest|k f u|p|] eqn:Et; cbn [tracks] in T.
  - destruct T as [t [T S]]. rewrite T in Hv. rewrite Hv. cbn in E.
    destruct (get_expected_vars ctx) as [s|]; [|apply outcome_gives in E; eauto].
    destruct (set_diff _ _) as [|x l]; [apply outcome_gives in E; eauto|]. right. split; [discriminate|].
    destruct (parse cfg w ctx input); try discriminate E. cbn in E. injection E as E. eauto 6.
  - rewrite T in Hv. rewrite Hv. eapply token_error; eauto.
  - exfalso. cbn in E. destruct (parse cfg w ctx input) eqn:P; try discriminate E.
    destruct (C02_optimised_parse_panics cfg w ctx input _ Hc Hd P) as [_ [X _]]. auto.
  - contradiction.
Qed.

(** Errors other than undeclared variables are those of the plain parser. *)
Lemma default_error : forall cfg w ctx input ts e, optimize cfg = true -> input <> "" ->
  context_functions_return w ctx -> ~ has_double_bang input ->
  tokens_of input ts -> no_number_after_parenthesis ts -> (forall v l, pe_kind e <> VariableNotDeclared v l) ->
  (parse cfg w ctx input = Parse_err e <-> parse (plain cfg) w ctx input = Parse_err e).
Proof.
  intros cfg w ctx input ts e Ho Hne Hc Hd Hts Hn Hk.
  pose proof (C52_default_verdict cfg w ctx input ts Ho Hne Hc Hd Hts Hn) as V.
  pose proof (C52_verdict (plain cfg) w ctx input ts eq_refl Hne Hts) as V'.
  destruct (verdict_of ctx ts) as [|k f u].
  - split; intro H.
    + exfalso. destruct V as [[x V]|[_ [e' [v [l [V K]]]]]]; [congruence|]. rewrite H in V. injection V as <-. eapply Hk; eauto.
    + exfalso. destruct V' as [[x V']|[_ [e' [v [l [V' K]]]]]]; [congruence|]. rewrite H in V'. injection V' as <-. eapply Hk; eauto.
  - destruct V as [e1 [V M]], V' as [e2 [V' M']]. rewrite (matching_errors _ _ _ _ _ _ M M') in V.
    rewrite V, V'. reflexivity.
Qed.

Lemma adjacent_left : forall P u v, adjacent P u -> adjacent P (u ++ v).
Proof. intros P u v [x [a [b [y [-> H]]]]]. exists x, a, b, (y ++ v)%list. split; auto. now rewrite <- app_assoc. Qed.

Lemma clear_prefix : forall ctx u v, clear_tokens ctx (u ++ v) -> clear_tokens ctx u.
Proof. intros ctx u v [H1 H2]. split; intro H; [apply H1|apply H2]; now apply adjacent_left. Qed.

Lemma need_after : forall ctx m s t r first s', read_token ctx m s t r = inl (Need first, s') -> ends_number ctx t = false.
Proof.
  assert (O : forall ctx first0 s t r first s', read_operand ctx first0 s t r = inl (Need first, s') -> ends_number ctx t = false).
  { intros ctx first0 s t r first s' H. destruct t as [x|x|c]; cbn in H.
    - destruct (literal_value x); discriminate H.
    - cbn. destruct (stands_for ctx x); try discriminate H.
    - cbn. destruct (Ascii.eqb_spec c ")") as [->|]; auto. discriminate H. }
  assert (Cl : forall ctx bare s t r first s', read_close bare s t r = inl (Need first, s') -> ends_number ctx t = false).
  { intros ctx bare s t r first s' H. destruct s as [|[f0|f n from] s]; cbn in H; [discriminate H| |].
    - destruct t as [x|x|c]; try discriminate H. destruct c as [[] [] [] [] [] [] [] []]; discriminate H.
    - destruct t as [x|x|c]; try discriminate H. cbn. destruct (Ascii.eqb_spec c ")") as [->|]; auto.
      repeat match type of H with context [match ?x with _ => _ end] => destruct x end; discriminate H. }
  intros ctx m s t r first s' H. destruct m as [f0|f from|bare pf]; cbn [read_token] in H.
  - eapply O; eauto.
  - destruct t as [x|x|c]; try discriminate H. cbn. destruct (Ascii.eqb_spec c ")") as [->|]; auto. discriminate H.
  - destruct t as [x|x|c]; [destruct (multiplies bare _); [eapply O|eapply Cl]; eauto..|].
    destruct (Ascii.eqb_spec c ")") as [->|N]; [|cbn; destruct (Ascii.eqb_spec c ")"); congruence].
    cbn [Ascii.eqb Bool.eqb andb is_operator existsb orb multiplies] in H. eapply Cl; eauto.
Qed.

Lemma tidy_clear : forall ctx suf b pre, tidy b suf -> Forall filler suf -> clear_tokens ctx pre ->
  (b = true -> pre = [] \/ exists u t, pre = (u ++ [t])%list /\ ends_number ctx t = false) ->
  clear_tokens ctx (pre ++ suf).
Proof.
  assert (Snoc : forall P pre t, adjacent P (pre ++ [t]) -> adjacent P pre \/ exists u a, pre = (u ++ [a])%list /\ P a t).
  { intros P pre t [u [a [b [v [E H]]]]]. destruct (exists_last (l := b :: v)) as [v' [z Ez]]; [discriminate|].
    rewrite Ez in E. change (u ++ a :: v' ++ [z])%list with (u ++ (a :: v') ++ [z])%list in E. rewrite app_assoc in E.
    apply app_inj_tail in E. destruct E as [-> ->].
    destruct v' as [|b' v']; cbn in Ez.
    - injection Ez as -> ->. right. exists u, a. auto.
    - injection Ez as -> ->. left. exists u, a, b', v'. auto. }
  intros ctx. induction suf as [|t suf IH]; intros b pre Ht Hf Hp Hb; [now rewrite app_nil_r|].
  inversion Hf as [|? ? Ft Fs]; subst.
  replace (pre ++ t :: suf)%list with ((pre ++ [t]) ++ suf)%list by now rewrite <- app_assoc.
  assert (Hc : clear_tokens ctx (pre ++ [t])).
  { destruct Hp as [P1 P2]. split; intro A; apply Snoc in A; destruct A as [A|[u [a [-> [A1 A2]]]]]; auto.
    - subst a t. inversion Ft.
    - destruct A2 as [s ->]. cbn in Ht. destruct Ht as [-> _]. destruct (Hb eq_refl) as [E|[u' [a' [E Ha]]]]; [destruct u; discriminate E|].
      apply app_inj_tail in E. destruct E as [_ ->]. congruence. }
  destruct t as [x|x|c]; cbn [tidy] in Ht.
  - eapply IH; [apply Ht|auto..]. discriminate.
  - contradiction.
  - eapply IH; [exact Ht|auto..]. intro E. right. exists pre, (TSym c). split; auto. cbn. destruct (Ascii.eqb c ")"); auto.
Qed.

(** As C53, with the optimisation. *)
Theorem C53_default_prefix_completable : forall cfg w ctx input ts e, optimize cfg = true -> get_expected_vars ctx = None ->
  context_functions_return w ctx -> input <> "" -> tokens_of input ts -> clear_tokens ctx ts ->
  parse cfg w ctx input = Parse_err e ->
  exists suffix,
    match parse cfg w ctx (substring 0 (N.to_nat (stopped_at e)) input ++ " " ++ suffix) with
    | Parse_ok _ => True
    | Parse_err e' => exists expected got, pe_kind e' = TooManyArguments expected got
    | _ => False
    end.
Proof.
  intros cfg w ctx input ts e Ho Hg Hc Hne Hts Hcl He. destruct (clear_parts ctx input ts Hts Hcl) as [Hb Hn].
  assert (Hk : forall v l, pe_kind e <> VariableNotDeclared v l).
  { intros v l Hk. pose proof (C52_default_verdict cfg w ctx input ts Ho Hne Hc Hb Hts Hn) as H. destruct (verdict_of ctx ts) as [|k f u] eqn:Ev.
    - destruct H as [[x Hx]|[H _]]; congruence.
    - destruct H as [e' [He' [Hk' _]]]. assert (e' = e) as -> by congruence. rewrite Hk' in Hk. subst k. apply verdict_places in Ev. exact Ev. }
  apply (default_error cfg w ctx input ts e Ho Hne Hc Hb Hts Hn Hk) in He.
  destruct (where_stopped (plain cfg) w ctx input ts e eq_refl Hne Hts He Hk) as [f [u [Ev Hu]]].
  apply scan_divides in Ev. destruct Ev as [pre [m1 [s1 [-> [Hrun [_ Hlast]]]]]].
  destruct (same_refl (Need true) []) as [Hm Hs].
  pose proof (text_before _ _ _ _ Hts Hu) as Hpre.
  destruct (complete ctx m1 s1) as [suf [Hf [Ht Hw]]].
  assert (Hw' : ends_well (verdict_of ctx (pre ++ suf))).
  { destruct (Hrun _ _ suf Hm Hs) as [m2 [s2 [Hm2 [Hs2 E]]]]. unfold verdict_of. rewrite E. clear E.
    eapply ends_well_same; eauto. }
  assert (Hclear : clear_tokens ctx (pre ++ suf)).
  { eapply tidy_clear; [exact Ht|exact Hf|eapply clear_prefix; eauto|]. destruct m1 as [first| |]; try discriminate. intros _.
    destruct Hlast as [[-> _]|[pre' [t [m0 [s0 [r0 [-> E]]]]]]]; [auto|]. right. exists pre', t. split; auto. eapply need_after; eauto. }
  exists (string_of_list_ascii (spell suf)).
  set (text := (substring 0 (N.to_nat (stopped_at e)) input ++ " " ++ string_of_list_ascii (spell suf))%string).
  assert (Htext : tokens_of text (pre ++ suf)).
  { unfold tokens_of, text. rewrite !bytes_app, prefix_bytes. cbn [list_ascii_of_string app].
    rewrite list_ascii_of_string_of_list_ascii. apply lexes_join; [exact Hpre|]. now apply spell_lexes. }
  assert (Hnt : text <> "") by (apply nonempty_app; right; discriminate).
  destruct (clear_parts ctx text _ Htext Hclear) as [Hb' Hn'].
  pose proof (C52_default_verdict cfg w ctx text _ Ho Hnt Hc Hb' Htext Hn') as H.
  destruct Hw' as [E|[n [m [f' [u' E]]]]]; rewrite E in H.
  - destruct H as [[x ->]|[H _]]; [exact I|congruence].
  - destruct H as [e' [-> [Hk' _]]]. eauto.
Qed.

(** As C54, with the optimisation. *)
Theorem C54_default_no_way_on : forall cfg w ctx input ts e, optimize cfg = true -> context_functions_return w ctx ->
  input <> "" -> tokens_of input ts -> clear_tokens ctx ts ->
  parse cfg w ctx input = Parse_err e -> (forall v l, pe_kind e <> VariableNotDeclared v l) ->
  exists pre rest, ts = (pre ++ rest)%list /\ tokens_begin input (N.to_nat (stopped_at e)) rest /\
    forall t rest1 input' rest', rest = t :: rest1 -> tokens_of input' (pre ++ t :: rest')%list ->
      clear_tokens ctx (pre ++ t :: rest') ->
      exists e', parse cfg w ctx input' = Parse_err e' /\ pe_kind e' = pe_kind e /\
        tokens_begin input' (N.to_nat (stopped_at e')) (t :: rest').
Proof.
  intros cfg w ctx input ts e Ho Hc Hne Hts Hcl He Hk. destruct (clear_parts ctx input ts Hts Hcl) as [Hb Hn].
  apply (default_error cfg w ctx input ts e Ho Hne Hc Hb Hts Hn Hk) in He.
  destruct (C54_no_way_on (plain cfg) w ctx input ts e eq_refl Hne Hts He Hk) as [pre [rest [E [Hu H]]]].
  exists pre, rest. split; [exact E|]. split; [exact Hu|]. intros t rest1 input' rest' Er Hts' Hcl'.
  destruct (H t rest1 input' rest' Er Hts') as [e' [He' [Hk' Hu']]]. exists e'. split; [|auto].
  destruct (clear_parts ctx input' _ Hts' Hcl') as [Hb' Hn'].
  apply (default_error cfg w ctx input' _ e' Ho) with (2 := Hc) (3 := Hb') (4 := Hts') (5 := Hn'); auto.
  - intros ->. assert (X : [] = (pre ++ t :: rest')%list) by (eapply lexes_unique; [apply L_end|exact Hts']). destruct pre; discriminate X.
  - intros v l. rewrite Hk'. apply Hk.
Qed.

(** ** C10 *)
(** a closing parenthesis after the tokens changes nothing *)
Section Close.
  Variable cfg : config.
  Variable w : world.
  Variable ctx : context.
  Let more (ts : list token) : list token := (ts ++ [TSym ")"])%list.
  Definition extends {A} (r r' : tres A) : Prop := forall a rest, r = TOk a rest -> r' = TOk a (rest ++ [TSym ")"])%list.

  Lemma extends_bind : forall A B (r r' : tres A) (f f' : A -> list token -> tres B),
    extends r r' -> (forall a rest, extends (f a rest) (f' a (more rest))) -> extends (tbind r f) (tbind r' f').
  Proof.
    intros A B r r' f f' H Hf b rest E. destruct r as [a ts|k u v|p|]; try discriminate E. cbn in E.
    rewrite (H a ts eq_refl). cbn. now apply Hf.
  Qed.
  Lemma extends_ok : forall A (a : A) ts, extends (TOk a ts) (TOk a (more ts)).
  Proof. intros A a ts b rest E. injection E as <- <-. reflexivity. Qed.

  Lemma goi_more : forall el p ts, t_goi cfg el p (more ts) = (let '(o, r) := t_goi cfg el p ts in (o, more r)).
  Proof.
    intros el p [|t r]; cbn.
    - destruct (_ <=? p)%nat; reflexivity.
    - unfold more. cbn. destruct (match t with TSym c => operator_of_byte c | _ => None end) as [op|].
      + destruct (_ <=? p)%nat; reflexivity.
      + destruct (_ <=? p)%nat; [reflexivity|]. destruct (juxtaposable _ _); reflexivity.
  Qed.

  Lemma consume_more : forall c ts, c <> ")"%char -> t_consume c (more ts) = (let '(b, r) := t_consume c ts in (b, more r)).
  Proof.
    intros c [|t r] Hc; cbn.
    - destruct c as [[] [] [] [] [] [] [] []]; try reflexivity. congruence.
    - destruct t as [s|s|d]; try reflexivity. destruct (Ascii.eqb d c); reflexivity.
  Qed.

  Lemma assert_more : forall c ts, extends (t_assert c ts) (t_assert c (more ts)).
  Proof.
    intros c ts. destruct ts as [|[s|s|d] ts]; unfold t_assert, more; cbn; try discriminate.
    destruct (Ascii.eqb d c); [|discriminate]. apply extends_ok.
  Qed.

  Section Open.
    Variable elem : nat -> list token -> tres element.
    Hypothesis He : forall p ts, extends (elem p ts) (elem p (more ts)).

    Lemma loop_more : forall b p el ts, extends (t_loop cfg elem b p el ts) (t_loop cfg elem b p el (more ts)).
    Proof.
      induction b as [|b IH]; intros p el ts; cbn [t_loop]; [discriminate|]. rewrite goi_more.
      destruct (t_goi cfg el p ts) as [[[op k]|] ts']; [|apply extends_ok].
      apply extends_bind; auto.
    Qed.

    Lemma arguments_more : forall b args ts, extends (t_arguments elem b args ts) (t_arguments elem b args (more ts)).
    Proof.
      induction b as [|b IH]; intros args ts; cbn [t_arguments]; [discriminate|].
      apply extends_bind.
      - unfold t_argument. intros a rest E. destruct (elem NO_PRECEDENCE ts) as [e r|k u v|p|] eqn:Ee; try (destruct k); try discriminate E.
        rewrite (He _ _ _ _ Ee). injection E as -> ->. reflexivity.
      - intros a [|t r]; [discriminate|]. unfold more. cbn [app]. destruct t as [s|s|c]; try discriminate.
        destruct (Ascii.eqb c ","); [apply IH|]. destruct (Ascii.eqb c ")"); [|discriminate]. apply (extends_ok _ _ (TSym c :: r)).
    Qed.

    Lemma atom_more : forall b ts, extends (t_atom ctx elem b ts) (t_atom ctx elem b (more ts)).
    Proof.
      intros b [|t r]; [discriminate|]. change (more (t :: r)) with (t :: more r). destruct t as [s|s|c]; cbn [t_atom].
      - unfold t_number. destruct (parse_f64 _); [apply extends_ok|discriminate].
      - unfold t_identifier. destruct (resolve ctx s); try apply extends_ok.
        rewrite consume_more by discriminate. destruct (t_consume "(" r) as [[] r']; [|discriminate].
        apply extends_bind; [apply arguments_more|]. intros args r2.
        apply extends_bind; [apply assert_more|]. intros _ r3. unfold t_arity.
        destruct (fn_nb_args f) as [n|]; [destruct (Nat.compare _ _)|]; try discriminate; apply extends_ok.
      - destruct (Ascii.eqb c "+"); [apply extends_bind; auto; intros; apply extends_ok|].
        destruct (Ascii.eqb c "-"); [apply extends_bind; auto; intros; apply extends_ok|].
        destruct (Ascii.eqb c "("); [apply extends_bind; auto; intros; apply extends_bind; [apply assert_more|]; intros; apply extends_ok|].
        destruct (Ascii.eqb c ")"); discriminate.
    Qed.
  End Open.

  Lemma element_more : forall b p ts, extends (t_element cfg w ctx b p ts) (t_element cfg w ctx b p (more ts)).
  Proof.
    induction b as [|b IH]; intros p ts; cbn [t_element]; [discriminate|].
    apply extends_bind; [now apply atom_more|]. intros el r. rewrite consume_more by discriminate.
    destruct (t_consume "!" r) as [bang r2]. apply extends_bind; [now apply loop_more|].
    intros e r3. unfold t_lift. destruct (finish_element cfg w e); [apply extends_ok|discriminate].
  Qed.

  Lemma parse_parens : forall b ts e e', t_parse cfg w ctx b ts = TOk e [] -> finish_element cfg w e = Val e' ->
    t_parse cfg w ctx (S b) (TSym "(" :: ts ++ [TSym ")"])%list = TOk e' [].
  Proof.
    intros b ts e e' H Hs. unfold t_parse in H.
    destruct (t_element cfg w ctx b NO_PRECEDENCE ts) as [e0 r|k u v|p|] eqn:E; try discriminate H. cbn in H.
    destruct r as [|t r]; [|discriminate H]. injection H as ->.
    destruct b as [|b]; [discriminate E|]. pose proof (element_more _ _ _ _ _ E) as E'. unfold more in E'. cbn [app] in E'.
    unfold t_parse. change (t_element cfg w ctx (S (S b)) NO_PRECEDENCE) with
      (fun ts => tbind (t_atom ctx (t_element cfg w ctx (S b)) (S b) ts) (fun el r =>
          let '(bang, r2) := t_consume "!" r in
          tbind (t_loop cfg (t_element cfg w ctx (S b)) (S b) NO_PRECEDENCE (if bang then UnOp Factorial el else el) r2) (fun el r3 =>
            t_lift (finish_element cfg w el) r3))).
    cbn [t_atom Ascii.eqb Bool.eqb]. rewrite E'. cbn [tbind t_assert t_consume Ascii.eqb Bool.eqb t_loop t_goi t_lift].
    rewrite Hs. reflexivity.
  Qed.
End Close.

Lemma simplified_refl : forall cfg w e, simplified_from cfg w e e.
Proof.
  intros cfg w. induction e as [n|op l r IHl IHr|op e IHe|f args Hargs|y] using element_ind'; try (now constructor).
  constructor. induction Hargs; constructor; auto.
Qed.

Lemma paren_simplifies : forall cfg w ctx input x e, optimize cfg = true -> fair_order w ->
  parse cfg w ctx input = Parse_ok x -> simplify cfg w (root x) = Val e ->
  exists y, parse cfg w ctx ("(" ++ input ++ ")") = Parse_ok y /\ root y = e /\ vars y = find_variables e [].
Proof.
  intros cfg w ctx input x e Ho Hf Hx Hs.
  assert (Hne : input <> "").
  { intros ->. rewrite parse_empty in Hx. destruct (overflow_checks cfg); discriminate Hx. }
  assert (Hne' : "(" ++ input ++ ")" <> "") by discriminate.
  destruct (C06_tokens_unique input) as [ts [Hts _]]. pose proof (tokens_parens _ _ Hts) as Hts'.
  pose proof (parse_outcome cfg w ctx input ts Hne Hts) as Hp. rewrite Hx in Hp. cbn in Hp. symmetry in Hp.
  destruct (token_gives _ _ _ _ Hp) as [rest [E Hv]]. pose proof (ok_rest_nil _ _ _ _ _ _ _ E). subst rest. rewrite E in Hp.
  assert (Ef : finish_element cfg w (root x) = Val e) by (unfold finish_element; now rewrite Ho).
  pose proof (parse_parens _ _ _ _ _ _ _ E Ef) as E'.
  rewrite (same_answer cfg w ctx _ (parse_budget ("(" ++ input ++ ")"))) in E';
    [|rewrite E'; discriminate|now apply parse_not_fuel].
  pose proof (parse_outcome cfg w ctx _ _ Hne' Hts') as Hp'. rewrite E' in Hp'.
  assert (Hd : declared ctx e).
  { assert (D : declared ctx (root x)).
    { apply (declared_check w ctx (root x) Hf). rewrite Hp. destruct x. cbn in *. now subst. }
    intros s Hg v Hv'. apply (D s Hg). apply free_iff. eapply simplify_free; eauto. now apply free_iff. }
  apply (declared_check w ctx e Hf) in Hd. rewrite Hd in Hp'. apply outcome_gives in Hp'. eauto.
Qed.

(** Parentheses around an accepted text simplify its expression further, or
    change nothing when there is nothing left to simplify. *)
Theorem C10_default_parentheses : forall cfg w ctx input x n, optimize cfg = true -> fair_order w ->
  context_functions_return w ctx -> ~ has_double_bang input ->
  parse cfg w ctx input = Parse_ok x ->
  exists y, parse cfg w ctx (in_parentheses n input) = Parse_ok y /\
    nodes (root y) <= nodes (root x) /\
    (forall v, occurs v (root y) -> occurs v (root x)) /\
    (forall rho v, regular w (lookup rho) (root x) v ->
       eval w x rho = Val (Eval_ok v) /\ exists v', eval w y rho = Val (Eval_ok v') /\ same_value v v') /\
    ((forall s, sub s (root x) -> ~ redex cfg w s) -> y = x).
Proof.
  intros cfg w ctx input x n Ho Hf Hc Hb Hx.
  assert (Hsafe : safe w (root x)) by (apply (obtained_inv cfg); eapply ob_parse; eauto).
  assert (Hvars : vars x = find_variables (root x) []).
  { assert (Hne : input <> "").
    { intros ->. rewrite parse_empty in Hx. destruct (overflow_checks cfg); discriminate Hx. }
    destruct (C06_tokens_unique input) as [ts [Hts _]].
    pose proof (parse_outcome cfg w ctx input ts Hne Hts) as Hp. rewrite Hx in Hp. cbn in Hp. symmetry in Hp.
    destruct (token_gives _ _ _ _ Hp) as [rest [_ Hv]]. exact Hv. }
  assert (H : exists y, parse cfg w ctx (in_parentheses n input) = Parse_ok y /\ safe w (root y) /\
    simplified_from cfg w (root x) (root y) /\ nodes (root y) <= nodes (root x) /\
    ((forall s, sub s (root x) -> ~ redex cfg w s) -> y = x)).
  { induction n as [|n IH]; cbn [in_parentheses].
    - exists x. split; [exact Hx|]. split; [exact Hsafe|]. split; [apply simplified_refl|]. split; [lia|reflexivity].
    - destruct IH as [y [Hy [Sy [Fy [Ny Ky]]]]]. destruct (simplify_val cfg w (root y) Sy) as [e He].
      destruct (paren_simplifies cfg w ctx _ y e Ho Hf Hy He) as [z [Hz [<- Vz]]].
      exists z. split; [exact Hz|]. split; [eapply simplify_safe; eauto|]. split; [eapply Z_simplify; eauto|].
      split; [rewrite !nodes_size in *; pose proof (simplify_size _ _ _ _ He); lia|].
      intro K. specialize (Ky K). subst y. rewrite (fixed_when_irreducible _ _ _ Hsafe K) in He. injection He as He.
      destruct x, z. cbn in *. subst. reflexivity. }
  destruct H as [y [Hy [_ [S [N K]]]]]. exists y. split; [exact Hy|]. split; [exact N|].
  split; [apply (proj1 (simplified_occurs cfg w) _ _ S)|]. split; [|exact K].
  intros rho v Hr. split; [apply C21_eval_is_meaning, regular_means, Hr|].
  destruct (proj1 (simplified_from_preserves w (lookup rho) cfg) _ _ S v Hr) as [v' [Hv' Hs]].
  exists v'. split; [apply C21_eval_is_meaning, regular_means, Hv'|exact Hs].
Qed.

(** ** C11 *)
(** what the optimising parser returns is a simplification *)
Lemma last_simplified : forall cfg cfg' w ctx b p ts t' rest, optimize cfg = true -> optimize cfg' = false ->
  pejmdas cfg = pejmdas cfg' -> no_number_after_parenthesis ts ->
  t_element cfg w ctx b p ts = TOk t' rest ->
  exists t t1, t_element cfg' w ctx b p ts = TOk t rest /\ simplified_from cfg w t t1 /\ simplify cfg w t1 = Val t'.
Proof.
  intros cfg cfg' w ctx [|b] p ts t' rest Ho Ho' Hp Hc H; [discriminate H|]. cbn [t_element] in *.
  pose proof (opt_atom cfg w ctx _ _ (opt_element cfg cfg' w ctx Ho Ho' Hp b) (read_element cfg w ctx b) b ts Hc) as Ha.
  destruct (t_atom ctx (t_element cfg w ctx b) b ts) as [el' r| | |] eqn:Ea; cbn [tracks] in Ha; try discriminate H.
  destruct Ha as [el [Ea' _]]. rewrite Ea'. cbn [tbind] in *.
  destruct (atoms_agree cfg cfg' w ctx b ts el el' r Hc (opt_element cfg cfg' w ctx Ho Ho' Hp b) Ea Ea') as [Hs [u [a [E1 Hn]]]].
  destruct (t_consume "!" r) as [bang r2] eqn:Ec.
  assert (T : tracks (simplified_from cfg w) (t_loop cfg (t_element cfg w ctx b) b p (if bang then UnOp Factorial el' else el') r2)
     (t_loop cfg' (t_element cfg' w ctx b) b p (if bang then UnOp Factorial el else el) r2)).
  { destruct bang.
    - apply consume_true in Ec. subst r. rewrite E1 in Hc.
      apply (opt_loop cfg cfg' w ctx Hp) with (u := (u ++ [a])%list) (a := TSym "!"); auto; try discriminate.
      + now apply opt_element.
      + intros; eapply read_element; eauto.
      + rewrite <- app_assoc. exact Hc.
      + now constructor.
    - apply consume_false in Ec. subst r2. rewrite E1 in Hc.
      apply (opt_loop cfg cfg' w ctx Hp) with (u := u) (a := a); auto; [now apply opt_element|]. intros; eapply read_element; eauto. }
  destruct (t_loop cfg _ _ _ _ _) as [e r3|k x y|q|]; try discriminate H. cbn [tracks tbind] in *.
  destruct T as [t [-> S]]. cbn [tbind]. unfold finish_element in *. rewrite Ho in H. rewrite Ho'.
  destruct (simplify cfg w e) as [t2|] eqn:Es; [|discriminate H]. cbn in H. injection H as <- <-. cbn. eauto.
Qed.

(** [spelling e t]: [t] is [e] with some numbers written as a minus sign before
    a number *)
Inductive spelling : element -> element -> Prop :=
| SP_number : forall n, spelling (Number n) (Number n)
| SP_signed : forall n, spelling (Number n) (UnOp Minus (Number (fneg n)))
| SP_var : forall x, spelling (Var x) (Var x)
| SP_bin : forall op l r l' r', spelling l l' -> spelling r r' -> spelling (BinOp op l r) (BinOp op l' r')
| SP_un : forall op a a', spelling a a' -> spelling (UnOp op a) (UnOp op a')
| SP_call : forall f args args', Forall2 spelling args args' -> spelling (Call f args) (Call f args').

Lemma spelling_refl : forall e, spelling e e.
Proof.
  induction e as [n|op l r IHl IHr|op e IHe|f args Hargs|y] using element_ind'; constructor; auto. induction Hargs; constructor; auto.
Qed.

Lemma respelled_spelling : forall e, spelling e (respelled e).
Proof.
  induction e as [n|op l r IHl IHr|op e IHe|f args Hargs|y] using element_ind'; cbn [respelled]; try (now constructor).
  - destruct (Bsign n); constructor.
  - constructor. induction Hargs; constructor; auto.
Qed.

Lemma spelling_simplified : forall cfg w e t, spelling e t -> (forall s, sub s e -> simplify cfg w s = Val s) -> simplify cfg w t = Val e.
Proof.
  intros cfg w. induction e as [n|op l r IHl IHr|op e IHe|f args Hargs|y] using element_ind'; intros t Ht Hf; inversion Ht; subst.
  - reflexivity.
  - cbn. now rewrite fneg_fneg.
  - assert (Hl : forall s, sub s l -> simplify cfg w s = Val s) by (intros; apply Hf; now apply sub_binl).
    assert (Hr : forall s, sub s r -> simplify cfg w s = Val s) by (intros; apply Hf; now apply sub_binr).
    pose proof (Hf _ (sub_refl _)) as E. cbn [simplify] in *.
    rewrite (Hl _ (sub_refl _)), (Hr _ (sub_refl _)) in E. cbn [bind_out] in E.
    rewrite (IHl l'), (IHr r') by assumption. exact E.
  - assert (Ha : forall s, sub s e -> simplify cfg w s = Val s) by (intros; apply Hf; now apply sub_un).
    pose proof (Hf _ (sub_refl _)) as E. cbn [simplify] in *.
    rewrite (Ha _ (sub_refl _)) in E. rewrite (IHe a') by assumption. exact E.
  - assert (Ha : forall a, In a args -> forall s, sub s a -> simplify cfg w s = Val s) by (intros; apply Hf; eapply sub_arg; eauto).
    pose proof (Hf _ (sub_refl _)) as E. cbn [simplify] in *.
    assert (E1 : map_out (simplify cfg w) args = Val args).
    { apply map_out_fixed. intros a Hi. apply (Ha a Hi). apply sub_refl. }
    assert (E2 : map_out (simplify cfg w) args' = Val args).
    { clear - Hargs Ha H2. revert args' H2. induction Hargs as [|a args Hi Hargs IH]; intros args' H2; inversion H2 as [|? b ? l' Hab Hl]; subst; [reflexivity|].
      cbn. rewrite (Hi b Hab) by (apply Ha; now left). rewrite (IH (fun c Hc => Ha c (or_intror Hc)) l' Hl). reflexivity. }
    rewrite E1 in E. rewrite E2. exact E.
  - reflexivity.
Qed.

Lemma simplified_number_inv : forall cfg w e t, simplified_from cfg w e t -> forall n, e = Number n -> t = Number n.
Proof.
  intros cfg w e t H. induction H as [| | | | |e e1 e2 H IH Hs]; intros m E; try discriminate E; auto.
  rewrite (IH m E) in Hs. cbn in Hs. congruence.
Qed.

Lemma spelling_kept : forall cfg w,
  (forall t t1, simplified_from cfg w t t1 -> forall e, spelling e t -> (forall s, sub s e -> simplify cfg w s = Val s) -> spelling e t1) /\
  (forall l l1, simplified_all cfg w l l1 -> forall es, Forall2 spelling es l ->
     (forall a s, In a es -> sub s a -> simplify cfg w s = Val s) -> Forall2 spelling es l1).
Proof.
  intros cfg w. apply simplified_mutind.
  - intros n e H _. exact H.
  - intros x e H _. exact H.
  - intros op l r l' r' _ IHl _ IHr e H Hf. inversion H; subst. constructor; [apply IHl|apply IHr]; auto; intros; apply Hf;
      [now apply sub_binl|now apply sub_binr].
  - intros op a a' Ha IH e H Hf. inversion H; subst.
    + pose proof (simplified_number_inv _ _ _ _ Ha _ eq_refl) as ->. exact H.
    + constructor. apply IH; auto. intros; apply Hf. now apply sub_un.
  - intros f args args' _ IH e H Hf. inversion H; subst. constructor. apply IH; auto. intros a s Hi Hs. apply Hf. eapply sub_arg; eauto.
  - intros e e1 e2 _ IH Hs e0 H Hf. specialize (IH e0 H Hf). rewrite (spelling_simplified _ _ _ _ IH Hf) in Hs. injection Hs as <-.
    apply spelling_refl.
  - intros es H _. exact H.
  - intros a a' l l' _ IH _ IHl es H Hf. inversion H as [|e ? es' ? He Hes]; subst. constructor.
    + apply IH; auto. intros s Hs. apply (Hf e); [now left|assumption].
    + apply IHl; auto. intros b s Hb Hs. apply (Hf b); [now right|assumption].
Qed.

(** printed texts are clear *)
Fixpoint spaced (ctx : context) (after_number : bool) (ts : list token) : Prop :=
  match ts with
  | [] => True
  | t :: r => match t with TNum _ => after_number = false | TSym c => c <> "!"%char | TId _ => True end /\ spaced ctx (ends_number ctx t) r
  end.

Lemma spaced_clear : forall ctx ts b, spaced ctx b ts -> clear_tokens ctx ts.
Proof.
  assert (Tail : forall ctx u b t v, spaced ctx b (u ++ t :: v) -> exists b', spaced ctx b' (t :: v)).
  { induction u as [|x u IH]; intros b t v H; [eauto|]. cbn in H. eapply IH. apply H. }
  intros ctx ts b H. split; intros [u [t [t' [v [-> [H1 H2]]]]]]; apply Tail in H; destruct H as [b' [Ha [Hb _]]].
  - subst t. congruence.
  - destruct H2 as [s ->]. congruence.
Qed.

Lemma shown_spaced : forall ctx e, printable ctx e -> forall rest, (forall b, spaced ctx b rest) -> spaced ctx false (shown e ++ rest).
Proof.
  intros ctx. induction e as [n|op l r IHl IHr|op e IHe|f args Hargs|y] using element_ind'; intros H rest Hr; inversion H; subst; cbn [shown].
  - destruct (Bsign n); cbn; repeat split; auto; discriminate.
  - cbn [app spaced]. split; [discriminate|]. cbn [ends_number Ascii.eqb Bool.eqb]. rewrite <- app_assoc. apply IHl; [assumption|].
    intro b. cbn [app spaced]. split; [destruct op; try discriminate; congruence|].
    replace (ends_number ctx (TSym (op_byte op))) with false by (destruct op; reflexivity).
    rewrite <- app_assoc. apply IHr; [assumption|]. intro b'. cbn. split; [discriminate|]. apply Hr.
  - cbn [app spaced]. split; [discriminate|]. 
    assert (Ho : op = Plus \/ op = Minus) by assumption.
    split; [destruct Ho; subst op; discriminate|].
    replace (ends_number ctx (TSym (op_byte op))) with false by (destruct op; reflexivity).
    rewrite <- app_assoc. apply IHe; [assumption|]. intro b'. cbn. split; [discriminate|]. apply Hr.
  - cbn [app spaced]. split; [exact I|]. split; [discriminate|]. cbn [ends_number Ascii.eqb Bool.eqb]. rewrite <- app_assoc.
    assert (Hrest : forall b, spaced ctx b ([TSym ")"] ++ rest)) by (intro b; cbn; split; [discriminate|]; apply Hr).
    match goal with Hall : Forall (printable ctx) args |- _ => rename Hall into Hp end.
    match goal with Hne : args <> [] |- _ => revert Hne end.
    clear - Hargs Hp Hrest. induction Hargs as [|a args Ha Hargs IH]; [congruence|]. intros _. inversion Hp; subst.
    destruct args as [|b args].
    + cbn [map with_commas]. now apply Ha.
    + change (with_commas (map shown (a :: b :: args))) with (shown a ++ TSym "," :: with_commas (map shown (b :: args)))%list.
      rewrite <- app_assoc. apply Ha; [assumption|]. intro b'. cbn [app spaced]. split; [discriminate|].
      cbn [ends_number Ascii.eqb Bool.eqb]. apply IH; [assumption|discriminate].
  - cbn. split; [exact I|]. apply Hr.
Qed.

Lemma shown_clear : forall ctx e, printable ctx e -> clear_tokens ctx (shown e).
Proof.
  intros ctx e H. apply spaced_clear with false. rewrite <- (app_nil_r (shown e)). apply shown_spaced; [assumption|]. intros; exact I.
Qed.

Lemma stands_resolve : forall ctx s, stands_for ctx s = resolve ctx s.
Proof. reflexivity. Qed.

Lemma printable_safe : forall w ctx e, context_functions_return w ctx -> printable ctx e -> safe w e.
Proof.
  intros w ctx e Hc. induction e as [n|op l r IHl IHr|op e IHe|f args Hargs|y] using element_ind'; intro H; inversion H; subst; try exact I.
  - cbn. auto.
  - cbn. split; [tauto|auto].
  - apply safe_call. split.
    + intros vs Hvs. eapply (resolve_returns w ctx Hc (fn_name f) f); [now rewrite <- stands_resolve| |].
      * destruct vs; [destruct args; [congruence|discriminate Hvs]|discriminate].
      * intros n Hn. match goal with Ha : SpecGrammar.arity_ok f args |- _ => unfold SpecGrammar.arity_ok in Ha; rewrite Hn in Ha end. congruence.
    + match goal with Hall : Forall (printable ctx) args |- _ => rename Hall into Hp end.
      clear - Hargs Hp. induction Hargs; constructor; inversion Hp; auto.
Qed.

Lemma sub_trans : forall s a, sub s a -> forall e, sub a e -> sub s e.
Proof.
  intros s a Hs e He. induction He; auto; try (econstructor; eauto; fail).
Qed.

(** The printed text of an expression with nothing to simplify is read back as
    that very expression, negative numbers included. *)
Theorem C11_default_round_trip : forall cfg w ctx e, optimize cfg = true -> fair_order w -> context_functions_return w ctx ->
  printable ctx e -> declared ctx e -> (forall s, sub s e -> ~ redex cfg w s) ->
  exists y, parse cfg w ctx (display_element e) = Parse_ok y /\ root y = e.
Proof.
  intros cfg w ctx e Ho Hf Hc Hp Hd Hr. pose proof (shown_tokens ctx e Hp) as Hts.
  pose proof (shown_clear ctx e Hp) as Hcl. destruct (clear_parts _ _ _ Hts Hcl) as [Hb Hn].
  destruct (C11_text_is_read_back (plain cfg) w ctx e eq_refl Hf Hp Hd) as [x [Hx Ex]].
  destruct (C18_plain_accepted cfg (plain cfg) w ctx _ _ x Ho eq_refl eq_refl Hf Hc Hb Hts Hn Hx) as [y [Hy _]].
  exists y. split; [exact Hy|].
  assert (Hne : display_element e <> "") by (apply (tokens_nonempty _ _ Hts), shown_nonempty).
  pose proof (parse_outcome cfg w ctx _ _ Hne Hts) as E. rewrite Hy in E. cbn [outcome_of] in E. symmetry in E.
  apply token_gives in E. destruct E as [rest [E _]]. pose proof (ok_rest_nil _ _ _ _ _ _ _ E) as ->.
  pose proof (parse_outcome (plain cfg) w ctx _ _ Hne Hts) as E'. rewrite Hx in E'. cbn [outcome_of] in E'. symmetry in E'.
  apply token_gives in E'. destruct E' as [rest' [E' _]]. pose proof (ok_rest_nil _ _ _ _ _ _ _ E') as ->.
  unfold t_parse in E, E'.
  destruct (t_element cfg w ctx _ _ _) as [t' r|k u v|p|] eqn:Et; try discriminate E. cbn in E. destruct r; [|discriminate E]. injection E as ->.
  destruct (last_simplified cfg (plain cfg) w ctx _ _ _ _ _ Ho eq_refl eq_refl Hn Et) as [t [t1 [Et' [S Hs]]]].
  rewrite Et' in E'. cbn in E'. injection E' as ->. rewrite Ex in S.
  assert (Hfix : forall s, sub s e -> simplify cfg w s = Val s).
  { intros s Hs'. apply fixed_when_irreducible.
    - assert (Hse : safe w e) by (eapply printable_safe; eauto). clear - Hs' Hse.
      induction Hs'; auto; try (apply IHHs'; cbn in Hse; tauto).
      apply IHHs'. apply safe_call in Hse. destruct Hse as [_ Hall]. rewrite Forall_forall in Hall. auto.
    - intros s' Hs''. apply Hr. eapply sub_trans; eauto. }
  pose proof (proj1 (spelling_kept cfg w) _ _ S e (respelled_spelling e) Hfix) as K.
  rewrite (spelling_simplified _ _ _ _ K Hfix) in Hs. now injection Hs.
Qed.

(** the names and the arities in what is parsed and then partially evaluated *)
Fixpoint well_named (ctx : context) (e : element) : Prop :=
  match e with
  | Number _ => True
  | Var x => is_name x /\ stands_for ctx x = I_Variable x
  | BinOp _ l r => well_named ctx l /\ well_named ctx r
  | UnOp op a => (op = Plus \/ op = Minus \/ op = Factorial) /\ well_named ctx a
  | Call f args =>
      (is_name (fn_name f) /\ stands_for ctx (fn_name f) = I_Function f /\ args <> [] /\ SpecGrammar.arity_ok f args) /\
      (fix go (l : list element) : Prop := match l with [] => True | a :: l' => well_named ctx a /\ go l' end) args
  end.

Lemma well_named_call : forall ctx f args, well_named ctx (Call f args) <->
  (is_name (fn_name f) /\ stands_for ctx (fn_name f) = I_Function f /\ args <> [] /\ SpecGrammar.arity_ok f args) /\
  Forall (well_named ctx) args.
Proof.
  intros ctx f args. cbn [well_named].
  assert (E : forall l, (fix go (l : list element) : Prop := match l with [] => True | a :: l' => well_named ctx a /\ go l' end) l <->
    Forall (well_named ctx) l).
  { induction l as [|a l IH]; [split; auto|]. rewrite IH. split; [intros [H1 H2]; now constructor|]. intro H. inversion H. auto. }
  now rewrite E.
Qed.

Lemma well_named_preserve : forall cfg w ctx,
  (forall e e', simplify cfg w e = Val e' -> well_named ctx e -> well_named ctx e') /\
  (forall x v e e', el_simplify_for cfg w x v e = Val e' -> well_named ctx e -> well_named ctx e').
Proof.
  assert (HC : forall ctx f args args', well_named ctx (Call f args) -> Forall (well_named ctx) args' ->
     List.length args' = List.length args -> well_named ctx (Call f args')).
  { intros ctx f args args' K Kf Kl. apply well_named_call in K. apply well_named_call. destruct K as [[K1 [K2 [K3 K4]]] _].
    split; [|assumption]. split; [assumption|]. split; [assumption|]. split.
    - destruct args; [congruence|]. destruct args'; [discriminate Kl|discriminate].
    - unfold SpecGrammar.arity_ok in *. now rewrite Kl. }
  assert (HA : forall ctx f args, well_named ctx (Call f args) -> Forall (well_named ctx) args) by (intros ctx f args K; apply well_named_call in K; tauto).
  intros cfg w ctx. split.
  - apply simplify_preserve; eauto; cbn; tauto.
  - intros x v e e' H He. revert H He. apply simplify_for_preserve; eauto; cbn; tauto.
Qed.

Lemma parsed_well_named : forall cfg w ctx input x, names_agree ctx -> parse cfg w ctx input = Parse_ok x -> well_named ctx (root x).
Proof.
  intros cfg w ctx input x Hag Hp. destruct (parse_ok_inv _ _ _ _ _ Hp) as [c E].
  assert (N : forall o n name, ident_at input o n name -> is_name name).
  { intros o n name [_ [Hl [Hn [H1 [H2 _]]]]]. unfold is_name, name_token. split; [|split; [exact H2|intros []]].
    destruct name as [|b name]; [cbn in Hl; lia|]. cbn. apply H1. reflexivity. }
  apply (parse_impl_tree cfg w ctx input (well_named ctx)) with (vs := vars x) (c := c); auto.
  - intros v. exact I.
  - intros o n name y Hid _ Hr. pose proof Hr as Hr'. apply resolve_variable in Hr'. destruct Hr' as [-> _].
    cbn. split; [eauto|]. now rewrite stands_resolve.
  - intros o n name f args Hid Hr Hne Ha Hn. rewrite <- stands_resolve in Hr. destruct (Hag _ _ Hr (N _ _ _ Hid)) as [A B].
    apply well_named_call. split; [|assumption]. split; [assumption|]. split; [assumption|]. split; [assumption|].
    unfold SpecGrammar.arity_ok. destruct (fn_nb_args f); auto.
  - intros op e Ho He. cbn. auto.
  - intros op l r _ Hl Hr. cbn. auto.
  - apply (well_named_preserve cfg w ctx).
Qed.

Lemma well_named_printable : forall ctx e, well_named ctx e -> no_factorial e ->
  (forall n, sub (Number n) e -> fis_finite n = true) -> (forall l r, sub (BinOp Power l r) e -> ~ minus_signed l) -> printable ctx e.
Proof.
  intros ctx. induction e as [n|op l r IHl IHr|op e IHe|f args Hargs|y] using element_ind'; intros Hw Hf Hn Hm.
  - constructor. apply Hn, sub_refl.
  - inversion Hf; subst. destruct Hw as [Hw1 Hw2]. constructor; [assumption| |apply IHl|apply IHr]; auto.
    + intros ->. eapply Hm. apply sub_refl.
    + intros m Hs. apply Hn. now apply sub_binl.
    + intros a b Hs. eapply Hm. apply sub_binl, Hs.
    + intros m Hs. apply Hn. now apply sub_binr.
    + intros a b Hs. eapply Hm. apply sub_binr, Hs.
  - inversion Hf; subst. destruct Hw as [Ho Hw]. constructor; [destruct Ho as [?|[?|?]]; auto; contradiction|]. apply IHe; auto.
    + intros m Hs. apply Hn. now apply sub_un.
    + intros a b Hs. eapply Hm. apply sub_un, Hs.
  - inversion Hf; subst. apply well_named_call in Hw. destruct Hw as [[A [B [C D]]] Hw]. constructor; auto.
    rewrite Forall_forall in *. intros a Ha. apply Hargs; auto.
    + intros m Hs. apply Hn. eapply sub_arg; eauto.
    + intros x y Hs. eapply Hm. eapply sub_arg; eauto.
  - destruct Hw. now constructor.
Qed.

(** Every expression obtained by parsing, and then giving some variables their
    values, is printed as a text that is read back as it is: if nothing is left
    to simplify, there is no factorial, the numbers are finite, and no negative
    number is the base of a power. *)
Theorem C11_default_parsed_expressions : forall cfg cfg' w ctx input x l x', optimize cfg = true -> optimize cfg' = true ->
  fair_order w -> context_functions_return w ctx -> names_agree ctx ->
  parse cfg w ctx input = Parse_ok x -> simplify_for_multiple cfg w x l = Val x' ->
  no_factorial (root x') -> (forall n, sub (Number n) (root x') -> fis_finite n = true) ->
  (forall b p, sub (BinOp Power b p) (root x') -> ~ minus_signed b) ->
  (forall s, sub s (root x') -> ~ redex cfg' w s) ->
  exists y, parse cfg' w ctx (display_xprs x') = Parse_ok y /\ root y = root x'.
Proof.
  intros cfg cfg' w ctx input x l x' Ho Ho' Hf Hc Hag Hp Hl Hnf Hn Hm Hr.
  assert (Hd : declared ctx (root x)).
  { assert (Hne : input <> "").
    { intros ->. rewrite parse_empty in Hp. destruct (overflow_checks cfg); discriminate Hp. }
    destruct (C06_tokens_unique input) as [ts [Hts _]].
    pose proof (parse_outcome cfg w ctx input ts Hne Hts) as E. rewrite Hp in E. cbn in E. symmetry in E.
    destruct (token_gives _ _ _ _ E) as [rest [Et Hv]]. rewrite Et in E.
    apply (declared_check w ctx (root x) Hf). cbn in *. destruct (get_expected_vars ctx); [|reflexivity].
    destruct (set_diff _ _); [reflexivity|discriminate E]. }
  pose proof (parsed_well_named _ _ _ _ _ Hag Hp) as Hw. apply C32_multiple_is_iteration in Hl.
  assert (K : declared ctx (root x') /\ well_named ctx (root x')).
  { clear - Hd Hw Hl. induction Hl as [x|x [name v] x1 l x' Hs Hl IH]; [auto|]. apply simplify_for_inv in Hs. destruct Hs as [Hs _]. apply IH.
    - intros s Hg u Hu. apply (Hd s Hg). apply free_iff. eapply (el_simplify_for_free _ _ _ _ _ _ Hs). now apply free_iff.
    - eapply (proj2 (well_named_preserve cfg w ctx)); eauto. }
  destruct K as [Kd Kw]. apply C11_default_round_trip; auto. now apply well_named_printable.
Qed.

(** On a stable compiler, "nothing is left to simplify" is only about the sign
    that "0-1" leaves. *)
Corollary C11_default_stable : forall cfg w ctx input x, optimize cfg = true -> nightly cfg = false ->
  fair_order w -> context_functions_return w ctx -> names_agree ctx ->
  parse cfg w ctx input = Parse_ok x ->
  no_factorial (root x) -> (forall n, sub (Number n) (root x) -> fis_finite n = true) ->
  (forall b p, sub (BinOp Power b p) (root x) -> ~ minus_signed b) ->
  (forall n, ~ sub (UnOp Minus (Number n)) (root x)) ->
  parse cfg w ctx (display_xprs x) = Parse_ok x.
Proof.
  intros cfg w ctx input x Ho Hs Hf Hc Hag Hp Hnf Hn Hm Hsign.
  destruct (C11_default_parsed_expressions cfg cfg w ctx input x [] x Ho Ho Hf Hc Hag Hp) as [y [Hy Ey]]; auto.
  - destruct x; reflexivity.
  - intros s Hsub K. destruct (C58_parsed_is_simplified cfg w ctx input x Ho Hs Hp s Hsub K) as [n ->]. eapply Hsign; eauto.
  - rewrite Hy. f_equal.
    assert (V : forall i z, parse cfg w ctx i = Parse_ok z -> vars z = find_variables (root z) []).
    { intros i z Hz. destruct (parse_ok_inv _ _ _ _ _ Hz) as [c E]. pose proof (parse_impl_basic cfg w ctx i) as B. rewrite E in B. exact B. }
    pose proof (V _ _ Hp) as V1. pose proof (V _ _ Hy) as V2. destruct x, y. cbn in *. subst. reflexivity.
Qed.

(** ** Witnesses *)
Example C05_default_witness : exists y, parse default_config w0 ctx_default sample = Parse_ok y /\
  simplified_from default_config w0 sample_tree (root y) /\ root y <> sample_tree.
Proof.
  destruct C04_witness as [Hts [Hcl [_ [Hs Hd]]]].
  destruct (C05_default_sentences_are_accepted default_config w0 ctx_default sample sample_tokens sample_tree
    eq_refl w0_fair (default_context_returns w0) Hts Hcl Hs Hd) as [y [Hy [S _]]].
  exists y. split; [exact Hy|]. split; [exact S|]. intro E.
  assert (H : ok_and (parse default_config w0 ctx_default sample) (fun x => negb (same_tree (root x) sample_tree)) = true) by (vm_compute; reflexivity).
  rewrite Hy in H. cbn [ok_and] in H. rewrite E in H. vm_compute in H. discriminate H.
Qed.

Definition unfinished : string := "1 + max(2*x, )".
Definition unfinished_tokens : list token :=
  [TNum "1"; TSym "+"; TId "max"; TSym "("; TNum "2"; TSym "*"; TId "x"; TSym ","; TSym ")"]%list.
Lemma unfinished_ok : tokens_of unfinished unfinished_tokens /\ clear_tokens ctx_default unfinished_tokens.
Proof. split; [apply tokens_check|apply clear_check]; vm_compute; reflexivity. Qed.

Example C52_default_witness :
  verdict_of ctx_default unfinished_tokens = Rejects MissingArgument [TSym ")"] [TSym ")"] /\
  exists e, parse default_config w0 ctx_default unfinished = Parse_err e /\ pe_kind e = MissingArgument /\ stopped_at e = 13%N.
Proof. split; [vm_compute; reflexivity|]. eexists. split; [vm_compute; reflexivity|]. split; vm_compute; reflexivity. Qed.

Example C53_default_witness : exists e, parse default_config w0 ctx_default unfinished = Parse_err e /\
  substring 0 (N.to_nat (stopped_at e)) unfinished = "1 + max(2*x, " /\
  parses (parse default_config w0 ctx_default ("1 + max(2*x, " ++ " " ++ "1)")) = true.
Proof.
  destruct C52_default_witness as [_ [e [He [_ Hs]]]]. exists e. split; [exact He|]. rewrite Hs. split; vm_compute; reflexivity.
Qed.

Example C54_default_witness :
  tokens_of "1 + max(2*x, ) + y" (unfinished_tokens ++ [TSym "+"; TId "y"])%list /\
  clear_tokens ctx_default (unfinished_tokens ++ [TSym "+"; TId "y"])%list /\
  error_of (parse default_config w0 ctx_default "1 + max(2*x, ) + y") = Some (MissingArgument, 12%N, 2%N).
Proof. split; [apply tokens_check; vm_compute; reflexivity|]. split; [apply clear_check|]; vm_compute; reflexivity. Qed.

(** computing that nothing is left to simplify *)
Lemma irreducible_check : forall cfg w ctx input x t, context_functions_return w ctx -> ~ has_double_bang input ->
  parse cfg w ctx input = Parse_ok x -> root x = t ->
  match simplify cfg w t with Val t' => same_tree t' t | Boom _ => false end = true ->
  forall s, sub s (root x) -> ~ redex cfg w s.
Proof.
  intros cfg w ctx input x t Hc Hd Hp E H. apply irreducible_when_fixed.
  - eapply obtained_no_empty_call, ob_parse; eauto.
  - rewrite E. destruct (simplify cfg w t) as [t'|]; [|discriminate H]. f_equal. now apply same_tree_eq.
Qed.

Definition folded : string := "x*(2 - 5) + 0*y - max(z, 4/2)".
Definition folded_tree : element :=
  BinOp Minus (BinOp Times (Var "x") (Number (fneg (lit "3")))) (Call (builtin_function B_MAX) [Var "z"; Number (lit "2")]).
Lemma folded_parses : exists x, parse default_config w0 ctx_default folded = Parse_ok x /\ root x = folded_tree /\
  forall s, sub s (root x) -> ~ redex default_config w0 s.
Proof.
  destruct (parses_to (parse default_config w0 ctx_default folded) folded_tree) as [x [Hx Ex]]; [vm_compute; reflexivity|].
  exists x. split; [exact Hx|]. split; [exact Ex|].
  eapply irreducible_check; [apply default_context_returns| |exact Hx|exact Ex|vm_compute; reflexivity].
  apply no_double_bang_check. reflexivity.
Qed.

Example C10_default_witness : exists x, parse default_config w0 ctx_default folded = Parse_ok x /\
  parse default_config w0 ctx_default (in_parentheses 3 folded) = Parse_ok x.
Proof.
  destruct folded_parses as [x [Hx [Ex Hr]]]. exists x. split; [exact Hx|].
  destruct (C10_default_parentheses default_config w0 ctx_default folded x 3 eq_refl w0_fair (default_context_returns w0)) as [y [Hy [_ [_ [_ K]]]]].
  - apply no_double_bang_check. reflexivity.
  - exact Hx.
  - now rewrite <- (K Hr).
Qed.

(** A negative number comes back as a number. *)
Example C11_default_witness : exists x, parse default_config w0 ctx_default folded = Parse_ok x /\
  display_xprs x = "((x * -3) - max(z, 2))" /\
  parse default_config w0 ctx_default (display_xprs x) = Parse_ok x.
Proof.
  destruct folded_parses as [x [Hx [Ex Hr]]]. exists x. split; [exact Hx|]. split.
  { unfold display_xprs. rewrite Ex. apply String.eqb_eq. vm_compute. reflexivity. }
  apply (C11_default_stable default_config w0 ctx_default folded x eq_refl eq_refl w0_fair (default_context_returns w0) default_names_agree Hx).
  - rewrite Ex. apply no_factorial_test. reflexivity.
  - rewrite Ex. unfold folded_tree. generalize (eq_refl (fis_finite (fneg (lit "3")) && fis_finite (lit "2"))%bool).
    intros _ n Hs.
    assert (F : fis_finite (fneg (lit "3")) = true /\ fis_finite (lit "2") = true) by (split; vm_compute; reflexivity).
    revert F Hs. generalize (fneg (lit "3")) (lit "2"). intros a b [Fa Fb] Hs.
    repeat match goal with
    | H : sub _ (BinOp _ _ _) |- _ => inversion H; clear H; subst
    | H : sub _ (Call _ _) |- _ => inversion H; clear H; subst
    | H : sub _ (Number _) |- _ => inversion H; clear H; subst
    | H : sub _ (Var _) |- _ => inversion H; clear H; subst
    | H : In _ (_ :: _) |- _ => destruct H as [<- | H]
    | H : In _ [] |- _ => destruct H
    end; assumption.
  - rewrite Ex. unfold folded_tree. generalize (fneg (lit "3")) (lit "2"). intros a b p q Hs.
    repeat match goal with
    | H : sub _ (BinOp _ _ _) |- _ => inversion H; clear H; subst
    | H : sub _ (Call _ _) |- _ => inversion H; clear H; subst
    | H : sub _ (Number _) |- _ => inversion H; clear H; subst
    | H : sub _ (Var _) |- _ => inversion H; clear H; subst
    | H : In _ (_ :: _) |- _ => destruct H as [<- | H]
    | H : In _ [] |- _ => destruct H
    end.
  - intros n Hs. eapply Hr; [exact Hs|constructor].
Qed.

(** The sign that "0-5" leaves is read back into the number. *)
Theorem C11_default_sign_refuted : exists x y,
  parse default_config w0 ctx_default "0-5" = Parse_ok x /\ display_xprs x = "(-5)" /\
  parse default_config w0 ctx_default (display_xprs x) = Parse_ok y /\
  root x = UnOp Minus (Number (lit "5")) /\ root y = Number (fneg (lit "5")).
Proof.
  destruct (parses_to (parse default_config w0 ctx_default "0-5") (UnOp Minus (Number (lit "5")))) as [x [Hx Ex]]; [vm_compute; reflexivity|].
  destruct (parses_to (parse default_config w0 ctx_default "(-5)") (Number (fneg (lit "5")))) as [y [Hy Ey]]; [vm_compute; reflexivity|].
  assert (D : display_xprs x = "(-5)") by (unfold display_xprs; rewrite Ex; apply String.eqb_eq; vm_compute; reflexivity).
  exists x, y. split; [exact Hx|]. split; [exact D|]. split; [rewrite D; exact Hy|]. split; [exact Ex|exact Ey].
Qed.
