(** * Only the names a text uses matter (C14) *)
From Coq Require Import ZArith NArith List String Ascii Bool Lia Permutation.
From Verif Require Import F64 Syntax Factorial Builtins Context Element Parser Xprs SpecChars SpecTokens SpecGrammar SpecScan.
From Verif Require Import SpecParse SpecTree TreeFacts TokenFacts TokenParser TokenMono TokenSim GrammarFacts TwoRunsFacts ParserResults LexExec.
From Verif Require Import PropertiesParse PropertiesGrammar PropertiesScan TestWorld.
Import ListNotations.
Local Open Scope string_scope.

(** [uses input name]: the name occurs in the text as a token *)
Definition uses (input name : string) : Prop := exists ts, tokens_of input ts /\ In (TId name) ts.

(** two sets of declared variables that cannot be told apart by the names of a text *)
Definition same_declared (input : string) (d d' : option (list string)) : Prop :=
  match d, d' with
  | None, None => True
  | Some s, Some s' => forall name, uses input name -> (In name s <-> In name s')
  | _, _ => False
  end.

(** the same error but for the list of declared variables *)
Definition same_but_for_list (e e' : parse_error) : Prop :=
  e = e' \/
  exists v l l', pe_kind e = VariableNotDeclared v l /\ pe_kind e' = VariableNotDeclared v l' /\
    pe_offset e = pe_offset e' /\ pe_length e = pe_length e' /\ pe_src e = pe_src e'.

(** ** Both parsers do the same, step by step *)
Section Impl.
  Variable cfg : config.
  Variables w w' : world.
  Variables ctx ctx' : context.
  Hypothesis Hfin : forall e, finish_element cfg w e = finish_element cfg w' e.

  Lemma impl_same : forall input, (forall name, uses input name -> stands_for ctx name = stands_for ctx' name) ->
    match parse_impl cfg w ctx input, parse_impl cfg w' ctx' input with
    | POk a _, POk b _ => a = b
    | PErr e _, PErr e' _ => e = e'
    | PPanic p, PPanic q => p = q
    | PFuel, PFuel => True
    | _, _ => False
    end.
  Proof.
    intros input Hn. destruct (string_dec input "") as [->|Hne].
    { assert (E : forall w c, parse_impl cfg w c "" = pbind (err_unexpected_end cfg "" 0) (fun x c' => POk x c')).
      { intros w1 c1. unfold parse_impl. change (parse_budget "") with 2. cbn [element_at]. unfold atom. change (next_trim "" 0) with (@None ascii, 0).
        cbv iota beta. unfold err_unexpected_end. destruct (usub cfg 0 1); reflexivity. }
      rewrite !E. unfold err_unexpected_end. destruct (usub cfg 0 1); reflexivity. }
    destruct (lexes_total (list_ascii_of_string input)) as [ts Hts]. change (tokens_of input ts) in Hts.
    set (R := fun t t' : token => t = t' /\ In t ts).
    assert (HR : forall t t', R t t' -> match t, t' with
      | TId x, TId y => resolve ctx x = resolve ctx' y /\ a_small (token_byte t) = a_small (token_byte t')
      | TNum s, TNum s' => literal_value s = literal_value s' /\ (literal_value s = None -> s = s') /\ a_digit (token_byte t) = a_digit (token_byte t')
      | TSym c, TSym d => c = d
      | _, _ => False end).
    { intros t t' [<- Hi]. destruct t as [s|s|c]; auto. split; [|reflexivity]. rewrite !resolve_stands. apply Hn. exists ts. auto. }
    assert (Eq : forall a b, Forall2 R a b -> a = b) by (induction 1 as [|x y a b [-> _] _ ->]; reflexivity).
    assert (Hl : Forall2 R ts ts).
    { assert (H : forall l, incl l ts -> Forall2 R l l).
      { induction l as [|t l IH]; intro H; constructor; [split; [reflexivity|apply H; now left]|apply IH; intros x Hx; apply H; now right]. }
      apply H. apply incl_refl. }
    pose proof (same_parse cfg w w' ctx ctx' R HR Hfin (parse_budget input) ts ts Hl) as S.
    pose proof (sim_parse cfg w ctx input (nonempty_bytes _ Hne) ts Hts) as A.
    pose proof (sim_parse cfg w' ctx' input (nonempty_bytes _ Hne) ts Hts) as B.
    destruct (parse_impl cfg w ctx input) as [[r vs] c|e c|p|], (t_parse cfg w ctx (parse_budget input) ts) as [t rest|k f u|q|]; try contradiction;
      destruct (t_parse cfg w' ctx' (parse_budget input) ts) as [t' rest'|k' f' u'|q'|]; cbn in S; try contradiction;
      destruct (parse_impl cfg w' ctx' input) as [[r' vs'] c'|e' c'|p'|]; try contradiction; auto; try congruence.
    - destruct A as [-> ->], B as [-> ->]. destruct S as [-> _]. reflexivity.
    - destruct S as [K [F U]]. apply Eq in F. apply Eq in U. subst f' u'.
      assert (k = k') by (destruct K as [K|[t [t' [[-> _] [-> ->]]]]]; auto). subst k'. eapply C52_verdict_fixes_error; eauto.
  Qed.
End Impl.

(** ** Theorems *)
(** What is in the context under names that do not occur in the text does not
    matter, nor does the declaration of such names. *)
Theorem C14_only_used_names_exact : forall cfg w ctx ctx' input,
  (forall name, uses input name -> stands_for ctx name = stands_for ctx' name) ->
  get_expected_vars ctx = get_expected_vars ctx' ->
  parse cfg w ctx input = parse cfg w ctx' input.
Proof.
  intros cfg w ctx ctx' input Hn He. pose proof (impl_same cfg w w ctx ctx' (fun e => eq_refl) input Hn) as H. unfold parse. rewrite <- He.
  destruct (parse_impl cfg w ctx input) as [[r vs] c|e c|p|], (parse_impl cfg w ctx' input) as [[r' vs'] c'|e' c'|p'|]; try contradiction; auto.
  - injection H as <- <-. reflexivity.
  - now subst.
  - now subst.
Qed.

(** a variable that does not occur as a token could be defined as a constant
    without changing anything, and then it would not be a variable *)
Lemma used_variables : forall cfg w ctx input x v, get_expected_vars ctx = None ->
  parse cfg w ctx input = Parse_ok x -> occurs v (root x) -> uses input v.
Proof.
  intros cfg w ctx input x v He Hx Hv.
  destruct (lexes_total (list_ascii_of_string input)) as [ts Hts]. change (tokens_of input ts) in Hts.
  assert (D : forall t u : token, {t = u} + {t <> u}) by (decide equality; [apply string_dec|apply string_dec|apply ascii_dec]).
  destruct (in_dec D (TId v) ts) as [H|H]; [exists ts; auto|exfalso].
  assert (E : parse cfg w (with_var ctx v fzero) input = Parse_ok x).
  { rewrite <- Hx. symmetry. apply C14_only_used_names_exact; [|reflexivity]. intros name [us [Hus Hi]].
    rewrite (lexes_unique _ _ _ Hus Hts) in Hi. unfold stands_for, with_var, set_var. cbn [ctx_symbols]. rewrite sget_sinsert.
    destruct (String.eqb_spec name v) as [->|N]; [contradiction|]. reflexivity. }
  destruct (C13_variables_are_input_identifiers _ _ _ _ _ _ E Hv) as [_ [K _]]. unfold with_var, set_var in K. cbn [ctx_symbols] in K.
  rewrite sget_sinsert, String.eqb_refl in K. discriminate K.
Qed.

(** Declaring names that the text does not use, or not declaring them, changes
    at most the list of declared variables shown with an error. *)
Theorem C14_declarations_of_used_names : forall cfg w ctx ctx' input, fair_order w ->
  (forall name, uses input name -> stands_for ctx name = stands_for ctx' name) ->
  same_declared input (get_expected_vars ctx) (get_expected_vars ctx') ->
  match parse cfg w ctx input, parse cfg w ctx' input with
  | Parse_ok x, Parse_ok x' => x = x'
  | Parse_err e, Parse_err e' => same_but_for_list e e'
  | Parse_panic p, Parse_panic p' => p = p'
  | _, _ => False
  end.
Proof.
  intros cfg w ctx ctx' input Hf Hn Hd. pose proof (impl_same cfg w w ctx ctx' (fun e => eq_refl) input Hn) as H.
  pose proof (C01_parse_terminates cfg w ctx input) as T. unfold parse in *.
  destruct (parse_impl cfg w ctx input) as [[r vs] c|e c|p|] eqn:P, (parse_impl cfg w ctx' input) as [[r' vs'] c'|e' c'|p'|]; try contradiction; auto.
  - injection H as <- <-.
    assert (U : forall v, In v (hash_order w vs) -> uses input v).
    { intros v Hv. apply (Permutation_in _ (Permutation_sym (Hf vs))) in Hv.
      assert (X : parse cfg w (mk_context (ctx_symbols ctx) None) input = Parse_ok (mk_xprs r vs)).
      { unfold parse. pose proof (impl_same cfg w w ctx (mk_context (ctx_symbols ctx) None) (fun e => eq_refl) input (fun _ _ => eq_refl)) as K.
        rewrite P in K. destruct (parse_impl cfg w (mk_context (ctx_symbols ctx) None) input) as [[r1 vs1] c1| | |]; try contradiction. now injection K as <- <-. }
      apply (used_variables cfg w (mk_context (ctx_symbols ctx) None) input _ v eq_refl X). now apply (C17_vars_exact _ _ _ _ _ X). }
    destruct (get_expected_vars ctx) as [s|], (get_expected_vars ctx') as [s'|]; cbn in Hd; try contradiction; auto.
    assert (E : forall l, (forall v, In v l -> uses input v) -> set_diff l s = set_diff l s').
    { induction l as [|v l IH]; intro Hl; [reflexivity|]. unfold set_diff in *. cbn [filter]. rewrite IH by (intros; apply Hl; now right).
      replace (mem v s') with (mem v s); [reflexivity|]. apply eq_true_iff_eq. rewrite !mem_In. apply Hd. apply Hl. now left. }
    rewrite (E _ U). destruct (set_diff _ s') as [|v l]; [reflexivity|]. right. cbn. exists v, (hash_order w s), (hash_order w s'). auto 6.
  - left. exact H.
Qed.

(** x, y and sin of another meaning, and the declaration of k, do not matter to
    2xy + cos(z): its names are xy, cos and z. *)
Definition crowded : context :=
  with_var (with_var (with_fn ctx_default (mk_function "sin" (Static_user 0) (Some 2))) "x" fone) "y" fzero.
Definition frame_text : string := "2xy + cos(z)".
Definition frame_tokens : list token := [TNum "2"; TId "xy"; TSym "+"; TId "cos"; TSym "("; TId "z"; TSym ")"].
Lemma frame_lexed : tokens_of frame_text frame_tokens.
Proof. apply tokens_check. vm_compute. reflexivity. Qed.
Lemma frame_names : forall name, uses frame_text name <-> name = "xy" \/ name = "cos" \/ name = "z".
Proof.
  intro name. split.
  - intros [ts [Hts Hi]]. rewrite (lexes_unique _ _ _ Hts frame_lexed) in Hi. cbn in Hi. intuition congruence.
  - intro H. exists frame_tokens. split; [exact frame_lexed|]. cbn. intuition (subst; auto 10).
Qed.
Example C14_frame_witness :
  stands_for crowded "sin" <> stands_for ctx_default "sin" /\
  (forall name, uses frame_text name -> stands_for crowded name = stands_for ctx_default name) /\
  same_declared frame_text (Some ["xy"; "z"; "k"]) (Some ["z"; "m"; "xy"]) /\
  exists x, parse plain_config w0 crowded frame_text = Parse_ok x /\ parse plain_config w0 ctx_default frame_text = Parse_ok x.
Proof.
  split; [intro H; vm_compute in H; discriminate H|].
  assert (S : forall name, uses frame_text name -> stands_for crowded name = stands_for ctx_default name)
    by (intros name H; apply frame_names in H; destruct H as [-> | [-> | ->]]; reflexivity).
  split; [exact S|]. split; [cbn; intros name H; apply frame_names in H; destruct H as [-> | [-> | ->]]; cbn; intuition congruence|].
  destruct (parses_to (parse plain_config w0 crowded frame_text) (BinOp Plus (BinOp Times (Number (lit "2")) (Var "xy")) (Call (builtin_function B_COS) [Var "z"]))) as [x [Hx _]]; [vm_compute; reflexivity|].
  exists x. split; [exact Hx|]. rewrite <- (C14_only_used_names_exact plain_config w0 crowded ctx_default frame_text S eq_refl). exact Hx.
Qed.
