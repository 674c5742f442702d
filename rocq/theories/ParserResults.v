(** * Consequences of the parser induction for [parse] *)
From Coq Require Import ZArith NArith List String Ascii Bool Lia.
From Verif Require Import SpecChars CharFacts.
From Verif Require Import F64 Syntax Factorial Builtins Context Element Parser Xprs.
From Verif Require Import ParserFacts SpecParse ParserInv SpecTree TreeFacts SimplifyFacts SpecApi.
Import ListNotations.
Local Open Scope nat_scope.

(** The recursive functions never report [VariableNotDeclared]. *)
Definition novnd {A} (r : pres A) : Prop :=
  match r with PErr e _ => forall v a, pe_kind e <> VariableNotDeclared v a | _ => True end.

Lemma never_vnd : forall cfg w ctx input n p c, novnd (element_at cfg w ctx input n p c).
Proof.
  intros cfg w ctx input.
  assert (Hf : forall A k off l c, (forall v a, k <> VariableNotDeclared v a) ->
    novnd (@fail input A k off l c)).
  { intros. unfold fail. destruct off; simpl; auto. }
  assert (Hb : forall A B (r : pres A) (f : A -> nat -> pres B),
    novnd r -> (forall a c, novnd (f a c)) -> novnd (pbind r f)).
  { intros A B r f Hr Hf'. destruct r; simpl; auto. }
  assert (Hassert : forall t c, novnd (assert_eq_consume input t c)).
  { intros. unfold assert_eq_consume. destruct (consume_if_eq input t c) as [[] ?]; [exact I|].
    apply Hf. discriminate. }
  induction n; intros p c; [exact I|]. cbn [element_at].
  assert (Harg : forall c, novnd (argument cfg input (element_at cfg w ctx input n) c)).
  { intro c1. unfold argument. specialize (IHn NO_PRECEDENCE c1).
    destruct (element_at cfg w ctx input n NO_PRECEDENCE c1); auto. simpl in IHn.
    destruct (pe_kind e) eqn:E; try (simpl; rewrite E; exact IHn). apply Hf. discriminate. }
  assert (Hargs : forall k l c, novnd (parse_arguments cfg input (element_at cfg w ctx input n) k l c)).
  { induction k; intros l c1; [exact I|]. cbn [parse_arguments].
    apply Hb; auto. intros a c2. destruct (next_trim input c2) as [[t|] c3]; [|apply Hf; discriminate].
    destruct (Ascii.eqb t ","); [apply IHk|]. destruct (Ascii.eqb t ")"); [exact I|]. apply Hf. discriminate. }
  assert (Hloop : forall k el c, novnd (binop_loop cfg input (element_at cfg w ctx input n) k p el c)).
  { induction k; intros el c2; [exact I|]. cbn [binop_loop].
    destruct (get_operator_infos cfg input el p c2) as [[[op q]|] c']; [|exact I].
    apply Hb; auto. }
  apply Hb.
  - unfold atom. chars. destruct (next_trim input c) as [[b|] c0]; [|apply Hf; discriminate].
    destruct (a_digit b || Ascii.eqb b ".").
    { unfold parse_number. chars. destruct (parse_f64 _); [exact I|]. apply Hf. discriminate. }
    destruct (a_letter b).
    { unfold parse_identifier. chars. destruct (resolve _ _); try exact I.
      destruct (consume_if_eq _ _ _) as [[] ?]; [|apply Hf; discriminate].
      apply Hb; auto. intros a c1. apply Hb; auto. intros _ c2. unfold check_arity.
      destruct (fn_nb_args f); [|exact I]. destruct (Nat.compare _ _); [exact I| |]; apply Hf; discriminate. }
    destruct (Ascii.eqb b "+"); [apply Hb; [auto|intros; exact I]|].
    destruct (Ascii.eqb b "-"); [apply Hb; [auto|intros; exact I]|].
    destruct (Ascii.eqb b "("); [apply Hb; auto; intros; apply Hb; [auto|intros; exact I]|].
    destruct (Ascii.eqb b ")"); apply Hf; discriminate.
  - intros a c1. destruct (consume_if_eq input "!" c1) as [b c2].
    apply Hb; auto. intros. unfold plift. destruct (finish_element cfg w a0); exact I.
Qed.

Section Generic.
  Variable cfg : config.
  Variable w : world.
  Variable ctx : context.
  Variable input : string.
  Variable Q : element -> Prop.
  Variable Pn : panic -> Prop.
  Notation len := (List.length (bytes input)).
  Hypothesis HNum : forall v, Q (Number v).
  Hypothesis HVar : forall o n name x,
    ident_at input o n name -> o + n <= len -> resolve ctx name = I_Variable x -> Q (Var x).
  Hypothesis HCall : forall o n name f args,
    ident_at input o n name -> resolve ctx name = I_Function f -> args <> [] -> Forall Q args ->
    (forall n, fn_nb_args f = Some n -> List.length args = n) -> Q (Call f args).
  Hypothesis HUn : forall op e, op = Plus \/ op = Minus \/ op = Factorial -> Q e -> Q (UnOp op e).
  Hypothesis HBin : forall op l r,
    (op = Factorial -> has_double_bang input) -> Q l -> Q r -> Q (BinOp op l r).
  Hypothesis HFin : forall e, Q e ->
    match finish_element cfg w e with Val e' => Q e' | Boom p => Pn p end.
  Hypothesis HOvf : input = ""%string -> overflow_checks cfg = true -> Pn ArithOverflow.

  Lemma parse_impl_post :
    match parse_impl cfg w ctx input with
    | POk (root, vs) _ => Q root /\ vs = find_variables root []
    | PErr e _ => error_truthful ctx input e /\ forall v a, pe_kind e <> VariableNotDeclared v a
    | PPanic p => Pn p
    | PFuel => False
    end.
  Proof.
    assert (H : post ctx input Pn (good_el input Q) 0 1 (parse_budget input < (len - 0) + 2)
                  (element_at cfg w ctx input (parse_budget input) NO_PRECEDENCE 0)).
    { apply post_element; auto. lia. }
    assert (Hk := never_vnd cfg w ctx input (parse_budget input) NO_PRECEDENCE 0). unfold novnd in Hk.
    unfold parse_impl.
    destruct (element_at cfg w ctx input (parse_budget input) NO_PRECEDENCE 0) as [e c|e c|p|]; simpl in H.
    - cbn [pbind]. destruct H as [[HQ _] Hc].
      destruct (next_trim input c) as [o c'] eqn:En.
      destruct (next_trim_spec input _ _ _ (proj2 Hc) En) as [Hr [Ho Hm]].
      destruct o as [t|]; [|simpl; auto].
      unfold err_unexpected_token, fail. split; [|simpl; intros; discriminate].
      split; [reflexivity|]. simpl. split; auto. exists c'. split; auto.
    - cbn [pbind]. split; [tauto|auto].
    - exact H.
    - rewrite len_input in H. unfold parse_budget in H. cbn [pbind]. lia.
  Qed.
End Generic.

(** ** Budget independence: more budget never changes the answer *)
Section Fuel.
  Variable cfg : config.
  Variable w : world.
  Variable ctx : context.
  Variable input : string.

  (** [r'] equals [r] unless [r] ran out of budget. *)
  Definition refines {A} (r r' : pres A) : Prop := r = PFuel \/ r' = r.

  Lemma refines_refl : forall A (r : pres A), refines r r.
  Proof. right; reflexivity. Qed.

  Lemma refines_bind : forall A B (r r' : pres A) (f f' : A -> nat -> pres B),
    refines r r' -> (forall a c, refines (f a c) (f' a c)) -> refines (pbind r f) (pbind r' f').
  Proof.
    intros A B r r' f f' [->| ->] Hf; [left; reflexivity|].
    destruct r; simpl; auto; right; reflexivity.
  Qed.

  Section Step.
    Variables elem elem' : nat -> nat -> pres element.
    Hypothesis He : forall p c, refines (elem p c) (elem' p c).

    Lemma refines_argument : forall c, refines (argument cfg input elem c) (argument cfg input elem' c).
    Proof.
      intro c. unfold argument. destruct (He NO_PRECEDENCE c) as [E|E]; rewrite E; [left|right]; reflexivity.
    Qed.

    Lemma refines_arguments : forall k k' args c, k <= k' ->
      refines (parse_arguments cfg input elem k args c) (parse_arguments cfg input elem' k' args c).
    Proof.
      induction k; intros k' args c Hk; [left; reflexivity|].
      destruct k'; [lia|]. cbn [parse_arguments]. apply refines_bind; [apply refines_argument|].
      intros a c1. destruct (next_trim input c1) as [[t|] c2]; [|apply refines_refl].
      destruct (Ascii.eqb t ","); [|apply refines_refl]. apply IHk. lia.
    Qed.

    Lemma refines_loop : forall k k' p el c, k <= k' ->
      refines (binop_loop cfg input elem k p el c) (binop_loop cfg input elem' k' p el c).
    Proof.
      induction k; intros k' p el c Hk; [left; reflexivity|].
      destruct k'; [lia|]. cbn [binop_loop].
      destruct (get_operator_infos cfg input el p c) as [[[op q]|] c']; [|apply refines_refl].
      apply refines_bind; [apply He|]. intros. apply IHk. lia.
    Qed.

    Lemma refines_atom : forall k k' c, k <= k' ->
      refines (atom cfg ctx input elem k c) (atom cfg ctx input elem' k' c).
    Proof.
      intros k k' c Hk. unfold atom. chars. destruct (next_trim input c) as [[b|] c0]; [|apply refines_refl].
      destruct (a_digit b || Ascii.eqb b "."); [apply refines_refl|].
      destruct (a_letter b).
      { unfold parse_identifier. chars. destruct (resolve _ _); try apply refines_refl.
        destruct (consume_if_eq _ _ _) as [[] ?]; [|apply refines_refl].
        apply refines_bind; [apply refines_arguments; auto|]. intros. apply refines_refl. }
      destruct (Ascii.eqb b "+"); [apply refines_bind; auto; intros; apply refines_refl|].
      destruct (Ascii.eqb b "-"); [apply refines_bind; auto; intros; apply refines_refl|].
      destruct (Ascii.eqb b "("); [apply refines_bind; auto; intros; apply refines_refl|].
      apply refines_refl.
    Qed.
  End Step.

  Lemma refines_element : forall k k' p c, k <= k' ->
    refines (element_at cfg w ctx input k p c) (element_at cfg w ctx input k' p c).
  Proof.
    induction k; intros k' p c Hk; [left; reflexivity|].
    destruct k'; [lia|]. cbn [element_at].
    assert (He : forall p c, refines (element_at cfg w ctx input k p c) (element_at cfg w ctx input k' p c)).
    { intros. apply IHk. lia. }
    apply refines_bind; [apply refines_atom; auto; lia|].
    intros a c1. destruct (consume_if_eq input "!" c1) as [b c2].
    apply refines_bind; [apply refines_loop; auto; lia|]. intros. apply refines_refl.
  Qed.
End Fuel.

(** ** Instances *)
Section Instances.
  Variable cfg : config.
  Variable w : world.
  Variable ctx : context.
  Variable input : string.

  Lemma parse_impl_basic :
    match parse_impl cfg w ctx input with
    | POk (root, vs) _ => vs = find_variables root []
    | PErr e _ => error_truthful ctx input e /\ forall v a, pe_kind e <> VariableNotDeclared v a
    | PPanic p => True
    | PFuel => False
    end.
  Proof.
    pose proof (parse_impl_post cfg w ctx input (fun _ => True) (fun _ => True)) as H.
    destruct (parse_impl cfg w ctx input) as [[root vs] c|e c|p|]; auto.
    - apply H; auto. intros. destruct (finish_element cfg w e); auto.
    - apply H; auto. intros. destruct (finish_element cfg w e0); auto.
    - apply H; auto. intros. destruct (finish_element cfg w e); auto.
  Qed.

  (** *** A predicate on trees that both the parser and the simplifier respect *)
  Lemma parse_impl_tree : forall Q : element -> Prop,
    (forall v, Q (Number v)) ->
    (forall o n name x, ident_at input o n name -> o + n <= List.length (bytes input) ->
       resolve ctx name = I_Variable x -> Q (Var x)) ->
    (forall o n name f args, ident_at input o n name -> resolve ctx name = I_Function f -> args <> [] -> Forall Q args ->
       (forall n, fn_nb_args f = Some n -> List.length args = n) -> Q (Call f args)) ->
    (forall op e, op = Plus \/ op = Minus \/ op = Factorial -> Q e -> Q (UnOp op e)) ->
    (forall op l r, (op = Factorial -> has_double_bang input) -> Q l -> Q r -> Q (BinOp op l r)) ->
    (forall e e', simplify cfg w e = Val e' -> Q e -> Q e') ->
    forall root vs c, parse_impl cfg w ctx input = POk (root, vs) c -> Q root.
  Proof.
    intros Q H1 H2 H3 H4 H5 H6 root vs c E.
    pose proof (parse_impl_post cfg w ctx input Q (fun _ => True) H1 H2 H3 H4 H5) as H.
    rewrite E in H. apply H; auto.
    intros e He. unfold finish_element. destruct (optimize cfg); auto.
    destruct (simplify cfg w e) eqn:Es; eauto.
  Qed.

  Lemma resolve_variable : forall name x, resolve ctx name = I_Variable x ->
    x = name /\ sget name (ctx_symbols ctx) = None /\ identifier_from_str name = I_Variable name.
  Proof.
    unfold resolve, ctx_get. intros name x H.
    destruct (sget name (ctx_symbols ctx)) as [[v|f]|] eqn:E; try discriminate.
    assert (x = name) as ->; [|auto].
    unfold identifier_from_str in H.
    repeat match type of H with (if ?b then _ else _) = _ => destruct b; [discriminate|] end.
    congruence.
  Qed.
End Instances.

Lemma builtin_returns : forall w b vs, vs <> [] ->
  (forall n, builtin_nb_args b = Some n -> List.length vs = n) -> exists v, call_builtin w b vs = Val v.
Proof.
  intros w b vs Hne Hn. destruct vs as [|v vs]; [congruence|].
  assert (H1 : forall f, exists r, wrap1 f (v :: vs) = Val r) by (intros; simpl; eauto).
  assert (H2 : builtin_nb_args b = Some 2 -> forall f, exists r, wrap2 f (v :: vs) = Val r).
  { intros E f. specialize (Hn _ E). destruct vs; [discriminate|]. simpl; eauto. }
  destruct b; unfold call_builtin;
    first [apply H1 | apply H2; reflexivity | eexists; reflexivity].
Qed.

Lemma identifier_from_str_function : forall s f, identifier_from_str s = I_Function f ->
  exists b, f = builtin_function b.
Proof.
  intros s f H. unfold identifier_from_str in H.
  repeat match type of H with (if ?b then _ else _) = _ => destruct b; [try discriminate; injection H as <-; eauto; fail|] end.
  discriminate.
Qed.

Lemma resolve_returns : forall w ctx, context_functions_return w ctx ->
  forall name f, resolve ctx name = I_Function f ->
  forall vs, vs <> [] -> (forall n, fn_nb_args f = Some n -> List.length vs = n) ->
  exists v, call_function w f vs = Val v.
Proof.
  intros w ctx Hc name f Hr vs Hne Hn. apply names_function_resolve in Hr.
  destruct Hr as [Hr|[_ Hr]]; [eauto|].
  apply identifier_from_str_function in Hr. destruct Hr as [b ->].
  apply builtin_returns; auto.
Qed.

(** Trees from a text without "!!" are safe, and parsing it does not panic. *)
Lemma parse_impl_safe : forall cfg w ctx input,
  context_functions_return w ctx -> ~ has_double_bang input ->
  match parse_impl cfg w ctx input with
  | POk (root, _) _ => safe w root
  | PPanic p => p = ArithOverflow /\ input = ""%string /\ overflow_checks cfg = true
  | _ => True
  end.
Proof.
  intros cfg w ctx input Hc Hd.
  assert (H : match parse_impl cfg w ctx input with
    | POk (root, vs) _ => safe w root /\ vs = find_variables root []
    | PErr e _ => error_truthful ctx input e /\ forall v a, pe_kind e <> VariableNotDeclared v a
    | PPanic p => p = ArithOverflow /\ input = ""%string /\ overflow_checks cfg = true
    | PFuel => False
    end).
  { apply (parse_impl_post cfg w ctx input (safe w)
      (fun p => p = ArithOverflow /\ input = ""%string /\ overflow_checks cfg = true)); simpl; auto.
    - intros o k name f args _ Hr Hne Ha Hn. apply (safe_call w f args). split; auto.
      intros vs Hvs. eapply resolve_returns; eauto.
      + destruct args; [congruence|]. destruct vs; [discriminate|discriminate].
      + intros n En. rewrite Hvs. auto.
    - intros e He. unfold finish_element. destruct (optimize cfg); auto.
      destruct (simplify_val cfg w e He) as [e' E]. rewrite E. eapply simplify_safe; eauto. }
  destruct (parse_impl cfg w ctx input) as [[root vs] c|e c|p|]; tauto.
Qed.

(** Without optimisation only the empty input can panic. *)
Lemma parse_impl_plain_panic : forall cfg w ctx input p,
  optimize cfg = false -> parse_impl cfg w ctx input = PPanic p ->
  p = ArithOverflow /\ input = ""%string /\ overflow_checks cfg = true.
Proof.
  intros cfg w ctx input p Ho E.
  pose proof (parse_impl_post cfg w ctx input (fun _ => True)
      (fun p => p = ArithOverflow /\ input = ""%string /\ overflow_checks cfg = true)) as H.
  rewrite E in H. apply H; auto. intros. unfold finish_element. rewrite Ho. auto.
Qed.

(** ** The two layers of [parse] *)
Lemma parse_ok_inv : forall cfg w ctx input x, parse cfg w ctx input = Parse_ok x ->
  exists c, parse_impl cfg w ctx input = POk (root x, vars x) c.
Proof.
  intros cfg w ctx input x H. unfold parse in H.
  destruct (parse_impl cfg w ctx input) as [[r vs] c|e c|p|]; try discriminate.
  exists c. destruct (get_expected_vars ctx).
  - destruct (set_diff _ _); [|discriminate]. now injection H as <-.
  - now injection H as <-.
Qed.

Lemma obtained_inv : forall cfg w x, obtained cfg w x ->
  safe w (root x) /\ NoDup (vars x) /\ forall v, free v (root x) -> In v (vars x).
Proof.
  induction 1.
  - destruct (parse_ok_inv _ _ _ _ _ H1) as [c E].
    pose proof (parse_impl_safe cfg w ctx input H H0) as Hs. rewrite E in Hs. split; auto.
    pose proof (parse_impl_basic cfg w ctx input) as Hb. rewrite E in Hb. rewrite Hb.
    split; [apply find_variables_NoDup; constructor|].
    intros v Hv. apply find_variables_In. auto.
  - destruct IHobtained as [Hs [Hn Hf]].
    unfold simplify_for, simplify_for_in_place in H0.
    destruct (el_simplify_for cfg w (fst var) (snd var) (root x)) as [e'|] eqn:E; simpl in H0; [|discriminate].
    injection H0 as <-. simpl. repeat split.
    + eapply el_simplify_for_safe; eauto.
    + apply NoDup_filter. auto.
    + intros v Hv. apply set_remove_In. destruct (el_simplify_for_free _ _ _ _ _ _ E _ Hv). auto.
Qed.
