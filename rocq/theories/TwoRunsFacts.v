(** * Two runs of the token parser on corresponding tokens (for C93-C95) *)
From Coq Require Import ZArith NArith List String Ascii Bool Lia.
From Verif Require Import F64 Syntax Factorial Builtins Context Element Parser SpecChars SpecTokens SpecGrammar TokenParser TokenMono.
Import ListNotations.
Local Open Scope nat_scope.

Section TwoRuns.
  Variable cfg : config.
  Variables w w' : world.
  Variables ctx ctx' : context.
  (** tokens that correspond: names that stand for the same, numbers of the same
      value, both or neither of which may follow an operand *)
  Variable R : token -> token -> Prop.
  Hypothesis HR : forall t t', R t t' ->
    match t, t' with
    | TId x, TId y => resolve ctx x = resolve ctx' y /\ a_small (token_byte t) = a_small (token_byte t')
    | TNum s, TNum s' => literal_value s = literal_value s' /\ (literal_value s = None -> s = s') /\ a_digit (token_byte t) = a_digit (token_byte t')
    | TSym c, TSym d => c = d
    | _, _ => False
    end.
  Hypothesis Hfin : forall e, finish_element cfg w e = finish_element cfg w' e.

  Notation like := (Forall2 R).
  Definition same_kind (k k' : error_kind) : Prop :=
    k = k' \/ exists t t', R t t' /\ k = UnexpectedToken (token_byte t) /\ k' = UnexpectedToken (token_byte t').
  Definition same_res {A} (r r' : tres A) : Prop :=
    match r, r' with
    | TOk a ts, TOk b us => a = b /\ like ts us
    | TErr k f u, TErr k' f' u' => same_kind k k' /\ like f f' /\ like u u'
    | TPanic p, TPanic q => p = q
    | TFuel, TFuel => True
    | _, _ => False
    end.

  Lemma same_bind : forall A B (r r' : tres A) (f f' : A -> list token -> tres B), same_res r r' ->
    (forall a ts us, like ts us -> same_res (f a ts) (f' a us)) -> same_res (tbind r f) (tbind r' f').
  Proof.
    intros A B [a ts|k g u|p|] [b us|k' g' u'|q|] f f' H Hf; cbn in *; try contradiction; auto. destruct H as [<- H]. auto.
  Qed.

  Lemma same_consume : forall tok ts us, like ts us ->
    fst (t_consume tok ts) = fst (t_consume tok us) /\ like (snd (t_consume tok ts)) (snd (t_consume tok us)).
  Proof.
    intros tok ts us H. pose proof H as H0. destruct H as [|t t' r r' Ht Hr]; [cbn; auto|].
    apply HR in Ht. destruct t as [s|s|c], t' as [s'|s'|c']; try contradiction; cbn; auto.
    subst c'. destruct (Ascii.eqb c tok); cbn; auto.
  Qed.
  Lemma same_assert : forall tok ts us, like ts us -> same_res (t_assert tok ts) (t_assert tok us).
  Proof.
    intros tok ts us H. unfold t_assert. destruct (same_consume tok ts us H) as [E1 E2].
    destruct (t_consume tok ts) as [b r], (t_consume tok us) as [b' r']; cbn in *. subst b'. destruct b; cbn; auto. split; [now left|auto].
  Qed.

  Lemma same_goi : forall el p ts us, like ts us ->
    fst (t_goi cfg el p ts) = fst (t_goi cfg el p us) /\ like (snd (t_goi cfg el p ts)) (snd (t_goi cfg el p us)).
  Proof.
    intros el p ts us H. pose proof H as H0. destruct H as [|t t' r r' Ht Hr]; [cbn; auto|]. apply HR in Ht. unfold t_goi.
    assert (E : match t with TSym c => operator_of_byte c | _ => None end = match t' with TSym c => operator_of_byte c | _ => None end).
    { destruct t, t'; try contradiction; auto. now subst. }
    assert (J : juxtaposable (is_number_node el) t = juxtaposable (is_number_node el) t').
    { destruct t, t'; try contradiction; cbn [juxtaposable]; [|tauto|now subst]. destruct Ht as [_ [_ ->]]. reflexivity. }
    rewrite E, J. destruct (match t' with TSym c => operator_of_byte c | _ => None end) as [op|].
    - destruct (_ <=? _); cbn; auto.
    - destruct (_ <=? _); cbn; auto. destruct (juxtaposable _ t'); cbn; auto.
  Qed.

  Section Open.
    Variables elem elem' : nat -> list token -> tres element.
    Hypothesis He : forall p ts us, like ts us -> same_res (elem p ts) (elem' p us).

    Lemma same_loop : forall b p el ts us, like ts us -> same_res (t_loop cfg elem b p el ts) (t_loop cfg elem' b p el us).
    Proof.
      induction b as [|b IH]; intros p el ts us H; [exact I|]. cbn [t_loop]. destruct (same_goi el p ts us H) as [E1 E2].
      destruct (t_goi cfg el p ts) as [o r], (t_goi cfg el p us) as [o' r']; cbn in *. subst o'. destruct o as [[op k]|]; [|cbn; auto].
      apply same_bind; auto.
    Qed.
    Lemma same_argument : forall ts us, like ts us -> same_res (t_argument elem ts) (t_argument elem' us).
    Proof.
      intros ts us H. unfold t_argument. specialize (He NO_PRECEDENCE ts us H).
      destruct (elem NO_PRECEDENCE ts) as [a r|k f u|p|], (elem' NO_PRECEDENCE us) as [b r'|k' f' u'|q|]; cbn in He; try contradiction; auto.
      destruct He as [[<-|[t [t' [Ht [-> ->]]]]] Hp].
      - destruct k; cbn; (split; [now left|exact Hp]).
      - cbn. split; [now left|exact Hp].
    Qed.
    Lemma same_arguments : forall b args ts us, like ts us -> same_res (t_arguments elem b args ts) (t_arguments elem' b args us).
    Proof.
      induction b as [|b IH]; intros args ts us H; [exact I|]. cbn [t_arguments]. apply same_bind; [now apply same_argument|].
      clear ts us H. intros a ts us H. pose proof H as H0. destruct H as [|t t' r r' Ht Hr]; [cbn; split; [now left|auto]|].
      pose proof Ht as Hb. apply HR in Hb. destruct t as [s|s|c], t' as [s'|s'|c']; try contradiction.
      - cbn [same_res]. split; [|auto]. right. exists (TNum s), (TNum s'). auto.
      - cbn [same_res]. split; [|auto]. right. exists (TId s), (TId s'). auto.
      - subst c'. destruct (Ascii.eqb c ","); [now apply IH|]. destruct (Ascii.eqb c ")"); cbn; auto. split; [now left|auto].
    Qed.
    Lemma same_atom : forall b ts us, like ts us -> same_res (t_atom ctx elem b ts) (t_atom ctx' elem' b us).
    Proof.
      intros b ts us H. pose proof H as H0. destruct H as [|t t' r r' Ht Hr]; [cbn; split; [now left|auto]|].
      pose proof Ht as Hb. apply HR in Hb. destruct t as [s|s|c], t' as [s'|s'|c']; try contradiction; cbn [t_atom].
      - unfold t_number. unfold literal_value in Hb. destruct Hb as [<- [Hn _]]. destruct (parse_f64 _) eqn:E; [cbn; auto|].
        specialize (Hn eq_refl). subst s'. cbn. split; [now left|auto].
      - unfold t_identifier. destruct Hb as [<- _]. destruct (resolve ctx s) as [f|v|x]; [|cbn; auto..].
        destruct (same_consume "(" r r' Hr) as [E1 E2]. destruct (t_consume "(" r) as [o q], (t_consume "(" r') as [o' q']; cbn in E1, E2. subst o'.
        destruct o; [|cbn; split; [now left|auto]]. apply same_bind; [now apply same_arguments|]. intros args q2 q2' H2.
        apply same_bind; [now apply same_assert|]. intros _ q3 q3' H3. unfold t_arity. destruct (fn_nb_args f) as [n|]; [|cbn; auto].
        destruct (Nat.compare _ n); cbn; auto; (split; [now left|auto]).
      - subst c'.
        destruct (Ascii.eqb c "+"); [apply same_bind; auto; intros; cbn; auto|]. destruct (Ascii.eqb c "-"); [apply same_bind; auto; intros; cbn; auto|].
        destruct (Ascii.eqb c "("); [apply same_bind; auto; intros; apply same_bind; [now apply same_assert|]; intros; cbn; auto|].
        destruct (Ascii.eqb c ")"); cbn; (split; [now left|auto]).
    Qed.
  End Open.

  Lemma same_element : forall b p ts us, like ts us -> same_res (t_element cfg w ctx b p ts) (t_element cfg w' ctx' b p us).
  Proof.
    induction b as [|b IH]; intros p ts us H; [exact I|]. cbn [t_element]. apply same_bind; [now apply same_atom|].
    clear ts us H. intros el ts us H. destruct (same_consume "!" ts us H) as [E1 E2].
    destruct (t_consume "!" ts) as [o r], (t_consume "!" us) as [o' r']; cbn in E1, E2. subst o'. apply same_bind; [now apply same_loop|].
    intros el2 r2 r2' H2. rewrite Hfin. destruct (finish_element cfg w' el2); cbn; auto.
  Qed.

  Lemma same_parse : forall b ts us, like ts us -> same_res (t_parse cfg w ctx b ts) (t_parse cfg w' ctx' b us).
  Proof.
    intros b ts us H. unfold t_parse. apply same_bind; [now apply same_element|]. clear ts us H. intros a ts us H. pose proof H as H0.
    destruct H as [|t t' r r' Ht Hr]; [cbn; auto|]. cbn [same_res]. split; [|auto]. right. exists t, t'. auto.
  Qed.
End TwoRuns.
