(** * Lock-step of the optimising and the plain parser *)
From Coq Require Import ZArith NArith List String Ascii Bool Lia.
From Verif Require Import F64 Syntax Factorial Builtins Context Element Parser SpecTree TreeFacts SimplifyFacts.
From Verif Require Import SpecTokens SpecGrammar SpecRegular TokenFacts TokenParser TokenMono GrammarFacts JuxtaFacts.
Import ListNotations.
Local Open Scope nat_scope.

Section Opt.
  Variable cfg cfg' : config.
  Variable w : world.
  Variable ctx : context.
  Hypothesis Ho : optimize cfg = true.
  Hypothesis Ho' : optimize cfg' = false.
  Hypothesis Hp : pejmdas cfg = pejmdas cfg'.

  Notation clear := no_number_after_parenthesis.
  Lemma nn_suffix : forall u ts, clear (u ++ ts) -> clear ts.
  Proof. intros u ts H H'. apply H. now apply adjacent_suffix. Qed.

  Notation sf := (simplified_from cfg w).

  (** the answer of the optimising parser against the plain one's *)
  Definition tracks {A} (R : A -> A -> Prop) (o p : tres A) : Prop :=
    match o with
    | TOk t' rest => exists t, p = TOk t rest /\ R t t'
    | TErr k f u => p = TErr k f u
    | TPanic _ => True
    | TFuel => p = TFuel
    end.

  Lemma tracks_bind : forall A B (R : A -> A -> Prop) (S : B -> B -> Prop) o p f g,
    tracks R o p -> (forall t t' rest, o = TOk t' rest -> R t t' -> tracks S (f t' rest) (g t rest)) ->
    tracks S (tbind o f) (tbind p g).
  Proof.
    intros A B R S [t' rest|k fr up|q|] p f g H Hf; cbn in *; subst; cbn; auto.
    destruct H as [t [-> HR]]. cbn. auto.
  Qed.

  Lemma goi_opt : forall el el' p u a ts, clear (u ++ a :: ts) ->
    (bare_number el = bare_number el' \/ a = TSym ")") ->
    t_goi cfg el' p ts = t_goi cfg' el p ts.
  Proof.
    intros el el' p u a [|t r] Hc Hn; auto. unfold t_goi, implicit_precedence. rewrite Hp.
    destruct (match t with TSym c => operator_of_byte c | _ => None end); auto.
    destruct (_ <=? p); auto.
    assert (E : juxtaposable (is_number_node el') t = juxtaposable (is_number_node el) t); [|now rewrite E].
    destruct t as [s|s|c]; auto. cbn. unfold is_number_node. destruct Hn as [-> | ->]; auto.
    exfalso. apply Hc. exists u, (TSym ")"), (TNum s), r. split; auto. split; eauto.
  Qed.

  Section Open.
    Variable elem elem' : nat -> list token -> tres element.
    Hypothesis He : forall p ts, clear ts -> tracks sf (elem p ts) (elem' p ts).
    Hypothesis Hr : forall p ts t rest, elem p ts = TOk t rest -> read ctx ts rest.

    Lemma opt_loop : forall b p el el' u a ts, clear (u ++ a :: ts) -> sf el el' ->
      (bare_number el = bare_number el' \/ a = TSym ")") ->
      tracks sf (t_loop cfg elem b p el' ts) (t_loop cfg' elem' b p el ts).
    Proof.
      induction b as [|b IH]; intros p el el' u a ts Hc Hs Hn; cbn [t_loop]; [reflexivity|].
      rewrite (goi_opt el el' p u a ts Hc Hn).
      destruct (t_goi cfg' el p ts) as [[[op k]|] ts'] eqn:E.
      - destruct (goi_rest cfg' _ _ _ _ _ _ E) as [u' ->].
        assert (Hc' : clear ts').
        { apply nn_suffix with (u ++ a :: u'). rewrite <- app_assoc. exact Hc. }
        eapply tracks_bind; [apply He; auto|]. intros t t' rest Ht HR.
        apply Hr in Ht. destruct Ht as [u2 [a2 [-> Ha2]]].
        apply IH with (u := u2) (a := a2); auto. now constructor.
      - cbn. eauto.
    Qed.

    Lemma simplified_app : forall l l' a a', simplified_all cfg w l l' -> sf a a' ->
      simplified_all cfg w (l ++ [a]) (l' ++ [a']).
    Proof. induction l; intros l' b b' H Hb; inversion H; subst; cbn; repeat (constructor; auto). Qed.

    Lemma opt_arguments : forall b acc acc' ts, clear ts -> simplified_all cfg w acc acc' ->
      tracks (simplified_all cfg w) (t_arguments elem b acc' ts) (t_arguments elem' b acc ts).
    Proof.
      induction b as [|b IH]; intros acc acc' ts Hc Ha; cbn [t_arguments]; [reflexivity|]. unfold t_argument.
      pose proof (He NO_PRECEDENCE ts Hc) as H1.
      destruct (elem NO_PRECEDENCE ts) as [arg r|k| |] eqn:Ee; cbn in H1; try (rewrite H1; cbn; try destruct k; reflexivity); [|exact I].
      destruct H1 as [arg0 [-> Hs]]. cbn [tbind]. apply Hr in Ee. destruct (read_suffix _ _ _ Ee) as [u Eu].
      pose proof (simplified_app _ _ _ _ Ha Hs) as Ha'.
      destruct r as [|[s|s|c] r]; try reflexivity. 
      destruct (Ascii.eqb c ","); [|destruct (Ascii.eqb c ")"); [cbn; eauto|reflexivity]].
      apply IH; auto. apply nn_suffix with (u ++ [TSym c]). rewrite <- app_assoc. cbn. now rewrite <- Eu.
    Qed.

    Lemma simplified_length : forall l l', simplified_all cfg w l l' -> List.length l = List.length l'.
    Proof. intros l l' H. induction H; cbn; auto. Qed.

    Lemma tracks_same : forall A (R : A -> A -> Prop) r, (forall a, R a a) -> tracks R r r.
    Proof. intros A R [] H; cbn; eauto. Qed.

    (** an operand is a number for both, unless it is a parenthesis *)
    Definition operands (ts : list token) (t t' : element) : Prop :=
      sf t t' /\ (bare_number t = bare_number t' \/ exists r, ts = TSym "(" :: r).

    Lemma opt_atom : forall b ts, clear ts -> tracks (operands ts) (t_atom ctx elem b ts) (t_atom ctx elem' b ts).
    Proof.
      intros b [|t ts] Hc; [reflexivity|]. assert (Ht : clear ts) by now apply (nn_suffix [t]).
      unfold operands. destruct t as [s|s|c]; cbn [t_atom].
      - unfold t_number. destruct (parse_f64 _); cbn; eauto using simplified_from.
      - unfold t_identifier. destruct (resolve ctx s); cbn; eauto 6 using simplified_from.
        destruct (t_consume "(" ts) as [[] r] eqn:Ec; [|reflexivity]. apply consume_true in Ec. subst ts.
        apply (nn_suffix [TSym "("]) in Ht.
        eapply tracks_bind; [apply opt_arguments; [exact Ht|constructor]|]. intros args args' rest _ HR.
        eapply tracks_bind; [apply tracks_same with (R := eq); auto|]. intros x x' rest' _ _.
        unfold t_arity. rewrite (simplified_length _ _ HR).
        destruct (fn_nb_args f) as [n|]; [destruct (Nat.compare _ _)|]; cbn; eauto 6 using simplified_from.
      - destruct (Ascii.eqb c "+").
        { eapply tracks_bind; [now apply He|]. intros x x' r _ HR. cbn. eauto 6 using simplified_from. }
        destruct (Ascii.eqb c "-").
        { eapply tracks_bind; [now apply He|]. intros x x' r _ HR. cbn. eauto 6 using simplified_from. }
        destruct (Ascii.eqb c "(") eqn:Ep.
        { apply Ascii.eqb_eq in Ep. subst c. eapply tracks_bind; [now apply He|]. intros x x' r _ HR.
          eapply tracks_bind; [apply tracks_same with (R := eq); auto|]. intros y y' rest' _ _. cbn. eauto 6. }
        destruct (Ascii.eqb c ")"); reflexivity.
    Qed.

    (** a parenthesis ends with ")" *)
    Lemma atom_paren : forall b ts t r u a, t_atom ctx elem b (TSym "(" :: ts) = TOk t r ->
      TSym "(" :: ts = u ++ a :: r -> a = TSym ")".
    Proof.
      intros b ts t r u a H E. cbn [t_atom] in H. 
      replace (Ascii.eqb "(" "+") with false in H by reflexivity. replace (Ascii.eqb "(" "-") with false in H by reflexivity.
      replace (Ascii.eqb "(" "(") with true in H by reflexivity.
      destruct (elem NO_PRECEDENCE ts) as [x r1| | |] eqn:Ee; cbn [tbind] in H; try discriminate H.
      destruct (t_assert ")" r1) as [y r2| | |] eqn:Ea; cbn [tbind] in H; try discriminate H. injection H as <- <-.
      apply sound_assert in Ea. subst r1. apply Hr in Ee. destruct (read_suffix _ _ _ Ee) as [v ->].
      change (TSym "(" :: v ++ TSym ")" :: r2) with ((TSym "(" :: v) ++ [TSym ")"] ++ r2) in E.
      change (u ++ a :: r2) with (u ++ [a] ++ r2) in E. rewrite !app_assoc in E. apply app_inv_tail in E.
      apply app_inj_tail in E. symmetry. apply E.
    Qed.
  End Open.

  (** the last token before the operators *)
  Lemma atoms_agree : forall b ts el el' r, clear ts ->
    (forall p ts, clear ts -> tracks sf (t_element cfg w ctx b p ts) (t_element cfg' w ctx b p ts)) ->
    t_atom ctx (t_element cfg w ctx b) b ts = TOk el' r -> t_atom ctx (t_element cfg' w ctx b) b ts = TOk el r ->
    sf el el' /\ exists u a, ts = u ++ a :: r /\ (bare_number el = bare_number el' \/ a = TSym ")").
  Proof.
    intros b ts el el' r Hc IH Ea Ea'.
    pose proof (opt_atom _ _ IH (read_element cfg w ctx b) b ts Hc) as Ha. rewrite Ea in Ha. cbn [tracks] in Ha.
    destruct Ha as [t [E [Hs Hb]]]. rewrite Ea' in E. injection E as <-. split; [exact Hs|].
    destruct (read_atom ctx _ (read_element cfg w ctx b) _ _ _ _ Ea) as [u [a [E1 _]]]. exists u, a. split; [exact E1|].
    destruct Hb as [Hb|[ts' ->]]; [auto|]. right. eapply atom_paren; [|exact Ea|exact E1].
    intros; eapply read_element; eauto.
  Qed.

  Lemma opt_element : forall b p ts, clear ts -> tracks sf (t_element cfg w ctx b p ts) (t_element cfg' w ctx b p ts).
  Proof.
    induction b as [|b IH]; intros p ts Hc; cbn [t_element]; [reflexivity|].
    pose proof (opt_atom _ _ IH (read_element cfg w ctx b) b ts Hc) as Ha.
    destruct (t_atom ctx (t_element cfg w ctx b) b ts) as [el' r| | |] eqn:Ea; cbn [tracks] in Ha; try (rewrite Ha; reflexivity); [|exact I].
    destruct Ha as [el [Ea' _]]. rewrite Ea'. cbn [tbind].
    destruct (atoms_agree b ts el el' r Hc IH Ea Ea') as [Hs [u [a [E1 Hn]]]].
    destruct (t_consume "!" r) as [bang r2] eqn:Ec.
    eapply tracks_bind.
    - destruct bang.
      + apply consume_true in Ec. subst r. rewrite E1 in Hc.
        apply opt_loop with (u := u ++ [a]) (a := TSym "!"); auto.
        * intros; eapply read_element; eauto.
        * rewrite <- app_assoc. exact Hc.
        * now constructor.
      + apply consume_false in Ec. subst r2. rewrite E1 in Hc.
        apply opt_loop with (u := u) (a := a); auto. intros; eapply read_element; eauto.
    - intros t t' rest _ HR. unfold finish_element. rewrite Ho, Ho'. cbn.
      destruct (simplify cfg w t') eqn:Es; cbn; auto. exists t. split; auto. eapply Z_simplify; eauto.
  Qed.

  Lemma opt_parse : forall b ts, clear ts -> tracks sf (t_parse cfg w ctx b ts) (t_parse cfg' w ctx b ts).
  Proof.
    intros b ts Hc. unfold t_parse. eapply tracks_bind; [now apply opt_element|].
    intros t t' rest _ HR. destruct rest; cbn; eauto.
  Qed.
End Opt.
