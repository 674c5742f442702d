(** * An induction principle for the parser

    One induction over the parser, parameterised by a predicate on trees that
    is preserved by everything the parser builds, gives tree invariants, the
    truth of error reports, the absence of panics, progress, and termination. *)
From Coq Require Import ZArith NArith List String Ascii Bool Lia.
From Verif Require Import SpecChars CharFacts.
From Verif Require Import F64 Syntax Builtins Context Element Parser ParserFacts SpecParse.
Import ListNotations.
Local Open Scope nat_scope.

Lemma ws_run : forall input c o c',
  c <= List.length (bytes input) -> next_trim input c = (o, c') ->
  Forall (fun x => a_blank x = true) (firstn (c' - c) (skipn c (bytes input))).
Proof.
  unfold next_trim, skip_while. chars. intros input c o c' Hc H. injection H as Ho Hc'.
  subst c'. replace (c + _ - c) with (prefix_len a_blank (skipn c (bytes input))) by lia.
  apply prefix_len_forall.
Qed.

Lemma double_bang_intro : forall input i c',
  nth_error (bytes input) i = Some "!"%char ->
  next_trim input (S i) = (Some "!"%char, c') ->
  has_double_bang input.
Proof.
  intros input i c' Hi Ht.
  pose proof (nth_error_Some_lt _ _ _ _ Hi) as Hlt.
  pose proof (next_trim_spec input (S i) _ _ Hlt Ht) as [Hr [Ho [Hlt' _]]].
  pose proof (ws_run input (S i) _ _ Hlt Ht) as Hw.
  exists (firstn i (bytes input)), (firstn (c' - S i) (skipn (S i) (bytes input))),
         (skipn (S c') (bytes input)).
  split; [|exact Hw].
  fold (bytes input).
  rewrite <- (firstn_skipn i (bytes input)) at 1. f_equal.
  rewrite (skipn_nth _ _ _ _ Hi). f_equal.
  rewrite <- (firstn_skipn (c' - S i) (skipn (S i) (bytes input))) at 1. f_equal.
  assert (Hs : forall A (l : list A) a b, skipn a (skipn b l) = skipn (b + a) l).
  { clear. intros A l a b. revert l. induction b; intros l; simpl; [reflexivity|].
    destruct l; simpl; [destruct a; reflexivity|]. apply IHb. }
  rewrite Hs. replace (S i + (c' - S i)) with c' by lia.
  apply skipn_nth. symmetry. exact Ho.
Qed.

Lemma names_function_resolve : forall ctx name f,
  names_function ctx name f <-> resolve ctx name = I_Function f.
Proof.
  unfold names_function, resolve, ctx_get. intros.
  destruct (sget name (ctx_symbols ctx)) as [[v|g]|]; simpl; split; intro H.
  - destruct H as [H|[H _]]; discriminate.
  - discriminate.
  - destruct H as [H|[H _]]; congruence.
  - left; congruence.
  - destruct H as [H|[_ H]]; congruence.
  - right; auto.
Qed.

Section Inv.
  Variable cfg : config.
  Variable w : world.
  Variable ctx : context.
  Variable input : string.
  Variable Q : element -> Prop.
  Variable Pn : panic -> Prop.

  Notation bs := (bytes input).
  Notation len := (List.length (bytes input)).

  Hypothesis HNum : forall v, Q (Number v).
  Hypothesis HVar : forall o n name x,
    ident_at input o n name -> o + n <= len -> resolve ctx name = I_Variable x -> Q (Var x).
  Hypothesis HCall : forall o n name f args,
    ident_at input o n name -> resolve ctx name = I_Function f -> args <> [] -> Forall Q args ->
    (forall n, fn_nb_args f = Some n -> List.length args = n) -> Q (Call f args).
  Hypothesis HUn : forall op e, op = Plus \/ op = Minus \/ op = Factorial -> Q e -> Q (UnOp op e).
  Hypothesis HBin : forall op l r,
    (op = Factorial -> has_double_bang input) -> Q l -> Q r -> Q (BinOp op l r).
  Hypothesis HFin : forall e, Q e ->
    match finish_element cfg w e with Val e' => Q e' | Boom p => Pn p end.
  Hypothesis HOvf : input = ""%string -> overflow_checks cfg = true -> Pn ArithOverflow.

  (** The postcondition of a parser function started at [c] that consumes at
      least [k] bytes. *)
  Definition post {A} (good : A -> nat -> Prop) (c k : nat) (fuelless : Prop) (r : pres A) : Prop :=
    match r with
    | POk a c' => good a c' /\ c + k <= c' <= len
    | PErr e c' => error_truthful ctx input e /\ c <= c' <= len /\
                   (forall t, pe_kind e = UnexpectedToken t -> c' < len /\ pe_offset e = N.of_nat c')
    | PPanic p => Pn p
    | PFuel => fuelless
    end.

  Definition no_bang (c : nat) : Prop :=
    fst (next_trim input c) = Some "!"%char -> has_double_bang input.

  Definition good_el (e : element) (c : nat) : Prop := Q e /\ no_bang c.

  Lemma post_weaken : forall A (g g' : A -> nat -> Prop) c c0 k k0 (F F' : Prop) r,
    post g c k F r -> (forall a c', g a c' -> g' a c') -> c0 <= c -> c0 + k0 <= c + k -> (F -> F') ->
    post g' c0 k0 F' r.
  Proof.
    intros A g g' c c0 k k0 F F' r H Hg Hc Hk HF. destruct r; simpl in *; auto.
    - destruct H; split; auto. lia.
    - destruct H as [H1 [H2 H3]]; split; [auto|split; [lia|auto]].
  Qed.

  Lemma post_bind : forall A B (g : A -> nat -> Prop) (h : B -> nat -> Prop) c k k' F (r : pres A) (f : A -> nat -> pres B),
    post g c k F r ->
    (forall a c', g a c' -> c + k <= c' <= len -> post h c' k' F (f a c')) ->
    post h c (k + k') F (pbind r f).
  Proof.
    intros A B g h c k k' F r f H Hf. destruct r; simpl in *; auto.
    - destruct H as [Hg Hc]. specialize (Hf a cursor Hg Hc).
      eapply post_weaken; eauto; lia.
  Qed.

  (** *** errors *)
  Lemma truthful_eoe : forall A g c c0 k F,
    c = len -> c0 <= c -> @post A g c0 k F (err_unexpected_end cfg input c).
  Proof.
    intros A g c c0 k F Hc Hk. unfold err_unexpected_end, fail, usub.
    destruct (Nat.leb 1 c) eqn:E.
    - apply Nat.leb_le in E. simpl. repeat split; try lia; simpl; try discriminate; auto.
      left. exists (c - 1). split; [reflexivity|]. fold bs. lia.
    - apply Nat.leb_gt in E. assert (input = ""%string) as Hi.
      { assert (len = 0) as Hz by lia. rewrite len_input in Hz. destruct input; [auto|discriminate]. }
      destruct (overflow_checks cfg) eqn:Eo.
      + simpl. auto.
      + unfold post, error_truthful. cbn [pe_kind pe_src pe_offset pe_length].
        split; [|split; [lia|intros; discriminate]].
        split; [reflexivity|]. split; [reflexivity|]. right. split; [assumption|].
        replace c with 0 by lia. vm_compute. reflexivity.
  Qed.

  Lemma truthful_ut : forall A g c c0 k F t,
    c0 <= c -> nth_error bs c = Some t -> @post A g c0 k F (err_unexpected_token input t c).
  Proof.
    intros A g c c0 k F t Hc Ht. pose proof (nth_error_Some_lt _ _ _ _ Ht).
    simpl. repeat split; try lia; simpl; auto. exists c; split; auto.
  Qed.

  Lemma truthful_expected : forall A g c c0 k F t,
    c0 <= c <= len -> nth_error bs c <> Some t -> t = "("%char \/ t = ")"%char ->
    @post A g c0 k F (err_expected_token input t c).
  Proof.
    intros A g c c0 k F t Hc Ht Hp. simpl. repeat split; try lia; simpl; try discriminate; auto.
    exists c; repeat split; auto. fold bs. lia.
  Qed.

  Lemma post_assert_eq_consume : forall t c F,
    c <= len -> t = "("%char \/ t = ")"%char ->
    post (fun _ c' => True) c 1 F (assert_eq_consume input t c).
  Proof.
    intros t c F Hc Ht. unfold assert_eq_consume.
    destruct (consume_if_eq input t c) as [b c'] eqn:E.
    destruct (consume_if_eq_spec input _ _ _ _ Hc E) as [o [c0 [En Hb]]].
    destruct (next_trim_spec input _ _ _ Hc En) as [Hr [Ho Hm]].
    destruct b.
    - simpl. destruct Hb as [-> [-> Hl]]. split; auto. lia.
    - destruct Hb as [-> Hne]. apply truthful_expected; auto; try lia. congruence.
  Qed.

  (** *** numbers *)
  Lemma skip_while_step : forall p c b,
    nth_error bs c = Some b -> p b = true -> S c <= skip_while input p c.
  Proof.
    intros p c b Hb Hp. unfold skip_while. rewrite (skipn_nth _ _ _ _ Hb). simpl. rewrite Hp. lia.
  Qed.

  Lemma number_stop : forall c,
    c <= len ->
    let c1 := skip_while input in_mantissa c in
    let might := matches exponent_mark (current input c1) in
    let sgn := might && matches a_sign (next input c1) && matches a_digit (next_at input c1 2) in
    let ex := might && matches a_digit (next input c1) in
    let c2 := c1 + ((if sgn then 1 else 0) * 2 + (if ex then 1 else 0)) in
    c1 <= skip_while input a_digit c2 <= len.
  Proof.
    intros c Hc c1 might sgn ex c2.
    assert (c1 <= len) as H1 by (apply skip_while_le; auto).
    assert (c2 <= len) as H2.
    { subst c2 sgn ex might. unfold matches, current, next, next_at.
      destruct (nth_error bs c1) as [b|] eqn:E0; simpl; [|lia].
      pose proof (nth_error_Some_lt _ _ _ _ E0).
      destruct (exponent_mark b); simpl; [|lia].
      destruct (nth_error bs (c1 + 1)) as [b1|] eqn:E1; simpl.
      - pose proof (nth_error_Some_lt _ _ _ _ E1).
        destruct (nth_error bs (c1 + 2)) as [b2|] eqn:E2; simpl.
        + pose proof (nth_error_Some_lt _ _ _ _ E2).
          destruct (a_sign b1) eqn:Es; simpl.
          * assert (a_digit b1 = false) as ->.
            { unfold a_sign in Es. apply orb_true_iff in Es.
              destruct Es as [Es|Es]; apply Ascii.eqb_eq in Es; subst; reflexivity. }
            destruct (a_digit b2); simpl; lia.
          * destruct (a_digit b1); simpl; lia.
        + rewrite andb_false_r. simpl. destruct (a_digit b1); simpl; lia.
      - lia. }
    pose proof (skip_while_ge input a_digit c2).
    pose proof (skip_while_le input a_digit c2 H2).
    assert (c1 <= c2) by (unfold c2; lia). lia.
  Qed.

  Lemma post_parse_number : forall c b F,
    nth_error bs c = Some b -> a_digit b || Ascii.eqb b "." = true ->
    post (fun e c' => Q e) c 1 F (parse_number cfg input c).
  Proof.
    intros c b F Hb Hd. pose proof (nth_error_Some_lt _ _ _ _ Hb) as Hlt.
    unfold parse_number. chars.
    set (c1 := skip_while input in_mantissa c).
    match goal with |- context [skip_while input a_digit ?x] => set (c2 := x) end.
    assert (c1 <= skip_while input a_digit c2 <= len) as Hs by (apply number_stop; lia).
    assert (S c <= c1) as H1.
    { eapply skip_while_step; eauto. unfold in_mantissa.
      destruct (a_digit b); simpl in *; auto. now rewrite Hd. }
    set (stop := skip_while input a_digit c2) in *.
    pose proof (slice_length input c stop) as Hsl.
    destruct (parse_f64 _) as [v|] eqn:E; simpl.
    - split; auto. lia.
    - unfold err_malformed_number, fail, usub. rewrite Hsl by lia.
      replace (Nat.leb (stop - c) stop) with true by (symmetry; apply Nat.leb_le; lia).
      simpl. repeat split; try lia; simpl; try discriminate; auto.
      + intro Hnil. rewrite Hnil in Hsl. simpl in Hsl. lia.
      + now rewrite Hsl by lia.
      + exists c. rewrite Hsl by lia. split; [f_equal; lia|]. fold bs. split; [lia|].
        unfold slice. rewrite list_ascii_of_string_of_list_ascii. reflexivity.
  Qed.

  (** *** identifiers *)
  Lemma ident_at_slice : forall c b,
    nth_error bs c = Some b -> a_letter b = true ->
    let stop := skip_while input in_name c in
    S c <= stop <= len /\ ident_at input c (stop - c) (slice input c stop).
  Proof.
    intros c b Hb Ha stop. pose proof (nth_error_Some_lt _ _ _ _ Hb) as Hlt.
    assert (S c <= stop) as H1.
    { eapply skip_while_step; eauto. unfold in_name, a_letter in *.
      destruct (a_capital b), (a_small b); simpl in *; try discriminate; now rewrite ?orb_true_r. }
    assert (stop <= len) as H2 by (apply skip_while_le; lia).
    split; [lia|].
    assert (Hsl : list_ascii_of_string (slice input c stop) = firstn (stop - c) (skipn c bs)).
    { unfold slice. now rewrite list_ascii_of_string_of_list_ascii. }
    unfold ident_at. rewrite Hsl. fold bs. repeat split.
    - apply slice_length. lia.
    - lia.
    - intros x Hx. rewrite (skipn_nth _ _ _ _ Hb) in Hx.
      destruct (stop - c) eqn:E; [lia|]. simpl in Hx. congruence.
    - unfold stop, skip_while.
      replace (c + _ - c) with (prefix_len in_name (skipn c bs)) by lia.
      apply prefix_len_forall.
    - intros x Hx. replace (c + (stop - c)) with stop in Hx by lia.
      eapply (skip_while_stop input in_name c). exact Hx.
  Qed.

  Section Step.
    Variable elem : nat -> nat -> pres element.
    Variable budget : nat.
    (** what the recursive calls guarantee *)
    Hypothesis Helem : forall p c, c <= len ->
      post good_el c 1 (budget < (len - c) + 2) (elem p c).

    Definition short (c : nat) : Prop := budget < (len - c) + 1.

    Lemma post_argument : forall c,
      1 <= c <= len -> post good_el c 1 (budget < (len - c) + 2) (argument cfg input elem c).
    Proof.
      intros c Hc. unfold argument. pose proof (Helem NO_PRECEDENCE c (proj2 Hc)) as H.
      destruct (elem NO_PRECEDENCE c); simpl in H; auto.
      assert (Hd : {t | pe_kind e = UnexpectedToken t} + (forall t, pe_kind e <> UnexpectedToken t)).
      { destruct (pe_kind e); try (right; congruence). left; eexists; reflexivity. }
      destruct Hd as [[t Ek]|Hn].
      2:{ destruct (pe_kind e) eqn:Ek; try (simpl; rewrite ?Ek; exact H). exfalso; eapply Hn; reflexivity. }
      rewrite Ek. destruct H as [H1 [H2 H3]]. destruct (H3 _ Ek) as [Hlt Hoff].
      unfold err_missing_argument, fail, usub.
      replace (Nat.leb 1 cursor) with true by (symmetry; apply Nat.leb_le; lia).
      simpl. repeat split; try lia; simpl; try discriminate; auto.
      exists (cursor - 1). split; auto. fold bs. lia.
    Qed.

    Lemma post_parse_arguments : forall k args c (F : Prop),
      1 <= c <= len -> Forall Q args ->
      (forall c', c <= c' <= len -> budget < (len - c') + 2 -> F) -> (k <= len - c -> F) ->
      post (fun l c' => l <> [] /\ Forall Q l /\ nth_error bs c' = Some ")"%char /\
                        2 * List.length l + c <= 2 * List.length args + c' + 1) c 1 F
           (parse_arguments cfg input elem k args c).
    Proof.
      induction k; intros args c F Hc Ha HF Hk; cbn [parse_arguments].
      - simpl. apply Hk. lia.
      - replace 1 with (1 + 0) by lia.
        eapply post_bind; [eapply post_weaken; [apply post_argument; lia| | | |]|].
        + intros a c' Hg; exact Hg.
        + lia.
        + lia.
        + intro. eapply (HF c); [lia|]. assumption.
        + intros arg c1 [HQ Hnb] Hc1.
          destruct (next_trim input c1) as [o c2] eqn:En.
          destruct (next_trim_spec input _ _ _ (proj2 Hc1) En) as [Hr [Ho Hm]].
          assert (Forall Q (args ++ [arg])) as Ha'.
          { apply Forall_app; split; auto. }
          destruct o as [tok|].
          * destruct Hm as [Hlt _].
            destruct (Ascii.eqb tok ",") eqn:Ec.
            -- eapply post_weaken; [apply (IHk _ (S c2) F)| | | |]; auto; try lia.
               ++ intros c' Hc' Hb. apply (HF c'); [lia|]. exact Hb.
               ++ intro. apply Hk. lia.
               ++ intros l c' (Hl & HQl & Hp & Hn). repeat split; auto.
                  rewrite app_length in Hn. cbn [List.length] in Hn. lia.
            -- destruct (Ascii.eqb tok ")") eqn:Ep.
               ++ simpl. apply Ascii.eqb_eq in Ep. subst tok. split; [|lia]. repeat split; auto.
                  ** intro Hx. apply app_eq_nil in Hx. destruct Hx; discriminate.
                  ** rewrite app_length. cbn [List.length]. lia.
               ++ apply truthful_ut; [lia|congruence].
          * apply truthful_eoe; lia.
    Qed.

    Lemma post_check_arity : forall f args start n name c F,
      ident_at input start n name -> start + n + 1 + 2 * List.length args <= c -> c <= len ->
      resolve ctx name = I_Function f -> args <> [] -> Forall Q args ->
      post (fun e _ => Q e) c 0 F (check_arity input f args start c).
    Proof.
      intros f args start n name c F Hid Hc Hcl Hr Hne Ha. unfold check_arity.
      destruct (fn_nb_args f) as [nb|] eqn:En.
      - destruct (Nat.compare (List.length args) nb) eqn:Ec.
        + apply Nat.compare_eq in Ec. simpl. split; [|lia].
          eapply HCall; eauto. intros m Hm. congruence.
        + apply Nat.compare_lt_iff in Ec. simpl. repeat split; try lia; simpl; try discriminate; auto.
          * destruct args; [congruence|simpl; lia].
          * exists start, (c - start), n, name, f. fold bs. repeat split; auto; try lia; try apply Hid.
            apply names_function_resolve. exact Hr.
        + apply Nat.compare_gt_iff in Ec. simpl. repeat split; try lia; simpl; try discriminate; auto.
          exists start, (c - start), n, name, f. fold bs. repeat split; auto; try lia; try apply Hid.
          apply names_function_resolve. exact Hr.
      - simpl. split; [|lia]. eapply HCall; eauto. intros m Hm. congruence.
    Qed.

    Lemma post_parse_identifier : forall c b,
      nth_error bs c = Some b -> a_letter b = true ->
      post (fun e _ => Q e) c 1 (short c) (parse_identifier cfg ctx input elem budget c).
    Proof.
      intros c b Hb Ha. destruct (ident_at_slice c b Hb Ha) as [Hs Hid].
      unfold parse_identifier. chars.
      set (stop := skip_while input in_name c) in *.
      destruct (resolve ctx (slice input c stop)) as [f|v|x] eqn:Er.
      - destruct (consume_if_eq input "(" stop) as [p c1] eqn:E.
        destruct (consume_if_eq_spec input _ _ _ _ (proj2 Hs) E) as [o [c0 [En Hp]]].
        destruct (next_trim_spec input _ _ _ (proj2 Hs) En) as [Hr [Ho Hm]].
        destruct p.
        + destruct Hp as [-> [-> Hl]].
          eapply post_weaken with (c := S c0) (k := 2).
          * replace 2 with (1 + (1 + 0)) by lia. eapply post_bind.
            -- apply post_parse_arguments with (F := short c); auto; try lia.
               ++ intros c' Hc' Hb'. unfold short. lia.
               ++ intro. unfold short. lia.
            -- intros args c2 (Hne & HQ & Hpar & Hn) Hc2. cbn [List.length] in Hn. eapply post_bind.
               ++ apply post_assert_eq_consume; [lia|auto].
               ++ intros [] c3 _ Hc3. eapply post_check_arity; eauto. lia. lia.
          * auto.
          * lia.
          * lia.
          * auto.
        + destruct Hp as [-> Hne]. apply truthful_expected; auto. lia. congruence.
      - simpl. split; auto. lia.
      - simpl. split; [|lia]. eapply HVar; eauto. lia.
    Qed.

    Lemma post_atom : forall c, c <= len ->
      post (fun e _ => Q e) c 1 (short c) (atom cfg ctx input elem budget c).
    Proof.
      intros c Hc. unfold atom. chars. destruct (next_trim input c) as [o c0] eqn:En.
      destruct (next_trim_spec input _ _ _ Hc En) as [Hr [Ho Hm]].
      destruct o as [b|].
      2:{ apply truthful_eoe; lia. }
      destruct Hm as [Hlt Hws]. symmetry in Ho.
      destruct (a_digit b || Ascii.eqb b ".") eqn:Ed.
      { eapply post_weaken; [eapply post_parse_number; eauto| | | |]; eauto; lia. }
      destruct (a_letter b) eqn:Ea.
      { eapply post_weaken; [eapply post_parse_identifier; eauto| | | |]; eauto; unfold short; lia. }
      assert (Hshort : forall p, post good_el (S c0) 1 (short c) (elem p (S c0))).
      { intro p. eapply post_weaken; [apply Helem| | | |]; eauto; unfold short; lia. }
      assert (Hun : forall op, op = Plus \/ op = Minus \/ op = Factorial ->
        post (fun e _ => Q e) c 1 (short c)
          (pbind (elem UNOP_PRECEDENCE (S c0)) (fun e c1 => POk (UnOp op e) c1))).
      { intros op Hop. eapply post_weaken with (c := S c0) (k := 1) (g := fun e _ => Q e).
        - replace 1 with (1 + 0) by lia. eapply post_bind; [apply Hshort|].
          intros a c' [HQ _] Hc'. simpl. split; [auto|lia].
        - intros a c' H. exact H.
        - lia.
        - lia.
        - auto. }
      destruct (Ascii.eqb b "+") eqn:E1; [apply Hun; auto|].
      destruct (Ascii.eqb b "-") eqn:E2; [apply Hun; auto|].
      destruct (Ascii.eqb b "(") eqn:E3.
      { eapply post_weaken with (c := S c0) (k := 2) (g := fun e _ => Q e).
        - replace 2 with (1 + (1 + 0)) by lia. eapply post_bind; [apply Hshort|].
          intros a c' [HQ _] Hc'. eapply post_bind; [apply post_assert_eq_consume; [lia|auto]|].
          intros u c2 _ Hc2. simpl. split; [|lia]. exact HQ.
        - intros a c' H. exact H.
        - lia.
        - lia.
        - auto. }
      destruct (Ascii.eqb b ")") eqn:E4.
      { apply truthful_ut; [lia|]. apply Ascii.eqb_eq in E4. congruence. }
      unfold err_illegal_character. simpl. repeat split; try lia; simpl; try discriminate; auto.
      - apply orb_false_iff in Ed. tauto.
      - apply orb_false_iff in Ed. destruct Ed as [_ Ed].
        apply Ascii.eqb_neq in Ed, E1, E2, E3, E4. intros [H|[H|[H|[H|[H|[]]]]]]; congruence.
      - exists c0. split; auto.
    Qed.

    Lemma operator_of_byte_bang : forall b, operator_of_byte b = Some Factorial -> b = "!"%char.
    Proof.
      intros b H. unfold operator_of_byte in H.
      destruct (Ascii.eqb b "!") eqn:E; [now apply Ascii.eqb_eq in E|].
      repeat match type of H with context [if ?x then _ else _] => destruct x; try discriminate end.
    Qed.

    Lemma goi_spec : forall el p c r c', c <= len ->
      get_operator_infos cfg input el p c = (r, c') ->
      c <= c' <= len /\
      match r with
      | None => next_trim input c' = (nth_error bs c', c') /\
                next_trim input c = (nth_error bs c', c')
      | Some (op, _) => op = Factorial -> fst (next_trim input c) = Some "!"%char
      end.
    Proof.
      intros el p c r c' Hc H. unfold get_operator_infos in H. chars.
      destruct (next_trim input c) as [o c0] eqn:En.
      destruct (next_trim_spec input _ _ _ Hc En) as [Hr [Ho Hm]].
      pose proof (next_trim_fixed input _ _ _ Hc En) as Hfix.
      assert (Hnone : (None, c0) = (r, c') -> c <= c' <= len /\
        match r with
        | None => next_trim input c' = (nth_error bs c', c') /\ (o, c0) = (nth_error bs c', c')
        | Some (op, _) => op = Factorial -> fst (o, c0) = Some "!"%char
        end).
      { intro He. injection He as <- <-. split; [lia|]. rewrite <- Ho. auto. }
      destruct o as [b|]; [|auto].
      destruct (operator_of_byte b) as [op|] eqn:Eo.
      - destruct (Nat.leb (get_for_op op) p); [auto|].
        injection H as <- <-. split; [lia|]. intros ->.
        apply operator_of_byte_bang in Eo. simpl. congruence.
      - destruct (Nat.leb (implicit_precedence cfg) p); [auto|].
        destruct (a_small b || Ascii.eqb b "(").
        + injection H as <- <-. split; [lia|]. discriminate.
        + destruct (a_digit b); [|auto].
          destruct el; auto; injection H as <- <-; (split; [lia|]); discriminate.
    Qed.

    Lemma post_binop_loop : forall k p el c (F : Prop),
      c <= len -> Q el -> no_bang c ->
      (forall c', c <= c' <= len -> budget < (len - c') + 2 -> F) -> (k <= len - c -> F) ->
      post good_el c 0 F (binop_loop cfg input elem k p el c).
    Proof.
      induction k; intros p el c F Hc Hel Hnb HF Hk; cbn [binop_loop].
      - simpl. apply Hk. lia.
      - destruct (get_operator_infos cfg input el p c) as [r c'] eqn:E.
        destruct (goi_spec _ _ _ _ _ Hc E) as [Hc' Hr].
        destruct r as [[op op_p]|].
        + eapply post_weaken with (c := c') (k := 1) (g := good_el).
          * replace 1 with (1 + 0) by lia. eapply post_bind.
            -- eapply post_weaken; [apply (Helem op_p c'); lia| | | |].
               ++ intros a x Hg. exact Hg.
               ++ lia.
               ++ lia.
               ++ intro. apply (HF c'); auto.
            -- intros rhs c2 [HQ Hnb2] Hc2.
               apply (IHk p (BinOp op el rhs) c2 F); auto; try lia.
               ++ intros c3 Hc3 Hb3. apply (HF c3); [lia|auto].
               ++ intro. apply Hk. lia.
          * intros a x H. exact H.
          * lia.
          * lia.
          * auto.
        + simpl. destruct Hr as [Hfix Hr]. split; [|lia]. split; auto.
          unfold no_bang in *. rewrite Hfix. rewrite Hr in Hnb. simpl in *. auto.
    Qed.
  End Step.

  Theorem post_element : forall budget p c, c <= len ->
    post good_el c 1 (budget < (len - c) + 2) (element_at cfg w ctx input budget p c).
  Proof.
    induction budget; intros p c Hc.
    - simpl. lia.
    - cbn [element_at].
      replace 1 with (1 + 0) by lia. eapply post_bind.
      + eapply post_weaken; [apply (post_atom _ budget IHbudget c Hc)| | | |].
        * intros a c' H; exact H.
        * lia.
        * lia.
        * unfold short. lia.
      + intros el c1 HQ Hc1.
        destruct (consume_if_eq input "!" c1) as [b c2] eqn:E.
        destruct (consume_if_eq_spec input _ _ _ _ (proj2 Hc1) E) as [o [c0 [En Hb]]].
        destruct (next_trim_spec input _ _ _ (proj2 Hc1) En) as [Hr [Ho Hm]].
        assert (c1 <= c2 <= len /\ no_bang c2 /\ Q (if b then UnOp Factorial el else el)) as [Hc2 [Hnb HQ']].
        { destruct b.
          - destruct Hb as [-> [-> Hl]]. split; [lia|]. split; [|auto].
            intro Hx. destruct (next_trim input (S c0)) as [o2 c3] eqn:E3. simpl in Hx. subst o2.
            eapply double_bang_intro; eauto.
          - destruct Hb as [-> Hne]. split; [lia|]. split; [|auto].
            intro Hx. exfalso. rewrite (next_trim_fixed input _ _ _ (proj2 Hc1) En) in Hx.
            simpl in Hx. congruence. }
        eapply post_weaken with (c := c2) (k := 0) (g := good_el).
        * replace 0 with (0 + 0) by lia. eapply post_bind.
          -- apply (post_binop_loop _ budget IHbudget budget p _ c2 (S budget < len - c + 2)); auto; lia.
          -- intros el' c3 [HQ3 Hnb3] Hc3. pose proof (HFin el' HQ3) as HF.
             unfold plift. destruct (finish_element cfg w el'); simpl; auto.
             split; [|lia]. split; auto.
        * intros a c' H; exact H.
        * lia.
        * lia.
        * auto.
  Qed.
End Inv.
