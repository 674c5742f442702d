(** * C60: texts with characters outside ASCII *)
From Coq Require Import ZArith NArith List String Ascii Bool Lia.
From Verif Require Import SpecChars CharFacts.
From Verif Require Import F64 Syntax Factorial Builtins Context Element Parser Xprs Display.
From Verif Require Import ParserFacts SpecParse ParserInv SpecTree SpecUtf8 SpecApi ParserResults TestWorld PropertiesParse.
Import ListNotations.
Local Open Scope nat_scope.

Definition seven (c : ascii) : Prop := (code c <= 127)%N.

(** ** The parser steps over nothing but ASCII *)
Ltac bytes8 c := destruct c as [[] [] [] [] [] [] [] []]; vm_compute; try congruence; try discriminate.

Lemma seven_blank : forall c, a_blank c = true -> seven c. Proof. intro c. bytes8 c. Qed.
Lemma seven_name : forall c, in_name c = true -> seven c. Proof. intro c. bytes8 c. Qed.
Lemma seven_mantissa : forall c, in_mantissa c = true -> seven c. Proof. intro c. bytes8 c. Qed.
Lemma seven_digit : forall c, a_digit c = true -> seven c. Proof. intro c. bytes8 c. Qed.
Lemma seven_exp : forall c, exponent_mark c = true -> seven c. Proof. intro c. bytes8 c. Qed.
Lemma seven_sign : forall c, a_sign c = true -> seven c. Proof. intro c. bytes8 c. Qed.
Lemma seven_op : forall c o, operator_of_byte c = Some o -> seven c. Proof. intros c o. bytes8 c. Qed.

Section Steps.
  Variable cfg : config.
  Variable w : world.
  Variable ctx : context.
  Variable input : string.
  Notation bs := (bytes input).
  Notation len := (List.length (bytes input)).


  (** everything from [base] to the position [c] is ASCII *)
  Variable base : nat.
  Definition plain_upto (c : nat) : Prop := c <= len /\ forall i b, base <= i -> i < c -> nth_error bs i = Some b -> seven b.

  Lemma plain_base : base <= len -> plain_upto base.
  Proof. intro H. split; [exact H|]. intros; lia. Qed.

  Lemma plain_le : forall c c', plain_upto c -> c' <= c -> plain_upto c'.
  Proof. intros c c' [H1 H2] Hle. split; [lia|]. intros i b Hb Hi. apply H2; lia. Qed.

  Lemma plain_S : forall c b, plain_upto c -> nth_error bs c = Some b -> seven b -> plain_upto (S c).
  Proof.
    intros c b [H1 H2] Hb Hs. split; [apply nth_error_Some_lt in Hb; lia|].
    intros i b' Hba Hi Hb'. destruct (Nat.eq_dec i c) as [-> |]; [congruence|]. apply (H2 i); [lia|lia|assumption].
  Qed.

  Lemma plain_skip : forall p c, (forall b, p b = true -> seven b) -> plain_upto c -> plain_upto (skip_while input p c).
  Proof.
    intros p c Hp [H1 H2]. split; [now apply skip_while_le|].
    intros i b Hba Hi Hb. destruct (Nat.lt_ge_cases i c) as [Hlt|Hge]; [eauto|].
    apply Hp. eapply skip_while_run; [split; [exact Hge|exact Hi]|exact Hb].
  Qed.

  Lemma plain_trim : forall c o c', plain_upto c -> next_trim input c = (o, c') ->
    plain_upto c' /\ o = nth_error bs c' /\ (o = None -> c' = len).
  Proof.
    intros c o c' H E. pose proof (next_trim_spec _ _ _ _ (proj1 H) E) as [_ [Ho Hm]]. unfold next_trim in E.
    apply pair_equal_spec in E. destruct E as [_ <-]. split; [|split; [exact Ho|intros ->; exact Hm]].
    apply plain_skip; [apply seven_blank|exact H].
  Qed.

  Lemma plain_consume : forall t c b c', seven t -> plain_upto c -> consume_if_eq input t c = (b, c') -> c <= c' /\ plain_upto c'.
  Proof.
    intros t c b c' Ht H E. split.
    { destruct (consume_if_eq_spec _ _ _ _ _ (proj1 H) E) as [o [c0 [En Hb]]].
      pose proof (next_trim_spec _ _ _ _ (proj1 H) En) as [Hr _]. destruct b; lia. }
    unfold consume_if_eq in E. destruct (next_trim input c) as [o c0] eqn:En.
    destruct (plain_trim _ _ _ H En) as [H0 [Ho _]]. destruct o as [x|].
    - destruct (Ascii.eqb x t) eqn:Ex; apply pair_equal_spec in E; destruct E as [_ <-]; [|exact H0].
      apply Ascii.eqb_eq in Ex. subst x. eapply plain_S; eauto.
    - apply pair_equal_spec in E. destruct E as [_ <-]. exact H0.
  Qed.

  (** The span of an error lies in what was stepped over; the span of a missing
      argument goes one byte further. *)
  Definition span_seen (e : parse_error) (c : nat) : Prop :=
    match pe_kind e with
    | MissingArgument => (pe_offset e <= N.of_nat c)%N
    | _ => (pe_offset e + pe_length e <= N.of_nat c)%N
    end.
  Definition fine {A} (lo : nat) (r : pres A) : Prop :=
    match r with
    | POk _ c => lo <= c /\ plain_upto c
    | PErr e c => (lo <= c /\ plain_upto c) /\ span_seen e c
    | _ => True
    end.

  Lemma fine_bind : forall A B lo (r : pres A) (f : A -> nat -> pres B),
    fine lo r -> (forall a c, lo <= c -> plain_upto c -> fine lo (f a c)) -> fine lo (pbind r f).
  Proof. intros A B lo r f Hr Hf. destruct r; cbn in *; auto. apply Hf; apply Hr. Qed.

  Lemma fine_lower : forall A lo lo' (r : pres A), fine lo r -> lo' <= lo -> fine lo' r.
  Proof. intros A lo lo' r H Hle. destruct r; cbn in *; auto; intuition lia. Qed.

  Lemma fine_here : forall A lo k c, lo <= c -> plain_upto c -> k <> MissingArgument -> fine lo (@fail input A k (Val (N.of_nat c)) 0 c).
  Proof. intros A lo k c Hlo H Hk. split; [auto|]. unfold span_seen. cbn. destruct k; cbn; lia. Qed.

  Lemma exponent_steps : forall c1, plain_upto c1 ->
    let me := matches exponent_mark (current input c1) in
    let es := me && matches a_sign (next input c1) && matches a_digit (next_at input c1 2) in
    let ie := me && matches a_digit (next input c1) in
    plain_upto (c1 + ((if es then 1 else 0) * 2 + (if ie then 1 else 0))).
  Proof.
    intros c1 H1 me es ie.
    assert (Hm : forall p o, matches p o = true -> exists x, o = Some x /\ p x = true).
    { intros p [x|] K; [|discriminate K]. eauto. }
    destruct es eqn:Ees.
    - subst es. apply andb_true_iff in Ees. destruct Ees as [Ees Ed]. apply andb_true_iff in Ees. destruct Ees as [Em Es].
      apply Hm in Ed, Es. subst me. apply Hm in Em. destruct Em as [xe [Ee Ke]]. destruct Es as [xs [Es Ks]]. destruct Ed as [xd [Ed Kd]].
      destruct ie eqn:Eie.
      { subst ie. apply andb_true_iff in Eie. destruct Eie as [_ Eie]. apply Hm in Eie. destruct Eie as [y [Ey Ky]].
        rewrite Es in Ey. injection Ey as <-. clear - Ks Ky. exfalso. revert Ks Ky. bytes8 xs. }
      unfold next, next_at, current in *. replace (c1 + 1) with (S c1) in Es by lia.
      replace (c1 + (1 * 2 + 0)) with (S (S c1)) by lia.
      eapply plain_S; [eapply plain_S; [exact H1|exact Ee|now apply seven_exp]|exact Es|now apply seven_sign].
    - destruct ie eqn:Eie; [|replace (c1 + (0 * 2 + 0)) with c1 by lia; exact H1].
      subst ie. apply andb_true_iff in Eie. destruct Eie as [Em _]. subst me. apply Hm in Em. destruct Em as [xe [Ee Ke]].
      replace (c1 + (0 * 2 + 1)) with (S c1) by lia. eapply plain_S; [exact H1|exact Ee|now apply seven_exp].
  Qed.

  (** where a number ends and where a name ends — parser.rs:285-297, 230-233 *)
  Definition number_end (begin : nat) : nat :=
    let c1 := skip_while input is_number_char begin in
    let me := matches is_exp_char (current input c1) in
    let es := me && matches is_sign_char (next input c1) && matches is_digit (next_at input c1 2) in
    let ie := me && matches is_digit (next input c1) in
    skip_while input is_digit (c1 + ((if es then 1 else 0) * 2 + (if ie then 1 else 0))).
  Definition name_end (start : nat) : nat := skip_while input is_ident_char start.

  Lemma number_end_plain : forall c, plain_upto c -> c <= number_end c /\ plain_upto (number_end c).
  Proof.
    intros c H. unfold number_end. chars. set (c1 := skip_while input in_mantissa c).
    assert (H1 : plain_upto c1) by (apply plain_skip; [apply seven_mantissa|exact H]).
    assert (Hc1 : c <= c1) by apply skip_while_ge.
    pose proof (exponent_steps c1 H1) as H2. cbv zeta in H2.
    match goal with |- c <= skip_while input a_digit ?x /\ _ => assert (c1 <= x) by lia; assert (x <= skip_while input a_digit x) by apply skip_while_ge end.
    split; [lia|]. apply plain_skip; [apply seven_digit|exact H2].
  Qed.

  Lemma name_end_plain : forall c, plain_upto c -> c <= name_end c /\ plain_upto (name_end c).
  Proof. intros c H. unfold name_end. chars. split; [apply skip_while_ge|]. apply plain_skip; [apply seven_name|exact H]. Qed.

  Hypothesis Hne : 0 < len.

  Lemma fine_end : forall A lo c, lo <= c -> plain_upto c -> c = len -> fine lo (@err_unexpected_end cfg input A c).
  Proof.
    intros A lo c Hlo H ->. unfold err_unexpected_end, fail, usub. destruct (Nat.leb_spec 1 len); [|lia].
    split; [auto|]. unfold span_seen. cbn. lia.
  Qed.

  Lemma parse_number_end : forall c, parse_number cfg input c =
    match parse_f64 (strip_underscores (list_ascii_of_string (slice input c (number_end c)))) with
    | Some num => POk (Number num) (number_end c)
    | None => err_malformed_number cfg input (slice input c (number_end c)) (number_end c)
    end.
  Proof. reflexivity. Qed.

  Lemma fine_number : forall c, plain_upto c -> fine c (parse_number cfg input c).
  Proof.
    intros c H. rewrite parse_number_end. destruct (number_end_plain c H) as [Hle H3].
    destruct (parse_f64 _); [split; assumption|].
    unfold err_malformed_number, fail. rewrite slice_length by (split; [lia|apply H3]).
    unfold usub. destruct (Nat.leb_spec (number_end c - c) (number_end c)) as [L|L]; [|lia].
    split; [auto|]. unfold span_seen. cbn. lia.
  Qed.

  Lemma fine_element : forall n p c, plain_upto c -> fine c (element_at cfg w ctx input n p c).
  Proof.
    induction n as [|n IH]; intros p c H; [exact I|]. cbn [element_at].
    assert (Hassert : forall lo t c, lo <= c -> seven t -> plain_upto c -> fine lo (assert_eq_consume input t c)).
    { intros lo t c1 Hlo Ht H1. unfold assert_eq_consume. destruct (consume_if_eq input t c1) as [[] c2] eqn:E;
        pose proof (plain_consume _ _ _ _ Ht H1 E) as [Hle H2]; [split; [lia|exact H2]|]. apply fine_here; [lia|exact H2|discriminate]. }
    assert (Helem : forall lo p c, lo <= c -> plain_upto c -> fine lo (element_at cfg w ctx input n p c)).
    { intros lo q c1 Hlo H1. eapply fine_lower; [apply IH; exact H1|exact Hlo]. }
    assert (Harg : forall lo c, lo <= c -> 1 <= c -> plain_upto c -> fine lo (argument cfg input (element_at cfg w ctx input n) c)).
    { intros lo c1 Hlo Hc H1. unfold argument. specialize (IH NO_PRECEDENCE c1 H1).
      destruct (element_at cfg w ctx input n NO_PRECEDENCE c1) as [a c2|e c2|q|]; auto; cbn in IH.
      - split; [lia|tauto].
      - destruct IH as [[Hle H2] Hs].
        destruct (pe_kind e) eqn:Ek; try (split; [split; [lia|exact H2]|exact Hs]).
        unfold err_missing_argument, fail, usub. destruct (Nat.leb_spec 1 c2); [|lia].
        split; [split; [lia|exact H2]|]. unfold span_seen. cbn. lia. }
    assert (Hargs : forall k lo l c, lo <= c -> 1 <= c -> plain_upto c ->
      fine lo (parse_arguments cfg input (element_at cfg w ctx input n) k l c)).
    { induction k as [|k IHk]; intros lo l c1 Hlo Hc H1; [exact I|]. cbn [parse_arguments].
      eapply fine_lower with (lo := c1); [|exact Hlo].
      apply fine_bind; [auto|]. intros a c2 Hle H2. destruct (next_trim input c2) as [o c3] eqn:En.
      destruct (plain_trim _ _ _ H2 En) as [H3 [Ho Hend]].
      pose proof (next_trim_spec _ _ _ _ (proj1 H2) En) as [Hr _].
      destruct o as [t|]; [|apply fine_end; [lia|exact H3|auto]].
      destruct (Ascii.eqb t ",") eqn:Et.
      { apply Ascii.eqb_eq in Et. subst t. apply IHk; [lia|lia|]. eapply plain_S; [exact H3|symmetry; exact Ho|]. vm_compute. discriminate. }
      destruct (Ascii.eqb t ")"); [split; [lia|exact H3]|]. apply fine_here; [lia|exact H3|discriminate]. }
    assert (Hloop : forall k el lo c, lo <= c -> plain_upto c -> fine lo (binop_loop cfg input (element_at cfg w ctx input n) k p el c)).
    { induction k as [|k IHk]; intros el lo c2 Hlo H2; [exact I|]. cbn [binop_loop].
      destruct (get_operator_infos cfg input el p c2) as [o c'] eqn:Eg.
      assert (Hg : c2 <= c' /\ plain_upto c').
      { unfold get_operator_infos in Eg. destruct (next_trim input c2) as [ob c3] eqn:En.
        destruct (plain_trim _ _ _ H2 En) as [H3 [Ho _]]. pose proof (next_trim_spec _ _ _ _ (proj1 H2) En) as [Hr _].
        destruct ob as [b|]; [|apply pair_equal_spec in Eg; destruct Eg as [_ <-]; split; [lia|exact H3]].
        destruct (operator_of_byte b) as [op|] eqn:Eop.
        - destruct (get_for_op op <=? p); apply pair_equal_spec in Eg; destruct Eg as [_ <-]; [split; [lia|exact H3]|].
          split; [lia|]. eapply plain_S; [exact H3|symmetry; exact Ho|]. eapply seven_op; eauto.
        - assert (c' = c3) as ->; [|split; [lia|exact H3]].
          destruct (implicit_precedence cfg <=? p); [|destruct (is_lower b || Ascii.eqb b "("); [|destruct (is_digit b); [destruct el|]]];
            apply pair_equal_spec in Eg; destruct Eg; congruence. }
      destruct Hg as [Hle Hc']. destruct o as [[op q]|]; [|split; [lia|exact Hc']].
      apply fine_bind; [apply Helem; [lia|exact Hc']|]. intros a c4 Hlo4 H4. apply IHk; [lia|exact H4]. }
    apply fine_bind.
    - unfold atom. destruct (next_trim input c) as [o c0] eqn:En.
      destruct (plain_trim _ _ _ H En) as [H0 [Ho Hend]]. pose proof (next_trim_spec _ _ _ _ (proj1 H) En) as [Hr _].
      destruct o as [b|]; [|apply fine_end; [lia|exact H0|auto]]. symmetry in Ho.
      destruct (is_digit b || Ascii.eqb b "."); [eapply fine_lower; [apply fine_number; exact H0|lia]|].
      destruct (is_alpha b).
      { unfold parse_identifier. fold (name_end c0). destruct (name_end_plain c0 H0) as [Hle H1].
        destruct (resolve _ _) as [f|v|x]; [|split; [lia|exact H1]|split; [lia|exact H1]].
        destruct (consume_if_eq input "(" (name_end c0)) as [k c1] eqn:Ec.
        assert (H2 : name_end c0 <= c1 /\ plain_upto c1) by (eapply plain_consume; [|exact H1|exact Ec]; vm_compute; discriminate).
        destruct H2 as [Hle1 H2].
        destruct k; [|apply fine_here; [lia|exact H2|discriminate]].
        assert (Hc1 : 1 <= c1).
        { destruct (consume_if_eq_spec _ _ _ _ _ (proj1 H1) Ec) as [o1 [c3 [_ [-> _]]]]. lia. }
        apply fine_lower with (lo := c0); [|lia].
        apply fine_bind; [apply Hargs; [lia|lia|exact H2]|]. intros args c4 Hlo4 H4.
        apply fine_bind; [apply Hassert; [lia|vm_compute; discriminate|exact H4]|]. intros _ c5 Hlo5 H5.
        unfold check_arity. destruct (fn_nb_args f) as [m|]; [|split; [lia|exact H5]].
        destruct (Nat.compare _ _); [split; [lia|exact H5]| |];
          (split; [split; [lia|exact H5]|unfold span_seen; cbn; lia]). }
      destruct (Ascii.eqb b "+") eqn:E1.
      { apply Ascii.eqb_eq in E1. subst b. apply fine_bind; [apply Helem; [lia|]|intros a c1 Hl1 H1; split; assumption].
        eapply plain_S; [exact H0|exact Ho|vm_compute; discriminate]. }
      destruct (Ascii.eqb b "-") eqn:E2.
      { apply Ascii.eqb_eq in E2. subst b. apply fine_bind; [apply Helem; [lia|]|intros a c1 Hl1 H1; split; assumption].
        eapply plain_S; [exact H0|exact Ho|vm_compute; discriminate]. }
      destruct (Ascii.eqb b "(") eqn:E3.
      { apply Ascii.eqb_eq in E3. subst b. apply fine_bind; [apply Helem; [lia|]|].
        - eapply plain_S; [exact H0|exact Ho|vm_compute; discriminate].
        - intros a c1 Hl1 H1. apply fine_bind; [apply Hassert; [lia|vm_compute; discriminate|exact H1]|]. intros _ c2 Hl2 H2. split; assumption. }
      destruct (Ascii.eqb b ")"); apply fine_here; try lia; try exact H0; discriminate.
    - intros a c1 Hl1 H1. destruct (consume_if_eq input "!" c1) as [k c2] eqn:Ec.
      assert (H2 : c1 <= c2 /\ plain_upto c2) by (eapply plain_consume; [|exact H1|exact Ec]; vm_compute; discriminate).
      apply fine_bind; [apply Hloop; [lia|tauto]|]. intros a0 c3 Hl3 H3. unfold plift. destruct (finish_element cfg w a0); [split; assumption|exact I].
  Qed.

  Lemma fine_parse : base = 0 -> fine 0 (parse_impl cfg w ctx input).
  Proof.
    intros Hb. unfold parse_impl. apply fine_bind; [apply fine_element; rewrite <- Hb; apply plain_base; lia|]. intros a c _ H.
    destruct (next_trim input c) as [o c'] eqn:En. destruct (plain_trim _ _ _ H En) as [H' [Ho _]].
    destruct o as [t|]; [apply fine_here; [lia|exact H'|discriminate]|split; [lia|exact H']].
  Qed.
End Steps.

Lemma utf8_seven : forall l, (forall b, In b l -> seven b) -> utf8 l.
Proof.
  induction l as [|b l IH]; intro H; [constructor|]. change (b :: l) with ([b] ++ l)%list. econstructor; [apply U1|apply IH; intros; apply H; now right].
  split; [lia|apply H; now left].
Qed.

Lemma utf8_tail : forall b l, seven b -> utf8 (b :: l) -> utf8 l.
Proof.
  intros b l Hb H. inversion H as [|ch u rest Hc Hr E]; subst. inversion Hc; subst; unfold within, seven in *; cbn in E; injection E as -> E; subst; try lia; auto.
Qed.

Lemma utf8_lead : forall b l, utf8 (b :: l) -> (code b <= 127 \/ 194 <= code b)%N.
Proof.
  intros b l H. inversion H as [|ch u rest Hc Hr E]; subst. inversion Hc; subst; unfold within in *; cbn in E; injection E as -> E; lia.
Qed.

Lemma utf8_split : forall p l, utf8 l -> p <= List.length l -> (forall i b, i < p -> nth_error l i = Some b -> seven b) ->
  utf8 (firstn p l) /\ utf8 (skipn p l).
Proof.
  induction p as [|p IH]; intros l Hl Hp Hs; [split; [constructor|exact Hl]|].
  destruct l as [|b l]; [cbn in Hp; lia|]. cbn [firstn skipn].
  assert (Hb : seven b) by (apply (Hs 0); [lia|reflexivity]).
  destruct (IH l) as [H1 H2]; [eapply utf8_tail; eauto|cbn in Hp; lia|intros i c Hi Hc; apply (Hs (S i)); [lia|exact Hc]|].
  split; [|exact H2]. change (b :: firstn p l) with ([b] ++ firstn p l)%list. econstructor; [apply U1; split; [lia|exact Hb]|exact H1].
Qed.

Lemma nth_firstn : forall A (l : list A) n k, k < n -> nth_error (firstn n l) k = nth_error l k.
Proof. induction l as [|a l IH]; intros [|n] [|k] H; cbn; auto; try lia. apply IH. lia. Qed.

(** ** C60 *)
(** The texts that the parser takes out of the input without checking them
    ([from_utf8_unchecked], parser.rs:300 and 362): wherever a number or a name
    is read, the slice lies inside the input and is ASCII, so it is a [str].
    (The third use, the source text of an error, is the whole input: C03.) *)
Theorem C60_unchecked_slices_are_text : forall input begin stop, begin <= List.length (bytes input) ->
  stop = number_end input begin \/ stop = name_end input begin ->
  begin <= stop <= List.length (bytes input) /\ is_str (slice input begin stop) /\
  forall b, In b (list_ascii_of_string (slice input begin stop)) -> (code b <= 127)%N.
Proof.
  intros input begin stop Hb Hs.
  assert (H : begin <= stop /\ plain_upto input begin stop).
  { destruct Hs as [-> | ->]; [apply number_end_plain|apply name_end_plain]; now apply plain_base. }
  destruct H as [Hle [Hl Hp]]. split; [lia|].
  assert (Ha : forall b, In b (list_ascii_of_string (slice input begin stop)) -> seven b).
  { intros b Hin. unfold slice in Hin. rewrite list_ascii_of_string_of_list_ascii in Hin.
    apply In_nth_error in Hin. destruct Hin as [n Hn].
    assert (n < stop - begin).
    { assert (n < List.length (firstn (stop - begin) (skipn begin (bytes input)))) by (apply nth_error_Some; congruence).
      rewrite firstn_length in *. lia. }
    rewrite nth_firstn in Hn by assumption. rewrite nth_error_skipn in Hn. apply (Hp (begin + n)); [lia|lia|exact Hn]. }
  split; [|exact Ha]. unfold is_str. apply utf8_seven. exact Ha.
Qed.

(** The places an error of a valid text points at lie between characters: both
    ends of the span, except the end of a missing argument's span. *)
Theorem C60_spans_between_characters : forall cfg w ctx input e, is_str input -> input <> ""%string ->
  parse cfg w ctx input = Parse_err e ->
  char_boundary input (N.to_nat (pe_offset e)) /\
  (pe_kind e <> MissingArgument -> char_boundary input (N.to_nat (pe_offset e + pe_length e))).
Proof.
  intros cfg w ctx input e Hu Hne He.
  assert (Hlen : 0 < List.length (bytes input)).
  { unfold bytes. destruct input; [congruence|cbn; lia]. }
  pose proof (C03_error_spans_inside_source _ _ _ _ _ He) as [_ Hspan].
  assert (Hwhole : forall p, p = 0 \/ p = String.length input -> char_boundary input p).
  { intros p [-> | ->].
    - exists [], (bytes input). repeat split; [constructor|exact Hu].
    - exists (bytes input), []. rewrite app_nil_r. unfold bytes. rewrite list_ascii_length. repeat split; [exact Hu|constructor]. }
  unfold parse in He. pose proof (fine_parse cfg w ctx input 0 Hlen eq_refl) as Hf.
  destruct (parse_impl cfg w ctx input) as [[r vs] c|e' c|q|]; try discriminate He.
  - assert (Hvnd : pe_offset e = 0%N /\ pe_length e = N.of_nat (String.length input)).
    { destruct (get_expected_vars ctx) as [ex|]; [|discriminate He]. destruct (set_diff _ _); [discriminate He|].
      injection He as <-. split; reflexivity. }
    destruct Hvnd as [-> ->]. split; [apply Hwhole; now left|]. intros _. apply Hwhole. right. lia.
  - injection He as ->. cbn in Hf. destruct Hf as [[_ [Hc Hp]] Hs].
    assert (Hcut : forall p, p <= c -> char_boundary input p).
    { intros p Hpc. destruct (utf8_split p (bytes input) Hu) as [H1 H2]; [lia|intros i b Hi; apply Hp; lia|].
      exists (firstn p (bytes input)), (skipn p (bytes input)). split; [symmetry; apply firstn_skipn|].
      split; [apply firstn_length_le; lia|auto]. }
    unfold span_seen in Hs. split.
    + apply Hcut. destruct (pe_kind e); lia.
    + intro Hk. apply Hcut. destruct (pe_kind e); try congruence; lia.
Qed.

(** The exception is real: in "max(sin(1 é))" the reported span is the space and
    half of the character. *)
Definition e_acute : string := String (ascii_of_N 195) (String (ascii_of_N 169) "").
Definition half_text : string := ("max(sin(1 " ++ e_acute ++ "))")%string.
Theorem C60_missing_argument_splits_a_character :
  is_str half_text /\ exists e, parse default_config w0 ctx_default half_text = Parse_err e /\
  pe_kind e = MissingArgument /\ pe_offset e = 9%N /\ pe_length e = 2%N /\
  ~ char_boundary half_text (N.to_nat (pe_offset e + pe_length e)).
Proof.
  assert (Hu : is_str half_text).
  { unfold is_str. change (list_ascii_of_string half_text) with
      (list_ascii_of_string "max(sin(1 " ++ (list_ascii_of_string e_acute) ++ list_ascii_of_string "))")%list.
    assert (Happ : forall a b, utf8 a -> utf8 b -> utf8 (a ++ b)%list).
    { intros a b Ha Hb. induction Ha; [exact Hb|]. rewrite <- app_assoc. econstructor; eauto. }
    apply Happ; [|apply Happ]; [|rewrite <- app_nil_r; econstructor; [apply U2; vm_compute; split; discriminate|constructor]|];
      (apply utf8_seven; intros b Hb; cbn in Hb; repeat (destruct Hb as [<- |Hb]; [vm_compute; discriminate|]); contradiction). }
  split; [exact Hu|].
  destruct (parse default_config w0 ctx_default half_text) as [x|e|q|] eqn:Hp.
  1,3,4: assert (K : error_of (parse default_config w0 ctx_default half_text) = Some (MissingArgument, 9%N, 2%N)) by (vm_compute; reflexivity);
         rewrite Hp in K; discriminate K.
  assert (K : error_of (parse default_config w0 ctx_default half_text) = Some (MissingArgument, 9%N, 2%N)) by (vm_compute; reflexivity).
  rewrite Hp in K. cbn in K. injection K as K1 K2 K3. exists e. split; [reflexivity|]. rewrite K1, K2, K3.
  split; [reflexivity|]. split; [reflexivity|]. split; [reflexivity|].
  intros [a [b [E [Hl [_ Hb]]]]].
  assert (Hb' : b = skipn 11 (list_ascii_of_string half_text)).
  { rewrite E. change 11 with (N.to_nat (9 + 2)). rewrite <- Hl, skipn_app, skipn_all, Nat.sub_diag. reflexivity. }
  rewrite Hb' in Hb. cbn in Hb. apply utf8_lead in Hb. vm_compute in Hb. intuition congruence.
Qed.

(** The character an error shows is the byte at its place read as Latin-1: the
    character itself if that is ASCII, another one otherwise — except for
    U+00C3, whose first byte is its own number. *)
Theorem C60_reported_character : forall cfg w ctx input e c, is_str input -> input <> ""%string ->
  parse cfg w ctx input = Parse_err e -> pe_kind e = UnexpectedToken c \/ pe_kind e = IllegalCharacter c ->
  exists u, char_at input (N.to_nat (pe_offset e)) u /\
    ((u <= 127)%N -> code c = u) /\
    ((128 <= u)%N -> (194 <= code c <= 244)%N /\ (code c = u <-> u = 195%N)).
Proof.
  intros cfg w ctx input e c Hu Hne He Hk.
  destruct (C60_spans_between_characters _ _ _ _ _ Hu Hne He) as [[a [b [E [Hl [Ha Hb]]]]] _].
  pose proof (C45_errors_truthful _ _ _ _ _ He) as [_ Ht].
  assert (Hn : nth_error (list_ascii_of_string input) (N.to_nat (pe_offset e)) = Some c).
  { destruct Hk as [Hk|Hk]; rewrite Hk in Ht; [destruct Ht as [_ [o [-> Ho]]]|destruct Ht as [_ [_ [o [-> Ho]]]]];
      rewrite Nnat.Nat2N.id; exact Ho. }
  rewrite E, <- Hl, nth_error_app2, Nat.sub_diag in Hn by lia.
  inversion Hb as [|ch u rest Hc Hr Eq]; subst b; [discriminate Hn|].
  exists u. split; [exists a, ch, rest; auto|].
  inversion Hc; subst; cbn in Hn; injection Hn as ->; unfold within in *; split; intro Hlt; try lia; (split; [lia|split; intro; lia]).
Qed.

(** "é" (U+00E9) is reported as "Ã" (U+00C3). *)
Example C60_witness :
  error_of (parse default_config w0 ctx_default e_acute) = Some (IllegalCharacter (ascii_of_N 195), 0%N, 0%N) /\
  char_at e_acute 0 233 /\ display_char (ascii_of_N 195) = String (ascii_of_N 195) (String (ascii_of_N 131) "").
Proof.
  split; [vm_compute; reflexivity|]. split; [|vm_compute; reflexivity].
  exists [], (list_ascii_of_string e_acute), []. split; [reflexivity|]. split; [reflexivity|]. split; [constructor|]. split; [|constructor].
  change 233%N with ((code (ascii_of_N 195) - 192) * 64 + (code (ascii_of_N 169) - 128))%N. apply U2; vm_compute; split; discriminate.
Qed.
