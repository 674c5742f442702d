(** * The calls made while parsing, counted against the text *)
From Coq Require Import ZArith NArith List String Ascii Bool Lia.
From Verif Require Import SpecChars CharFacts.
From Verif Require Import F64 Syntax Factorial Builtins Context Element Parser Xprs ParserFacts TreeFacts.
From Verif Require Import SpecTree SpecTokens SpecGrammar TokenFacts TokenParser TokenSim GrammarFacts.
From Verif Require Import Stateful SpecStateful StatefulFacts.
Import ListNotations.
Local Open Scope nat_scope.

Lemma written_app : forall ctx u v, calls_written ctx (u ++ v) = calls_written ctx u ++ calls_written ctx v.
Proof. intros. apply flat_map_app. Qed.

(** decide [part_of] by counting one member *)
Ltac count_all :=
  let x := fresh "x" in
  intro x;
  repeat match goal with H : part_of _ _ |- _ => specialize (H x) end;
  cbn [who map] in *;
  rewrite ?who_app, ?written_app, ?count_occ_app, ?flat_map_app in *; cbn [count_occ] in *; lia.

Section P.
  Variable cfg : config.
  Variable w : world.
  Variable b : behaviour.
  Variable ctx : context.
  Variable input : string.
  Hypothesis Hne : 0 < List.length (bytes input).
  Notation W := (calls_written ctx).

  (** [x] reads from the tokens [ts]; what it calls and what it leaves in its
      result is covered by [have] and the functions named in the tokens read *)
  Definition pspends {A} (k : A -> list nat) (have : list nat) (ts : list token) (x : pact A) : Prop := forall h,
    exists ran, snd (x h) = h ++ ran /\
      match fst (x h) with
      | POk a c => exists used ts', ts = used ++ ts' /\ at_tokens input c ts' /\ part_of (who ran ++ k a) (have ++ W used)
      | _ => part_of (who ran) (have ++ W ts)
      end.

  Lemma pspends_give : forall A (k : A -> list nat) have ts r,
    (forall a c, r = POk a c -> exists used ts', ts = used ++ ts' /\ at_tokens input c ts' /\ part_of (k a) (have ++ W used)) ->
    pspends k have ts (pgive r).
  Proof.
    intros A k have ts r H h. exists []. cbn [pgive snd fst]. rewrite app_nil_r. split; auto.
    destruct r as [a c|e c|p|]; try apply part_nil. exact (H a c eq_refl).
  Qed.
  Lemma pspends_fail : forall A (k : A -> list nat) have ts kd off n c, pspends k have ts (pgive (fail input kd off n c)).
  Proof. intros A k have ts kd off n c. apply pspends_give. intros a c' H. unfold fail in H. destruct off; discriminate H. Qed.

  Lemma pspends_bind : forall A B (k : A -> list nat) (k' : B -> list nat) have more ts x f,
    pspends k have ts x ->
    (forall a c ts', at_tokens input c ts' -> pspends k' (k a ++ more) ts' (f a c)) ->
    pspends k' (have ++ more) ts (@pbind_s A B x f).
  Proof.
    intros A B k k' have more ts x f Hx Hf h. destruct (Hx h) as [ran [E Hr]]. unfold pbind_s.
    destruct (x h) as [[a c|e c|p|] h1]; cbn [fst snd] in E, Hr; subst h1.
    - destruct Hr as [used [ts' [-> [Ha Hp]]]]. destruct (Hf a c ts' Ha (h ++ ran)) as [ran' [E' Hr']].
      exists (ran ++ ran'). rewrite E', app_assoc. split; auto.
      destruct (fst (f a c (h ++ ran))) as [v c'|e c'|p|]; try count_all.
      destruct Hr' as [used' [ts'' [-> [Ha' Hp']]]]. exists (used ++ used'), ts''. rewrite app_assoc. repeat split; try apply Ha'; auto.
      count_all.
    - exists ran. split; auto. cbn [fst]. count_all.
    - exists ran. split; auto. cbn [fst]. count_all.
    - exists ran. split; auto. cbn [fst]. count_all.
  Qed.
  Lemma pspends_have : forall A (k : A -> list nat) have have' ts x, part_of have have' ->
    pspends k have ts x -> pspends k have' ts x.
  Proof.
    intros A k have have' ts x Hp Hx h. destruct (Hx h) as [ran [E Hr]]. exists ran. split; auto.
    destruct (fst (x h)) as [a c|e c|p|]; try count_all.
    destruct Hr as [used [ts' [-> [Ha Hk]]]]. exists used, ts'. repeat split; try apply Ha; auto. count_all.
  Qed.
  (** a token read before *)
  Lemma pspends_skip : forall A (k : A -> list nat) have have' u ts x, part_of have (have' ++ W u) ->
    pspends k have ts x -> pspends k have' (u ++ ts) x.
  Proof.
    intros A k have have' u ts x Hp Hx h. destruct (Hx h) as [ran [E Hr]]. exists ran. split; auto.
    destruct (fst (x h)) as [a c|e c|p|]; try count_all.
    destruct Hr as [used [ts' [-> [Ha Hk]]]]. exists (u ++ used), ts'. rewrite app_assoc. repeat split; try apply Ha; auto. count_all.
  Qed.

  Lemma goi_suffix : forall el p ts, exists u, ts = u ++ snd (t_goi cfg el p ts).
  Proof.
    intros el p [|t ts]; [now exists []|]. unfold t_goi. destruct (match t with TSym c => operator_of_byte c | _ => None end) as [op|].
    - destruct (get_for_op op <=? p); [now exists []|now exists [t]].
    - destruct (implicit_precedence cfg <=? p); [now exists []|]. destruct (juxtaposable _ _); now exists [].
  Qed.
  Lemma consume_suffix : forall tok ts, exists u, ts = u ++ snd (t_consume tok ts).
  Proof.
    intros tok [|[s|s|c] ts]; try now exists []. cbn. destruct (Ascii.eqb c tok); [now exists [TSym c]|now exists []].
  Qed.

  Section Open.
    Variable elem : nat -> nat -> pact element.
    Hypothesis He : forall p c ts, at_tokens input c ts -> pspends calls_of [] ts (elem p c).

    Lemma pspends_loop : forall n p el c ts, at_tokens input c ts ->
      pspends calls_of (calls_of el) ts (binop_loop_s cfg input elem n p el c).
    Proof.
      induction n as [|n IH]; intros p el c ts H; cbn [binop_loop_s].
      - apply pspends_give. intros a c' E. discriminate E.
      - destruct (goi_tokens cfg input Hne el p c ts H) as [c' [E [Hc H']]]. rewrite E.
        destruct (goi_suffix el p ts) as [u Eu]. destruct (t_goi cfg el p ts) as [[[op k]|] ts']; cbn [fst snd] in *; subst ts.
        + apply (pspends_skip _ _ ([] ++ calls_of el)); [count_all|].
          apply (pspends_bind _ _ calls_of); [now apply He|]. intros a c2 ts2 H2.
          eapply pspends_have; [|apply (IH p (BinOp op el a) c2 ts2 H2)]. cbn [calls_of]. apply part_comm.
        + apply pspends_give. intros a c2 E2. injection E2 as <- <-. exists u, ts'. repeat split; try apply H'. apply part_left, part_refl.
    Qed.

    Lemma pspends_argument : forall c ts, at_tokens input c ts ->
      pspends calls_of [] ts (argument_s cfg input elem c).
    Proof.
      intros c ts H h. destruct (He NO_PRECEDENCE c ts H h) as [ran [E Hr]]. exists ran. unfold argument_s.
      destruct (elem NO_PRECEDENCE c h) as [[a c'|e c'|p|] h']; cbn [fst snd] in *; auto.
      destruct (pe_kind e); cbn [fst snd]; auto. split; auto. unfold err_missing_argument, fail. destruct (usub cfg c' 1); auto.
    Qed.

    Lemma pspends_arguments : forall n args c ts, at_tokens input c ts ->
      pspends in_list (in_list args) ts (parse_arguments_s cfg input elem n args c).
    Proof.
      induction n as [|n IH]; intros args c ts H; cbn [parse_arguments_s].
      - apply pspends_give. intros a c' E. discriminate E.
      - apply (pspends_have _ _ ([] ++ in_list args)); [apply part_refl|].
        apply (pspends_bind _ _ calls_of); [now apply pspends_argument|]. intros a c1 ts1 H1. cbv zeta.
        destruct (next_trim_tokens input Hne c1 ts1 H1) as [c2 [E [Hc2 [H2 [Hn _]]]]]. rewrite E.
        destruct ts1 as [|t ts1]; [unfold err_unexpected_end; apply pspends_fail|].
        destruct (Ascii.eqb (token_byte t) ",") eqn:Ec.
        + pose proof (first_byte input _ _ _ H2 Hn) as Hb. apply Ascii.eqb_eq in Ec. rewrite Ec in *.
          destruct t as [s|s|x]; [discriminate Hb|destruct Hb as [Hb _]; discriminate Hb|]. 
          apply (pspends_skip _ _ (in_list (args ++ [a])) _ [TSym x]).
          { unfold in_list. rewrite flat_map_app. cbn [flat_map]. rewrite app_nil_r. count_all. }
          apply IH. exact (at_sym input Hne _ _ _ H2 Hn).
        + destruct (Ascii.eqb (token_byte t) ")"); [|unfold err_unexpected_token; apply pspends_fail].
          apply pspends_give. intros l c3 E3. injection E3 as <- <-. exists [], (t :: ts1). split; auto. split; auto. unfold in_list. rewrite flat_map_app. cbn [flat_map]. rewrite app_nil_r. count_all.
    Qed.

    Lemma pspends_assert : forall tok c ts, at_tokens input c ts ->
      a_digit tok || Ascii.eqb tok "." = false -> a_letter tok = false ->
      forall have, pspends nothing have ts (pgive (assert_eq_consume input tok c)).
    Proof.
      intros tok c ts H Hd Ha have. apply pspends_give. intros a c' E. unfold assert_eq_consume in E.
      destruct (consume_tokens input Hne tok c ts H Hd Ha) as [c1 [E1 [Hc1 [H1 _]]]]. rewrite E1 in E.
      destruct (consume_suffix tok ts) as [u Eu]. destruct (t_consume tok ts) as [[] r]; cbn [fst snd] in *; [|discriminate E].
      injection E as _ <-. exists u, r. split; auto. split; auto. apply part_nil.
    Qed.

    Lemma pspends_identifier : forall n c s ts, at_tokens input c (TId s :: ts) -> ~ head_is a_blank (skipn c (bytes input)) ->
      pspends calls_of [] (TId s :: ts) (parse_identifier_s cfg ctx input elem n c).
    Proof.
      intros n c s ts H Hn. destruct (first_token input _ _ _ H Hn) as [m [r [E [Hl [-> Hm]]]]]. destruct H as [Hc _].
      destruct Hm as [Hh [F N]]. unfold parse_identifier_s. chars. cbv zeta.
      rewrite (skip_while_run_eq input _ _ _ _ E F N), (slice_run input Hne _ _ _ E).
      assert (H1 : at_tokens input (c + List.length m) ts).
      { split; [eapply skipn_len; eauto|]. now rewrite (skipn_prefix input _ _ _ E). }
      rewrite resolve_stands. destruct (stands_for ctx (string_of_list_ascii m)) as [f|v|x] eqn:Er.
      - destruct (consume_tokens input Hne "(" _ _ H1 eq_refl eq_refl) as [c1 [E1 [Hc1 [H2 _]]]]. rewrite E1.
        destruct (consume_suffix "(" ts) as [u Eu]. destruct (t_consume "(" ts) as [[] r1]; cbn [fst snd] in *.
        + assert (Ew : W (TId (string_of_list_ascii m) :: u) = user_id f ++ W u).
          { unfold calls_written. cbn [flat_map]. now rewrite Er. }
          subst ts. change (TId (string_of_list_ascii m) :: u ++ r1) with ((TId (string_of_list_ascii m) :: u) ++ r1).
          apply (pspends_skip _ _ (in_list [] ++ user_id f)).
          { rewrite Ew. cbn [app in_list flat_map]. apply part_left, part_refl. }
          apply (pspends_bind _ _ in_list); [now apply pspends_arguments|]. intros args c2 ts2 H3.
          apply (pspends_have _ _ ([] ++ (in_list args ++ user_id f))); [apply part_refl|].
          apply (pspends_bind _ _ nothing); [now apply pspends_assert|]. intros u0 c3 ts3 H4. cbn [nothing app].
          apply pspends_give. intros e c4 Ea. unfold check_arity in Ea.
          assert (e = Call f args /\ c4 = c3) as [-> ->].
          { destruct (fn_nb_args f) as [k|]; [|injection Ea as <- <-; auto]. destruct (Nat.compare _ _); try discriminate Ea; injection Ea as <- <-; auto. }
          exists [], ts3. split; auto. split; auto. cbn [calls_of]. apply part_left, part_refl.
        + unfold err_expected_token. apply pspends_fail.
      - apply pspends_give. intros e c' E'. injection E' as <- <-. exists [TId (string_of_list_ascii m)], ts. split; auto. split; auto. apply part_nil.
      - apply pspends_give. intros e c' E'. injection E' as <- <-. exists [TId (string_of_list_ascii m)], ts. split; auto. split; auto. apply part_nil.
    Qed.

    Lemma pspends_atom : forall n c ts, at_tokens input c ts -> pspends calls_of [] ts (atom_s cfg ctx input elem n c).
    Proof.
      intros n c ts H. destruct (next_trim_tokens input Hne c ts H) as [c0 [E [Hc0 [H0 [Hn _]]]]].
      unfold atom_s. chars. rewrite E. destruct ts as [|t ts]; [unfold err_unexpected_end; apply pspends_fail|].
      pose proof (first_byte input _ _ _ H0 Hn) as Hb. destruct t as [s|s|x].
      - rewrite Hb. apply pspends_give. intros e c' Ee.
        destruct (first_token input _ _ _ H0 Hn) as [m [r [Em [Hl [-> Hm]]]]]. unfold parse_number in Ee. revert Ee. chars. cbv zeta. rewrite (number_end input Hne c0 m r Em Hm). rewrite (slice_run input Hne _ _ _ Em).
        destruct (parse_f64 _) as [num|]; intro Ee.
        + injection Ee as <- <-. exists [TNum (string_of_list_ascii m)], ts. split; auto. split; [|apply part_nil].
          destruct H0 as [H0 _]. split; [eapply skipn_len; eauto|]. now rewrite (skipn_prefix input _ _ _ Em).
        + unfold err_malformed_number, fail in Ee. destruct (usub _ _ _); discriminate Ee.
      - destruct Hb as [Ha Hb]. rewrite Hb, Ha. now apply pspends_identifier.
      - cbn [token_byte]. destruct Hb as [Hb Ha]. rewrite Hb, Ha. pose proof (at_sym input Hne _ _ _ H0 Hn) as H1.
        assert (Hun : forall op p, pspends calls_of [] (TSym x :: ts) (pbind_s (elem p (S c0)) (fun e c1 => pgive (POk (UnOp op e) c1)))).
        { intros op p. change (TSym x :: ts) with ([TSym x] ++ ts). apply (pspends_skip _ _ ([] ++ [])); [apply part_nil|].
          apply (pspends_bind _ _ calls_of); [now apply He|]. intros a c1 ts1 Ha1. apply pspends_give. intros e c2 Ee. injection Ee as <- <-.
          exists [], ts1. split; auto. split; auto. cbn [calls_of]. rewrite app_nil_r. apply part_left, part_refl. }
        destruct (Ascii.eqb x "+"); [apply Hun|]. destruct (Ascii.eqb x "-"); [apply Hun|].
        destruct (Ascii.eqb x "(").
        { change (TSym x :: ts) with ([TSym x] ++ ts). apply (pspends_skip _ _ ([] ++ [])); [apply part_nil|].
          apply (pspends_bind _ _ calls_of); [now apply He|]. intros a c1 ts1 Ha1.
          apply (pspends_have _ _ ([] ++ calls_of a)); [rewrite app_nil_r; apply part_refl|].
          apply (pspends_bind _ _ nothing); [now apply pspends_assert|]. intros u0 c3 ts3 H4. cbn [nothing app].
          apply pspends_give. intros e c4 Ee. injection Ee as <- <-. exists [], ts3. split; auto. split; auto. apply part_left, part_refl. }
        destruct (Ascii.eqb x ")"); [unfold err_unexpected_token|unfold err_illegal_character]; apply pspends_fail.
    Qed.
  End Open.

  Lemma pspends_element : forall n p c ts, at_tokens input c ts ->
    pspends calls_of [] ts (element_at_s cfg w b ctx input n p c).
  Proof.
    induction n as [|n IH]; intros p c ts H; cbn [element_at_s].
    - apply pspends_give. intros a c' E. discriminate E.
    - apply (pspends_have _ _ ([] ++ [])); [apply part_refl|].
      apply (pspends_bind _ _ calls_of); [now apply pspends_atom|]. intros el c1 ts1 H1.
      destruct (consume_tokens input Hne "!" _ _ H1 eq_refl eq_refl) as [c2 [E [Hc2 [H2 _]]]]. rewrite E. cbv zeta.
      destruct (consume_suffix "!" ts1) as [u Eu]. destruct (t_consume "!" ts1) as [bang r2]; cbn [fst snd] in *. subst ts1.
      apply (pspends_skip _ _ (calls_of (if bang then UnOp Factorial el else el) ++ [])).
      { rewrite !app_nil_r. destruct bang; apply part_left, part_refl. }
      apply (pspends_bind _ _ calls_of); [now apply pspends_loop|]. intros el' c3 ts3 H3 h.
      assert (Hs : spends calls_of (calls_of el') (finish_element_s cfg w b el')).
      { unfold finish_element_s. destruct (optimize cfg); [apply spends_simplify|apply spends_ret, part_refl]. }
      destruct (Hs h) as [ran [Er Hr]]. destruct (finish_element_s cfg w b el' h) as [o h']. cbn [fst snd] in *. exists ran. split; auto.
      destruct o as [e|pn]; cbn [plift].
      + exists [], ts3. split; auto. split; auto. rewrite app_nil_r. apply part_left. exact Hr.
      + rewrite app_nil_r. apply part_left. exact Hr.
  Qed.

  Lemma parse_spends_text : forall ts h, tokens_of input ts ->
    exists ran, snd (parse_s cfg w b ctx input h) = h ++ ran /\
      match fst (parse_s cfg w b ctx input h) with
      | Parse_ok x => part_of (who ran ++ calls_of (root x)) (W ts)
      | _ => part_of (who ran) (W ts)
      end.
  Proof.
    intros ts h Hts. assert (H : at_tokens input 0 ts) by (split; [lia|exact Hts]).
    destruct (pspends_element (parse_budget input) NO_PRECEDENCE 0 ts H h) as [ran [E Hr]].
    exists ran. unfold parse_s, parse_impl_s, pbind_s.
    destruct (element_at_s cfg w b ctx input (parse_budget input) NO_PRECEDENCE 0 h) as [[r c|e c|p|] h1]; cbn [fst snd] in *; subst h1; auto.
    destruct Hr as [used [ts' [-> [Ha Hp]]]]. cbn [app] in Hp.
    assert (Hran : part_of (who ran) (W (used ++ ts'))) by (rewrite written_app; apply part_left; eapply part_cut; exact Hp).
    assert (Hall : part_of (who ran ++ calls_of r) (W (used ++ ts'))) by (rewrite written_app; apply part_left; exact Hp).
    destruct (next_trim input c) as [[tok|] c']; cbn [pgive fst snd].
    - unfold err_unexpected_token, fail. auto.
    - destruct (get_expected_vars ctx) as [ex|]; cbn [fst snd]; auto. destruct (set_diff _ _); cbn [fst snd root]; auto.
  Qed.
End P.


(** also for the empty text *)
Lemma parse_spends : forall cfg w b ctx input ts h, tokens_of input ts ->
  exists ran, snd (parse_s cfg w b ctx input h) = h ++ ran /\
    match fst (parse_s cfg w b ctx input h) with
    | Parse_ok x => part_of (who ran ++ calls_of (root x)) (calls_written ctx ts)
    | _ => part_of (who ran) (calls_written ctx ts)
    end.
Proof.
  intros cfg w b ctx input ts h Hts. destruct input as [|c s].
  - exists []. rewrite app_nil_r. unfold parse_s, parse_impl_s, pbind_s. cbn [parse_budget String.length Nat.add element_at_s].
    unfold pbind_s, atom_s. cbn [next_trim]. unfold next_trim. cbn. unfold err_unexpected_end, fail.
    destruct (usub cfg 0 1); split; auto; apply part_nil.
  - apply parse_spends_text; auto. cbn. lia.
Qed.
