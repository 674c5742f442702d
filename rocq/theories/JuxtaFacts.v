(** * Lock-step runs of the token parser: explicit products, and the two
    precedences of implicit products *)
From Coq Require Import ZArith NArith List String Ascii Bool Lia.
From Verif Require Import F64 Syntax Factorial Builtins Context Element Parser.
From Verif Require Import SpecTokens SpecGrammar TokenFacts TokenParser TokenMono GrammarFacts.
Import ListNotations.
Local Open Scope nat_scope.

(** ** adjacency *)
Lemma adjacent_sub : forall P u ts v, adjacent P ts -> adjacent P (u ++ ts ++ v).
Proof.
  intros P u ts v [u' [a [b [v' [-> H]]]]]. exists (u ++ u'), a, b, (v' ++ v). split; auto.
  rewrite <- !app_assoc. reflexivity.
Qed.
Lemma adjacent_suffix : forall P u ts, adjacent P ts -> adjacent P (u ++ ts).
Proof. intros P u ts H. apply (adjacent_sub P u ts []) in H. now rewrite app_nil_r in H. Qed.
Lemma adjacent_prefix : forall P ts v, adjacent P ts -> adjacent P (ts ++ v).
Proof. intros P ts v H. now apply (adjacent_sub P [] ts v) in H. Qed.
Lemma clear_sub : forall ctx u ts v, clear_tokens ctx (u ++ ts ++ v) -> clear_tokens ctx ts.
Proof. intros ctx u ts v [H1 H2]. split; intro H; [apply H1|apply H2]; now apply adjacent_sub. Qed.
Lemma clear_suffix : forall ctx u ts, clear_tokens ctx (u ++ ts) -> clear_tokens ctx ts.
Proof. intros ctx u ts H. apply clear_sub with u []. now rewrite app_nil_r. Qed.
Lemma clear_prefix : forall ctx ts v, clear_tokens ctx (ts ++ v) -> clear_tokens ctx ts.
Proof. intros ctx ts v H. now apply clear_sub with [] v. Qed.
Lemma juxta_suffix : forall ctx u ts, ~ juxtaposed ctx (u ++ ts) -> ~ juxtaposed ctx ts.
Proof. intros ctx u ts H H'. apply H. now apply adjacent_suffix. Qed.

(** ** what has been read *)
Section Read.
  Variable cfg : config.
  Variable w : world.
  Variable ctx : context.

  Definition read (ts rest : list token) : Prop :=
    exists u a, ts = u ++ a :: rest /\ ends_operand ctx a = true.

  Lemma read_more : forall u ts rest, read ts rest -> read (u ++ ts) rest.
  Proof. intros u ts rest [u' [a [-> H]]]. exists (u ++ u'), a. split; auto. now rewrite app_assoc. Qed.
  Lemma read_cons : forall t ts rest, read ts rest -> read (t :: ts) rest.
  Proof. intros t ts rest H. apply (read_more [t]). auto. Qed.
  Lemma read_now : forall u a rest, ends_operand ctx a = true -> read (u ++ a :: rest) rest.
  Proof. intros. exists u, a. auto. Qed.
  Lemma read_suffix : forall ts rest, read ts rest -> exists u, ts = u ++ rest.
  Proof. intros ts rest [u [a [-> _]]]. exists (u ++ [a]). now rewrite <- app_assoc. Qed.
  Lemma read_trans : forall a b c, read a b -> read b c -> read a c.
  Proof. intros a b c H H'. destruct (read_suffix _ _ H) as [u ->]. now apply read_more. Qed.

  Lemma goi_rest : forall el p ts op k ts', t_goi cfg el p ts = (Some (op, k), ts') -> exists u, ts = u ++ ts'.
  Proof.
    intros el p [|t r] op k ts' H; cbn in H; [congruence|].
    destruct (match t with TSym c => operator_of_byte c | _ => None end).
    - destruct (_ <=? _); [discriminate|]. injection H as _ _ <-. exists [t]. auto.
    - destruct (_ <=? _); [discriminate|]. destruct (juxtaposable _ _); [|discriminate]. injection H as _ _ <-. exists []. auto.
  Qed.

  Section Open.
    Variable elem : nat -> list token -> tres element.
    Hypothesis He : forall p ts t rest, elem p ts = TOk t rest -> read ts rest.

    Lemma read_loop : forall b p el ts t rest, t_loop cfg elem b p el ts = TOk t rest -> rest = ts \/ read ts rest.
    Proof.
      induction b as [|b IH]; intros p el ts t rest H; cbn in H; [discriminate|].
      destruct (t_goi cfg el p ts) as [[[op k]|] ts'] eqn:E.
      - destruct (elem k ts') as [rhs r| | |] eqn:Ee; cbn in H; try discriminate.
        destruct (goi_rest _ _ _ _ _ _ E) as [u ->]. right. apply read_more.
        apply IH in H. destruct H as [->|H]; [eauto|]. eapply read_trans; eauto.
      - apply goi_none_rest in E. injection H as _ ->. auto.
    Qed.

    Lemma read_arguments : forall b acc ts l rest, t_arguments elem b acc ts = TOk l rest -> read ts rest.
    Proof.
      induction b as [|b IH]; intros acc ts l rest H; cbn in H; [discriminate|].
      unfold t_argument in H. destruct (elem NO_PRECEDENCE ts) as [a r|k| |] eqn:Ee; cbn in H; try discriminate H;
        [|destruct k; discriminate H].
      destruct r as [|[s|s|c] r]; cbn in H; try discriminate H.
      apply He in Ee. destruct (Ascii.eqb c ",") eqn:Ec.
      - eapply read_trans; [eauto|]. apply read_cons. eauto.
      - destruct (Ascii.eqb c ")") eqn:Ep; [|discriminate H]. injection H as _ <-. auto.
    Qed.

    Lemma read_atom : forall b ts t rest, t_atom ctx elem b ts = TOk t rest ->
      exists u a, ts = u ++ a :: rest /\ ends_operand ctx a = true /\ (bare_number t = true -> ends_number ctx a = true).
    Proof.
      intros b [|[s|s|c] ts] t rest H; cbn [t_atom] in H; try discriminate H.
      - unfold t_number in H. destruct (parse_f64 _) eqn:E; [|discriminate H]. injection H as <- <-.
        exists [], (TNum s). auto.
      - unfold t_identifier in H. rewrite resolve_stands in H. destruct (stands_for ctx s) as [f|v|x] eqn:E.
        + destruct (t_consume "(" ts) as [[] r] eqn:Ec; [|discriminate H]. apply consume_true in Ec. subst ts.
          destruct (t_arguments elem b [] r) as [args r2| | |] eqn:Ea; cbn in H; try discriminate H.
          destruct (t_assert ")" r2) as [u r3| | |] eqn:Eb; cbn in H; try discriminate H.
          apply sound_assert in Eb. subst r2.
          assert (Hr : bare_number t = false /\ rest = r3).
          { unfold t_arity in H. destruct (fn_nb_args f); [|injection H as <- <-; auto].
            destruct (Nat.compare _ _); try discriminate H. injection H as <- <-. auto. }
          destruct Hr as [Hb ->]. apply read_arguments in Ea. destruct (read_suffix _ _ Ea) as [u' ->].
          exists (TId s :: TSym "(" :: u'), (TSym ")"). repeat split; auto.
        + injection H as <- <-. exists [], (TId s). cbn. rewrite E. auto.
        + injection H as <- <-. exists [], (TId s). cbn. rewrite E. repeat split; auto.
      - assert (Hsign : forall op r, elem UNOP_PRECEDENCE ts = TOk r rest -> t = UnOp op r ->
          exists u a, TSym c :: ts = u ++ a :: rest /\ ends_operand ctx a = true /\ (bare_number t = true -> ends_number ctx a = true)).
        { intros op r Ee ->. apply He in Ee. destruct Ee as [u [a [-> Ha]]]. exists (TSym c :: u), a. repeat split; auto. discriminate. }
        destruct (Ascii.eqb c "+") eqn:E1.
        { destruct (elem UNOP_PRECEDENCE ts) as [r rr| | |] eqn:Ee; cbn in H; try discriminate H.
          injection H as <- <-. eapply Hsign; eauto. }
        destruct (Ascii.eqb c "-") eqn:E2.
        { destruct (elem UNOP_PRECEDENCE ts) as [r rr| | |] eqn:Ee; cbn in H; try discriminate H.
          injection H as <- <-. eapply Hsign; eauto. }
        destruct (Ascii.eqb c "(") eqn:E3.
        { destruct (elem NO_PRECEDENCE ts) as [r rr| | |] eqn:Ee; cbn in H; try discriminate H.
          destruct (t_assert ")" rr) as [u r3| | |] eqn:Eb; cbn in H; try discriminate H. apply sound_assert in Eb. subst rr.
          injection H as <- <-. apply He in Ee. destruct (read_suffix _ _ Ee) as [u' ->].
          exists (TSym c :: u'), (TSym ")"). repeat split; auto. }
        destruct (Ascii.eqb c ")"); discriminate H.
    Qed.
  End Open.

  Lemma read_element : forall b p ts t rest, t_element cfg w ctx b p ts = TOk t rest -> read ts rest.
  Proof.
    induction b as [|b IH]; intros p ts t rest H; cbn [t_element] in H; [discriminate H|].
    destruct (t_atom ctx (t_element cfg w ctx b) b ts) as [el r| | |] eqn:Ea; cbn [tbind] in H; try discriminate H.
    destruct (t_consume "!" r) as [bang r2] eqn:Ec.
    destruct (t_loop _ _ _ _ _ _) as [el' r3| | |] eqn:El; cbn [tbind] in H; try discriminate H.
    assert (r3 = rest) as <-. { unfold t_lift in H. destruct (finish_element _ _ _); [congruence|discriminate H]. }
    destruct (read_atom _ IH _ _ _ _ Ea) as [u [a [-> [Ha _]]]].
    destruct bang.
    - apply consume_true in Ec. subst r. assert (Hr : read (u ++ a :: TSym "!" :: r2) r2).
      { change (u ++ a :: TSym "!" :: r2) with (u ++ [a] ++ TSym "!" :: r2). rewrite app_assoc. now apply read_now. }
      destruct (read_loop _ IH _ _ _ _ _ _ El) as [->|H']; [auto|]. eapply read_trans; eauto.
    - apply consume_false in Ec. subst r2. assert (Hr : read (u ++ a :: r) r) by now apply read_now.
      destruct (read_loop _ IH _ _ _ _ _ _ El) as [->|H']; [auto|]. eapply read_trans; eauto.
  Qed.
End Read.

(** ** the two precedences agree without juxtaposition *)
Section Precedences.
  Variables cfg cfg' : config.
  Variable w : world.
  Variable ctx : context.
  Hypothesis Hfin : forall el, finish_element cfg w el = finish_element cfg' w el.

  Lemma starts_juxt : forall n t, juxtaposable n t = true -> starts_operand t = true.
  Proof. intros n [s|s|c] H; cbn in *; auto. apply andb_true_iff in H. apply H. Qed.

  (** after a token that ends an operand *)
  Lemma goi_same : forall el p u a ts, ~ juxtaposed ctx (u ++ a :: ts) -> ends_operand ctx a = true ->
    t_goi cfg el p ts = t_goi cfg' el p ts.
  Proof.
    intros el p u a [|t r] Hj Ha; auto. unfold t_goi.
    destruct (match t with TSym c => operator_of_byte c | _ => None end); auto.
    destruct (juxtaposable (is_number_node el) t) eqn:E.
    - exfalso. apply Hj. exists u, a, t, r. split; auto. split; auto. eapply starts_juxt; eauto.
    - destruct (_ <=? _), (implicit_precedence cfg' <=? p); auto.
  Qed.

  Section Open.
    Variables elem elem' : nat -> list token -> tres element.
    Hypothesis He : forall p ts, ~ juxtaposed ctx ts -> elem p ts = elem' p ts.
    Hypothesis Hr : forall p ts t rest, elem' p ts = TOk t rest -> read ctx ts rest.

    Lemma same_loop : forall b p el u a ts, ~ juxtaposed ctx (u ++ a :: ts) -> ends_operand ctx a = true ->
      t_loop cfg elem b p el ts = t_loop cfg' elem' b p el ts.
    Proof.
      induction b as [|b IH]; intros p el u a ts Hj Ha; cbn; auto. rewrite (goi_same el p u a ts Hj Ha).
      destruct (t_goi cfg' el p ts) as [[[op k]|] ts'] eqn:E; auto.
      destruct (goi_rest cfg' _ _ _ _ _ _ E) as [u' ->].
      rewrite He. 2:{ eapply juxta_suffix with (u := u ++ a :: u'). rewrite <- app_assoc. exact Hj. }
      destruct (elem' k ts') as [rhs r| | |] eqn:Ee; cbn; auto. apply Hr in Ee. destruct Ee as [u2 [a2 [-> Ha2]]].
      apply IH with (u := u ++ a :: u' ++ u2) (a := a2); auto. intro H. apply Hj. 
      replace (u ++ a :: u' ++ u2 ++ a2 :: r) with ((u ++ a :: u' ++ u2) ++ a2 :: r); auto.
      rewrite <- app_assoc. cbn. now rewrite <- app_assoc.
    Qed.

    Lemma same_arguments : forall b acc ts, ~ juxtaposed ctx ts -> t_arguments elem b acc ts = t_arguments elem' b acc ts.
    Proof.
      induction b as [|b IH]; intros acc ts Hj; cbn; auto. unfold t_argument. rewrite He by auto.
      destruct (elem' NO_PRECEDENCE ts) as [arg r|k| |] eqn:Ee; cbn; auto.
      destruct r as [|[s|s|c] r]; auto. destruct (Ascii.eqb c ","); auto. apply IH.
      apply Hr in Ee. destruct (read_suffix _ _ _ Ee) as [u ->]. intro H. apply Hj. apply adjacent_suffix.
      now apply (adjacent_suffix _ [TSym c]).
      destruct k; reflexivity.
    Qed.

    Lemma same_atom : forall b ts, ~ juxtaposed ctx ts -> t_atom ctx elem b ts = t_atom ctx elem' b ts.
    Proof.
      intros b [|t ts] Hj; auto. assert (Ht : ~ juxtaposed ctx ts) by now apply (juxta_suffix ctx [t]).
      destruct t as [s|s|c]; cbn; auto.
      - unfold t_identifier. destruct (resolve ctx s); auto. destruct (t_consume "(" ts) as [[] r] eqn:Ec; auto.
        rewrite same_arguments; auto. apply consume_true in Ec. subst ts. now apply (juxta_suffix ctx [TSym "("]).
      - rewrite !He by auto. reflexivity.
    Qed.
  End Open.

  Lemma same_element : forall b p ts, ~ juxtaposed ctx ts -> t_element cfg w ctx b p ts = t_element cfg' w ctx b p ts.
  Proof.
    induction b as [|b IH]; intros p ts Hj; cbn [t_element]; auto.
    rewrite (same_atom _ _ IH (read_element cfg' w ctx b) _ _ Hj).
    destruct (t_atom ctx (t_element cfg' w ctx b) b ts) as [el r| | |] eqn:Ea; cbn [tbind]; auto.
    destruct (read_atom ctx _ (read_element cfg' w ctx b) _ _ _ _ Ea) as [u [a [-> [Ha _]]]].
    destruct (t_consume "!" r) as [bang r2] eqn:Ec.
    assert (Hl : exists u' a', ends_operand ctx a' = true /\ u ++ a :: r = u' ++ a' :: r2).
    { destruct bang.
      - apply consume_true in Ec. subst r. exists (u ++ [a]), (TSym "!"). split; auto. rewrite <- app_assoc. reflexivity.
      - apply consume_false in Ec. subst r2. exists u, a. auto. }
    destruct Hl as [u' [a' [Ha' E]]]. rewrite E in Hj.
    rewrite (same_loop _ _ IH (read_element cfg' w ctx b) _ _ _ _ _ _ Hj Ha').
    destruct (t_loop _ _ _ _ _ _); cbn [tbind]; auto. now rewrite Hfin.
  Qed.

  Lemma same_parse : forall b ts, ~ juxtaposed ctx ts -> t_parse cfg w ctx b ts = t_parse cfg' w ctx b ts.
  Proof. intros. unfold t_parse. now rewrite same_element. Qed.
End Precedences.

(** ** explicit products *)
Section Stars.
  Variable cfg : config.
  Variable w : world.
  Variable ctx : context.
  Hypothesis Hpe : pejmdas cfg = false.
  Notation ins := (insert_stars ctx).

  Definition starts (ts : list token) : bool := match ts with t :: _ => starts_operand t | [] => false end.
  Definition bangs (ts : list token) : bool := match ts with TSym c :: _ => Ascii.eqb c "!" | _ => false end.
  Definition star (ts : list token) : list token := if starts ts then TSym "*" :: ins ts else ins ts.

  Lemma ins_ends : forall a r, ends_operand ctx a = true -> ins (a :: r) = a :: star r.
  Proof. intros a [|b r] H; auto. cbn [insert_stars]. rewrite H. unfold star, starts. cbn [andb]. destruct (starts_operand b); reflexivity. Qed.
  Lemma ins_not_ends : forall a r, ends_operand ctx a = false -> ins (a :: r) = a :: ins r.
  Proof. intros a [|b r] H; auto. cbn [insert_stars]. rewrite H. reflexivity. Qed.

  Lemma operator_chars : forall c op, operator_of_byte c = Some op ->
    Ascii.eqb c "(" = false /\ Ascii.eqb c ")" = false /\ (Ascii.eqb c "!" = true \/ ends_operand ctx (TSym c) = false).
  Proof.
    assert (Hb : forall c, (match operator_of_byte c with Some _ => negb (Ascii.eqb c "(") && negb (Ascii.eqb c ")") | None => true end) = true).
    { apply byte_cases. vm_compute. reflexivity. }
    intros c op H. specialize (Hb c). rewrite H in Hb. apply andb_true_iff in Hb. rewrite !negb_true_iff in Hb. destruct Hb as [H1 H2].
    repeat split; auto. cbn. rewrite H2. cbn. destruct (Ascii.eqb c "!"); auto.
  Qed.

  (** after a token ending an operand, the parser sees the same thing with the
      products made explicit *)
  Lemma goi_star : forall el p u a ts, clear_tokens ctx (u ++ a :: ts) ->
    (bare_number el = true -> ends_number ctx a = true) -> bangs ts = false ->
    match t_goi cfg el p ts with
    | (Some (op, k), ts') => t_goi cfg el p (star ts) = (Some (op, k), ins ts')
    | (None, _) => t_goi cfg el p (star ts) = (None, star ts) /\ (p < 2 -> starts ts = false)
    end.
  Proof.
    intros el p u a [|t r] Hc Hn Hb; [now cbn|].
    assert (Hj : implicit_precedence cfg = 2) by (unfold implicit_precedence; now rewrite Hpe).
    destruct (match t with TSym c => operator_of_byte c | _ => None end) as [op|] eqn:Eo.
    - destruct t as [s|s|c]; try discriminate Eo. destruct (operator_chars _ _ Eo) as [H1 [_ H2]].
      cbn in Hb. destruct H2 as [H2|H2]; [congruence|].
      assert (Hs : star (TSym c :: r) = TSym c :: ins r).
      { unfold star. cbn [starts starts_operand]. rewrite H1. now apply ins_not_ends. }
      rewrite Hs. unfold t_goi. rewrite Eo. destruct (get_for_op op <=? p); auto.
    - unfold t_goi at 1. rewrite Eo, Hj.
      assert (Hst : juxtaposable (is_number_node el) t = starts_operand t).
      { destruct t as [s|s|c]; cbn; auto. unfold is_number_node. destruct (bare_number el) eqn:Eb; [|now rewrite andb_true_r].
        exfalso. destruct Hc as [_ Hc]. apply Hc. exists u, a, (TNum s), r. split; auto. split; eauto. }
      rewrite Hst. unfold star, starts. destruct (starts_operand t) eqn:Es.
      + destruct (2 <=? p) eqn:Ep.
        * split; [|intro; apply Nat.leb_le in Ep; lia]. cbn. destruct p as [|[|p]]; try discriminate Ep. reflexivity.
        * cbn. destruct p as [|[|p]]; try discriminate Ep; reflexivity.
      + assert (exists r', ins (t :: r) = t :: r') as [r' Hr'].
        { destruct r as [|b r]; [exists []; auto|]. cbn [insert_stars]. destruct (_ && _); eexists; reflexivity. }
        assert (H : t_goi cfg el p (ins (t :: r)) = (None, ins (t :: r))).
        { rewrite Hr'. unfold t_goi. rewrite Eo, Hj, Hst. destruct (2 <=? p); reflexivity. }
        destruct (2 <=? p); split; auto.
  Qed.

  Lemma clear_no_bang : forall u a rest, clear_tokens ctx (u ++ a :: rest) -> a = TSym "!" -> bangs rest = false.
  Proof.
    intros u a [|[s|s|c] rest] [Hc _] ->; auto. cbn. destruct (Ascii.eqb c "!") eqn:E; auto. apply Ascii.eqb_eq in E. subst c.
    exfalso. apply Hc. exists u, (TSym "!"), (TSym "!"), rest. auto.
  Qed.

  Lemma star_no_start : forall r, starts r = false -> star r = ins r.
  Proof. intros r H. unfold star. now rewrite H. Qed.
  Lemma head_ins : forall t r, exists r', ins (t :: r) = t :: r'.
  Proof. intros t [|b r]; [exists []; auto|]. cbn [insert_stars]. destruct (_ && _); eexists; reflexivity. Qed.

  Lemma consume_star : forall tok r, Ascii.eqb tok "*" = false -> tok = "!"%char \/ tok = ")"%char ->
    match t_consume tok r with
    | (true, r') => t_consume tok (star r) = (true, star r')
    | (false, _) => t_consume tok (star r) = (false, star r)
    end.
  Proof.
    intros tok [|t r] Ht Htok; [reflexivity|]. destruct (head_ins t r) as [r' Hr'].
    destruct t as [s|s|c].
    - cbn [t_consume]. unfold star. destruct (starts _); [|rewrite Hr'; reflexivity]. cbn [t_consume].
      rewrite Ascii.eqb_sym, Ht. reflexivity.
    - cbn [t_consume]. unfold star. destruct (starts _); [|rewrite Hr'; reflexivity]. cbn [t_consume].
      rewrite Ascii.eqb_sym, Ht. reflexivity.
    - cbn [t_consume]. destruct (Ascii.eqb c tok) eqn:E.
      + apply Ascii.eqb_eq in E. subst c. rewrite star_no_start by (destruct Htok as [-> | ->]; reflexivity).
        rewrite ins_ends by (destruct Htok as [-> | ->]; reflexivity). cbn [t_consume]. now rewrite Ascii.eqb_refl.
      + unfold star. destruct (starts _); cbn [t_consume].
        * rewrite Ascii.eqb_sym, Ht. reflexivity.
        * rewrite Hr'. cbn [t_consume]. rewrite E. reflexivity.
  Qed.

  (** equal answers, except for the place of an error *)
  Definition alike {A} (r r' : tres A) : Prop :=
    match r with
    | TErr k _ _ => exists f u, r' = TErr k f u
    | _ => r' = r
    end.
  Ltac same H := cbn [alike] in H;
    match type of H with ex _ => destruct H as [? [? H]] | _ => idtac end; rewrite H; cbn [tbind alike]; eauto.

  Section Open.
    Variable elem : nat -> list token -> tres element.
    Hypothesis He : forall p ts, clear_tokens ctx ts ->
      match elem p ts with
      | TOk t rest => elem p (ins ts) = TOk t (star rest) /\ bangs rest = false /\ (p < 2 -> starts rest = false)
      | r => alike r (elem p (ins ts))
      end.
    Hypothesis Hr : forall p ts t rest, elem p ts = TOk t rest -> read ctx ts rest.

    Lemma star_loop : forall b p el u a ts, clear_tokens ctx (u ++ a :: ts) ->
      (bare_number el = true -> ends_number ctx a = true) -> bangs ts = false ->
      match t_loop cfg elem b p el ts with
      | TOk t rest => t_loop cfg elem b p el (star ts) = TOk t (star rest) /\ bangs rest = false /\ (p < 2 -> starts rest = false)
      | r => alike r (t_loop cfg elem b p el (star ts))
      end.
    Proof.
      induction b as [|b IH]; intros p el u a ts Hc Hn Hb; cbn [t_loop]; [reflexivity|].
      pose proof (goi_star el p u a ts Hc Hn Hb) as Hg.
      destruct (t_goi cfg el p ts) as [[[op k]|] ts'] eqn:E.
      - rewrite Hg. destruct (goi_rest cfg _ _ _ _ _ _ E) as [u' ->].
        assert (Hc' : clear_tokens ctx ts').
        { apply clear_suffix with (u ++ a :: u'). rewrite <- app_assoc. exact Hc. }
        pose proof (He k ts' Hc') as H1. destruct (elem k ts') as [rhs r| | |] eqn:Ee; try (same H1; fail).
        destruct H1 as [H1 [H2 _]]. rewrite H1. cbn [tbind].
        apply Hr in Ee. destruct Ee as [u2 [a2 [-> Ha2]]].
        apply IH with (u := u2) (a := a2); auto. discriminate.
      - pose proof (goi_none_rest _ _ _ _ _ E) as ->. destruct Hg as [Hg1 Hg2]. rewrite Hg1. auto.
    Qed.

    Lemma star_arguments : forall b acc ts, clear_tokens ctx ts ->
      match t_arguments elem b acc ts with
      | TOk l rest => t_arguments elem b acc (ins ts) = TOk l (star rest)
      | r => alike r (t_arguments elem b acc (ins ts))
      end.
    Proof.
      induction b as [|b IH]; intros acc ts Hc; cbn [t_arguments]; [reflexivity|]. unfold t_argument.
      pose proof (He NO_PRECEDENCE ts Hc) as H1.
      destruct (elem NO_PRECEDENCE ts) as [arg r|k fr up| |] eqn:Ee; [|same H1; destruct k; cbn; eauto|same H1..].
      destruct H1 as [H1 [_ H2]]. rewrite H1. cbn [tbind]. specialize (H2 ltac:(cbv; lia)).
      rewrite (star_no_start _ H2). apply Hr in Ee. destruct (read_suffix _ _ _ Ee) as [u Eu].
      destruct r as [|t r]; [cbn; eauto|]. destruct (head_ins t r) as [r' Hr'].
      destruct t as [s|s|c]; try (rewrite Hr'; cbn; eauto; fail).
      destruct (Ascii.eqb c ",") eqn:Ec.
      - apply Ascii.eqb_eq in Ec. subst c. rewrite ins_not_ends by reflexivity. cbn. apply IH.
        apply clear_suffix with (u ++ [TSym ","]). rewrite <- app_assoc. cbn. now rewrite <- Eu.
      - destruct (Ascii.eqb c ")") eqn:Ep.
        + rewrite (star_no_start _ H2), Hr', Ec, Ep. reflexivity.
        + rewrite Hr', Ec, Ep. cbn. eauto.
    Qed.

    Lemma star_assert : forall r, match t_assert ")" r with
      | TOk x r' => t_assert ")" (star r) = TOk x (star r')
      | e => alike e (t_assert ")" (star r)) end.
    Proof.
      intro r. pose proof (consume_star ")" r eq_refl (or_intror eq_refl)) as H. unfold t_assert.
      destruct (t_consume ")" r) as [[] r']; rewrite H; cbn; eauto.
    Qed.

    Lemma star_atom : forall b ts, clear_tokens ctx ts ->
      match t_atom ctx elem b ts with
      | TOk t rest => t_atom ctx elem b (ins ts) = TOk t (star rest)
      | r => alike r (t_atom ctx elem b (ins ts))
      end.
    Proof.
      intros b [|t ts] Hc; [cbn; eauto|]. assert (Ht : clear_tokens ctx ts) by now apply (clear_suffix ctx [t]).
      destruct t as [s|s|c].
      - rewrite ins_ends by reflexivity. cbn. unfold t_number. destruct (parse_f64 _); cbn; eauto.
      - destruct (stands_for ctx s) as [f|v|x] eqn:Es.
        + rewrite ins_not_ends by (cbn; now rewrite Es). cbn [t_atom]. unfold t_identifier. rewrite resolve_stands, Es.
          destruct ts as [|t r]; [cbn; eauto|]. destruct (head_ins t r) as [r' Hr'].
          destruct (t_consume "(" (t :: r)) as [[] r2] eqn:Ec.
          * apply consume_true in Ec. injection Ec as -> ->. rewrite ins_not_ends by reflexivity. cbn [t_consume].
            replace (Ascii.eqb "(" "(") with true by reflexivity. apply (clear_suffix ctx [TSym "("]) in Ht.
            pose proof (star_arguments b [] r2 Ht) as Ha.
            destruct (t_arguments elem b [] r2) as [args r3| | |]; same Ha.
            pose proof (star_assert r3) as Hx. destruct (t_assert ")" r3) as [x r4| | |]; same Hx.
            unfold t_arity. destruct (fn_nb_args f); auto. destruct (Nat.compare _ _); cbn; eauto.
          * rewrite Hr'. cbn [t_consume] in *. destruct t as [s'|s'|c']; try (cbn; eauto; fail).
            destruct (Ascii.eqb c' "("); [discriminate Ec|]. cbn; eauto.
        + rewrite ins_ends by (cbn; now rewrite Es). cbn [t_atom]. unfold t_identifier. rewrite resolve_stands, Es. reflexivity.
        + rewrite ins_ends by (cbn; now rewrite Es). cbn [t_atom]. unfold t_identifier. rewrite resolve_stands, Es. reflexivity.
      - destruct (ends_operand ctx (TSym c)) eqn:Ee.
        { rewrite ins_ends by exact Ee. cbn in Ee. apply orb_true_iff in Ee. destruct Ee as [Ee|Ee]; apply Ascii.eqb_eq in Ee; subst c; cbn; eauto. }
        rewrite ins_not_ends by exact Ee. cbn [t_atom].
        pose proof (He UNOP_PRECEDENCE ts Ht) as H3. pose proof (He NO_PRECEDENCE ts Ht) as H0.
        destruct (Ascii.eqb c "+").
        { destruct (elem UNOP_PRECEDENCE ts); cbn [tbind]; [destruct H3 as [H3 _]|..]; same H3. }
        destruct (Ascii.eqb c "-").
        { destruct (elem UNOP_PRECEDENCE ts); cbn [tbind]; [destruct H3 as [H3 _]|..]; same H3. }
        destruct (Ascii.eqb c "(").
        { destruct (elem NO_PRECEDENCE ts) as [e r| | |]; cbn [tbind]; [destruct H0 as [H0 _]|..]; same H0. pose proof (star_assert r) as Hx. destruct (t_assert ")" r) as [x r4| | |]; same Hx. }
        destruct (Ascii.eqb c ")"); cbn; eauto.
    Qed.
  End Open.

  (** with no "!!", what follows an atom and its '!' is not a '!' *)
  Lemma star_element : forall b p ts, clear_tokens ctx ts ->
    match t_element cfg w ctx b p ts with
    | TOk t rest => t_element cfg w ctx b p (ins ts) = TOk t (star rest) /\ bangs rest = false /\ (p < 2 -> starts rest = false)
    | r => alike r (t_element cfg w ctx b p (ins ts))
    end.
  Proof.
    induction b as [|b IH]; intros p ts Hc; cbn [t_element]; [reflexivity|].
    pose proof (star_atom _ IH (read_element cfg w ctx b) b ts Hc) as Ha.
    destruct (t_atom ctx (t_element cfg w ctx b) b ts) as [el r| | |] eqn:Ea; same Ha.
    destruct (read_atom ctx _ (read_element cfg w ctx b) _ _ _ _ Ea) as [u [a [-> [Hends Hn]]]].
    pose proof (consume_star "!" r eq_refl (or_introl eq_refl)) as Hs.
    destruct (t_consume "!" r) as [bang r2] eqn:Ec.
    assert (Hl : t_consume "!" (star r) = (bang, star r2) /\ bangs r2 = false /\ exists u' a', clear_tokens ctx (u' ++ a' :: r2) /\
       (bare_number (if bang then UnOp Factorial el else el) = true -> ends_number ctx a' = true)).
    { destruct bang.
      - apply consume_true in Ec. subst r. assert (E : u ++ a :: TSym "!" :: r2 = (u ++ [a]) ++ TSym "!" :: r2) by (rewrite <- app_assoc; reflexivity).
        rewrite E in Hc. split; [exact Hs|]. split; [eapply clear_no_bang; eauto|]. exists (u ++ [a]), (TSym "!"). split; auto.
      - pose proof (consume_false _ _ _ Ec). subst r2. split; [exact Hs|]. split; [|exists u, a; auto].
        destruct r as [|[s|s|c] r]; auto. cbn in *. destruct (Ascii.eqb c "!"); [discriminate Ec|reflexivity]. }
    destruct Hl as [Hs' [Hb [u' [a' [Hc' Hn']]]]]. rewrite Hs'.
    pose proof (star_loop _ IH (read_element cfg w ctx b) b p _ u' a' r2 Hc' Hn' Hb) as Hlo.
    destruct (t_loop _ _ _ _ _ _) as [el' r3| | |]; cbn [tbind] in *; try (same Hlo; fail).
    destruct Hlo as [Hlo [Hb3 Hs3]]. rewrite Hlo. cbn [tbind]. unfold t_lift. destruct (finish_element _ _ _); auto.
  Qed.

  Lemma star_parse : forall b ts, clear_tokens ctx ts -> alike (t_parse cfg w ctx b ts) (t_parse cfg w ctx b (ins ts)).
  Proof.
    intros b ts Hc. pose proof (star_element b NO_PRECEDENCE ts Hc) as H. unfold t_parse.
    destruct (t_element cfg w ctx b NO_PRECEDENCE ts) as [t rest| | |]; try (same H; fail).
    destruct H as [H [_ H2]]. rewrite H. cbn [tbind]. rewrite (star_no_start rest (H2 ltac:(cbv; lia))).
    destruct rest as [|x rest]; [reflexivity|]. destruct (head_ins x rest) as [r' ->]. cbn. eauto.
  Qed.
End Stars.

Lemma insert_stars_explicit : forall ctx ts, ~ juxtaposed ctx (insert_stars ctx ts).
Proof.
  intros ctx ts. assert (Hs : forall t r, exists r', insert_stars ctx (t :: r) = t :: r') by apply head_ins.
  assert (Hstep : forall a b r, insert_stars ctx (a :: b :: r) =
    if ends_operand ctx a && starts_operand b then a :: TSym "*" :: insert_stars ctx (b :: r) else a :: insert_stars ctx (b :: r)) by reflexivity.
  induction ts as [|a [|b r] IH].
  - intros [u [x [y [v [E _]]]]]. destruct u; discriminate E.
  - intros [[|? [|? u]] [x [y [v [E _]]]]]; discriminate E.
  - destruct (Hs b r) as [r' E']. rewrite Hstep. destruct (ends_operand ctx a && starts_operand b) eqn:E.
    + rewrite E' in IH |- *. intros [[|p [|q u]] [x [y [v [Eu [H1 H2]]]]]].
      * injection Eu as <- <- _. discriminate H2.
      * injection Eu as <- <- <- _. discriminate H1.
      * injection Eu as _ _ Eu. apply IH. exists u, x, y, v. auto.
    + rewrite E' in IH |- *. intros [[|p u] [x [y [v [Eu [H1 H2]]]]]].
      * injection Eu as <- <- _. rewrite H1, H2 in E. discriminate E.
      * injection Eu as _ Eu. apply IH. exists u, x, y, v. auto.
Qed.

(** ** the implementation's own productions need their tokens *)
Section Clear.
  Variable pj : bool.
  Variable ctx : context.

  Lemma chain_last :
    (forall p ts t q n, chain pj ctx true p ts t q n -> exists u a, ts = u ++ [a] /\ (5 <= q -> a = TSym "!") /\ (n = true -> ends_number ctx a = true)) /\
    (forall ts t q, operand pj ctx true ts t q -> exists u a, ts = u ++ [a] /\ (5 <= q -> a = TSym "!") /\ (bare_number t = true -> ends_number ctx a = true)) /\
    (forall ts t, primary pj ctx true ts t -> exists u a, ts = u ++ [a] /\ (bare_number t = true -> ends_number ctx a = true)) /\
    (forall ts l, arguments pj ctx true ts l -> True).
  Proof.
    assert (Hbn : forall p ts t q n, chain pj ctx true p ts t q n -> bare_number t = true -> n = true).
    { intros p ts t q n H. destruct H; cbn; auto; discriminate. }
    apply chain_mutind; auto.
    - intros p ts l q n tok op ts' r q' n' _ _ _ _ _ _ Hc [u [a [-> [H1 H2]]]]. exists (ts ++ tok :: u), a.
      split; [rewrite <- app_assoc; reflexivity|]. split; [intro; apply H1; lia|]. intro H. apply H2. eauto.
    - intros p ts l q n ts' r q' n' j _ _ _ _ _ Hc [u [a [-> [H1 H2]]]]. exists (ts ++ u), a.
      split; [rewrite <- app_assoc; reflexivity|]. split; [intro; apply H1; lia|]. intro H. apply H2. eauto.
    - intros ts t _ [u [a [-> H]]]. exists u, a. repeat split; auto. lia.
    - intros ts t _ [u [a [-> H]]]. exists (u ++ [a]), (TSym "!"). repeat split; auto.
    - intros c op ts t q n _ _ [u [a [-> _]]]. exists (TSym c :: u), a. split; [reflexivity|]. split; [lia|discriminate].
    - intros s v H. exists [], (TNum s). auto.
    - intros s v H. exists [], (TId s). split; auto. cbn. now rewrite H.
    - intros s x H. exists [], (TId s). split; auto. discriminate.
    - intros s f ts args H _ _ _. exists (TId s :: TSym "(" :: ts), (TSym ")"). split; auto.
    - intros ts t q n _ _. exists (TSym "(" :: ts), (TSym ")"). split; auto.
  Qed.

  Lemma chain_clear :
    (forall p ts t q n, chain pj ctx true p ts t q n -> clear_tokens ctx ts -> chain pj ctx false p ts t q n) /\
    (forall ts t q, operand pj ctx true ts t q -> clear_tokens ctx ts -> operand pj ctx false ts t q) /\
    (forall ts t, primary pj ctx true ts t -> clear_tokens ctx ts -> primary pj ctx false ts t) /\
    (forall ts l, arguments pj ctx true ts l -> clear_tokens ctx ts -> arguments pj ctx false ts l).
  Proof.
    apply chain_mutind.
    - intros. apply C_operand. auto.
    - intros p ts l q n tok op ts' r q' n' Hc IH Htok Hp Hq _ Hc' IH' Hcl.
      assert (Hcl' : clear_tokens ctx ts') by (apply clear_suffix with (ts ++ [tok]); rewrite <- app_assoc; exact Hcl).
      eapply C_operator; eauto using clear_prefix. intros ->. exfalso.
      destruct (proj1 chain_last _ _ _ _ _ Hc) as [u [a [-> [Ha _]]]]. specialize (Ha Hq). subst a.
      destruct tok as [s|s|c]; try contradiction.
      assert (Hb : forall b, (match operator_of_byte b with Some Factorial => Ascii.eqb b "!" | _ => true end) = true).
      { apply byte_cases. vm_compute. reflexivity. }
      specialize (Hb c). cbn in Htok. rewrite Htok in Hb. apply Ascii.eqb_eq in Hb. subst c.
      destruct Hcl as [Hcl _]. apply Hcl. exists u, (TSym "!"), (TSym "!"), ts'. split; auto. rewrite <- app_assoc. reflexivity.
    - intros p ts l q n ts' r q' n' j Hc IH Hf Hp Hq Hc' IH' Hcl. eapply C_implicit; eauto using clear_prefix, clear_suffix.
      destruct Hq as [Hq|[_ [Hn [s [ts'' ->]]]]]; auto. exfalso.
      destruct (proj1 chain_last _ _ _ _ _ Hc) as [u [a [-> [_ Ha]]]]. destruct Hcl as [_ Hcl]. apply Hcl.
      exists u, a, (TNum s), ts''. split; eauto. rewrite <- app_assoc. reflexivity.
    - intros. apply O_plain. auto.
    - intros. apply O_bang. eauto using clear_prefix.
    - intros c op ts t q n Hs _ IH Hcl. eapply O_sign; eauto. apply IH. now apply (clear_suffix ctx [TSym c]).
    - intros. now constructor.
    - intros. now constructor.
    - intros. now constructor.
    - intros s f ts args Hs _ IH Ha Hcl. apply R_call; auto. apply IH. apply clear_sub with [TId s; TSym "("] [TSym ")"]. exact Hcl.
    - intros ts t q n _ IH Hcl. eapply R_paren. apply IH. apply clear_sub with [TSym "("] [TSym ")"]. exact Hcl.
    - intros ts t q n _ IH Hcl. eapply G_last; eauto.
    - intros ts t q n ts' l _ IH _ IH' Hcl. eapply G_more; eauto using clear_prefix. apply IH'.
      apply clear_suffix with (ts ++ [TSym ","]). rewrite <- app_assoc. exact Hcl.
  Qed.
End Clear.
