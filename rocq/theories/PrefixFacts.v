(** * The token parser reads from left to right

    What it does with the tokens read so far does not depend on the tokens it
    has not looked at, and what it has read when it fails can be completed. *)
From Coq Require Import ZArith NArith List String Ascii Bool Lia.
From Verif Require Import SpecChars CharFacts.
From Verif Require Import F64 Syntax Factorial Builtins Context Element Parser SpecTokens SpecGrammar.
From Verif Require Import SpecScan ScanPrefix TokenParser TokenMono.
Import ListNotations.
Local Open Scope nat_scope.

Definition tail_of (r ts : list token) : Prop := exists pre, ts = pre ++ r.

Lemma tail_refl : forall ts, tail_of ts ts.
Proof. intro ts. exists []. reflexivity. Qed.
Lemma tail_trans : forall a b c, tail_of a b -> tail_of b c -> tail_of a c.
Proof. intros a b c [x ->] [y ->]. exists (y ++ x). now rewrite app_assoc. Qed.
Lemma tail_cons : forall a t b, tail_of a b -> tail_of a (t :: b).
Proof. intros a t b [x ->]. exists (t :: x). reflexivity. Qed.
Lemma tail_nil : forall ts, tail_of [] ts.
Proof. intro ts. exists ts. now rewrite app_nil_r. Qed.
Local Hint Resolve tail_refl tail_cons tail_nil : tails.

(** where the results of a function on [ts] lie *)
Definition within {A} (ts : list token) (r : tres A) : Prop :=
  match r with
  | TOk _ r => tail_of r ts
  | TErr k f u => tail_of u ts /\
      match k with
      | TooFewArguments _ _ | TooManyArguments _ _ => True
      | UnexpectedEndOfExpression => f = [] /\ u = []
      | VariableNotDeclared _ _ => False
      | _ => f = u
      end
  | _ => True
  end.

Lemma within_tail : forall A (r : tres A) a b, within a r -> tail_of a b -> within b r.
Proof. intros A [x r|k f u|p|] a b H Hab; cbn in *; auto; [|destruct H; split; auto]; eapply tail_trans; eauto. Qed.

Lemma within_bind : forall A B (r : tres A) (f : A -> list token -> tres B) ts, within ts r ->
  (forall a r', within r' (f a r')) -> within ts (tbind r f).
Proof.
  intros A B [x r|k f0 u|p|] f ts H Hf; cbn in *; auto. eapply within_tail; eauto.
Qed.

Lemma consume_cases : forall tok ts, (exists r, ts = TSym tok :: r /\ t_consume tok ts = (true, r)) \/
  (t_consume tok ts = (false, ts) /\ forall r, ts <> TSym tok :: r).
Proof.
  intros tok [|[s|s|c] r]; cbn; try (right; split; [reflexivity|intros; discriminate]).
  destruct (Ascii.eqb_spec c tok) as [->|N]; [left; eauto|]. right. split; auto. intros r' E. injection E as ->. auto.
Qed.

(** nothing can follow an operand at these tokens *)
Definition closing (ts : list token) : Prop :=
  ts = [] \/ (exists r, ts = TSym ")" :: r) \/ (exists r, ts = TSym "," :: r).

(** [a] and [b] look alike to a parser that stops before them, having stopped before [a] *)
Definition alike (a b : list token) : Prop :=
  closing b \/ exists t a' b', a = t :: a' /\ b = t :: b'.

Lemma alike_before : forall m a b, alike a b -> alike (m ++ a) (m ++ b).
Proof. intros [|t m] a b H; [exact H|]. right. exists t, (m ++ a), (m ++ b). auto. Qed.
Lemma alike_after : forall t m a b, alike ((t :: m) ++ a) ((t :: m) ++ b).
Proof. intros. right. exists t, (m ++ a), (m ++ b). auto. Qed.

Section Prefix.
  Variable cfg : config.
  Variable w : world.
  Variable ctx : context.

  Lemma goi_cases : forall el p ts, 
    (exists t r, ts = t :: r /\ exists op, t_goi cfg el p ts = (Some (op, get_for_op op), r) /\
       forall r', t_goi cfg el p (t :: r') = (Some (op, get_for_op op), r')) \/
    (exists t r, ts = t :: r /\ forall r', t_goi cfg el p (t :: r') = (Some (Times, implicit_precedence cfg), t :: r')) \/
    (t_goi cfg el p ts = (None, ts) /\ forall ts', alike ts ts' -> t_goi cfg el p ts' = (None, ts')).
  Proof.
    intros el p ts.
    assert (Hc : forall c, closing c -> t_goi cfg el p c = (None, c)).
    { intros c [-> | [[r ->] | [r ->]]]; cbn; auto; destruct (_ <=? p); auto. }
    assert (Hg : forall t r, t_goi cfg el p (t :: r) =
       match (match t with TSym c => operator_of_byte c | _ => None end) with
       | Some op => if get_for_op op <=? p then (None, t :: r) else (Some (op, get_for_op op), r)
       | None => if implicit_precedence cfg <=? p then (None, t :: r)
           else if juxtaposable (is_number_node el) t then (Some (Times, implicit_precedence cfg), t :: r) else (None, t :: r)
       end) by reflexivity.
    destruct ts as [|t r].
    - right; right. split; [reflexivity|]. intros ts' [H|[t [a [b [H _]]]]]; [auto|discriminate H].
    - assert (Hn : (forall r', t_goi cfg el p (t :: r') = (None, t :: r')) ->
         t_goi cfg el p (t :: r) = (None, t :: r) /\ forall ts', alike (t :: r) ts' -> t_goi cfg el p ts' = (None, ts')).
      { intro H. split; auto. intros ts' [K|[t' [a [b [K ->]]]]]; [auto|]. injection K as <- <-. auto. }
      destruct (match t with TSym c => operator_of_byte c | _ => None end) as [op|] eqn:Eo.
      + destruct (get_for_op op <=? p) eqn:L.
        * right; right. apply Hn. intro r'. now rewrite Hg, Eo, L.
        * left. exists t, r. split; auto. exists op. split; [|intro r']; now rewrite Hg, Eo, L.
      + destruct (implicit_precedence cfg <=? p) eqn:L; [|destruct (juxtaposable (is_number_node el) t) eqn:J].
        * right; right. apply Hn. intro r'. now rewrite Hg, Eo.
        * right; left. exists t, r. split; auto. intro r'. now rewrite Hg, Eo, J.
        * right; right. apply Hn. intro r'. now rewrite Hg, Eo, J.
  Qed.

  (** ** Results lie within the text *)
  Section WithinOpen.
    Variable elem : nat -> list token -> tres element.
    Hypothesis He : forall p ts, within ts (elem p ts).

    Lemma loop_within : forall b p el ts, within ts (t_loop cfg elem b p el ts).
    Proof.
      induction b as [|b IH]; intros p el ts; [exact I|]. cbn [t_loop].
      destruct (goi_cases el p ts) as [[t [r [-> [op [-> _]]]]]|[[t [r [-> E]]]|[-> _]]].
      - eapply within_tail; [|apply tail_cons, tail_refl]. apply within_bind; auto.
      - rewrite E. apply within_bind; auto.
      - cbn. auto with tails.
    Qed.

    Lemma argument_within : forall ts, within ts (t_argument elem ts).
    Proof.
      intro ts. unfold t_argument. specialize (He NO_PRECEDENCE ts).
      destruct (elem NO_PRECEDENCE ts) as [x r|k f u|p|]; auto. destruct k; auto.
    Qed.

    Lemma arguments_within : forall b args ts, within ts (t_arguments elem b args ts).
    Proof.
      induction b as [|b IH]; intros args ts; [exact I|]. cbn [t_arguments]. apply within_bind; [apply argument_within|].
      intros a [|t r]; [cbn; auto with tails|]. destruct t as [s|s|c]; try (cbn; auto with tails).
      destruct (Ascii.eqb c ","); [eapply within_tail; [apply IH|auto with tails]|].
      destruct (Ascii.eqb c ")"); cbn; auto with tails.
    Qed.

    Lemma atom_within : forall b ts, within ts (t_atom ctx elem b ts).
    Proof.
      intros b [|[s|s|c] r]; [cbn; auto with tails|..]; cbn [t_atom].
      - unfold t_number. destruct (parse_f64 _); cbn; auto with tails.
      - unfold t_identifier. destruct (resolve ctx s) as [f|v|x]; [|cbn; auto with tails..].
        destruct (consume_cases "(" r) as [[r1 [-> ->]]|[-> _]]; [|cbn; auto with tails].
        eapply within_tail; [|apply tail_cons, tail_cons, tail_refl]. apply within_bind; [apply arguments_within|].
        intros args r2. unfold t_assert. destruct (consume_cases ")" r2) as [[r3 [-> ->]]|[-> _]]; [|cbn; auto with tails].
        cbn. unfold t_arity. destruct (fn_nb_args f) as [n|]; [|cbn; auto with tails].
        destruct (Nat.compare _ n); cbn; auto with tails.
      - assert (Hk : forall p op, within (TSym c :: r) (tbind (elem p r) (fun e r1 => TOk (UnOp op e) r1))).
        { intros p op. eapply within_tail; [|apply tail_cons, tail_refl]. apply within_bind; auto. cbn. auto with tails. }
        destruct (Ascii.eqb c "+"); [apply Hk|]. destruct (Ascii.eqb c "-"); [apply Hk|].
        destruct (Ascii.eqb c "(").
        + eapply within_tail; [|apply tail_cons, tail_refl]. apply within_bind; auto. intros e r1. unfold t_assert.
          destruct (consume_cases ")" r1) as [[r3 [-> ->]]|[-> _]]; cbn; auto with tails.
        + destruct (Ascii.eqb c ")"); cbn; auto with tails.
    Qed.
  End WithinOpen.

  Lemma element_within : forall b p ts, within ts (t_element cfg w ctx b p ts).
  Proof.
    induction b as [|b IH]; intros p ts; [exact I|]. cbn [t_element]. apply within_bind; [now apply atom_within|].
    intros el r. destruct (t_consume "!" r) as [bang r2] eqn:E.
    assert (Hr : tail_of r2 r) by (destruct (consume_cases "!" r) as [[r3 [-> E']]|[E' _]]; rewrite E' in E; injection E as <- <-; auto with tails).
    eapply within_tail; [|exact Hr]. apply within_bind; [now apply loop_within|]. intros a r'.
    destruct (finish_element cfg w a); cbn; auto with tails.
  Qed.

  Lemma ok_tail : forall A (r : tres A) ts x r', within ts r -> r = TOk x r' -> List.length r' <= List.length ts.
  Proof. intros A r ts x r' H ->. destruct H as [pre ->]. rewrite app_length. lia. Qed.

  (** an operand has at least one token *)
  Lemma atom_reads : forall elem b ts x r, (forall p ts, within ts (elem p ts)) -> t_atom ctx elem b ts = TOk x r -> List.length r < List.length ts.
  Proof.
    intros elem b [|t r0] x r He H; [discriminate H|]. cbn [List.length].
    enough (tail_of r r0) as [pre ->] by (rewrite app_length; lia).
    destruct t as [s|s|c]; cbn [t_atom] in H.
    - unfold t_number in H. destruct (parse_f64 _); [|discriminate H]. injection H as _ <-. auto with tails.
    - unfold t_identifier in H. destruct (resolve ctx s) as [f|v|y]; [|injection H as _ <-; auto with tails..].
      destruct (consume_cases "(" r0) as [[r1 [-> E]]|[E _]]; rewrite E in H; [|discriminate H].
      pose proof (arguments_within elem He b [] r1) as W1. destruct (t_arguments elem b [] r1) as [args r2| | |]; try discriminate H.
      cbn in H, W1. unfold t_assert in H. destruct (consume_cases ")" r2) as [[r3 [-> E3]]|[E3 _]]; rewrite E3 in H; [|discriminate H].
      cbn in H. assert (Er : r = r3).
      { unfold t_arity in H. destruct (fn_nb_args f) as [n|]; [destruct (Nat.compare _ n); try discriminate H|]; now injection H as _ <-. }
      subst r3. apply tail_cons. eapply tail_trans; [|exact W1]. auto with tails.
    - assert (Hk : forall p op, tbind (elem p r0) (fun e r1 => TOk (UnOp op e) r1) = TOk x r -> tail_of r r0).
      { intros p op K. pose proof (He p r0) as W1. destruct (elem p r0); try discriminate K. cbn in K. injection K as _ <-. exact W1. }
      destruct (Ascii.eqb c "+"); [eapply Hk; eauto|]. destruct (Ascii.eqb c "-"); [eapply Hk; eauto|]. destruct (Ascii.eqb c "(").
      + pose proof (He NO_PRECEDENCE r0) as W1. destruct (elem NO_PRECEDENCE r0) as [e r1| | |]; try discriminate H. cbn in H, W1.
        unfold t_assert in H. destruct (consume_cases ")" r1) as [[r3 [-> E3]]|[E3 _]]; rewrite E3 in H; [|discriminate H].
        cbn in H. injection H as _ <-. eapply tail_trans; [|exact W1]. auto with tails.
      + destruct (Ascii.eqb c ")"); discriminate H.
  Qed.

  Lemma element_reads : forall b p ts x r, t_element cfg w ctx b p ts = TOk x r -> List.length r < List.length ts.
  Proof.
    intros [|b] p ts x r H; [discriminate H|]. cbn [t_element] in H.
    destruct (t_atom ctx (t_element cfg w ctx b) b ts) as [el r1| | |] eqn:E; try discriminate H.
    apply atom_reads in E; [|apply element_within]. cbn in H.
    destruct (t_consume "!" r1) as [bang r2] eqn:E2.
    assert (L2 : List.length r2 <= List.length r1) by (destruct (consume_cases "!" r1) as [[r3 [-> E']]|[E' _]]; rewrite E' in E2; injection E2 as <- <-; cbn; lia).
    destruct (t_loop _ _ _ _ _ r2) as [el2 r3| | |] eqn:E3; try discriminate H.
    pose proof (loop_within (t_element cfg w ctx b) (element_within b) b p (if bang then UnOp Factorial el else el) r2) as W3.
    pose proof (ok_tail _ _ _ _ _ W3 E3) as L3. cbn in H. destruct (finish_element cfg w el2); [|discriminate H]. cbn in H. injection H as _ <-. lia.
  Qed.

  (** ** Tokens not looked at *)

  Definition same_head (a b : list token) : Prop := exists t a' b', a = t :: a' /\ b = t :: b'.

  (** what [f] does up to [a] it also does up to [b] *)
  Definition steady_for (R : list token -> list token -> Prop) {A} (f : list token -> tres A) : Prop :=
    (forall pre a b x, R a b -> f (pre ++ a) = TOk x a -> f (pre ++ b) = TOk x b) /\
    (forall pre t a b k fr, f (pre ++ t :: a) = TErr k fr (t :: a) -> exists fr', f (pre ++ t :: b) = TErr k fr' (t :: b)).
  Notation steady := (steady_for alike).

  Lemma split_tail : forall (pre a m : list token) r, pre ++ a = m ++ r -> tail_of a r -> exists m2, r = m2 ++ a /\ pre = m ++ m2.
  Proof.
    intros pre a m r E [m2 ->]. rewrite app_assoc in E. apply app_inv_tail in E. exists m2. auto.
  Qed.

  Lemma steady_bind : forall (R : list token -> list token -> Prop) A B (f : list token -> tres A) (g : A -> list token -> tres B),
    (forall a b, R a b -> alike a b) ->
    (forall ts, within ts (f ts)) -> (forall x ts, within ts (g x ts)) ->
    steady f -> (forall x, steady_for R (g x)) -> steady_for R (fun ts => tbind (f ts) g).
  Proof.
    intros R A B f g HR Wf Wg [F1 F2] G. split.
    - intros pre a b x Hab H. destruct (f (pre ++ a)) as [y r| | |] eqn:E; try discriminate H. cbn in H.
      pose proof (Wf (pre ++ a)) as Wt. rewrite E in Wt. destruct Wt as [m Em].
      pose proof (Wg y r) as W2. rewrite H in W2. destruct (split_tail _ _ _ _ Em W2) as [m2 [-> ->]].
      rewrite <- app_assoc in E |- *. rewrite (F1 m (m2 ++ a) (m2 ++ b) y (alike_before m2 a b (HR _ _ Hab)) E). cbn.
      now apply (proj1 (G y) m2 a b x Hab).
    - intros pre t a b k fr H. destruct (f (pre ++ t :: a)) as [y r|k' f' u'| |] eqn:E; try discriminate H; cbn in H.
      + pose proof (Wf (pre ++ t :: a)) as Wt. rewrite E in Wt. destruct Wt as [m Em].
        pose proof (Wg y r) as W2. rewrite H in W2. destruct W2 as [W2 _]. destruct (split_tail _ _ _ _ Em W2) as [m2 [-> ->]].
        rewrite <- app_assoc in E |- *. rewrite (F1 m (m2 ++ t :: a) (m2 ++ t :: b) y) with (2 := E); [|apply alike_before; right; eauto]. cbn.
        eapply (proj2 (G y)). exact H.
      + injection H as -> -> ->. destruct (F2 pre t a b k fr E) as [fr' ->]. cbn. eauto.
  Qed.

  (** the same where the second function always reads a token *)
  Lemma steady_bind_reading : forall A B (f : list token -> tres A) (g : A -> list token -> tres B),
    (forall ts, within ts (f ts)) -> (forall x ts, within ts (g x ts)) ->
    steady_for same_head f -> (forall x, steady (g x)) -> (forall x ts y r, g x ts = TOk y r -> List.length r < List.length ts) ->
    steady (fun ts => tbind (f ts) g).
  Proof.
    intros A B f g Wf Wg [F1 F2] G Hr. split.
    - intros pre a b x Hab H. destruct (f (pre ++ a)) as [y r| | |] eqn:E; try discriminate H. cbn in H.
      pose proof (Wf (pre ++ a)) as Wt. rewrite E in Wt. destruct Wt as [m Em].
      pose proof (Wg y r) as W2. rewrite H in W2. destruct (split_tail _ _ _ _ Em W2) as [m2 [-> ->]].
      destruct m2 as [|t m2]; [apply Hr in H; cbn in H; lia|].
      rewrite <- app_assoc in E |- *. rewrite (F1 m ((t :: m2) ++ a) ((t :: m2) ++ b) y) with (2 := E); [|exists t, (m2 ++ a), (m2 ++ b); auto]. cbn [tbind].
      now apply (proj1 (G y) (t :: m2) a b x Hab).
    - intros pre t a b k fr H. destruct (f (pre ++ t :: a)) as [y r|k' f' u'| |] eqn:E; try discriminate H; cbn in H.
      + pose proof (Wf (pre ++ t :: a)) as Wt. rewrite E in Wt. destruct Wt as [m Em].
        pose proof (Wg y r) as W2. rewrite H in W2. destruct W2 as [W2 _]. destruct (split_tail _ _ _ _ Em W2) as [m2 [-> ->]].
        rewrite <- app_assoc in E |- *. rewrite (F1 m (m2 ++ t :: a) (m2 ++ t :: b) y) with (2 := E);
          [|destruct m2 as [|t' m2]; [exists t, a, b|exists t', (m2 ++ t :: a), (m2 ++ t :: b)]; auto]. cbn.
        eapply (proj2 (G y)). exact H.
      + injection H as -> -> ->. destruct (F2 pre t a b k fr E) as [fr' ->]. cbn. eauto.
  Qed.

  (** a first token that is always read *)
  Lemma steady_cons : forall A (f : list token -> tres A) (g : list token -> tres A) t0,
    (forall r, f (t0 :: r) = g r) -> (forall ts, within ts (g ts)) -> steady g ->
    (forall pre a b x, alike a b -> f (t0 :: pre ++ a) = TOk x a -> f (t0 :: pre ++ b) = TOk x b) /\
    (forall pre t a b k fr, f (t0 :: pre ++ t :: a) = TErr k fr (t :: a) -> exists fr', f (t0 :: pre ++ t :: b) = TErr k fr' (t :: b)).
  Proof. intros A f g t0 E _ [G1 G2]. split; intros *; rewrite !E; eauto. Qed.

  Lemma steady_ext : forall R A (f g : list token -> tres A), (forall ts, f ts = g ts) -> steady_for R f -> steady_for R g.
  Proof.
    intros R A f g H [F1 F2]. split; intros *; rewrite <- !H; eauto.
  Qed.

  Lemma steady_ok : forall A (x : A), steady (fun ts => TOk x ts).
  Proof.
    intros A x. split.
    - intros pre a b y _ H. injection H as -> E. assert (pre = []) as -> by (eapply app_inv_tail; cbn; exact E). reflexivity.
    - intros. discriminate.
  Qed.

  Lemma steady_lift : forall A (o : out A), steady (t_lift o).
  Proof.
    intros A [x|p]; cbn; [apply (steady_ok A x)|]. split; intros; discriminate.
  Qed.

  Lemma cons_split : forall (pre a : list token) t r, pre ++ a = t :: r -> (pre = [] /\ a = t :: r) \/ exists pre', pre = t :: pre' /\ r = pre' ++ a.
  Proof. intros [|x pre] a t r E; [left; auto|]. injection E as -> <-. right. eauto. Qed.

  (** a function that fails at once at [t], or reads [t] and goes on *)
  Lemma steady_assert : forall tok, steady (t_assert tok).
  Proof.
    intro tok. unfold t_assert. split.
    - intros pre a b x _ H. destruct (consume_cases tok (pre ++ a)) as [[r [E1 E2]]|[E2 _]]; rewrite E2 in H; [|discriminate H].
      injection H as -> ->. assert (pre = [TSym tok]) as -> by (apply (app_inv_tail a); exact E1). cbn. now rewrite Ascii.eqb_refl.
    - intros pre t a b k fr H. destruct (consume_cases tok (pre ++ t :: a)) as [[r [E1 E2]]|[E2 N]]; rewrite E2 in H; [discriminate H|].
      injection H as <- E3 E4. assert (pre = []) as -> by (eapply app_inv_tail; cbn; exact E4). cbn [app] in *.
      destruct (consume_cases tok (t :: b)) as [[r [E1 _]]|[E1 _]]; [|rewrite E1; eauto].
      injection E1 as -> _. elim (N a). reflexivity.
  Qed.

  Section SteadyOpen.
    Variable elem : nat -> list token -> tres element.
    Hypothesis Wt : forall p ts, within ts (elem p ts).
    Hypothesis Pr : forall p ts x r, elem p ts = TOk x r -> List.length r < List.length ts.
    Hypothesis St : forall p, steady (elem p).

    Lemma loop_steady : forall b p el, steady (t_loop cfg elem b p el).
    Proof.
      induction b as [|b IH]; intros p el; [split; intros; discriminate|].
      assert (S : forall op k, steady (fun ts => tbind (elem k ts) (fun rhs r => t_loop cfg elem b p (BinOp op el rhs) r))).
      { intros op k. apply steady_bind; auto. intros; now apply loop_within. }
      split.
      - intros pre a c x Hac H. cbn [t_loop] in *.
        destruct (goi_cases el p (pre ++ a)) as [[t [r [E [op [E1 E2]]]]]|[[t [r [E E1]]]|[E1 E2]]].
        + rewrite E1 in H. destruct (cons_split _ _ _ _ E) as [[-> ->]|[pre' [-> ->]]].
          * exfalso. cbn in E1. pose proof (within_bind _ _ (elem (get_for_op op) r) (fun rhs r => t_loop cfg elem b p (BinOp op el rhs) r) r (Wt _ _) (fun y r' => loop_within elem Wt b p _ r')) as K.
            rewrite H in K. destruct K as [m K]. apply (f_equal (@List.length _)) in K. rewrite app_length in K. cbn in K. lia.
          * cbn [app]. rewrite E2. exact (proj1 (S op (get_for_op op)) pre' a c x Hac H).
        + rewrite E, E1 in H. rewrite <- E in H.
          destruct (cons_split _ _ _ _ E) as [[-> ->]|[pre' [-> ->]]].
          * destruct Hac as [Hc|[t' [a' [c' [Ea ->]]]]].
            -- (* nothing read at all: impossible unless the loop returns at once *)
               exfalso. cbn [app] in H. destruct (elem (implicit_precedence cfg) (t :: r)) as [y r1| | |] eqn:Ey; try discriminate H.
               apply Pr in Ey. cbn [tbind] in H. pose proof (ok_tail _ _ _ _ _ (loop_within elem Wt b p _ r1) H). lia.
            -- injection Ea as <- <-. cbn [app]. rewrite E1. exact (proj1 (S Times (implicit_precedence cfg)) [] (t :: r) (t :: c') x (or_intror (ex_intro _ t (ex_intro _ r (ex_intro _ c' (conj eq_refl eq_refl))))) H).
          * cbn [app]. rewrite E1. exact (proj1 (S Times (implicit_precedence cfg)) (t :: pre') a c x Hac H).
        + rewrite E1 in H. injection H as -> E. assert (pre = []) as -> by (eapply app_inv_tail; cbn; exact E). cbn in *.
          now rewrite (E2 _ Hac).
      - intros pre t a c k fr H. cbn [t_loop] in *.
        destruct (goi_cases el p (pre ++ t :: a)) as [[t1 [r [E [op [E1 E2]]]]]|[[t1 [r [E E1]]]|[E1 E2]]].
        + rewrite E1 in H. destruct (cons_split _ _ _ _ E) as [[-> Ea]|[pre' [-> ->]]].
          * injection Ea as <- <-. exfalso.
            pose proof (within_bind _ _ (elem (get_for_op op) a) (fun rhs r => t_loop cfg elem b p (BinOp op el rhs) r) a (Wt _ _) (fun y r' => loop_within elem Wt b p _ r')) as K.
            rewrite H in K. destruct K as [[m K] _]. apply (f_equal (@List.length _)) in K. rewrite app_length in K. cbn in K. lia.
          * cbn [app]. rewrite E2. exact (proj2 (S op (get_for_op op)) pre' t a c k fr H).
        + rewrite E, E1 in H. rewrite <- E in H. destruct (cons_split _ _ _ _ E) as [[-> Ea]|[pre' [-> ->]]].
          * injection Ea as <- <-. cbn [app]. rewrite E1. exact (proj2 (S Times (implicit_precedence cfg)) [] t a c k fr H).
          * cbn [app]. rewrite E1. exact (proj2 (S Times (implicit_precedence cfg)) (t1 :: pre') t a c k fr H).
        + rewrite E1 in H. discriminate H.
    Qed.

    Lemma argument_steady : steady (t_argument elem).
    Proof.
      destruct (St NO_PRECEDENCE) as [S1 S2]. unfold t_argument. split.
      - intros pre a b x Hab H. destruct (elem NO_PRECEDENCE (pre ++ a)) as [y r|k f u| |] eqn:E; try discriminate H; [|destruct k; discriminate H].
        injection H as -> ->. now rewrite (S1 pre a b x Hab E).
      - intros pre t a b k fr H. destruct (elem NO_PRECEDENCE (pre ++ t :: a)) as [y r|k' f u| |] eqn:E; try discriminate H.
        assert (Hu : f = fr /\ u = t :: a) by (destruct k'; injection H as <- <- <-; auto). destruct Hu as [-> ->].
        destruct (S2 pre t a b k' fr E) as [fr' ->]. destruct k'; injection H as <-; eauto.
    Qed.

    Lemma arguments_steady : forall b args, steady_for same_head (t_arguments elem b args).
    Proof.
      induction b as [|b IH]; intro args; [split; intros; discriminate|]. cbn [t_arguments].
      apply steady_bind; [intros a c H; now right|now apply argument_within| |apply argument_steady|].
      - intros x [|t r]; [cbn; auto with tails|]. destruct t as [s|s|c]; try (cbn; auto with tails).
        destruct (Ascii.eqb c ","); [eapply within_tail; [apply arguments_within; exact Wt|auto with tails]|].
        destruct (Ascii.eqb c ")"); cbn; auto with tails.
      - intro x. split.
        + intros [|t pre] a c y Hac H; cbn [app] in *.
          * destruct Hac as [t [a' [c' [-> ->]]]]. destruct t as [s|s|e]; try discriminate H.
            destruct (Ascii.eqb e ",").
            -- exfalso. pose proof (ok_tail _ _ _ _ _ (arguments_within elem Wt b _ a') H) as L. cbn in L. lia.
            -- destruct (Ascii.eqb e ")"); [|discriminate H]. now injection H as <-.
          * destruct t as [s|s|e]; try discriminate H.
            destruct (Ascii.eqb e ","); [now apply (proj1 (IH (args ++ [x])) pre a c y Hac)|].
            destruct (Ascii.eqb e ")"); [|discriminate H]. injection H as _ E. exfalso.
            apply (f_equal (@List.length _)) in E. cbn in E. rewrite app_length in E. lia.
        + assert (L : forall k1 f1 (pre : list token) t t0 a k f, @TErr (list element) k1 f1 (t0 :: pre ++ t :: a) = TErr k f (t :: a) -> False).
          { intros k1 f1 pre t t0 a k f E0. assert (E : t0 :: pre ++ t :: a = t :: a) by congruence. clear E0. apply (f_equal (@List.length _)) in E. cbn in E. rewrite app_length in E. cbn in E. lia. }
          intros [|t0 pre] t a c k fr H; cbn [app] in *.
          * destruct t as [s|s|e]; try (injection H as <- <-; eauto; fail).
            destruct (Ascii.eqb e ",").
            -- exfalso. pose proof (arguments_within elem Wt b (args ++ [x]) a) as K. rewrite H in K. destruct K as [[m K] _].
               apply (f_equal (@List.length _)) in K. rewrite app_length in K. cbn in K. lia.
            -- destruct (Ascii.eqb e ")"); [discriminate H|]. injection H as <- <-. eauto.
          * destruct t0 as [s|s|e]; try (exfalso; exact (L _ _ _ _ _ _ _ _ H)).
            destruct (Ascii.eqb e ","); [exact (proj2 (IH (args ++ [x])) pre t a c k fr H)|].
            destruct (Ascii.eqb e ")"); [discriminate H|]. exfalso; exact (L _ _ _ _ _ _ _ _ H).
    Qed.

    Lemma arity_ends : forall f args fr r2 r3,
      t_arity f args fr r2 r3 = TOk (Call f args) r3 \/
      exists k, (forall fr r2 r3, t_arity f args fr r2 r3 = TErr k fr r2) /\ match k with TooFewArguments _ _ | TooManyArguments _ _ => True | _ => False end.
    Proof.
      intros f args fr r2 r3. unfold t_arity. destruct (fn_nb_args f) as [n|]; auto.
      destruct (Nat.compare (List.length args) n); auto; right; eexists; (split; [reflexivity|exact I]).
    Qed.

    Lemma call_steady : forall b s f,
      let call := fun ts => let '(b0, r) := t_consume "(" ts in
          if b0 then
            tbind (t_arguments elem b [] r) (fun args r2 =>
            tbind (t_assert ")" r2) (fun _ r3 => t_arity f args (TId s :: ts) r2 r3))
          else TErr (ExpectedToken "(") ts ts in
      steady call /\ forall r, within r (call r).
    Proof.
      intros b s f call.
      (* the part behind the parenthesis; [fr] is only handed on *)
      set (inner := fun fr r => tbind (t_arguments elem b [] r) (fun args r2 =>
            tbind (t_assert ")" r2) (fun _ r3 => t_arity f args fr r2 r3))).
      assert (Wc : forall fr x ts, within ts (tbind (t_assert ")" ts) (fun _ r3 => t_arity f x fr ts r3))).
      { intros fr x ts. unfold t_assert. destruct (consume_cases ")" ts) as [[r [-> ->]]|[-> _]]; cbn [tbind]; [|cbn; auto with tails].
        destruct (arity_ends f x fr (TSym ")" :: r) r) as [-> |[k [-> K]]]; cbn; auto with tails. split; auto with tails. destruct k; auto; contradiction. }
      assert (Wi : forall fr ts, within ts (inner fr ts)).
      { intros fr ts. apply within_bind; [now apply arguments_within|]. intros; apply Wc. }
      assert (Si : forall fr, steady (inner fr)).
      { intro fr. apply steady_bind_reading; [now apply arguments_within|apply Wc|apply arguments_steady| |].
        - intro x. split.
          + intros pre a c y Hac H. unfold t_assert in *. destruct (consume_cases ")" (pre ++ a)) as [[r [E1 E2]]|[E2 _]]; rewrite E2 in H; [|discriminate H].
            cbn [tbind] in H. destruct (arity_ends f x fr (pre ++ a) r) as [E|[k [E _]]]; rewrite E in H; [|discriminate H]. injection H as <- ->.
            assert (pre = [TSym ")"]) as -> by (apply (app_inv_tail a); exact E1). cbn.
            destruct (arity_ends f x fr (TSym ")" :: c) c) as [E'|[k [E' _]]]; [exact E'|rewrite E' in E; discriminate E].
          + intros pre t a c k fr0 H. unfold t_assert in *. destruct (consume_cases ")" (pre ++ t :: a)) as [[r [E1 E2]]|[E2 N]]; rewrite E2 in H; cbn [tbind] in H.
            * destruct (arity_ends f x fr (pre ++ t :: a) r) as [E|[k' [E _]]]; rewrite E in H; [discriminate H|]. injection H as -> -> E3.
              assert (pre = []) as -> by (eapply app_inv_tail; cbn; exact E3). cbn in *. injection E1 as -> ->. cbn. rewrite E. eauto.
            * injection H as <- E3 E4. assert (pre = []) as -> by (eapply app_inv_tail; cbn; exact E4). cbn [app] in *.
              destruct (consume_cases ")" (t :: c)) as [[r [E1 _]]|[E1 _]]; [|rewrite E1; cbn; eauto].
              injection E1 as -> _. elim (N a). reflexivity.
        - intros x ts y r H. unfold t_assert in H. destruct (consume_cases ")" ts) as [[r3 [-> E3]]|[E3 _]]; rewrite E3 in H; [|discriminate H]. cbn [tbind] in H.
          destruct (arity_ends f x fr (TSym ")" :: r3) r3) as [E|[k [E _]]]; rewrite E in H; [|discriminate H]. injection H as _ <-. cbn. lia. }
      assert (Hfr : forall fr fr' r, match inner fr r with
        | TErr k f u => exists f', inner fr' r = TErr k f' u | o => inner fr' r = o end).
      { intros fr fr' r. unfold inner. destruct (t_arguments elem b [] r) as [args r2| | |]; cbn; eauto.
        destruct (t_assert ")" r2) as [z r3| | |]; cbn; eauto.
        destruct (arity_ends f args fr r2 r3) as [E|[k [E _]]].
        - rewrite E. destruct (arity_ends f args fr' r2 r3) as [E'|[k [E' _]]]; [exact E'|]. rewrite E' in E. discriminate E.
        - rewrite !E. eauto. }
      split; [split|].
      - intros pre a c x Hac H. unfold call in *. destruct (consume_cases "(" (pre ++ a)) as [[r [E1 E2]]|[E2 _]]; rewrite E2 in H; [|discriminate H].
        destruct (cons_split _ _ _ _ E1) as [[-> ->]|[pre' [-> ->]]].
        + exfalso. change (inner (TId s :: [] ++ TSym "(" :: r) r = TOk x (TSym "(" :: r)) in H.
          pose proof (ok_tail _ _ _ _ _ (Wi _ r) H) as K. cbn in K. lia.
        + cbn [app] in *. change (inner (TId s :: TSym "(" :: pre' ++ a) (pre' ++ a) = TOk x a) in H.
          change (inner (TId s :: TSym "(" :: pre' ++ c) (pre' ++ c) = TOk x c).
          apply (proj1 (Si _) pre' a c x Hac). pose proof (Hfr (TId s :: TSym "(" :: pre' ++ a) (TId s :: TSym "(" :: pre' ++ c) (pre' ++ a)) as K.
          rewrite H in K. exact K.
      - intros pre t a c k fr H. unfold call in *. destruct (consume_cases "(" (pre ++ t :: a)) as [[r [E1 E2]]|[E2 N]]; rewrite E2 in H.
        + destruct (cons_split _ _ _ _ E1) as [[-> Ea]|[pre' [-> ->]]].
          * exfalso. injection Ea as -> ->. change (inner (TId s :: [] ++ TSym "(" :: r) r = TErr k fr (TSym "(" :: r)) in H.
            pose proof (Wi (TId s :: [] ++ TSym "(" :: r) r) as K. rewrite H in K. destruct K as [[m K] _].
            apply (f_equal (@List.length _)) in K. rewrite app_length in K. cbn in K. lia.
          * cbn [app] in *. change (inner (TId s :: TSym "(" :: pre' ++ t :: a) (pre' ++ t :: a) = TErr k fr (t :: a)) in H.
            change (exists fr', inner (TId s :: TSym "(" :: pre' ++ t :: c) (pre' ++ t :: c) = TErr k fr' (t :: c)).
            pose proof (Hfr (TId s :: TSym "(" :: pre' ++ t :: a) (TId s :: TSym "(" :: pre' ++ t :: c) (pre' ++ t :: a)) as K.
            rewrite H in K. destruct K as [f' K]. exact (proj2 (Si _) pre' t a c k f' K).
        + injection H as <- E3 E4. assert (pre = []) as -> by (eapply app_inv_tail; cbn; exact E4). cbn [app] in *.
          destruct (consume_cases "(" (t :: c)) as [[r [E1 _]]|[E1 _]]; [|rewrite E1; eauto].
          injection E1 as -> _. elim (N a). reflexivity.
      - intro r. unfold call. destruct (consume_cases "(" r) as [[r1 [-> ->]]|[-> _]]; [|cbn; auto with tails].
        eapply within_tail; [apply Wi|auto with tails].
    Qed.

    Lemma atom_steady : forall b, steady (t_atom ctx elem b).
    Proof.
      intro b.
      assert (L : forall (pre : list token) t a, pre ++ a = t :: a -> pre = [t]).
      { intros pre t a E. apply (app_inv_tail a). exact E. }
      (* by the first token *)
      assert (H0 : forall t0, steady (fun ts => t_atom ctx elem b (t0 :: ts)) /\ (forall r, within r (t_atom ctx elem b (t0 :: r))) \/ (exists k, forall r, t_atom ctx elem b (t0 :: r) = TErr k (t0 :: r) (t0 :: r))).
      { intros [s|s|c]; cbn [t_atom].
        - unfold t_number. destruct (parse_f64 _); [left; split; [apply steady_ok|cbn; auto with tails]|right; eauto].
        - unfold t_identifier. left. destruct (resolve ctx s) as [f|v|x]; [|split; [apply steady_ok|cbn; auto with tails]..].
          pose proof (call_steady b s f) as [C1 C2]. split; [exact C1|exact C2].
        - assert (Hk : forall p op, steady (fun r => tbind (elem p r) (fun e r1 => TOk (UnOp op e) r1)) /\ forall r, within r (tbind (elem p r) (fun e r1 => TOk (UnOp op e) r1))).
          { intros p op. split; [|intro r; apply within_bind; auto; cbn; auto with tails].
            apply steady_bind; auto; [cbn; auto with tails|]. intro x. apply steady_ok. }
          assert (Ha : forall ts, within ts (t_assert ")" ts)).
          { intros ts. unfold t_assert. destruct (consume_cases ")" ts) as [[r [-> ->]]|[-> _]]; cbn; auto with tails. }
          assert (Hb : forall (e : element) ts, within ts (tbind (t_assert ")" ts) (fun _ r2 => TOk e r2))).
          { intros e ts. apply within_bind; auto. cbn. auto with tails. }
          destruct (Ascii.eqb_spec c "+"); [left; apply Hk|]. destruct (Ascii.eqb c "-"); [left; apply Hk|].
          destruct (Ascii.eqb c "(").
          + left. split; [|intro r; apply within_bind; auto]. apply steady_bind; auto.
            intro x. apply steady_bind; auto; [cbn; auto with tails|apply steady_assert|intros []; apply steady_ok].
          + right. destruct (Ascii.eqb_spec c ")") as [->|]; eauto. }
      split.
      - intros [|t0 pre] a c x Hac H; cbn [app] in *.
        + apply atom_reads in H; auto. lia.
        + destruct (H0 t0) as [[[S1 _] _]|[k K]]; [eapply S1; eauto|]. rewrite K in H. discriminate H.
      - intros [|t0 pre] t a c k fr H; cbn [app] in *.
        + destruct (H0 t) as [[_ Hw]|[k' K]].
          * exfalso. specialize (Hw a). rewrite H in Hw. destruct Hw as [[m Hw] _].
            apply (f_equal (@List.length _)) in Hw. rewrite app_length in Hw. cbn in Hw. lia.
          * rewrite K in *. injection H as <- <-. eauto.
        + destruct (H0 t0) as [[[_ S2] _]|[k' K]]; [eapply S2; eauto|]. rewrite K in H. exfalso.
          assert (E : t0 :: pre ++ t :: a = t :: a) by congruence. apply (f_equal (@List.length _)) in E. cbn in E. rewrite app_length in E. cbn in E. lia.
    Qed.
  End SteadyOpen.

  Lemma element_steady : forall b p, steady (t_element cfg w ctx b p).
  Proof.
    induction b as [|b IH]; intro p; [split; intros; discriminate|]. cbn [t_element].
    assert (Wl : forall e ts, within ts (tbind (t_loop cfg (t_element cfg w ctx b) b p e ts) (fun el r3 => t_lift (finish_element cfg w el) r3))).
    { intros e ts. apply within_bind; [apply loop_within, element_within|]. intros x r. destruct (finish_element cfg w x); cbn; auto with tails. }
    assert (Sl : forall e, steady (fun ts => tbind (t_loop cfg (t_element cfg w ctx b) b p e ts) (fun el r3 => t_lift (finish_element cfg w el) r3))).
    { intro e. apply steady_bind; auto.
      - intro ts. apply loop_within, element_within.
      - intros x ts. destruct (finish_element cfg w x); cbn; auto with tails.
      - apply loop_steady; auto using element_within. intros. eapply element_reads; eauto.
      - intro x. apply steady_lift. }
    apply steady_bind; auto.
    - intro ts. apply atom_within, element_within.
    - intros x ts. destruct (consume_cases "!" ts) as [[r [-> ->]]|[-> _]]; [eapply within_tail; [apply Wl|auto with tails]|apply Wl].
    - apply atom_steady; auto using element_within.
    - intro x. split.
      + intros pre a c y Hac H. destruct (consume_cases "!" (pre ++ a)) as [[r [E1 E2]]|[E2 N]]; rewrite E2 in H.
        * destruct (cons_split _ _ _ _ E1) as [[-> ->]|[pre' [-> ->]]].
          -- exfalso. pose proof (ok_tail _ _ _ _ _ (Wl (UnOp Factorial x) r) H) as K. cbn in K. lia.
          -- cbn [app t_consume Ascii.eqb Bool.eqb]. exact (proj1 (Sl (UnOp Factorial x)) pre' a c y Hac H).
        * assert (E3 : t_consume "!" (pre ++ c) = (false, pre ++ c)).
          { destruct (consume_cases "!" (pre ++ c)) as [[r [E3 _]]|[E3 _]]; [exfalso|exact E3].
            destruct pre as [|t pre]; cbn in *.
            - destruct Hac as [[-> | [[r' ->] | [r' ->]]]|[t [a' [c' [-> ->]]]]]; try discriminate E3.
              injection E3 as -> _. elim (N a'). reflexivity.
            - injection E3 as -> _. elim (N (pre ++ a)). reflexivity. }
          rewrite E3. exact (proj1 (Sl x) pre a c y Hac H).
      + intros pre t a c k fr H. destruct (consume_cases "!" (pre ++ t :: a)) as [[r [E1 E2]]|[E2 N]]; rewrite E2 in H.
        * destruct (cons_split _ _ _ _ E1) as [[-> Ea]|[pre' [-> ->]]].
          -- exfalso. injection Ea as -> ->. pose proof (Wl (UnOp Factorial x) r) as K. rewrite H in K. destruct K as [[m K] _].
             apply (f_equal (@List.length _)) in K. rewrite app_length in K. cbn in K. lia.
          -- cbn [app t_consume Ascii.eqb Bool.eqb]. exact (proj2 (Sl (UnOp Factorial x)) pre' t a c k fr H).
        * assert (E3 : t_consume "!" (pre ++ t :: c) = (false, pre ++ t :: c)).
          { destruct (consume_cases "!" (pre ++ t :: c)) as [[r [E3 _]]|[E3 _]]; [exfalso|exact E3].
            destruct pre as [|t0 pre]; cbn in *.
            - injection E3 as -> _. elim (N a). reflexivity.
            - injection E3 as -> _. elim (N (pre ++ t :: a)). reflexivity. }
          rewrite E3. exact (proj2 (Sl x) pre t a c k fr H).
  Qed.

  (** a rejected text is rejected in the same way whatever follows the token it
      is rejected at *)
  Lemma parse_steady : forall b pre t a c k fr, t_parse cfg w ctx b (pre ++ t :: a) = TErr k fr (t :: a) ->
    exists fr', t_parse cfg w ctx b (pre ++ t :: c) = TErr k fr' (t :: c).
  Proof.
    intros b pre t a c k fr H. unfold t_parse in *. destruct (element_steady b NO_PRECEDENCE) as [S1 S2].
    destruct (t_element cfg w ctx b NO_PRECEDENCE (pre ++ t :: a)) as [x r|k' f' u| |] eqn:E; try discriminate H; cbn in H.
    - destruct r as [|t0 r]; [discriminate H|]. injection H as <- <- <- <-.
      rewrite (S1 pre (t0 :: r) (t0 :: c) x) with (2 := E); [|right; eauto]. cbn. eauto.
    - injection H as -> -> ->. destruct (S2 pre t a c k fr E) as [fr' ->]. cbn. eauto.
  Qed.

  Lemma parse_within : forall b ts, within ts (t_parse cfg w ctx b ts).
  Proof.
    intros b ts. unfold t_parse. apply within_bind; [apply element_within|]. intros x [|t r]; cbn; auto with tails.
  Qed.

  (** ** Completing what has been read *)
  Notation E := (t_element cfg w ctx).
  Definition ev (Q : nat -> nat -> Prop) : Prop := exists n, forall B i, n <= B -> n <= i -> Q B i.

  Lemma ev_and : forall Q Q' R : nat -> nat -> Prop, ev Q -> ev Q' -> (forall B i, Q B i -> Q' B i -> R B i) -> ev R.
  Proof. intros Q Q' R [n H] [m H'] K. exists (n + m). intros B i HB Hi. apply K; [apply H|apply H']; lia. Qed.
  Lemma ev_impl : forall Q R : nat -> nat -> Prop, ev Q -> (forall B i, Q B i -> R B i) -> ev R.
  Proof. intros Q R [n H] K. exists n. auto. Qed.
  Lemma ev_succ : forall Q : nat -> nat -> Prop, ev (fun B i => Q B (S i)) -> ev Q.
  Proof. intros Q [n H]. exists (S n). intros B [|i] HB Hi; [lia|]. apply H; lia. Qed.
  Lemma ev_all : forall Q : nat -> nat -> Prop, (forall B i, Q B i) -> ev Q.
  Proof. intros Q H. exists 0. auto. Qed.

  (** read up to [c], or stopped by a call with too many arguments or a panic *)
  Definition good {A} (P : A -> Prop) (c : list token) (r : tres A) : Prop :=
    match r with
    | TOk x r' => r' = c /\ P x
    | TErr (TooManyArguments _ _) _ _ => True
    | TPanic _ => True
    | _ => False
    end.
  Notation any := (fun _ => True).

  Lemma good_bind : forall A B (P : A -> Prop) (P' : B -> Prop) c c' (r : tres A) (g : A -> list token -> tres B),
    good P c r -> (forall x, P x -> good P' c' (g x c)) -> good P' c' (tbind r g).
  Proof.
    intros A B P P' c c' [x r|k f u|p|] g H Hg; cbn in *; auto. destruct H as [-> H]. auto.
  Qed.

  Lemma elem_ev : forall b p ts x r, E b p ts = TOk x r -> ev (fun B _ => E B p ts = TOk x r).
  Proof.
    intros b p ts x r H. exists b. intros B i HB _. destruct (mono_element cfg w ctx b B p ts HB) as [K|K]; congruence.
  Qed.

  Lemma loop_closing : forall f i p el c, closing c -> t_loop cfg f (S i) p el c = TOk el c.
  Proof.
    intros f i p el c Hc. cbn [t_loop]. destruct (goi_cases el p c) as [[t [r [-> [op [_ K]]]]]|[[t [r [-> K]]]|[-> _]]]; [exfalso..|reflexivity].
    - destruct Hc as [Hc|[[r' Hc]|[r' Hc]]]; [discriminate Hc|injection Hc as -> <-..]; specialize (K []); cbn in K; destruct (_ <=? p) in K; discriminate K.
    - destruct Hc as [Hc|[[r' Hc]|[r' Hc]]]; [discriminate Hc|injection Hc as -> <-..]; specialize (K []); cbn in K; destruct (_ <=? p) in K; discriminate K.
  Qed.

  Lemma bang_closing : forall c, closing c -> t_consume "!" c = (false, c).
  Proof. intros c [-> |[[r ->]|[r ->]]]; reflexivity. Qed.

  Lemma lift_good : forall o c, good any c (@t_lift element o c).
  Proof. intros [x|p] c; cbn; auto. Qed.

  (** after an atom that is followed by a closing token *)
  Lemma element_by_atom : forall p ts c, closing c ->
    ev (fun B i => good any c (t_atom ctx (E B) i ts)) -> ev (fun B _ => good any c (E B p ts)).
  Proof.
    intros p ts c Hc [n H]. exists (S (S n)). intros [|[|B]] i HB Hi; try lia. 
    change (E (S (S B)) p ts) with
      (tbind (t_atom ctx (E (S B)) (S B) ts) (fun el r => let '(bang, r2) := t_consume "!" r in
          tbind (t_loop cfg (E (S B)) (S B) p (if bang then UnOp Factorial el else el) r2) (fun el r3 => t_lift (finish_element cfg w el) r3))).
    apply (good_bind _ _ any any c c); [apply H; lia|]. intros x _. rewrite (bang_closing c Hc).
    rewrite (loop_closing _ _ _ _ _ Hc). cbn [tbind]. apply lift_good.
  Qed.

  Lemma one_good : forall p c, closing c -> ev (fun B _ => good any c (E B p (TNum "1" :: c))).
  Proof.
    intros p c Hc. apply element_by_atom; auto. apply ev_all. intros B i. cbn [t_atom]. unfold t_number.
    destruct (parse_f64 (strip_underscores (list_ascii_of_string "1"))) as [v|] eqn:K; [cbn; auto|].
    exfalso. apply (f_equal (fun o => match o with Some _ => true | None => false end)) in K. vm_compute in K. discriminate K.
  Qed.

  (** further arguments *)
  Fixpoint more (n : nat) : list token := match n with 0 => [] | S n => TSym "," :: TNum "1" :: more n end.
  Lemma more_filler : forall n, Forall filler (more n).
  Proof. induction n; repeat constructor; auto. Qed.
  Lemma more_closing : forall n r, closing (more n ++ TSym ")" :: r).
  Proof. intros [|n] r; [right; left|right; right]; cbn; eauto. Qed.

  (** what [t_arguments] does after an argument *)
  Definition next_argument (B i : nat) (args : list element) (arg : element) (r : list token) : tres (list element) :=
    match r with
    | [] => TErr UnexpectedEndOfExpression [] []
    | t :: r' =>
        match t with
        | TSym c =>
            if Ascii.eqb c "," then t_arguments (E B) i (args ++ [arg]) r'
            else if Ascii.eqb c ")" then TOk (args ++ [arg]) r
            else TErr (UnexpectedToken c) r r
        | _ => TErr (UnexpectedToken (token_byte t)) r r
        end
    end.
  Lemma arguments_step : forall B i args ts, t_arguments (E B) (S i) args ts = tbind (t_argument (E B) ts) (next_argument B i args).
  Proof. reflexivity. Qed.

  Lemma argument_good : forall B ts c, good any c (E B NO_PRECEDENCE ts) -> good any c (t_argument (E B) ts).
  Proof. intros B ts c H. unfold t_argument. destruct (E B NO_PRECEDENCE ts) as [x r|k f u|p|]; auto. destruct k; auto. Qed.

  Definition enough (n : nat) (l : list element) : Prop := n <= List.length l.

  Lemma more_arguments : forall r m n,
    ev (fun B i => forall args arg, n <= S (List.length args) + m ->
          good (enough n) (TSym ")" :: r) (next_argument B i args arg (more m ++ TSym ")" :: r))).
  Proof.
    intros r. induction m as [|m IH]; intro n.
    - apply ev_all. intros B i args arg Hn. cbn. split; auto. unfold enough. rewrite app_length. cbn. lia.
    - apply ev_succ. eapply ev_and; [apply (one_good NO_PRECEDENCE (more m ++ TSym ")" :: r)), more_closing|apply (IH n)|].
      intros B i H H' args arg Hn. cbn [more app next_argument Ascii.eqb Bool.eqb].
      rewrite arguments_step. apply (good_bind _ _ any (enough n) (more m ++ TSym ")" :: r)); [now apply argument_good|].
      intros x _. apply H'. rewrite app_length. cbn. lia.
  Qed.

  Definition completes_elem (b : nat) : Prop := forall p pre u k f, E b p (pre ++ u) = TErr k f u ->
    exists suf, Forall filler suf /\ forall c, closing c -> ev (fun B _ => good any c (E B p (pre ++ suf ++ c))).

  Lemma elem_again : forall b p pre a c x, alike a c -> E b p (pre ++ a) = TOk x a -> ev (fun B _ => E B p (pre ++ c) = TOk x c).
  Proof. intros b p pre a c x Hac H. eapply elem_ev. exact (proj1 (element_steady b p) pre a c x Hac H). Qed.

  Lemma split_ok : forall b p pre u x r, E b p (pre ++ u) = TOk x r -> tail_of u r -> exists m m2, pre = m ++ m2 /\ r = m2 ++ u.
  Proof.
    intros b p pre u x r H Hu. pose proof (element_within b p (pre ++ u)) as Wt. rewrite H in Wt. destruct Wt as [m Em].
    destruct (split_tail _ _ _ _ Em Hu) as [m2 [-> ->]]. eauto.
  Qed.

  Lemma argument_ok : forall B ts x r, E B NO_PRECEDENCE ts = TOk x r -> t_argument (E B) ts = TOk x r.
  Proof. intros B ts x r H. unfold t_argument. now rewrite H. Qed.

  (** both a failing list of arguments and a finished one *)
  Lemma complete_arguments : forall b n, completes_elem b -> forall i args pre u,
    (exists k f, t_arguments (E b) i args (pre ++ u) = TErr k f u) \/ (exists l, t_arguments (E b) i args (pre ++ u) = TOk l u) ->
    exists suf, Forall filler suf /\ forall r, ev (fun B j => good (enough n) (TSym ")" :: r) (t_arguments (E B) j args (pre ++ suf ++ TSym ")" :: r))).
  Proof.
    intros b n CE. induction i as [|i IH]; intros args pre u H; [destruct H as [[k [f H]]|[l H]]; discriminate H|].
    (* an argument that is read again and followed by further ones *)
    assert (Again : forall m x, E b NO_PRECEDENCE (m ++ u) = TOk x u -> m = pre ->
      exists suf, Forall filler suf /\ forall r, ev (fun B j => good (enough n) (TSym ")" :: r) (t_arguments (E B) j args (pre ++ suf ++ TSym ")" :: r)))).
    { intros m x Hx ->. exists (more (n - S (List.length args))). split; [apply more_filler|]. intro r. apply ev_succ.
      eapply ev_and; [apply (elem_again b NO_PRECEDENCE pre u (more (n - S (List.length args)) ++ TSym ")" :: r) x); [left; apply more_closing|exact Hx]|apply (more_arguments r (n - S (List.length args)) n)|].
      intros B j H1 H2. rewrite arguments_step, (argument_ok _ _ _ _ H1). cbn [tbind]. apply H2. lia. }
    rewrite arguments_step in H. unfold t_argument in H.
    destruct (E b NO_PRECEDENCE (pre ++ u)) as [x r|k' f' u'|q|] eqn:Ee.
    - assert (Hcase : (u = r) \/ exists r', r = TSym "," :: r' /\ ((exists k f, t_arguments (E b) i (args ++ [x]) r' = TErr k f u) \/ (exists l, t_arguments (E b) i (args ++ [x]) r' = TOk l u))).
      { cbn [tbind] in H. destruct r as [|t r]; [destruct H as [[k [f H]]|[l H]]; [injection H as _ _ <-; auto|discriminate H]|].
        destruct t as [z|z|e]; cbn [next_argument] in H; try (destruct H as [[k [f H]]|[l H]]; [left; congruence|discriminate H]).
        destruct (Ascii.eqb_spec e ",") as [->|]; [right; eauto|]. left.
        destruct (Ascii.eqb e ")"); destruct H as [[k [f H]]|[l H]]; congruence. }
      destruct Hcase as [-> |[r' [-> Hr]]]; [eapply Again; eauto|].
      assert (Hu : tail_of u r').
      { pose proof (arguments_within (E b) (element_within b) i (args ++ [x]) r') as Wt. destruct Hr as [[k [f Hr]]|[l Hr]]; rewrite Hr in Wt; [apply Wt|exact Wt]. }
      destruct (split_ok _ _ _ _ _ _ Ee (tail_cons _ _ _ Hu)) as [m [m2 [-> Em]]]. destruct m2 as [|t m2]; [exfalso; destruct Hu as [q ->]; apply (f_equal (@List.length _)) in Em; cbn in Em; rewrite app_length in Em; lia|].
      cbn in Em. injection Em as <- ->. destruct (IH (args ++ [x]) m2 u Hr) as [suf [Fs Hs]]. exists suf. split; auto. intro r. apply ev_succ.
      eapply ev_and; [apply (elem_again b NO_PRECEDENCE m ((TSym "," :: m2) ++ u) ((TSym "," :: m2) ++ suf ++ TSym ")" :: r) x); [apply alike_after|rewrite <- app_assoc in Ee; exact Ee]|apply (Hs r)|].
      intros B j H1 H2. rewrite arguments_step. rewrite <- app_assoc. rewrite (argument_ok _ _ _ _ H1). cbn. exact H2.
    - assert (Hu : u' = u) by (destruct H as [[k [f H]]|[l H]]; destruct k'; cbn in H; congruence). subst u'.
      destruct (CE _ _ _ _ _ Ee) as [suf [Fs Hs]]. exists (suf ++ more (n - S (List.length args))). split; [apply Forall_app; split; auto using more_filler|].
      intro r. apply ev_succ. eapply ev_and; [apply (Hs (more (n - S (List.length args)) ++ TSym ")" :: r)), more_closing|apply (more_arguments r (n - S (List.length args)) n)|].
      intros B j H1 H2. rewrite arguments_step, <- app_assoc. apply argument_good in H1. eapply good_bind; [exact H1|]. intros y _. apply H2. lia.
    - destruct H as [[k [f H]]|[l H]]; discriminate H.
    - destruct H as [[k [f H]]|[l H]]; discriminate H.
  Qed.

  Lemma complete_loop : forall b, completes_elem b -> forall i p el pre u k f, t_loop cfg (E b) i p el (pre ++ u) = TErr k f u ->
    exists suf, Forall filler suf /\ (pre = [] -> suf = []) /\
      forall c, closing c -> ev (fun B j => good any c (t_loop cfg (E B) j p el (pre ++ suf ++ c))).
  Proof.
    intros b CE. induction i as [|i IH]; intros p el pre u k f H; [discriminate H|].
    destruct pre as [|t0 pre].
    { exists []. split; [constructor|]. split; auto. intros c Hc. apply ev_succ, ev_all. intros B j. cbn [app]. rewrite (loop_closing _ _ _ _ _ Hc). cbn. auto. }
    (* the right operand and what follows, read from [pre'] *)
    assert (Rhs : forall q op pre', tbind (E b q (pre' ++ u)) (fun rhs r => t_loop cfg (E b) i p (BinOp op el rhs) r) = TErr k f u ->
      exists suf, Forall filler suf /\ forall c, closing c ->
        ev (fun B j => good any c (tbind (E B q (pre' ++ suf ++ c)) (fun rhs r => t_loop cfg (E B) j p (BinOp op el rhs) r)))).
    { intros q op pre' K. destruct (E b q (pre' ++ u)) as [x r|k' f' u'|z|] eqn:Ee; try discriminate K; cbn in K.
      - assert (Hu : tail_of u r).
        { pose proof (loop_within (E b) (element_within b) i p (BinOp op el x) r) as Wt. rewrite K in Wt. apply Wt. }
        destruct (split_ok _ _ _ _ _ _ Ee Hu) as [m [m2 [-> ->]]]. destruct (IH _ _ _ _ _ _ K) as [suf [Fs [Es Hs]]].
        exists suf. split; auto. intros c Hc. rewrite <- app_assoc in Ee.
        eapply ev_and; [apply (elem_again b q m (m2 ++ u) (m2 ++ suf ++ c) x); [|exact Ee]|apply (Hs c Hc)|].
        + destruct m2 as [|t m2]; [rewrite (Es eq_refl); now left|apply alike_after].
        + intros B j H1 H2. rewrite <- app_assoc, H1. exact H2.
      - injection K as -> -> ->. destruct (CE _ _ _ _ _ Ee) as [suf [Fs Hs]]. exists suf. split; auto. intros c Hc.
        apply ev_succ. eapply ev_impl; [apply (Hs c Hc)|]. intros B j H1. eapply good_bind; [exact H1|]. intros y _.
        rewrite (loop_closing _ _ _ _ _ Hc). cbn. auto. }
    cbn [t_loop app] in H. destruct (goi_cases el p (t0 :: pre ++ u)) as [[t [r [E0 [op [E1 E2]]]]]|[[t [r [E0 E1]]]|[E1 _]]].
    - rewrite E1 in H. injection E0 as <- <-. destruct (Rhs _ _ _ H) as [suf [Fs Hs]]. exists suf. split; auto. split; [discriminate|].
      intros c Hc. apply ev_succ. eapply ev_impl; [apply (Hs c Hc)|]. intros B j K. cbn [t_loop app]. rewrite E2. exact K.
    - injection E0 as <- <-. rewrite E1 in H. destruct (Rhs _ _ (t0 :: pre) H) as [suf [Fs Hs]]. exists suf. split; auto. split; [discriminate|].
      intros c Hc. apply ev_succ. eapply ev_impl; [apply (Hs c Hc)|]. intros B j K. cbn [t_loop app]. rewrite E1. exact K.
    - rewrite E1 in H. discriminate H.
  Qed.

  Definition wanted (f : function) : nat := match fn_nb_args f with Some n => n | None => 0 end.

  Lemma call_good : forall f fr c (r : tres (list element)), good (enough (wanted f)) (TSym ")" :: c) r ->
    good any c (tbind r (fun args r2 => tbind (t_assert ")" r2) (fun _ r3 => t_arity f args fr r2 r3))).
  Proof.
    intros f fr c r H. eapply good_bind; [exact H|]. intros l Hl. cbn [t_assert t_consume Ascii.eqb Bool.eqb tbind].
    unfold t_arity. unfold enough, wanted in Hl. destruct (fn_nb_args f) as [n|]; [|cbn; auto].
    destruct (Nat.compare_spec (List.length l) n); cbn; auto. lia.
  Qed.

  Lemma not_longer : forall (t : token) (pre u : list token), tail_of (t :: pre ++ u) u -> False.
  Proof. intros t pre u [m H]. apply (f_equal (@List.length _)) in H. rewrite app_length in H. cbn in H. rewrite app_length in H. lia. Qed.

  Lemma complete_atom : forall b, completes_elem b -> forall i pre u k f, t_atom ctx (E b) i (pre ++ u) = TErr k f u ->
    exists suf, Forall filler suf /\ forall c, closing c -> ev (fun B j => good any c (t_atom ctx (E B) j (pre ++ suf ++ c))).
  Proof.
    intros b CE i [|t0 pre] u k f H.
    { exists [TNum "1"]. split; [repeat constructor|]. intros c Hc. apply ev_all. intros B j. cbn [app t_atom]. unfold t_number.
      destruct (parse_f64 (strip_underscores (list_ascii_of_string "1"))) as [v|] eqn:K; [cbn; auto|].
      exfalso. apply (f_equal (fun o => match o with Some _ => true | None => false end)) in K. vm_compute in K. discriminate K. }
    assert (Self : forall g, @TErr element k g (t0 :: pre ++ u) = TErr k f u -> False).
    { intros g K. assert (K' : t0 :: pre ++ u = u) by congruence. apply (not_longer t0 pre u). rewrite K'. apply tail_refl. }
    cbn [app] in H. destruct t0 as [s|s|c0]; cbn [t_atom] in H.
    - unfold t_number in H. destruct (parse_f64 _); [discriminate H|]. exfalso.
      assert (K : TNum s :: pre ++ u = u) by congruence. apply (not_longer (TNum s) pre u). rewrite K. apply tail_refl.
    - unfold t_identifier in H. destruct (resolve ctx s) as [g|v|x] eqn:Er; [|discriminate H..].
      destruct (consume_cases "(" (pre ++ u)) as [[r1 [E1 E2]]|[E2 N]]; rewrite E2 in H.
      + assert (Ha : (exists k f, t_arguments (E b) i [] r1 = TErr k f u) \/ (exists l, t_arguments (E b) i [] r1 = TOk l u)).
        { destruct (t_arguments (E b) i [] r1) as [l r2|k' f' u'|q|]; try discriminate H; cbn in H.
          - right. exists l. unfold t_assert in H. destruct (consume_cases ")" r2) as [[r3 [-> E3]]|[E3 _]]; rewrite E3 in H; cbn [tbind] in H.
            + destruct (arity_ends g l (TId s :: pre ++ u) (TSym ")" :: r3) r3) as [K|[k' [K _]]]; rewrite K in H; [discriminate H|]. congruence.
            + congruence.
          - left. exists k', f'. congruence. }
        assert (Hu : tail_of u r1).
        { pose proof (arguments_within (E b) (element_within b) i [] r1) as Wt. destruct Ha as [[k' [f' Ha]]|[l Ha]]; rewrite Ha in Wt; [apply Wt|exact Wt]. }
        destruct (cons_split _ _ _ _ E1) as [[-> ->]|[pre2 [-> ->]]]; [exfalso; exact (not_longer (TSym "(") [] r1 Hu)|].
        destruct (complete_arguments b (wanted g) CE i [] pre2 u Ha) as [suf [Fs Hs]].
        exists (suf ++ [TSym ")"]). split; [apply Forall_app; split; auto; repeat constructor|]. intros c Hc.
        eapply ev_impl; [apply (Hs c)|]. intros B j K. cbn [app t_atom]. unfold t_identifier. rewrite Er. cbn [t_consume Ascii.eqb Bool.eqb].
        rewrite <- app_assoc. apply call_good. exact K.
      + injection H as <- E3 E4. assert (pre = []) as -> by (eapply app_inv_tail; cbn; exact E4). clear E2 E3 E4.
        exists (TSym "(" :: TNum "1" :: more (wanted g - 1) ++ [TSym ")"]). split; [repeat constructor; apply Forall_app; split; auto using more_filler; repeat constructor|].
        intros c Hc. apply ev_succ.
        eapply ev_and; [apply (one_good NO_PRECEDENCE (more (wanted g - 1) ++ TSym ")" :: c)), more_closing|apply (more_arguments c (wanted g - 1) (wanted g))|].
        intros B j H1 H2. cbn [app t_atom]. unfold t_identifier. rewrite Er. cbn [t_consume Ascii.eqb Bool.eqb]. rewrite <- app_assoc. apply call_good.
        cbn [app]. rewrite arguments_step. apply argument_good in H1. eapply good_bind; [exact H1|]. intros y _. apply H2. cbn. lia.
    - assert (Sign : forall p op, tbind (E b p (pre ++ u)) (fun e r1 => TOk (UnOp op e) r1) = TErr k f u ->
        exists suf, Forall filler suf /\ forall c, closing c -> ev (fun B _ => good any c (tbind (E B p (pre ++ suf ++ c)) (fun e r1 => TOk (UnOp op e) r1)))).
      { intros p op K. destruct (E b p (pre ++ u)) as [x r|k' f' u'|q|] eqn:Ee; try discriminate K. cbn in K. injection K as -> -> ->.
        destruct (CE _ _ _ _ _ Ee) as [suf [Fs Hs]]. exists suf. split; auto. intros c Hc. eapply ev_impl; [apply (Hs c Hc)|].
        intros B j K. eapply good_bind; [exact K|]. cbn. auto. }
      cbn [app t_atom]. destruct (Ascii.eqb_spec c0 "+") as [->|N1].
      { exact (Sign _ _ H). }
      destruct (Ascii.eqb_spec c0 "-") as [->|N2].
      { exact (Sign _ _ H). }
      destruct (Ascii.eqb_spec c0 "(") as [->|N3].
      + destruct (E b NO_PRECEDENCE (pre ++ u)) as [x r|k' f' u'|q|] eqn:Ee; try discriminate H; cbn in H.
        * unfold t_assert in H. destruct (consume_cases ")" r) as [[r3 [-> E3]]|[E3 _]]; rewrite E3 in H; [discriminate H|]. cbn in H.
          assert (r = u) as -> by congruence. exists [TSym ")"]. split; [repeat constructor|]. intros c Hc.
          eapply ev_impl; [apply (elem_again b NO_PRECEDENCE pre u (TSym ")" :: c) x); [left; right; left; eauto|exact Ee]|].
          intros B j K. cbn [app]. rewrite K. cbn. auto.
        * injection H as -> -> ->. destruct (CE _ _ _ _ _ Ee) as [suf [Fs Hs]]. exists (suf ++ [TSym ")"]).
          split; [apply Forall_app; split; auto; repeat constructor|]. intros c Hc.
          eapply ev_impl; [apply (Hs (TSym ")" :: c)); right; left; eauto|]. intros B j K. rewrite <- app_assoc. cbn [app].
          eapply good_bind; [exact K|]. intros y _. cbn. auto.
      + exfalso. destruct (Ascii.eqb c0 ")"); injection H as <- H1 H2; eapply not_longer; rewrite H2; apply tail_refl.
  Qed.

  Lemma complete_element : forall b, completes_elem b.
  Proof.
    induction b as [|b IH]; intros p pre u k f H; [discriminate H|]. cbn [t_element] in H.
    destruct (t_atom ctx (E b) b (pre ++ u)) as [el r|k' f' u'|q|] eqn:Ea; try discriminate H; cbn [tbind] in H.
    - destruct (t_consume "!" r) as [bang r2] eqn:Eb.
      assert (Hr : tail_of r2 r) by (destruct (consume_cases "!" r) as [[r3 [-> E']]|[E' _]]; rewrite E' in Eb; injection Eb as <- <-; auto with tails).
      set (el' := if bang then UnOp Factorial el else el) in H.
      destruct (t_loop cfg (E b) b p el' r2) as [y r3|k' f' u'|q|] eqn:El; try discriminate H; cbn [tbind] in H.
      + destruct (finish_element cfg w y); discriminate H.
      + assert (u' = u) as -> by congruence.
        assert (Hu : tail_of u r2) by (pose proof (loop_within (E b) (element_within b) b p el' r2) as Wt; rewrite El in Wt; apply Wt).
        assert (Wa : tail_of r (pre ++ u)) by (pose proof (atom_within (E b) (element_within b) b (pre ++ u)) as Wt; rewrite Ea in Wt; exact Wt).
        destruct Wa as [m Em]. destruct (split_tail _ _ _ _ Em (tail_trans _ _ _ Hu Hr)) as [m2 [-> ->]].
        destruct Hu as [m3 ->]. destruct (complete_loop b IH _ _ _ _ _ _ _ El) as [suf [Fs [Es Hs]]].
        exists suf. split; auto. intros c Hc.
        (* the "!", if any, is read again *)
        assert (Hb : t_consume "!" (m2 ++ suf ++ c) = (bang, m3 ++ suf ++ c) /\ alike (m2 ++ u) (m2 ++ suf ++ c)).
        { destruct (consume_cases "!" (m2 ++ u)) as [[r3 [E1 E2]]|[E2 N]]; rewrite E2 in Eb.
          - injection Eb as <- ->. destruct m2 as [|t m2].
            + exfalso. cbn in E1. apply (not_longer (TSym "!") m3 u). rewrite <- E1. apply tail_refl.
            + cbn in E1. injection E1 as -> E1. apply app_inv_tail in E1. subst m3. split; [reflexivity|apply alike_after].
          - injection Eb as <- E1. apply app_inv_tail in E1. subst m3. destruct m2 as [|t m2].
            + rewrite (Es eq_refl). cbn [app]. split; [now apply bang_closing|now left].
            + split; [|apply alike_after]. destruct (consume_cases "!" ((t :: m2) ++ suf ++ c)) as [[r3 [E1 _]]|[E1 _]]; [|exact E1].
              exfalso. cbn in E1. injection E1 as -> _. elim (N (m2 ++ u)). reflexivity. }
        destruct Hb as [Hb Hal]. rewrite <- app_assoc in Ea.
        pose proof (proj1 (atom_steady (E b) (element_within b) (element_steady b) b) m (m2 ++ u) (m2 ++ suf ++ c) el Hal Ea) as Ea'.
        destruct (Hs c Hc) as [n Hn]. exists (S (n + b)). intros [|B] j HB Hj; [lia|]. cbn [t_element].
        assert (Ea2 : t_atom ctx (E B) B ((m ++ m2) ++ suf ++ c) = TOk el (m2 ++ suf ++ c)).
        { rewrite <- app_assoc. destruct (mono_atom ctx (E b) (E B) (fun q ts => mono_element cfg w ctx b B q ts ltac:(lia)) b B (m ++ m2 ++ suf ++ c) ltac:(lia)) as [K|K]; congruence. }
        rewrite Ea2. cbn [tbind]. rewrite Hb. fold el'. eapply good_bind; [apply (Hn B B); lia|]. intros z _. apply lift_good.
    - injection H as -> -> ->. destruct (complete_atom b IH _ _ _ _ _ Ea) as [suf [Fs Hs]]. exists suf. split; auto.
      intros c Hc. apply element_by_atom; auto.
  Qed.

  Lemma parse_completes : forall b pre u k f, t_parse cfg w ctx b (pre ++ u) = TErr k f u ->
    exists suf, Forall filler suf /\ exists B0, forall B, B0 <= B -> good any [] (t_parse cfg w ctx B (pre ++ suf)).
  Proof.
    intros b pre u k f H. unfold t_parse in H.
    assert (Hn : closing []) by now left.
    destruct (E b NO_PRECEDENCE (pre ++ u)) as [x r|k' f' u'|q|] eqn:Ee; try discriminate H; cbn in H.
    - destruct r as [|t r]; [discriminate H|]. assert (t :: r = u) as <- by congruence. exists []. split; [constructor|].
      destruct (elem_again b NO_PRECEDENCE pre (t :: r) [] x (or_introl Hn) Ee) as [n Hx]. exists n. intros B HB. unfold t_parse.
      rewrite (Hx B B HB HB). cbn. auto.
    - injection H as -> -> ->. destruct (complete_element _ _ _ _ _ _ Ee) as [suf [Fs Hs]]. exists suf. split; auto.
      destruct (Hs [] Hn) as [n Hx]. exists n. intros B HB. specialize (Hx B B HB HB). rewrite app_nil_r in Hx. unfold t_parse.
      eapply good_bind; [exact Hx|]. intros y _. cbn. auto.
  Qed.

  Lemma missing_later : forall b p ts f u, E b p ts = TErr MissingArgument f u -> List.length u < List.length ts.
  Proof.
    intros [|b] p ts f u H; [discriminate H|]. cbn [t_element] in H.
    destruct (t_atom ctx (E b) b ts) as [el r|k' f' u'|q|] eqn:Ea; try discriminate H; cbn [tbind] in H.
    - apply atom_reads in Ea; [|apply element_within]. destruct (t_consume "!" r) as [bang r2] eqn:Eb.
      assert (L2 : List.length r2 <= List.length r) by (destruct (consume_cases "!" r) as [[r3 [-> E']]|[E' _]]; rewrite E' in Eb; injection Eb as <- <-; cbn; lia).
      pose proof (loop_within (E b) (element_within b) b p (if bang then UnOp Factorial el else el) r2) as Wt.
      destruct (t_loop _ _ _ _ _ r2) as [y r3|k' f' u'|q|]; try discriminate H; cbn [tbind] in H.
      + destruct (finish_element cfg w y); discriminate H.
      + assert (u' = u) as -> by congruence. destruct Wt as [[m ->] _]. rewrite app_length in L2. lia.
    - injection H as -> -> ->. destruct ts as [|t r]; [discriminate Ea|].
      assert (S : tail_of u r -> List.length u < List.length (t :: r)) by (intros [m ->]; cbn; rewrite app_length; lia). apply S.
      destruct t as [s|s|c]; cbn [t_atom] in Ea.
      + unfold t_number in Ea. destruct (parse_f64 _); discriminate Ea.
      + unfold t_identifier in Ea. destruct (resolve ctx s) as [g|v|x]; [|discriminate Ea..].
        pose proof (proj2 (call_steady (E b) (element_within b) (element_steady b) b s g) r) as Wt. cbn beta zeta in Wt. rewrite Ea in Wt. apply Wt.
      + assert (Sg : forall q op, tbind (E b q r) (fun e r1 => TOk (UnOp op e) r1) = TErr MissingArgument f u -> tail_of u r).
        { intros q op K. pose proof (element_within b q r) as Wt. destruct (E b q r); try discriminate K. cbn in K. injection K as -> -> ->. apply Wt. }
        destruct (Ascii.eqb c "+"); [eapply Sg; eauto|]. destruct (Ascii.eqb c "-"); [eapply Sg; eauto|]. destruct (Ascii.eqb c "(").
        * pose proof (element_within b NO_PRECEDENCE r) as Wt. destruct (E b NO_PRECEDENCE r) as [x r1|k' f' u'|q|]; try discriminate Ea; cbn in Ea.
          -- unfold t_assert in Ea. destruct (t_consume ")" r1) as [[] r3]; discriminate Ea.
          -- injection Ea as -> -> ->. apply Wt.
        * destruct (Ascii.eqb c ")"); discriminate Ea.
  Qed.
End Prefix.
