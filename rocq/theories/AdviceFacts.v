(** * Runs of the automaton up to the token that cannot be read *)
From Coq Require Import ZArith NArith List String Ascii Bool Lia.
From Verif Require Import F64 Syntax Factorial Builtins Context Element Parser ParserFacts Xprs Display.
From Verif Require Import SpecChars CharFacts SpecTokens SpecTree SpecGrammar SpecApi SpecParse SpecScan SpecAdvice.
From Verif Require Import TokenFacts LexFacts ScanFacts ScanPrefix PropertiesGrammar PropertiesScan PropertiesDefault.
Import ListNotations.
Local Open Scope nat_scope.

(** ** Runs *)
Section Run.
  Variable ctx : context.

  Fixpoint run (m : mode) (s : list frame) (ts : list token) : option (mode * list frame) :=
    match ts with
    | [] => Some (m, s)
    | t :: r => match read_token ctx m s t [t] with inl (m', s') => run m' s' r | inr _ => None end
    end.

  Definition refusal (m : mode) (s : list frame) (r : list token) : option error_kind :=
    match r with
    | [] => match at_end m s with Accepts => None | Rejects k _ _ => Some k end
    | t :: _ => match read_token ctx m s t [t] with inr (Rejects k _ _) => Some k | _ => None end
    end.

  Lemma run_app : forall a b m s, run m s (a ++ b) = match run m s a with Some (m', s') => run m' s' b | None => None end.
  Proof.
    induction a as [|t a IH]; intros b m s; [reflexivity|]. cbn [app run].
    destruct (read_token ctx m s t [t]) as [[m' s']|v]; [apply IH|reflexivity].
  Qed.

  Lemma refusal_same : forall m m' s s' r, same_mode m m' -> Forall2 same_frame s s' -> refusal m s r = refusal m' s' r.
  Proof.
    intros m m' s s' [|t r] Hm Hs.
    - cbn. destruct m, m'; cbn in Hm; try contradiction; try discriminate Hm; try reflexivity.
      destruct Hs as [|a b s s' Hab Hs]; [reflexivity|]. destruct a, b; cbn in Hab; try contradiction; reflexivity.
    - cbn [refusal]. pose proof (token_same ctx m m' s s' t [] [] Hm Hs) as H.
      destruct (read_token ctx m s t [t]) as [[m1 s1]|[|k f u]]; cbn in H.
      + destruct H as [m2 [s2 [-> _]]]. reflexivity.
      + contradiction.
      + destruct H as [_ [f' ->]]. reflexivity.
  Qed.

  Lemma scan_run : forall pre m s m' s' r m1 s1, same_mode m m' -> Forall2 same_frame s s' -> run m s pre = Some (m1, s1) ->
    exists m2 s2, same_mode m1 m2 /\ Forall2 same_frame s1 s2 /\ scan ctx m' s' (pre ++ r) = scan ctx m2 s2 r.
  Proof.
    induction pre as [|t pre IH]; intros m s m' s' r m1 s1 Hm Hs H.
    - cbn in H. injection H as <- <-. exists m', s'. auto.
    - cbn [run] in H. pose proof (token_same ctx m m' s s' t [] (pre ++ r) Hm Hs) as T.
      destruct (read_token ctx m s t [t]) as [[m0 s0]|v]; [|discriminate H]. cbn in T.
      destruct T as [m0' [s0' [E [Hm0 Hs0]]]]. destruct (IH _ _ _ _ r _ _ Hm0 Hs0 H) as [m2 [s2 [A [B C]]]].
      exists m2, s2. split; auto. split; auto. cbn [app scan]. rewrite E. exact C.
  Qed.

  Lemma scan_stops : forall ts m s m' s' k f u, same_mode m m' -> Forall2 same_frame s s' -> scan ctx m' s' ts = Rejects k f u ->
    exists pre m1 s1, ts = pre ++ u /\ run m s pre = Some (m1, s1) /\ refusal m1 s1 u = Some k.
  Proof.
    induction ts as [|t r IH]; intros m s m' s' k f u Hm Hs H.
    - exists [], m, s. assert (u = []) as ->.
      { cbn in H. destruct m'; cbn in H; [congruence|congruence|]. destruct s' as [|[|]]; cbn in H; congruence. }
      split; [reflexivity|]. split; [reflexivity|]. rewrite (refusal_same _ _ _ _ _ Hm Hs). cbn in *. now rewrite H.
    - cbn [scan] in H.
      destruct (read_token ctx m' s' t (t :: r)) as [[m1 s1]|v] eqn:E.
      + pose proof (token_same ctx m' m s' s t r []) as T. rewrite E in T. cbn in T. destruct T as [m2 [s2 [E2 [Hm2 Hs2]]]].
        { destruct m, m'; cbn in Hm |- *; try contradiction; try discriminate Hm; congruence. }
        { clear - Hs. induction Hs as [|a b s s' Hab Hs IH]; constructor; auto. destruct a, b; cbn in *; intuition congruence. }
        assert (Hm2' : same_mode m2 m1) by (destruct m1, m2; cbn in Hm2 |- *; try contradiction; try discriminate Hm2; congruence).
        assert (Hs2' : Forall2 same_frame s2 s1).
        { clear - Hs2. induction Hs2 as [|a b s s' Hab Hs IH]; constructor; auto. destruct a, b; cbn in *; intuition congruence. }
        destruct (IH _ _ _ _ _ _ _ Hm2' Hs2' H) as [pre [m3 [s3 [-> [Hr Hf]]]]].
        exists (t :: pre), m3, s3. split; [reflexivity|]. split; [|exact Hf]. cbn [run]. now rewrite E2.
      + subst v. pose proof (token_same ctx m' m' s' s' t r []) as T. rewrite E in T. cbn in T.
        destruct (same_refl m' s') as [R1 R2]. destruct (T R1 R2) as [-> [f' E2]]. exists [], m, s.
        split; [reflexivity|]. split; [reflexivity|]. rewrite (refusal_same _ _ _ _ _ Hm Hs). cbn [refusal]. now rewrite E2.
  Qed.

  Lemma refusal_scan : forall m s r k, refusal m s r = Some k -> exists f, scan ctx m s r = Rejects k f r.
  Proof.
    intros m s [|t r] k H.
    - cbn in *. destruct m as [a|g fr|a b]; cbn in *; try (injection H as <-; eauto).
      destruct s as [|[x|g n fr] s]; [discriminate H|injection H as <-; eauto..].
    - cbn [refusal scan] in *. destruct (same_refl m s) as [R1 R2]. pose proof (token_same ctx m m s s t [] r R1 R2) as T.
      destruct (read_token ctx m s t [t]) as [?|[|k' f u]]; [discriminate H|contradiction|]. injection H as <-. cbn in T.
      destruct T as [_ [f' ->]]. eauto.
  Qed.

  (** *** what a token does to the open parentheses *)
  Lemma token_effect : forall m s t m' s', read_token ctx m s t [t] = inl (m', s') ->
    match t with
    | TSym c =>
        if Ascii.eqb c "(" then exists fr, s' = fr :: s /\ match fr with Arguments_of _ n _ => n = 0 | Group _ => True end
        else if Ascii.eqb c ")" then exists fr, s = fr :: s'
        else if Ascii.eqb c "," then exists bare pf f n fr s0, m = Have bare pf /\ m' = Need true /\
               s = Arguments_of f n fr :: s0 /\ s' = Arguments_of f (S n) fr :: s0
        else s' = s
    | _ => s' = s
    end.
  Proof.
    assert (O : forall first s t m' s', read_operand ctx first s t [t] = inl (m', s') ->
      match t with TSym c => if Ascii.eqb c "(" then exists fr, s' = fr :: s /\ match fr with Arguments_of _ n _ => n = 0 | Group _ => True end
          else Ascii.eqb c ")" = false /\ Ascii.eqb c "," = false /\ s' = s | _ => s' = s end).
    { intros first s t m' s' H. destruct t as [x|x|c]; cbn [read_operand] in H.
      - destruct (literal_value x); [|discriminate H]. congruence.
      - destruct (stands_for ctx x); congruence.
      - destruct (Ascii.eqb_spec c "(") as [->|N1]; cbn [Ascii.eqb Bool.eqb orb] in H.
        + injection H as <- <-. eexists. split; [reflexivity|exact I].
        + destruct (Ascii.eqb_spec c "+") as [->|]; [injection H as <- <-; auto|].
          destruct (Ascii.eqb_spec c "-") as [->|]; [injection H as <- <-; auto|]. cbn [orb] in H.
          destruct (Ascii.eqb c ")"); discriminate H. }
    assert (C : forall bare s t m' s', read_close bare s t [t] = inl (m', s') ->
      (t = TSym ")" /\ exists fr, s = fr :: s') \/
      (t = TSym "," /\ m' = Need true /\ exists f n fr s0, s = Arguments_of f n fr :: s0 /\ s' = Arguments_of f (S n) fr :: s0)).
    { intros bare [|[x|f n fr] s] t m' s' H; cbn [read_close] in H; [discriminate H| |].
      - left. destruct t as [z|z|c]; try discriminate H. destruct (Ascii.eqb_spec c ")") as [->|N].
        + injection H as <- <-. eauto.
        + destruct c as [[] [] [] [] [] [] [] []]; try discriminate H. now elim N.
      - destruct t as [z|z|c]; try discriminate H. destruct (Ascii.eqb_spec c ")") as [->|N].
        + left. split; [reflexivity|]. destruct (fn_nb_args f) as [k|]; [|injection H as <- <-; eauto].
          destruct (Nat.compare (S n) k); [injection H as <- <-; eauto|discriminate H..].
        + right. destruct (Ascii.eqb_spec c ",") as [->|N2].
          * injection H as <- <-. repeat split. eauto 8.
          * destruct c as [[] [] [] [] [] [] [] []]; try discriminate H; [now elim N|now elim N2]. }
    intros m s t m' s' H. destruct m as [first|f fr|bare pf]; cbn [read_token] in H.
    - apply O in H. destruct t as [x|x|c]; auto. destruct (Ascii.eqb c "("); auto. destruct H as [-> [-> H]]. exact H.
    - destruct t as [z|z|c]; try discriminate H. destruct (Ascii.eqb_spec c "(") as [->|N].
      + injection H as <- <-. eexists. split; reflexivity.
      + destruct c as [[] [] [] [] [] [] [] []]; try discriminate H. now elim N.
    - assert (D : (if multiplies bare t then read_operand ctx false s t [t] else read_close bare s t [t]) = inl (m', s') ->
        match t with
        | TSym c =>
            if Ascii.eqb c "(" then exists fr, s' = fr :: s /\ match fr with Arguments_of _ n _ => n = 0 | Group _ => True end
            else if Ascii.eqb c ")" then exists fr, s = fr :: s'
            else if Ascii.eqb c "," then exists bare0 pf0 f n fr s0, Have bare pf = Have bare0 pf0 /\ m' = Need true /\
                   s = Arguments_of f n fr :: s0 /\ s' = Arguments_of f (S n) fr :: s0
            else s' = s
        | _ => s' = s
        end).
      { clear H. intro H. destruct (multiplies bare t).
        - apply O in H. destruct t as [x|x|c]; auto. destruct (Ascii.eqb c "("); auto. destruct H as [-> [-> H]]. exact H.
        - apply C in H. destruct H as [[-> H]|[-> [-> [f [n [fr [s0 [-> ->]]]]]]]]; cbn; [exact H|]. eauto 12. }
      destruct t as [x|x|c]; try (apply D; exact H).
      destruct (Ascii.eqb_spec c "!") as [->|]; cbn [andb] in H.
      + destruct pf; cbn in H; injection H as <- <-; reflexivity.
      + destruct (is_operator c) eqn:Eo; [|apply D; exact H]. injection H as <- <-.
        destruct (Ascii.eqb_spec c "(") as [->|]; [discriminate Eo|]. destruct (Ascii.eqb_spec c ")") as [->|]; [discriminate Eo|].
        destruct (Ascii.eqb_spec c ",") as [->|]; [discriminate Eo|]. reflexivity.
  Qed.

  (** *** why a token cannot be read *)
  Lemma refused : forall m s r k, refusal m s r = Some k ->
    match k with
    | ExpectedToken c =>
        (c = "("%char /\ exists f fr, m = Paren f fr) \/
        (c = ")"%char /\ exists bare pf first s', m = Have bare pf /\ s = Group first :: s')
    | TooFewArguments x y => exists bare pf f n fr s' r', m = Have bare pf /\ s = Arguments_of f n fr :: s' /\
        r = TSym ")" :: r' /\ fn_nb_args f = Some x /\ y = S n /\ y < x
    | TooManyArguments x y => exists bare pf f n fr s' r', m = Have bare pf /\ s = Arguments_of f n fr :: s' /\
        r = TSym ")" :: r' /\ fn_nb_args f = Some x /\ y = S n /\ x < y
    | MissingArgument => r <> [] /\ forall r', r = TSym ")" :: r' -> (exists first, m = Need first) /\ within_call s = true
    | UnexpectedToken _ | IllegalCharacter _ => r <> []
    | VariableNotDeclared _ _ => False
    | _ => True
    end.
  Proof.
    assert (O : forall first s t k f u, read_operand ctx first s t [t] = inr (Rejects k f u) ->
      match k with
      | MissingArgument => within_call s = true /\ t = TSym ")"
      | UnexpectedToken _ | IllegalCharacter _ | MalformedNumber _ => True
      | _ => False
      end).
    { intros first s t k f u H. destruct t as [x|x|c]; cbn [read_operand] in H.
      - destruct (literal_value x); [discriminate H|]. injection H as <- _ _. exact I.
      - destruct (stands_for ctx x); discriminate H.
      - destruct (Ascii.eqb c "+" || Ascii.eqb c "-")%bool; [discriminate H|]. destruct (Ascii.eqb c "("); [discriminate H|].
        destruct (Ascii.eqb_spec c ")") as [->|]; cbn [misfit] in H.
        + destruct (within_call s) eqn:Ew; injection H as <- _ _; auto.
        + injection H as <- _ _. exact I. }
    assert (C : forall bare s t k f u, read_close bare s t [t] = inr (Rejects k f u) ->
      match k with
      | ExpectedToken c => c = ")"%char /\ exists first s', s = Group first :: s'
      | TooFewArguments x y => exists f n fr s', s = Arguments_of f n fr :: s' /\ t = TSym ")" /\ fn_nb_args f = Some x /\ y = S n /\ y < x
      | TooManyArguments x y => exists f n fr s', s = Arguments_of f n fr :: s' /\ t = TSym ")" /\ fn_nb_args f = Some x /\ y = S n /\ x < y
      | MissingArgument => t <> TSym ")"
      | UnexpectedToken _ => True
      | _ => False
      end).
    { intros bare s t k f u H. destruct s as [|[x|g n fr] s]; cbn [read_close] in H.
      - injection H as <- _ _. exact I.
      - assert (E : k = ExpectedToken ")").
        { destruct t as [z|z|c]; try congruence. destruct c as [[] [] [] [] [] [] [] []]; congruence. }
        subst k. eauto.
      - assert (E : (t <> TSym ")" /\ misfit s [t] = Rejects k f u) \/ (t = TSym ")" /\ exists x, fn_nb_args g = Some x /\
           ((k = TooFewArguments x (S n) /\ S n < x) \/ (k = TooManyArguments x (S n) /\ x < S n)))).
        { destruct t as [z|z|c]; try (left; split; [discriminate|congruence]).
          destruct (Ascii.eqb_spec c ")") as [->|N].
          - right. split; [reflexivity|]. destruct (fn_nb_args g) as [x|]; [|discriminate H]. exists x. split; [reflexivity|].
            destruct (Nat.compare_spec (S n) x); [discriminate H|left|right]; split; auto; congruence.
          - left. split; [congruence|]. destruct c as [[] [] [] [] [] [] [] []]; try congruence. }
        destruct E as [[N E]|[-> [x [Ex [[-> L]|[-> L]]]]]]; [|eauto 10..].
        cbn in E. destruct (within_call s); injection E as <- _ _; auto. }
    intros m s [|t r] k H.
    - cbn in H. destruct m as [a|g fr|a b]; cbn in H; try (injection H as <-; cbn; eauto; fail).
      destruct s as [|[x|g n fr] s]; [discriminate H|injection H as <-; cbn; eauto 10; fail..].
    - cbn [refusal] in H. destruct (read_token ctx m s t [t]) as [?|[|k' f u]] eqn:E; try discriminate H. injection H as <-.
      destruct m as [first|g fr|bare pf]; cbn [read_token] in E.
      + apply O in E. destruct k'; auto; try discriminate; try contradiction. split; [discriminate|]. destruct E as [E _]. eauto.
      + assert (E' : k' = ExpectedToken "(").
        { destruct t as [z|z|c]; try congruence. destruct c as [[] [] [] [] [] [] [] []]; congruence. }
        subst k'. eauto.
      + assert (E' : (if multiplies bare t then read_operand ctx false s t [t] else read_close bare s t [t]) = inr (Rejects k' f u)).
        { destruct t as [z|z|c]; try exact E. destruct (Ascii.eqb c "!" && pf)%bool; [discriminate E|].
          destruct (is_operator c); [discriminate E|]. exact E. }
        clear E. destruct (multiplies bare t) eqn:Em.
        * apply O in E'. destruct k'; auto; try discriminate; try contradiction.
          destruct E' as [_ ->]. discriminate Em.
        * apply C in E'. destruct k'; auto; try discriminate; try contradiction.
          -- destruct E' as [-> [first [s' ->]]]. right. eauto 8.
          -- destruct E' as [g [n [fr [s' [-> [-> [Hf [-> L]]]]]]]]. exists bare, pf, g, n, fr, s', r. auto 8.
          -- destruct E' as [g [n [fr [s' [-> [-> [Hf [-> L]]]]]]]]. exists bare, pf, g, n, fr, s', r. auto 8.
          -- split; [discriminate|]. intros r' E0. injection E0 as -> ->. now elim E'.
  Qed.

  (** *** parentheses and commas of a run *)
  Fixpoint outer_tokens (d : nat) (ts : list token) : option (nat * nat) :=
    match ts with
    | [] => Some (d, 0)
    | TSym c :: ts =>
        if Ascii.eqb c "(" then outer_tokens (S d) ts
        else if Ascii.eqb c ")" then match d with 0 => None | S d => outer_tokens d ts end
        else match outer_tokens d ts with
             | Some (e, n) => Some (e, if (Ascii.eqb c "," && Nat.eqb d 0)%bool then S n else n)
             | None => None
             end
    | _ :: ts => outer_tokens d ts
    end.

  Lemma outer_tokens_app : forall a b d, outer_tokens d (a ++ b) =
    match outer_tokens d a with
    | Some (e, n) => match outer_tokens e b with Some (e', n') => Some (e', n + n') | None => None end
    | None => None
    end.
  Proof.
    assert (W : forall x : option (nat * nat), x = match x with Some (e', n') => Some (e', n') | None => None end) by (intros [[]|]; reflexivity).
    induction a as [|t a IH]; intros b d; [cbn; apply W|]. destruct t as [x|x|c]; cbn [app outer_tokens]; try apply IH.
    destruct (Ascii.eqb c "("); [apply IH|]. destruct (Ascii.eqb c ")"); [destruct d; [reflexivity|apply IH]|].
    rewrite IH. destruct (outer_tokens d a) as [[e n]|]; [|reflexivity]. destruct (outer_tokens e b) as [[e' n']|]; [|reflexivity].
    destruct (_ && _)%bool; reflexivity.
  Qed.

  Lemma frame_counts : forall q m l f j fr base m' s' e k,
    run m (l ++ Arguments_of f j fr :: base) q = Some (m', s') -> outer_tokens (List.length l) q = Some (e, k) ->
    exists l', s' = l' ++ Arguments_of f (j + k) fr :: base /\ List.length l' = e.
  Proof.
    induction q as [|t q IH]; intros m l f j fr base m' s' e k H E.
    - cbn in *. injection H as <- <-. injection E as <- <-. exists l. now rewrite Nat.add_0_r.
    - cbn [run] in H. destruct (read_token ctx m (l ++ Arguments_of f j fr :: base) t [t]) as [[m1 s1]|v] eqn:T; [|discriminate H].
      apply token_effect in T. destruct t as [x|x|c]; cbn [outer_tokens] in E.
      + subst s1. eauto.
      + subst s1. eauto.
      + destruct (Ascii.eqb c "(").
        { destruct T as [g [-> _]]. exact (IH m1 (g :: l) f j fr base m' s' e k H E). }
        destruct (Ascii.eqb c ")").
        { destruct T as [g T]. destruct l as [|g' l]; [discriminate E|]. cbn in T. injection T as <- <-. exact (IH _ _ _ _ _ _ _ _ _ _ H E). }
        destruct (outer_tokens (List.length l) q) as [[e0 n0]|] eqn:E0; [|discriminate E]. injection E as <- E.
        destruct (Ascii.eqb c ",").
        * destruct T as [bare [pf [g [n [fr' [s0 [-> [-> [T ->]]]]]]]]]. destruct l as [|g' l]; cbn in T.
          -- injection T as <- <- <- <-. cbn in E. subst k. cbn in E0.
             destruct (IH _ [] _ _ _ _ _ _ _ _ H E0) as [l' [-> Hl]]. exists l'. split; auto. do 3 f_equal. lia.
          -- injection T as -> <-. cbn in E. subst k. cbn [List.length] in E0.
             destruct (IH _ (Arguments_of g (S n) fr' :: l) _ _ _ _ _ _ _ _ H E0) as [l' [-> Hl]]. exists l'. auto.
        * subst s1. cbn in E. subst k. eauto.
  Qed.

  Lemma last_commas : forall pre m l f n fr base k, run (Need true) [] pre = Some (m, l ++ Arguments_of f n fr :: base) ->
    0 < k -> k <= n -> exists p q, pre = p ++ TSym "," :: q /\ outer_tokens 0 (TSym "," :: q) = Some (List.length l, k).
  Proof.
    induction pre as [|t pre IH] using rev_ind; intros m l f n fr base k H K0 K.
    - cbn in H. injection H as _ H. destruct l; discriminate H.
    - rewrite run_app in H. destruct (run (Need true) [] pre) as [[m0 s0]|]; [|discriminate H].
      cbn [run] in H. destruct (read_token ctx m0 s0 t [t]) as [[m1 s1]|v] eqn:T; [|discriminate H]. injection H as -> ->.
      apply token_effect in T.
      assert (Same : s0 = l ++ Arguments_of f n fr :: base -> (forall d, outer_tokens d [t] = Some (d, 0)) ->
        exists p q, pre ++ [t] = p ++ TSym "," :: q /\ outer_tokens 0 (TSym "," :: q) = Some (List.length l, k)).
      { intros -> Ht. destruct (IH _ _ _ _ _ _ k eq_refl K0 K) as [p [q [-> E]]]. exists p, (q ++ [t]).
        split; [now rewrite <- app_assoc|]. rewrite app_comm_cons, outer_tokens_app, E, Ht. now rewrite Nat.add_0_r. }
      destruct t as [x|x|c]; [apply Same; auto..|].
      destruct (Ascii.eqb c "(") eqn:E1.
      { destruct T as [g [T Hg]]. destruct l as [|g' l]; cbn in T.
        - injection T as <- <-. lia.
        - injection T as <- <-. destruct (IH _ _ _ _ _ _ k eq_refl K0 K) as [p [q [-> E]]]. exists p, (q ++ [TSym c]).
          split; [now rewrite <- app_assoc|]. rewrite app_comm_cons, outer_tokens_app, E. cbn [outer_tokens]. rewrite E1. now rewrite Nat.add_0_r. }
      destruct (Ascii.eqb c ")") eqn:E2.
      { destruct T as [g ->]. destruct (IH m0 (g :: l) f n fr base k eq_refl K0 K) as [p [q [-> E]]]. exists p, (q ++ [TSym c]).
        split; [now rewrite <- app_assoc|]. rewrite app_comm_cons, outer_tokens_app, E. cbn [outer_tokens List.length]. rewrite E1, E2. now rewrite Nat.add_0_r. }
      destruct (Ascii.eqb c ",") eqn:E3.
      + destruct T as [bare [pf [g [j [fr' [s00 [-> [-> [-> T]]]]]]]]]. apply Ascii.eqb_eq in E3. subst c. destruct l as [|g' l]; cbn in T.
        * injection T as <- -> <- <-. destruct (Nat.eq_dec k 1) as [->|Nk].
          -- exists pre, []. split; reflexivity.
          -- destruct (IH (Have bare pf) [] f j fr base (k - 1) eq_refl ltac:(lia) ltac:(lia)) as [p [q [-> E]]]. exists p, (q ++ [TSym ","]).
             split; [now rewrite <- app_assoc|]. rewrite app_comm_cons, outer_tokens_app, E. cbn. do 2 f_equal. lia.
        * injection T as -> <-. destruct (IH (Have bare pf) (Arguments_of g j fr' :: l) f n fr base k eq_refl K0 K) as [p [q [-> E]]].
          exists p, (q ++ [TSym ","]). split; [now rewrite <- app_assoc|]. rewrite app_comm_cons, outer_tokens_app, E. cbn. now rewrite Nat.add_0_r.
      + apply Same; [congruence|]. intro d. cbn [outer_tokens]. rewrite E1, E2, E3. reflexivity.
  Qed.
End Run.

(** ** Texts *)
(** the parentheses and commas of a text are those of its tokens *)
Definition quiet (c : ascii) : bool := negb (Ascii.eqb c "(" || Ascii.eqb c ")" || Ascii.eqb c ",").

Lemma outer_quiet : forall m s d, Forall (fun c => quiet c = true) m ->
  outer d (string_of_list_ascii (m ++ s)) = outer d (string_of_list_ascii s).
Proof.
  intros m s d H. induction H as [|c m Hc H IH]; [reflexivity|]. cbn [app string_of_list_ascii outer].
  unfold quiet in Hc. apply negb_true_iff, orb_false_iff in Hc. destruct Hc as [Hc Hk]. apply orb_false_iff in Hc. destruct Hc as [Ho Hc].
  rewrite Ho, Hc, Hk, IH. cbn. destruct (outer d (string_of_list_ascii s)) as [[]|]; reflexivity.
Qed.

Lemma outer_lexes : forall s ts, lexes s ts -> forall d, outer d (string_of_list_ascii s) = outer_tokens d ts.
Proof.
  assert (Q : forall c, (negb (a_blank c || in_mantissa c || exponent_mark c || a_sign c || a_digit c || in_name c) || quiet c)%bool = true).
  { apply byte_cases. vm_compute. reflexivity. }
  assert (Q' : forall c, (a_blank c = true \/ in_mantissa c = true \/ exponent_mark c = true \/ a_sign c = true \/ a_digit c = true \/ in_name c = true) -> quiet c = true).
  { intros c Hc. specialize (Q c).
    assert (E : (a_blank c || in_mantissa c || exponent_mark c || a_sign c || a_digit c || in_name c)%bool = true) by (rewrite !orb_true_iff; tauto).
    rewrite E in Q. exact Q. }
  assert (W : forall (p : ascii -> bool) l, (forall c, p c = true -> quiet c = true) -> Forall (fun c => p c = true) l -> Forall (fun c => quiet c = true) l)
    by (intros p l Hp Hl; induction Hl; constructor; auto).
  induction 1 as [|c s ts Hw H IH|m s ts Hm H IH|m s ts Hm H IH|c s ts Hw Hd Hp Ha H IH]; intro d.
  - reflexivity.
  - rewrite <- IH. apply (outer_quiet [c]). constructor; [|constructor]. apply Q'. auto.
  - cbn [outer_tokens]. rewrite <- IH. apply outer_quiet.
    inversion Hm; subst; repeat (apply Forall_app; split); repeat (constructor; [apply Q'; tauto|]);
      try (eapply W; [|eassumption]; intros c Hc; apply Q'; tauto).
  - cbn [outer_tokens]. rewrite <- IH. apply outer_quiet. destruct Hm as [_ [Hm _]]. eapply W; [|eassumption]. intros c Hc. apply Q'. tauto.
  - cbn [string_of_list_ascii outer outer_tokens]. destruct (Ascii.eqb c "("); [apply IH|].
    destruct (Ascii.eqb c ")"); [destruct d; [reflexivity|apply IH]|]. rewrite IH. reflexivity.
Qed.

Lemma suffix_bytes : forall n s, list_ascii_of_string (onward n s) = skipn n (list_ascii_of_string s).
Proof.
  assert (W : forall s, substring 0 (String.length s) s = s) by (induction s as [|c s IH]; cbn; [reflexivity|now rewrite IH]).
  induction n as [|n IH]; intros [|c s]; auto.
  - unfold onward. rewrite Nat.sub_0_r, W. reflexivity.
  - unfold onward in *. cbn [String.length Nat.sub substring list_ascii_of_string skipn]. apply IH.
Qed.

Lemma get_bytes : forall n s, String.get n s = nth_error (list_ascii_of_string s) n.
Proof. induction n as [|n IH]; intros [|c s]; cbn; auto. Qed.

(** a byte that is a token by itself *)
Lemma lexes_mark : forall x c y ts, separates c -> a_blank c = false -> a_digit c = false -> Ascii.eqb c "." = false -> a_letter c = false ->
  lexes (x ++ c :: y) ts -> exists p q, ts = p ++ TSym c :: q /\ lexes x p /\ lexes y q.
Proof.
  intros x c y ts Hs H1 H2 H3 H4 H. destruct (lexes_total x) as [p Hp], (lexes_total y) as [q Hq]. exists p, q. split; [|auto].
  eapply lexes_unique; [exact H|]. apply lexes_glue; auto. now apply L_sym.
Qed.

Lemma lexes_first : forall b c r, lexes b (TSym c :: r) -> ~ head_is a_blank b -> exists b', b = c :: b' /\ lexes b' r.
Proof.
  intros b c r H N. inversion H; subst; cbn in N; try congruence; eauto.
Qed.

Lemma lexes_nil : forall ts, lexes [] ts -> ts = [].
Proof. intros ts H. eapply lexes_unique; [exact H|constructor]. Qed.

(** ** The place of an error *)
Section Stop.
  Variable cfg : config.
  Variable w : world.
  Variable ctx : context.

  Lemma verdict_specified : forall text ts, specified cfg w ctx text -> text <> ""%string -> tokens_of text ts ->
    match verdict_of ctx ts with
    | Accepts => (exists x, parse cfg w ctx text = Parse_ok x) \/
        (get_expected_vars ctx <> None /\ exists e v l, parse cfg w ctx text = Parse_err e /\ pe_kind e = VariableNotDeclared v l)
    | Rejects k f u => exists e, parse cfg w ctx text = Parse_err e /\ error_matches text e k f u
    end.
  Proof.
    intros text ts Hc Hne Hts. destruct (optimize cfg) eqn:Ho; [|now apply C52_verdict].
    destruct Hc as [Hc|[Hc [ts' [Hts' Hcl]]]]; [congruence|].
    assert (ts' = ts) as -> by (eapply lexes_unique; eauto). destruct (clear_parts _ _ _ Hts Hcl) as [Hb Hn].
    now apply C52_default_verdict.
  Qed.

  Lemma stop_specified : forall text ts e, specified cfg w ctx text -> text <> ""%string -> tokens_of text ts ->
    parse cfg w ctx text = Parse_err e -> (forall v l, pe_kind e <> VariableNotDeclared v l) ->
    exists f u, verdict_of ctx ts = Rejects (pe_kind e) f u /\ tokens_begin text (place e) u.
  Proof.
    intros text ts e Hc Hne Hts He Hk. unfold place. destruct (optimize cfg) eqn:Ho; [|eapply where_stopped; eauto].
    destruct Hc as [Hc|[Hc [ts' [Hts' Hcl]]]]; [congruence|].
    assert (ts' = ts) as -> by (eapply lexes_unique; eauto). destruct (clear_parts _ _ _ Hts Hcl) as [Hb Hn].
    apply (default_error cfg w ctx text ts e Ho Hne Hc Hb Hts Hn Hk) in He.
    exact (where_stopped (plain cfg) w ctx text ts e eq_refl Hne Hts He Hk).
  Qed.

  (** reading stopped between [a] and [b] *)
  Definition stuck (a b : list ascii) (pre : list token) (m : mode) (s : list frame) (r : list token) (k : error_kind) : Prop :=
    lexes a pre /\ lexes b r /\ ~ head_is a_blank b /\ run ctx (Need true) [] pre = Some (m, s) /\ refusal ctx m s r = Some k.

  Lemma stuck_at : forall text e, specified cfg w ctx text -> text <> ""%string ->
    parse cfg w ctx text = Parse_err e -> (forall v l, pe_kind e <> VariableNotDeclared v l) ->
    place e <= String.length text /\
    exists pre m s r, stuck (firstn (place e) (list_ascii_of_string text)) (skipn (place e) (list_ascii_of_string text)) pre m s r (pe_kind e).
  Proof.
    intros text e Hc Hne He Hk. destruct (lexes_total (list_ascii_of_string text)) as [ts Hts].
    destruct (stop_specified text ts e Hc Hne Hts He Hk) as [f [u [Ev Hu]]].
    destruct (same_refl (Need true) []) as [Hm Hs].
    destruct (scan_stops ctx _ _ _ _ _ _ _ _ Hm Hs Ev) as [pre [m1 [s1 [-> [Hr Hf]]]]].
    pose proof (text_before _ _ _ _ Hts Hu) as Hpre. destruct Hu as [Hle [Hlex Hn]].
    split; [exact Hle|]. exists pre, m1, s1, u. unfold stuck. auto.
  Qed.

  (** a text whose beginning can be read *)
  Lemma go_on : forall text a b pre r m s, specified cfg w ctx text -> text <> ""%string -> list_ascii_of_string text = a ++ b ->
    lexes a pre -> lexes b r -> lexes (a ++ b) (pre ++ r) -> run ctx (Need true) [] pre = Some (m, s) ->
    in_order_before (List.length a) (parse cfg w ctx text) /\
    forall e, parse cfg w ctx text = Parse_err e -> (forall v l, pe_kind e <> VariableNotDeclared v l) ->
      List.length a <= place e /\ (place e = List.length a -> ~ head_is a_blank b -> refusal ctx m s r = Some (pe_kind e)).
  Proof.
    intros text a b pre r m s Hc Hne Eb Ha Hb Hab Hrun. assert (Hts : tokens_of text (pre ++ r)) by (unfold tokens_of; now rewrite Eb).
    assert (P : forall e, parse cfg w ctx text = Parse_err e -> (forall v l, pe_kind e <> VariableNotDeclared v l) ->
      List.length a <= place e /\ (place e = List.length a -> ~ head_is a_blank b -> refusal ctx m s r = Some (pe_kind e))).
    { intros e He Hk. destruct (stop_specified _ _ e Hc Hne Hts He Hk) as [f [u [Ev Hu]]].
      destruct (same_refl (Need true) []) as [Hm Hs]. destruct (scan_run ctx _ _ _ _ _ r _ _ Hm Hs Hrun) as [m2 [s2 [Hm2 [Hs2 E]]]].
      unfold verdict_of in Ev. rewrite E in Ev. destruct (scan_stops ctx _ _ _ _ _ _ _ _ Hm2 Hs2 Ev) as [r1 [m3 [s3 [Er [Hr Hf]]]]]. subst r.
      destruct (lexes_split _ _ Hb r1 u eq_refl) as [b1 [b2 [-> [Hb1 [Hb2 Hn]]]]].
      assert (Hu' : tokens_begin text (List.length (a ++ b1)) u).
      { split; [rewrite <- list_ascii_length, Eb, !app_length; lia|]. rewrite Eb, app_assoc, skipn_app, skipn_all, Nat.sub_diag. cbn. auto. }
      rewrite (tokens_begin_unique _ _ _ _ Hu Hu'), app_length. split; [lia|]. intros El _.
      assert (b1 = []) as -> by (destruct b1; [reflexivity|cbn in El; lia]). apply lexes_nil in Hb1. subst r1. cbn in Hr. injection Hr as <- <-. exact Hf. }
    split; [|exact P]. pose proof (verdict_specified text _ Hc Hne Hts) as V.
    destruct (verdict_of ctx (pre ++ r)) as [|k f u] eqn:Ev.
    - destruct V as [[x ->]|[_ [e [v [l [-> K]]]]]]; cbn; eauto.
    - destruct V as [e [He M]]. rewrite He. cbn. right. apply (P e He).
      destruct M as [-> _]. intros v l K. subst k. apply verdict_places in Ev. exact Ev.
  Qed.

  Lemma empty_kind : forall e, parse cfg w ctx "" = Parse_err e -> pe_kind e = UnexpectedEndOfExpression.
  Proof.
    assert (E : parse cfg w ctx "" = if overflow_checks cfg then Parse_panic ArithOverflow
      else Parse_err (mk_parse_error UnexpectedEndOfExpression (2 ^ 64 - 1) 0 "")).
    { destruct cfg as [a b c []]; vm_compute; reflexivity. }
    intros e H. rewrite E in H. destruct (overflow_checks cfg); [discriminate H|]. injection H as <-. reflexivity.
  Qed.
End Stop.
