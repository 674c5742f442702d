(** * Computing token sequences and sentences, for the examples *)
From Coq Require Import ZArith NArith List String Ascii Bool Lia.
From Verif Require Import SpecChars CharFacts.
From Verif Require Import F64 Syntax Builtins Context Parser SpecTokens SpecGrammar TokenFacts.
Import ListNotations.
Local Open Scope nat_scope.

Fixpoint span (p : ascii -> bool) (l : list ascii) : list ascii * list ascii :=
  match l with
  | [] => ([], [])
  | c :: l' => if p c then let '(a, b) := span p l' in (c :: a, b) else ([], l)
  end.

Lemma span_spec : forall p l a b, span p l = (a, b) ->
  l = a ++ b /\ Forall (fun c => p c = true) a /\ ~ head_is p b.
Proof.
  induction l as [|c l IH]; intros a b H; cbn in H.
  - injection H as <- <-. auto.
  - destruct (p c) eqn:E.
    + destruct (span p l) as [a' b']. injection H as <- <-. destruct (IH _ _ eq_refl) as [-> [H1 H2]].
      repeat split; auto.
    + injection H as <- <-. repeat split; auto. cbn. now rewrite E.
Qed.

Definition digit_head (l : list ascii) : bool := match l with c :: _ => a_digit c | [] => false end.

Definition lex_number (s : list ascii) : list ascii * list ascii :=
  let '(m, r) := span in_mantissa s in
  match r with
  | e :: d :: r' =>
      if exponent_mark e && a_digit d then let '(ds, r2) := span a_digit (d :: r') in (m ++ e :: ds, r2)
      else if exponent_mark e && a_sign d && digit_head r' then
        let '(ds, r2) := span a_digit r' in (m ++ e :: d :: ds, r2)
      else (m, r)
  | _ => (m, r)
  end.

Lemma lex_number_spec : forall c s m r, (a_digit c || Ascii.eqb c ".") = true -> lex_number (c :: s) = (m, r) ->
  c :: s = m ++ r /\ number_token m r.
Proof.
  intros c s m r Hc H. unfold lex_number in H.
  destruct (span in_mantissa (c :: s)) as [m0 r0] eqn:E0.
  destruct (span_spec _ _ _ _ E0) as [Es [Hm Hr]]. rewrite Es.
  assert (Hh : head_is (fun c => a_digit c || Ascii.eqb c ".") m0).
  { destruct (num_start _ Hc) as [Hn _]. cbn in E0. rewrite Hn in E0. destruct (span in_mantissa s). injection E0 as <- _. exact Hc. }
  destruct r0 as [|e [|d r']].
  - injection H as <- <-. split; auto. apply NT_plain; auto.
  - injection H as <- <-. split; auto. apply NT_plain; auto.
  - destruct (exponent_mark e && a_digit d) eqn:E1.
    + apply andb_true_iff in E1. destruct E1 as [He Hd].
      destruct (span a_digit (d :: r')) as [ds r2] eqn:E2. injection H as <- <-.
      destruct (span_spec _ _ _ _ E2) as [E3 [Hds Hr2]]. rewrite E3, <- app_assoc. split; auto.
      apply NT_exp; auto. intros ->. cbn in E3. rewrite <- E3 in Hr2. cbn in Hr2. congruence.
    + destruct (exponent_mark e && a_sign d && digit_head r') eqn:E2.
      * apply andb_true_iff in E2. destruct E2 as [E2 Hd2]. apply andb_true_iff in E2. destruct E2 as [He Hd].
        destruct (span a_digit r') as [ds r2] eqn:E3. injection H as <- <-.
        destruct (span_spec _ _ _ _ E3) as [E4 [Hds Hr2]]. rewrite E4, <- app_assoc. split; auto.
        apply NT_signed_exp; auto. intros ->. cbn in E4. subst r'. destruct r2; cbn in *; congruence.
      * injection H as <- <-. split; auto. apply NT_plain; auto. intros [He [Hd|[Hd Hd2]]].
        -- rewrite He, Hd in E1. discriminate E1.
        -- rewrite He, Hd in E2. destruct r'; cbn in Hd2; [contradiction|]. cbn in E2. rewrite Hd2 in E2. discriminate E2.
Qed.

Fixpoint lex (n : nat) (s : list ascii) : option (list token) :=
  match n with
  | 0 => None
  | S n =>
      match s with
      | [] => Some []
      | c :: s' =>
          if a_blank c then lex n s'
          else if a_digit c || Ascii.eqb c "." then
            let '(m, r) := lex_number s in option_map (cons (TNum (string_of_list_ascii m))) (lex n r)
          else if a_letter c then
            let '(m, r) := span in_name s in option_map (cons (TId (string_of_list_ascii m))) (lex n r)
          else option_map (cons (TSym c)) (lex n s')
      end
  end.

Lemma alpha_ident : forall c, a_letter c = true -> in_name c = true.
Proof.
  intros c H. assert (Hb : forall b, (negb (a_letter b) || in_name b) = true) by (apply byte_cases; vm_compute; reflexivity).
  specialize (Hb c). rewrite H in Hb. exact Hb.
Qed.

Lemma lex_sound : forall n s ts, lex n s = Some ts -> lexes s ts.
Proof.
  induction n as [|n IH]; intros s ts H; [discriminate H|]. destruct s as [|c s]; cbn [lex] in H.
  - injection H as <-. apply L_end.
  - destruct (a_blank c) eqn:Ew; [apply L_ws; auto|].
    destruct (a_digit c || Ascii.eqb c ".") eqn:Ed.
    + destruct (lex_number (c :: s)) as [m r] eqn:E. destruct (lex_number_spec _ _ _ _ Ed E) as [-> Hn].
      destruct (lex n r) as [ts'|] eqn:El; [|discriminate H]. injection H as <-. apply L_num; auto.
    + destruct (a_letter c) eqn:Ea.
      * destruct (span in_name (c :: s)) as [m r] eqn:E. destruct (span_spec _ _ _ _ E) as [-> [Hm Hr]].
        destruct (lex n r) as [ts'|] eqn:El; [|discriminate H]. injection H as <-. apply L_name; auto.
        repeat split; auto. cbn in E. rewrite (alpha_ident _ Ea) in E. destruct (span in_name s).
        injection E as <- _. exact Ea.
      * apply orb_false_iff in Ed. destruct Ed as [Ed1 Ed2].
        destruct (lex n s) as [ts'|] eqn:El; [|discriminate H]. injection H as <-. apply L_sym; auto.
Qed.

Lemma tokens_check : forall input ts, lex (S (String.length input)) (list_ascii_of_string input) = Some ts -> tokens_of input ts.
Proof. intros input ts H. eapply lex_sound. exact H. Qed.

(** deciding adjacency *)
Fixpoint adjacent_b (p : token -> token -> bool) (ts : list token) : bool :=
  match ts with
  | a :: ((b :: _) as r) => p a b || adjacent_b p r
  | _ => false
  end.
Lemma adjacent_check : forall (p : token -> token -> bool) (P : token -> token -> Prop) ts,
  (forall a b, P a b -> p a b = true) -> adjacent_b p ts = false -> ~ adjacent P ts.
Proof.
  intros p P ts Hp H [u [a [b [v [-> Hab]]]]]. apply Hp in Hab. induction u as [|x u IH].
  - cbn in H. rewrite Hab in H. discriminate H.
  - apply IH. destruct u as [|y u]; cbn [app adjacent_b] in H |- *; apply orb_false_iff in H; apply H.
Qed.

Definition clear_b (ctx : context) (ts : list token) : bool :=
  negb (adjacent_b (fun a b => match a, b with TSym c, TSym d => Ascii.eqb c "!" && Ascii.eqb d "!" | _, _ => false end) ts) &&
  negb (adjacent_b (fun a b => ends_number ctx a && match b with TNum _ => true | _ => false end) ts).
Lemma clear_check : forall ctx ts, clear_b ctx ts = true -> clear_tokens ctx ts.
Proof.
  intros ctx ts H. unfold clear_b in H. apply andb_true_iff in H. rewrite !negb_true_iff in H. destruct H as [H1 H2].
  split; [eapply adjacent_check; [|exact H1]|eapply adjacent_check; [|exact H2]].
  - intros a b [-> ->]. reflexivity.
  - intros a b [Ha [s ->]]. now rewrite Ha.
Qed.
Lemma no_juxta_check : forall ctx ts,
  adjacent_b (fun a b => ends_operand ctx a && starts_operand b) ts = false -> ~ juxtaposed ctx ts.
Proof. intros ctx ts H. eapply adjacent_check; [|exact H]. intros a b [Ha Hb]. cbn. now rewrite Ha, Hb. Qed.
