(** * The budget does not influence the token parser's answer *)
From Coq Require Import ZArith NArith List String Ascii Bool Lia.
From Verif Require Import F64 Syntax Factorial Builtins Context Element Parser SpecTokens TokenParser.
Import ListNotations.
Local Open Scope nat_scope.

Definition below {A} (r r' : tres A) : Prop := r = TFuel \/ r = r'.

Lemma below_refl : forall A (r : tres A), below r r.
Proof. right; reflexivity. Qed.

Lemma below_bind : forall A B (r r' : tres A) (f f' : A -> list token -> tres B),
  below r r' -> (forall a ts, below (f a ts) (f' a ts)) -> below (tbind r f) (tbind r' f').
Proof. intros A B r r' f f' [-> | ->] H; [now left|]. destruct r'; cbn; auto; now right. Qed.

Section Mono.
  Variable cfg : config.
  Variable w : world.
  Variable ctx : context.

  Section Open.
    Variable elem elem' : nat -> list token -> tres element.
    Hypothesis He : forall p ts, below (elem p ts) (elem' p ts).

    Lemma mono_loop : forall b b' p el ts, b <= b' ->
      below (t_loop cfg elem b p el ts) (t_loop cfg elem' b' p el ts).
    Proof.
      induction b as [|b IH]; intros b' p el ts Hb; [now left|]. destruct b' as [|b']; [lia|].
      cbn [t_loop]. destruct (t_goi cfg el p ts) as [[[op k]|] ts']; [|now right].
      apply below_bind; auto. intros a r. apply IH. lia.
    Qed.

    Lemma mono_argument : forall ts, below (t_argument elem ts) (t_argument elem' ts).
    Proof.
      intro ts. unfold t_argument. destruct (He NO_PRECEDENCE ts) as [->| ->]; [now left|]. now right.
    Qed.

    Lemma mono_arguments : forall b b' args ts, b <= b' ->
      below (t_arguments elem b args ts) (t_arguments elem' b' args ts).
    Proof.
      induction b as [|b IH]; intros b' args ts Hb; [now left|]. destruct b' as [|b']; [lia|].
      cbn [t_arguments]. apply below_bind; [apply mono_argument|]. intros a [|t r]; [now right|].
      destruct t as [s|s|c]; try now right. destruct (Ascii.eqb c ","); [apply IH; lia|]. now right.
    Qed.

    Lemma mono_atom : forall b b' ts, b <= b' -> below (t_atom ctx elem b ts) (t_atom ctx elem' b' ts).
    Proof.
      intros b b' ts Hb. destruct ts as [|[s|s|c] r]; try now right.
      - cbn [t_atom]. unfold t_identifier. destruct (resolve ctx s); try now right.
        destruct (t_consume "(" r) as [[] r1]; [|now right].
        apply below_bind; [now apply mono_arguments|]. intros. apply below_refl.
      - cbn [t_atom]. destruct (Ascii.eqb c "+"); [apply below_bind; auto; intros; apply below_refl|].
        destruct (Ascii.eqb c "-"); [apply below_bind; auto; intros; apply below_refl|].
        destruct (Ascii.eqb c "("); [apply below_bind; auto; intros; apply below_refl|]. apply below_refl.
    Qed.
  End Open.

  Lemma mono_element : forall b b' p ts, b <= b' ->
    below (t_element cfg w ctx b p ts) (t_element cfg w ctx b' p ts).
  Proof.
    induction b as [|b IH]; intros b' p ts Hb; [now left|]. destruct b' as [|b']; [lia|].
    cbn [t_element]. assert (He : forall p ts, below (t_element cfg w ctx b p ts) (t_element cfg w ctx b' p ts))
      by (intros; apply IH; lia).
    apply below_bind; [apply mono_atom; auto; lia|]. intros el r.
    destruct (t_consume "!" r) as [bang r2]. apply below_bind; [apply mono_loop; auto; lia|].
    intros. apply below_refl.
  Qed.

  Lemma mono_parse : forall b b' ts, b <= b' -> below (t_parse cfg w ctx b ts) (t_parse cfg w ctx b' ts).
  Proof.
    intros b b' ts Hb. unfold t_parse. apply below_bind; [now apply mono_element|]. intros. apply below_refl.
  Qed.

  Lemma same_answer : forall b b' ts, t_parse cfg w ctx b ts <> TFuel -> t_parse cfg w ctx b' ts <> TFuel ->
    t_parse cfg w ctx b ts = t_parse cfg w ctx b' ts.
  Proof.
    intros b b' ts H H'. destruct (Nat.le_ge_cases b b') as [L|L].
    - destruct (mono_parse _ _ ts L) as [E|E]; congruence.
    - destruct (mono_parse _ _ ts L) as [E|E]; congruence.
  Qed.
End Mono.
