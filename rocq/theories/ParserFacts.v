(** * Basic facts about the parser's cursor functions *)
From Coq Require Import ZArith NArith List String Ascii Bool Lia.
From Verif Require Import SpecChars CharFacts.
From Verif Require Import F64 Syntax Builtins Context Element Parser.
Import ListNotations.
Local Open Scope nat_scope.

Lemma list_ascii_length : forall s, List.length (list_ascii_of_string s) = String.length s.
Proof. induction s; simpl; congruence. Qed.

Lemma prefix_len_le : forall p l, prefix_len p l <= List.length l.
Proof. induction l; simpl; [lia|]. destruct (p a); simpl; lia. Qed.

Lemma prefix_len_forall : forall p l, Forall (fun c => p c = true) (firstn (prefix_len p l) l).
Proof.
  induction l; simpl; [constructor|]. destruct (p a) eqn:E; simpl; constructor; auto.
Qed.

Lemma prefix_len_stop : forall p l c, nth_error l (prefix_len p l) = Some c -> p c = false.
Proof.
  induction l; simpl; intros c H; [discriminate|].
  destruct (p a) eqn:E; simpl in H; [eauto|congruence].
Qed.

Lemma nth_error_skipn : forall A (l : list A) n m, nth_error (skipn n l) m = nth_error l (n + m).
Proof.
  induction l; intros n m; destruct n; simpl; auto.
  destruct m; reflexivity.
Qed.

Lemma skipn_nth : forall A (l : list A) n x, nth_error l n = Some x -> skipn n l = x :: skipn (S n) l.
Proof.
  induction l; intros n x H; destruct n; simpl in *; try discriminate; [congruence|].
  now apply IHl.
Qed.

Lemma nth_error_Some_lt : forall A (l : list A) n x, nth_error l n = Some x -> n < List.length l.
Proof. intros. apply nth_error_Some. congruence. Qed.

Section Facts.
  Variable input : string.
  Let bs := bytes input.
  Let len := List.length bs.

  Lemma len_input : len = String.length input.
  Proof. apply list_ascii_length. Qed.

  Lemma skip_while_ge : forall p c, c <= skip_while input p c.
  Proof. intros. unfold skip_while. lia. Qed.

  Lemma skip_while_le : forall p c, c <= len -> skip_while input p c <= len.
  Proof.
    intros p c H. unfold skip_while.
    pose proof (prefix_len_le p (skipn c bs)) as Hl. rewrite skipn_length in Hl.
    fold bs. unfold len in *. lia.
  Qed.

  Lemma skip_while_stop : forall p c b,
    current input (skip_while input p c) = Some b -> p b = false.
  Proof.
    unfold current, skip_while. intros p c b H. fold bs in H.
    rewrite <- nth_error_skipn in H. eapply prefix_len_stop; eauto.
  Qed.

  Lemma skip_while_run : forall p c i b,
    c <= i < skip_while input p c -> nth_error bs i = Some b -> p b = true.
  Proof.
    unfold skip_while. fold bs. intros p c i b Hi Hb.
    pose proof (prefix_len_forall p (skipn c bs)) as HF.
    rewrite Forall_forall in HF. apply HF.
    replace i with (c + (i - c)) in Hb by lia. rewrite <- nth_error_skipn in Hb.
    apply nth_error_In with (n := i - c).
    rewrite <- Hb.
    revert Hi. generalize (prefix_len p (skipn c bs)). intros n Hi.
    assert (i - c < n) by lia. revert H. generalize (i - c). generalize (skipn c bs). clear.
    induction l; intros m Hm; destruct n; simpl; try lia; [destruct m; reflexivity|].
    destruct m; simpl; auto. revert IHl Hm. clear. intros.
    revert m Hm. clear IHl. revert n l. induction n; intros; [lia|].
    destruct l; simpl; [destruct m; reflexivity|]. destruct m; simpl; auto. apply IHn. lia.
  Qed.

  Lemma next_trim_spec : forall c o c',
    c <= len -> next_trim input c = (o, c') ->
    c <= c' <= len /\ o = nth_error bs c' /\
    match o with
    | None => c' = len
    | Some b => c' < len /\ a_blank b = false
    end.
  Proof.
    unfold next_trim. chars. intros c o c' Hc H. injection H as Ho Hc'. subst c'.
    pose proof (skip_while_ge a_blank c) as Hge. pose proof (skip_while_le a_blank c Hc) as Hle.
    split; [lia|]. split; [subst; reflexivity|].
    destruct o as [b|].
    - split; [eapply nth_error_Some_lt; exact Ho|]. eapply skip_while_stop; eauto.
    - unfold current in Ho. fold bs in Ho. apply nth_error_None in Ho. fold len in Ho. lia.
  Qed.

  Lemma next_trim_fixed : forall c o c',
    c <= len -> next_trim input c = (o, c') -> next_trim input c' = (o, c').
  Proof.
    intros c o c' Hc H. pose proof (next_trim_spec c o c' Hc H) as [Hr [Ho Hm]].
    unfold next_trim. chars. unfold skip_while. fold bs.
    assert (prefix_len a_blank (skipn c' bs) = 0) as ->.
    { destruct o as [b|].
      - destruct Hm as [Hlt Hw]. rewrite (skipn_nth _ bs c' b) by congruence. simpl. now rewrite Hw.
      - subst c'. unfold len. rewrite skipn_all. reflexivity. }
    rewrite Nat.add_0_r. unfold current. fold bs. now rewrite <- Ho.
  Qed.

  Lemma consume_if_eq_spec : forall t c b c',
    c <= len -> consume_if_eq input t c = (b, c') ->
    exists o c0, next_trim input c = (o, c0) /\
      if b then c' = S c0 /\ o = Some t /\ c' <= len
      else c' = c0 /\ o <> Some t.
  Proof.
    unfold consume_if_eq. intros t c b c' Hc H.
    destruct (next_trim input c) as [o c0] eqn:E.
    pose proof (next_trim_spec _ _ _ Hc E) as [Hr [Ho Hm]].
    exists o, c0. split; [reflexivity|].
    destruct o as [x|].
    - destruct (Ascii.eqb x t) eqn:Ex.
      + apply Ascii.eqb_eq in Ex. injection H as <- <-. subst x. repeat split; lia.
      + apply Ascii.eqb_neq in Ex. injection H as <- <-. split; congruence.
    - injection H as <- <-. split; congruence.
  Qed.

  Lemma slice_length : forall i j, i <= j <= len -> String.length (slice input i j) = j - i.
  Proof.
    intros i j H. unfold slice. rewrite <- list_ascii_length, list_ascii_of_string_of_list_ascii.
    rewrite firstn_length, skipn_length. fold bs. fold len. lia.
  Qed.
End Facts.
