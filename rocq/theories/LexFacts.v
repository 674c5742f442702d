(** * Putting texts together *)
From Coq Require Import ZArith NArith List String Ascii Bool Lia.
From Verif Require Import SpecChars CharFacts.
From Verif Require Import F64 Syntax Builtins Context Parser SpecTokens SpecGrammar TokenFacts.
Import ListNotations.
Local Open Scope nat_scope.

(** A byte that cannot continue or join the tokens before it. *)
Definition separates (c : ascii) : Prop :=
  in_name c = false /\ in_mantissa c = false /\ a_sign c = false.

Lemma separates_facts : forall c, separates c -> a_digit c = false /\ exponent_mark c = false.
Proof.
  intros c [H1 [H2 H3]].
  assert (Hb : forall b, (in_name b || (negb (a_digit b) && negb (exponent_mark b))) = true).
  { apply byte_cases. vm_compute. reflexivity. }
  specialize (Hb c). rewrite H1 in Hb. cbn in Hb. apply andb_true_iff in Hb. rewrite !negb_true_iff in Hb. exact Hb.
Qed.

Lemma ws_separates : forall c, a_blank c = true -> separates c.
Proof.
  intros c H. assert (Hb : forall b, (negb (a_blank b) || (negb (in_name b) && negb (in_mantissa b) && negb (a_sign b))) = true).
  { apply byte_cases. vm_compute. reflexivity. }
  specialize (Hb c). rewrite H in Hb. cbn in Hb. rewrite !andb_true_iff, !negb_true_iff in Hb. unfold separates. tauto.
Qed.

Lemma head_glue : forall p s c b, p c = false -> ~ head_is p s -> ~ head_is p (s ++ c :: b).
Proof. intros p [|x s] c b Hc H; cbn in *; [congruence|auto]. Qed.

Lemma exponent_glue : forall s c b, separates c -> ~ exponent_follows s -> ~ exponent_follows (s ++ c :: b).
Proof.
  intros s c b Hc H H'. destruct (separates_facts _ Hc) as [Hd He]. destruct Hc as [_ [_ Hs]].
  destruct s as [|x [|y [|z s]]]; cbn in *.
  - destruct b as [|b0 b]; [exact H'|]. destruct H' as [H' _]. congruence.
  - destruct H' as [_ [H'|[H' _]]]; congruence.
  - destruct H' as [H1 [H2|[H2 H3]]]; [apply H; auto|congruence].
  - exact (H H').
Qed.

Lemma number_glue : forall m s c b, separates c -> number_token m s -> number_token m (s ++ c :: b).
Proof.
  intros m s c b Hc H. destruct (separates_facts _ Hc) as [Hd _]. pose proof Hc as [_ [Hn _]].
  destruct H; [apply NT_plain|apply NT_exp|apply NT_signed_exp]; auto using head_glue, exponent_glue.
Qed.

Lemma name_glue : forall m s c b, separates c -> name_token m s -> name_token m (s ++ c :: b).
Proof. intros m s c b [Hc _] [H1 [H2 H3]]. repeat split; auto using head_glue. Qed.

Lemma lexes_glue : forall a ts, lexes a ts -> forall c b ts', separates c -> lexes (c :: b) ts' -> lexes (a ++ c :: b) (ts ++ ts').
Proof.
  intros a ts H. induction H; intros d b ts' Hd Hb; cbn [app]; auto.
  - apply L_ws; auto.
  - rewrite <- app_assoc. apply L_num; auto using number_glue.
  - rewrite <- app_assoc. apply L_name; auto using name_glue.
  - apply L_sym; auto.
Qed.

(** whitespace between two texts *)
Lemma lexes_space : forall a ts b ts' c, lexes a ts -> lexes b ts' -> a_blank c = true -> lexes (a ++ c :: b) (ts ++ ts').
Proof. intros. apply lexes_glue; auto using ws_separates. now apply L_ws. Qed.

Lemma list_ascii_app : forall s t, list_ascii_of_string (s ++ t) = list_ascii_of_string s ++ list_ascii_of_string t.
Proof. induction s; intro t; cbn; [reflexivity|]. now rewrite IHs. Qed.

Lemma tokens_parens : forall s ts, tokens_of s ts -> tokens_of ("(" ++ s ++ ")")%string (TSym "(" :: ts ++ [TSym ")"]).
Proof.
  intros s ts H. unfold tokens_of. rewrite !list_ascii_app. cbn.
  apply L_sym; auto. apply lexes_glue; auto; [repeat split|]. apply L_sym; auto. apply L_end.
Qed.

Lemma tokens_nonempty : forall s ts, tokens_of s ts -> ts <> [] -> s <> ""%string.
Proof. intros s ts H Hn ->. inversion H; subst; try congruence; destruct m; try discriminate; match goal with
  | H : number_token [] _ |- _ => inversion H; subst; try contradiction; destruct m; discriminate
  | H : name_token [] _ |- _ => destruct H as [[] _] end. Qed.
