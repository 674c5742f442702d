(** * Properties of equality and order (C38-C40) *)
From Coq Require Import ZArith NArith Reals List String Ascii Bool Lia Lra.
From Flocq Require Import Core BinarySingleNaN.
From Verif Require Import F64 Syntax Factorial Builtins Context Element Parser Xprs Order.
From Verif Require Import SpecParse SpecTree TreeFacts SimplifyFacts SpecApi ParserResults FloatFacts.
From Verif Require Import TestWorld PropertiesParse PropertiesEval.
Import ListNotations.
Local Open Scope string_scope.

(** ** C38 *)
(** Equality of expressions as documented: same shape, numbers equal as f64,
    the operands of + and * in either order. *)
Inductive equal_exprs : element -> element -> Prop :=
| EQ_number : forall x y, feq x y = true -> equal_exprs (Number x) (Number y)
| EQ_var : forall x, equal_exprs (Var x) (Var x)
| EQ_un : forall op a b, equal_exprs a b -> equal_exprs (UnOp op a) (UnOp op b)
| EQ_bin : forall op l r l' r', op <> Factorial -> equal_exprs l l' -> equal_exprs r r' ->
    equal_exprs (BinOp op l r) (BinOp op l' r')
| EQ_swap : forall op l r l' r', op = Plus \/ op = Times -> equal_exprs l r' -> equal_exprs r l' ->
    equal_exprs (BinOp op l r) (BinOp op l' r')
| EQ_call : forall f args args', equal_lists args args' -> equal_exprs (Call f args) (Call f args')
with equal_lists : list element -> list element -> Prop :=
| EQ_nil : equal_lists [] []
| EQ_cons : forall a b l m, equal_exprs a b -> equal_lists l m -> equal_lists (a :: l) (b :: m).

(** no "!!"-style binary factorial anywhere *)
Definition no_binary_factorial (e : element) : Prop := forall l r, ~ sub (BinOp Factorial l r) e.

Lemma no_bf_iff : forall e, no_bf e <-> no_binary_factorial e.
Proof.
  unfold no_binary_factorial. induction e using element_ind'.
  - simpl; split; auto. intros _ l r H. inversion H.
  - simpl. rewrite IHe1, IHe2. split.
    + intros [H1 [H2 H3]] l r H. inversion H; subst; [congruence| |]; [eapply H2|eapply H3]; eauto.
    + intro H. split; [intros ->; eapply H; constructor|]. split; intros l r Hs; eapply H; eauto using sub.
  - simpl. rewrite IHe. split.
    + intros H l r Hs. inversion Hs; subst. eapply H; eauto.
    + intros H l r Hs. eapply H; eauto using sub.
  - rewrite no_bf_call. rewrite Forall_forall in *. split.
    + intros Ha l r Hs. inversion Hs; subst. match goal with Hb : In ?b args |- _ => eapply (proj1 (H b Hb)); eauto end.
    + intros Hn a Ha. apply H; auto. intros l r Hs. eapply Hn; eauto using sub.
  - simpl; split; auto. intros _ l r H. inversion H.
Qed.

Lemma and_true : forall a b, and_out a b = Val true <-> a = Val true /\ b = Val true.
Proof. intros [[]|] b; simpl; split; try tauto; try discriminate; intros [H _]; discriminate. Qed.

Lemma or_true : forall a b, (exists x, a = Val x) -> (or_out a b = Val true <-> a = Val true \/ b = Val true).
Proof. intros a b [[] ->]; simpl; split; auto; intros [H|H]; auto; discriminate. Qed.

Lemma el_eq_equal : forall a b, no_bf a -> (el_eq a b = Val true <-> equal_exprs a b).
Proof.
  induction a using element_ind'; intros b Hn.
  - destruct b; simpl; split; intro H; try discriminate; try (inversion H; fail).
    + injection H as H. now constructor.
    + inversion H; subst. congruence.
  - destruct Hn as [Hop [Hl Hr]].
    destruct b; try (simpl; split; intro H; [discriminate|inversion H]).
    pose proof (IHa1 b1 Hl) as L1. pose proof (IHa2 b2 Hr) as R2.
    pose proof (IHa1 b2 Hl) as L2. pose proof (IHa2 b1 Hr) as R1.
    cbn [el_eq]. destruct (operator_eqb op op0) eqn:E.
    + apply operator_eqb_eq in E. subst op0.
      assert (Hbin : and_out (el_eq a1 b1) (el_eq a2 b2) = Val true <-> equal_exprs a1 b1 /\ equal_exprs a2 b2)
        by (rewrite and_true; tauto).
      assert (Hswap : and_out (el_eq a1 b2) (el_eq a2 b1) = Val true <-> equal_exprs a1 b2 /\ equal_exprs a2 b1)
        by (rewrite and_true; tauto).
      assert (Hval : exists x, and_out (el_eq a1 b1) (el_eq a2 b2) = Val x)
        by (apply and_out_val; apply el_eq_val; auto).
      destruct op; try congruence;
        try (rewrite Hbin; split; [intros [? ?]; now constructor|];
             intro H; inversion H; subst; [auto|]; intuition discriminate).
      * rewrite or_true by auto. rewrite Hbin, Hswap. split.
        -- intros [[? ?]|[? ?]]; [apply EQ_bin|apply EQ_swap]; auto.
        -- intro H; inversion H; subst; auto.
      * rewrite or_true by auto. rewrite Hbin, Hswap. split.
        -- intros [[? ?]|[? ?]]; [apply EQ_bin|apply EQ_swap]; auto.
        -- intro H; inversion H; subst; auto.
    + split; [discriminate|]. intro H.
      assert (operator_eqb op op0 = true); [|congruence]. apply operator_eqb_eq. inversion H; auto.
  - destruct b; try (simpl; split; intro H; [discriminate|inversion H]).
    cbn [el_eq no_bf] in *. destruct (operator_eqb op op0) eqn:E.
    + apply operator_eqb_eq in E. subst op0. rewrite (IHa b Hn). split; intro H; [now constructor|now inversion H].
    + split; [discriminate|]. intro H.
      assert (operator_eqb op op0 = true); [|congruence]. apply operator_eqb_eq. inversion H; auto.
  - destruct b; try (simpl; split; intro H'; [discriminate|inversion H']).
    rewrite el_eq_call. apply no_bf_call in Hn.
    assert (HL : forall args0, Nat.eqb (List.length args) (List.length args0) = true ->
                 (el_eq_list args args0 = Val true <-> equal_lists args args0)).
    { clear args0. induction H; intros [|b m] Hlen; try discriminate.
      - simpl. split; [constructor|auto].
      - inversion Hn; subst. cbn [el_eq_list]. rewrite and_true, (H b), (IHForall H4 m) by auto.
        split; [intros [? ?]; now constructor|intro H'; inversion H'; auto]. }
    destruct (function_eqb f desc) eqn:E.
    + apply function_eqb_eq in E. subst desc.
      destruct (Nat.eqb (List.length args) (List.length args0)) eqn:El.
      * rewrite HL by auto. split; intro H'; [now constructor|now inversion H'].
      * split; [discriminate|]. intro H'. inversion H'; subst. exfalso.
        apply Nat.eqb_neq in El. apply El.
        match goal with He : equal_lists _ _ |- _ => clear -He; induction He; simpl; auto end.
    + split; [discriminate|]. intro H'.
      assert (function_eqb f desc = true); [|congruence]. apply function_eqb_eq. inversion H'; auto.
  - destruct b; simpl; split; intro H; try discriminate; try (inversion H; fail).
    + injection H as H. apply String.eqb_eq in H. subst. constructor.
    + inversion H; subst. now rewrite String.eqb_refl.
Qed.

(** [==] answers, and answers what the specification says. *)
Theorem C38_eq_decides_equality : forall a b, no_binary_factorial a ->
  exists c, el_eq a b = Val c /\ (c = true <-> equal_exprs a b).
Proof.
  intros a b Hn. apply no_bf_iff in Hn. destruct (el_eq_val a b Hn) as [c Hc]. exists c. split; auto.
  rewrite <- (el_eq_equal a b Hn), Hc. split; congruence.
Qed.

Scheme equal_exprs_mut := Minimality for equal_exprs Sort Prop
  with equal_lists_mut := Minimality for equal_lists Sort Prop.
Combined Scheme equal_mutind from equal_exprs_mut, equal_lists_mut.

Lemma equal_sym : (forall a b, equal_exprs a b -> equal_exprs b a) /\
  (forall l m, equal_lists l m -> equal_lists m l).
Proof.
  apply equal_mutind; intros; try (now constructor).
  constructor. now rewrite feq_sym.
Qed.

Lemma equal_trans : (forall a b, equal_exprs a b -> forall c, equal_exprs b c -> equal_exprs a c) /\
  (forall l m, equal_lists l m -> forall n, equal_lists m n -> equal_lists l n).
Proof.
  apply equal_mutind.
  - intros x y H c Hc. inversion Hc; subst. constructor. eapply feq_trans; eauto.
  - intros x c Hc. inversion Hc; subst. constructor.
  - intros op a b _ IH c Hc. inversion Hc; subst. constructor. auto.
  - intros op l r l' r' Hop _ IH1 _ IH2 c Hc. inversion Hc; subst; [apply EQ_bin|apply EQ_swap]; auto.
  - intros op l r l' r' Hop _ IH1 _ IH2 c Hc. inversion Hc; subst.
    + apply EQ_swap; auto.
    + apply EQ_bin; auto. destruct Hop; subst; discriminate.
  - intros f args args' _ IH c Hc. inversion Hc; subst. constructor. auto.
  - auto.
  - intros a b l m _ IH1 _ IH2 n Hn. inversion Hn; subst. constructor; auto.
Qed.

Lemma equal_no_bf : (forall a b, equal_exprs a b -> no_bf a -> no_bf b) /\
  (forall l m, equal_lists l m -> Forall no_bf l -> Forall no_bf m).
Proof.
  apply equal_mutind; intros; auto.
  - cbn [no_bf] in *. intuition.
  - cbn [no_bf] in *. intuition.
  - apply no_bf_call. apply no_bf_call in H1. auto.
  - inversion H3; subst. constructor; auto.
Qed.

(** Symmetric and transitive, always; reflexive exactly on expressions without
    a NaN literal. *)
Theorem C38_eq_symmetric : forall a b, no_binary_factorial a -> no_binary_factorial b ->
  el_eq a b = el_eq b a.
Proof.
  intros a b Ha Hb. apply no_bf_iff in Ha. apply no_bf_iff in Hb.
  destruct (el_eq_val a b Ha) as [c Hc]. destruct (el_eq_val b a Hb) as [d Hd].
  pose proof (el_eq_equal a b Ha) as H1. pose proof (el_eq_equal b a Hb) as H2.
  rewrite Hc, Hd in *. f_equal. destruct c, d; auto.
  - assert (Val false = Val true) by (apply H2, equal_sym, H1; auto). congruence.
  - assert (Val false = Val true) by (apply H1, equal_sym, H2; auto). congruence.
Qed.

Theorem C38_eq_transitive : forall a b c, no_binary_factorial a ->
  el_eq a b = Val true -> el_eq b c = Val true -> el_eq a c = Val true.
Proof.
  intros a b c Ha H1 H2. apply no_bf_iff in Ha.
  apply (el_eq_equal a b Ha) in H1.
  apply (el_eq_equal b c (proj1 equal_no_bf _ _ H1 Ha)) in H2.
  apply (el_eq_equal a c Ha). eapply equal_trans; eauto.
Qed.

Theorem C38_eq_reflexive_iff : forall a, no_binary_factorial a ->
  (el_eq a a = Val true <-> forall n, sub (Number n) a -> is_nan n = false).
Proof.
  intros a Ha. apply no_bf_iff in Ha. rewrite (el_eq_equal a a Ha). split.
  - intro H. assert (Hg : (forall a b, equal_exprs a b -> forall n, sub (Number n) a -> is_nan n = false) /\
      (forall l m, equal_lists l m -> forall x n, In x l -> sub (Number n) x -> is_nan n = false)).
    { apply equal_mutind.
      - intros x y Hf n Hs. inversion Hs; subst. apply feq_cases in Hf.
        destruct Hf as [[_ Hf]|[[s ->] _]]; auto.
      - intros x n Hs. inversion Hs.
      - intros op x y _ IH n Hs. inversion Hs; subst; eauto.
      - intros op l r l' r' _ _ IH1 _ IH2 n Hs. inversion Hs; subst; eauto.
      - intros op l r l' r' _ _ IH1 _ IH2 n Hs. inversion Hs; subst; eauto.
      - intros f args args' _ IH n Hs. inversion Hs; subst; eauto.
      - intros x n [].
      - intros x y l m _ IH1 _ IH2 z n [<-|Hi] Hs; eauto. }
    intros n Hn. eapply (proj1 Hg); eauto.
  - intro H. induction a using element_ind'.
    + constructor. rewrite feq_refl. unfold fis_nan. rewrite H; auto using sub_refl.
    + destruct Ha as [Ho [Hl Hr]]. apply EQ_bin; auto.
      * apply IHa1; auto. intros n Hn. apply H. eauto using sub.
      * apply IHa2; auto. intros n Hn. apply H. eauto using sub.
    + constructor. apply IHa; auto. intros n Hn. apply H. eauto using sub.
    + constructor. apply no_bf_call in Ha. rewrite Forall_forall in Ha.
      assert (Hs : forall a, In a args -> forall n, sub (Number n) a -> is_nan n = false)
        by (intros a Hi n Hn; apply H; eauto using sub).
      clear H. induction H0; constructor.
      * apply H; [apply Ha; now left|apply Hs; now left].
      * apply IHForall; [intros; apply Ha; now right|intros; eapply Hs; eauto; now right].
    + constructor.
Qed.

(** Operand order of + and * does not matter. *)
Theorem C38_commutative : forall op a b, op = Plus \/ op = Times ->
  no_binary_factorial a -> no_binary_factorial b ->
  (forall n, sub (Number n) a \/ sub (Number n) b -> is_nan n = false) ->
  el_eq (BinOp op a b) (BinOp op b a) = Val true.
Proof.
  intros op a b Hop Ha Hb Hn.
  assert (Hra := proj2 (C38_eq_reflexive_iff a Ha)). assert (Hrb := proj2 (C38_eq_reflexive_iff b Hb)).
  apply no_bf_iff in Ha. apply no_bf_iff in Hb. apply el_eq_equal.
  - cbn [no_bf]. destruct Hop; subst; repeat split; auto; discriminate.
  - apply EQ_swap; auto.
    + apply el_eq_equal; auto.
    + apply el_eq_equal; auto.
Qed.

(** [==] on two parsed expressions: the variable sets never matter. *)
Lemma equal_free : (forall a b, equal_exprs a b -> forall y, free y a -> free y b) /\
  (forall l m, equal_lists l m -> forall y, Exists (free y) l -> Exists (free y) m).
Proof.
  apply equal_mutind; intros; auto.
  - cbn [free] in *. auto.
  - cbn [free] in *. destruct H4; auto.
  - cbn [free] in *. destruct H4; auto.
  - apply free_call. apply free_call in H1. auto.
  - apply Exists_cons in H3. apply Exists_cons. destruct H3; auto.
Qed.

Lemma set_eqb_spec : forall s t, NoDup s -> NoDup t ->
  (set_eqb s t = true <-> forall x, In x s <-> In x t).
Proof.
  intros s t Hs Ht. unfold set_eqb. rewrite andb_true_iff, Nat.eqb_eq, forallb_forall. split.
  - intros [Hl Hi] x. split; [intro H; apply mem_In; auto|].
    apply (NoDup_length_incl Hs); [lia|]. intros y Hy. apply mem_In. auto.
  - intro H. split.
    + apply Nat.le_antisymm; apply NoDup_incl_length; auto; intros x Hx; now apply H.
    + intros x Hx. apply mem_In, H, Hx.
Qed.

Theorem C38_parsed_eq_is_tree_eq : forall cfg w ctx ctx' s t x y,
  parse cfg w ctx s = Parse_ok x -> parse cfg w ctx' t = Parse_ok y ->
  no_binary_factorial (root x) ->
  (xprs_eq x y = Val true <-> equal_exprs (root x) (root y)).
Proof.
  intros cfg w ctx ctx' s t x y Hx Hy Hn. apply no_bf_iff in Hn. unfold xprs_eq.
  rewrite and_true, (el_eq_equal _ _ Hn). split; [tauto|]. intro He. split; auto. f_equal.
  destruct (C17_vars_exact _ _ _ _ _ Hx) as [N1 V1]. destruct (C17_vars_exact _ _ _ _ _ Hy) as [N2 V2].
  apply set_eqb_spec; auto. intro v. rewrite V1, V2, <- !free_iff. split.
  - apply equal_free; auto.
  - apply equal_free. now apply equal_sym.
Qed.

(** Comparing trees with a binary factorial ("x!!y") panics. *)
Theorem C38_double_bang_eq_panics : exists x,
  parse plain_config w0 ctx_default "x!!y" = Parse_ok x /\ el_eq (root x) (root x) = Boom Unreachable.
Proof.
  destruct (parses_to (parse plain_config w0 ctx_default "x!!y")
    (BinOp Factorial (UnOp Factorial (Var "x")) (Var "y"))) as [x [Hp Hr]]; [vm_compute; reflexivity|].
  exists x. split; auto. rewrite Hr. reflexivity.
Qed.

Lemma C38_witness_trees : exists x y, parse plain_config w0 ctx_default "2x + max(y, 3)" = Parse_ok x /\
  parse plain_config w0 ctx_default "max(y,3)+x*2" = Parse_ok y /\
  root x = BinOp Plus (BinOp Times (Number (lit "2")) (Var "x"))
       (Call (builtin_function B_MAX) [Var "y"; Number (lit "3")]) /\
  root y = BinOp Plus (Call (builtin_function B_MAX) [Var "y"; Number (lit "3")])
       (BinOp Times (Var "x") (Number (lit "2"))) /\
  no_binary_factorial (root x) /\ xprs_eq x y = Val true.
Proof.
  assert (H1 := parses_to (parse plain_config w0 ctx_default "2x + max(y, 3)")
    (BinOp Plus (BinOp Times (Number (lit "2")) (Var "x"))
       (Call (builtin_function B_MAX) [Var "y"; Number (lit "3")]))).
  assert (H2 := parses_to (parse plain_config w0 ctx_default "max(y,3)+x*2")
    (BinOp Plus (Call (builtin_function B_MAX) [Var "y"; Number (lit "3")])
       (BinOp Times (Var "x") (Number (lit "2"))))).
  destruct H1 as [x [Hx Rx]]; [vm_compute; reflexivity|].
  destruct H2 as [y [Hy Ry]]; [vm_compute; reflexivity|].
  exists x, y. split; [exact Hx|]. split; [exact Hy|]. split; [exact Rx|]. split; [exact Ry|].
  assert (Hn : no_bf (root x)) by (rewrite Rx; cbn [no_bf]; repeat split; discriminate).
  split; [now apply no_bf_iff|]. apply (C38_parsed_eq_is_tree_eq _ _ _ _ _ _ _ _ Hx Hy); [now apply no_bf_iff|].
  rewrite Rx, Ry. assert (R : forall n, fis_nan n = false -> feq n n = true) by (intros n Hf; rewrite feq_refl, Hf; reflexivity).
  apply EQ_swap; auto.
  - apply EQ_swap; auto; constructor. apply R. reflexivity.
  - repeat constructor; apply R; reflexivity.
Qed.

Example C38_witness : exists x y, parse plain_config w0 ctx_default "2x + max(y, 3)" = Parse_ok x /\
  parse plain_config w0 ctx_default "max(y,3)+x*2" = Parse_ok y /\ no_binary_factorial (root x) /\
  xprs_eq x y = Val true.
Proof.
  destruct C38_witness_trees as [x [y [Hx [Hy [_ [_ [Hn He]]]]]]].
  exists x, y. split; [exact Hx|]. split; [exact Hy|]. split; [exact Hn|]. exact He.
Qed.

(** ** C39 *)
Lemma fadd_comm : forall a b, fadd a b = fadd b a.
Proof.
  intros a b. unfold fadd. destruct a as [s|s| |s m e B], b as [t|t| |t m' e' B']; try reflexivity.
  - destruct s, t; reflexivity.
  - destruct s, t; reflexivity.
  - cbn [Bplus]. cbv zeta. unfold Fplus_naive. rewrite (Z.min_comm e' e), (Z.add_comm (cond_Zopp t _)). reflexivity.
Qed.
Lemma fmul_comm : forall a b, fmul a b = fmul b a.
Proof.
  intros a b. unfold fmul. destruct a as [s|s| |s m e B], b as [t|t| |t m' e' B'];
    try reflexivity; try (cbn; rewrite xorb_comm; reflexivity).
  apply B2SF_inj. cbn [Bmult]. rewrite !B2SF_SF2B. now rewrite (xorb_comm t s), (Pos.mul_comm m' m), (Z.add_comm e' e).
Qed.

(** Equal as f64, or both NaN. *)
Definition same_value (x y : f64) : Prop := feq x y = true \/ (is_nan x = true /\ is_nan y = true).

Lemma same_value_iff : forall x y, same_value x y <-> x = y \/ (is_zero x /\ is_zero y).
Proof.
  intros x y. unfold same_value. rewrite feq_cases. split.
  - intros [[[-> _]|H]|[H1 H2]]; auto. destruct x, y; try discriminate. auto.
  - intros [->|H]; auto. destruct (is_nan y) eqn:E; auto.
Qed.

Lemma same_value_refl : forall x, same_value x x.
Proof. intro x. apply same_value_iff. auto. Qed.

Lemma fadd_same : forall a b a' b', same_value a a' -> same_value b b' -> same_value (fadd a b) (fadd a' b').
Proof.
  intros a b a' b' Ha Hb. apply same_value_iff in Ha, Hb. apply same_value_iff.
  destruct Ha as [->|[[s ->] [s' ->]]], Hb as [->|[[t ->] [t' ->]]]; auto.
  - destruct a' as [u|u| |u m e B]; auto. right. split; destruct u, t, t'; cbn; eexists; reflexivity.
  - destruct b' as [u|u| |u m e B]; auto. right. split; destruct u, s, s'; cbn; eexists; reflexivity.
  - right. split; destruct s, s', t, t'; cbn; eexists; reflexivity.
Qed.

Lemma fneg_same : forall a a', same_value a a' -> same_value (fneg a) (fneg a').
Proof.
  intros a a' H. apply same_value_iff in H. apply same_value_iff.
  destruct H as [->|[[s ->] [s' ->]]]; auto. right. split; eexists; reflexivity.
Qed.

Lemma fsub_same : forall a b a' b', same_value a a' -> same_value b b' -> same_value (fsub a b) (fsub a' b').
Proof.
  assert (E : forall a b, fsub a b = fadd a (fneg b)) by (intros a b; unfold fsub, fadd, fneg; destruct a, b; reflexivity).
  intros a b a' b' Ha Hb. rewrite !E. apply fadd_same; auto. now apply fneg_same.
Qed.

Lemma fmul_same : forall a b a' b', same_value a a' -> same_value b b' -> same_value (fmul a b) (fmul a' b').
Proof.
  intros a b a' b' Ha Hb. apply same_value_iff in Ha, Hb. apply same_value_iff.
  destruct Ha as [->|[[s ->] [s' ->]]], Hb as [->|[[t ->] [t' ->]]]; auto.
  - destruct a' as [u|u| |u m e B]; auto; right; split; eexists; reflexivity.
  - destruct b' as [u|u| |u m e B]; auto; right; split; eexists; reflexivity.
  - right. split; eexists; reflexivity.
Qed.

Lemma frem_same : forall a b a' b', same_value a a' -> same_value b b' -> same_value (frem a b) (frem a' b').
Proof.
  intros a b a' b' Ha Hb. apply same_value_iff in Ha, Hb. apply same_value_iff.
  destruct Ha as [->|[[s ->] [s' ->]]], Hb as [->|[[t ->] [t' ->]]]; auto.
  destruct b'; auto; right; split; eexists; reflexivity.
Qed.

Lemma fdiv_same : forall a b a' b', same_value a a' -> b = b' -> same_value (fdiv a b) (fdiv a' b').
Proof.
  intros a b a' b' Ha <-. apply same_value_iff in Ha. apply same_value_iff.
  destruct Ha as [->|[[s ->] [s' ->]]]; auto.
  destruct b as [u|u| |u m e B]; auto; right; split; eexists; reflexivity.
Qed.

Lemma factorial_same : forall a a', same_value a a' -> same_value (factorial a) (factorial a').
Proof.
  intros a a' H. apply same_value_iff in H. apply same_value_iff.
  destruct H as [->|[[s ->] [s' ->]]]; auto. left. apply same_f64_eq. destruct s, s'; vm_compute; reflexivity.
Qed.

(** The sign of a zero is observable only through a divisor, an operand of ^ or
    an argument of a call; here none of those has the value zero. *)
Definition zero_sign_unobservable (w : world) (rho : string -> option f64) (e : element) : Prop :=
  (forall l r v, sub (BinOp Divide l r) e -> means w rho r v -> ~ is_zero v) /\
  (forall l r v, sub (BinOp Power l r) e -> means w rho l v \/ means w rho r v -> ~ is_zero v) /\
  (forall f args a v, sub (Call f args) e -> In a args -> means w rho a v -> ~ is_zero v).

Lemma zsu_sub : forall w rho e a, (forall b, sub b a -> sub b e) ->
  zero_sign_unobservable w rho e -> zero_sign_unobservable w rho a.
Proof. intros w rho e a H [H1 [H2 H3]]. repeat split; intros; eauto. Qed.

Lemma same_nonzero : forall x y, same_value x y -> ~ is_zero x -> x = y.
Proof. intros x y H Hn. apply same_value_iff in H. destruct H as [H|[H _]]; auto. now elim Hn. Qed.

Lemma equal_means : forall w rho,
  (forall a b, equal_exprs a b -> zero_sign_unobservable w rho a ->
     forall v, means w rho a v -> exists v', means w rho b v' /\ same_value v v') /\
  (forall l m, equal_lists l m -> (forall a, In a l -> zero_sign_unobservable w rho a) ->
     (forall a v, In a l -> means w rho a v -> ~ is_zero v) ->
     forall vs, means_all w rho l vs -> means_all w rho m vs).
Proof.
  intros w rho. apply equal_mutind.
  - intros x y H _ v Hv. inversion Hv; subst. exists y. split; [constructor|]. now left.
  - intros x _ v Hv. exists v. split; auto. apply same_value_refl.
  - intros op a b _ IH Hz v Hv.
    assert (Hz' : zero_sign_unobservable w rho a) by (eapply zsu_sub; [|exact Hz]; eauto using sub).
    inversion Hv; subst; destruct (IH Hz' _ ltac:(eassumption)) as [v' [Hm Hs]].
    + eexists; split; [econstructor; eauto|]. auto.
    + eexists; split; [econstructor; eauto|]. now apply fneg_same.
    + eexists; split; [econstructor; eauto|]. now apply factorial_same.
  - intros op l r l' r' Hop _ IHl _ IHr Hz v Hv.
    assert (Hzl : zero_sign_unobservable w rho l) by (eapply zsu_sub; [|exact Hz]; eauto using sub).
    assert (Hzr : zero_sign_unobservable w rho r) by (eapply zsu_sub; [|exact Hz]; eauto using sub).
    destruct Hz as [Hd [Hp _]].
    inversion Hv; subst;
      match goal with H1 : means w rho l ?a, H2 : means w rho r ?b |- _ =>
        destruct (IHl Hzl _ H1) as [a' [Ma Sa]]; destruct (IHr Hzr _ H2) as [b' [Mb Sb]];
        pose proof (fun H => Hd l r b H H2) as Nd; pose proof (fun H => Hp l r a H (or_introl H1)) as Np1;
        pose proof (fun H => Hp l r b H (or_intror H2)) as Np2 end;
      eexists; (split; [econstructor; eauto|]).
    + now apply fadd_same.
    + now apply fsub_same.
    + now apply fmul_same.
    + apply fdiv_same; auto. apply same_nonzero; auto. apply Nd. constructor.
    + rewrite (same_nonzero _ _ Sa), (same_nonzero _ _ Sb); [apply same_value_refl|apply Np2|apply Np1]; constructor.
    + now apply frem_same.
  - intros op l r l' r' Hop _ IHl _ IHr Hz v Hv.
    assert (Hzl : zero_sign_unobservable w rho l) by (eapply zsu_sub; [|exact Hz]; eauto using sub).
    assert (Hzr : zero_sign_unobservable w rho r) by (eapply zsu_sub; [|exact Hz]; eauto using sub).
    destruct Hop as [-> | ->]; inversion Hv; subst;
      match goal with H1 : means w rho l ?a, H2 : means w rho r ?b |- _ =>
        destruct (IHl Hzl _ H1) as [a' [Ma Sa]]; destruct (IHr Hzr _ H2) as [b' [Mb Sb]] end;
      eexists; (split; [econstructor; eauto|]).
    + rewrite (fadd_comm b' a'). now apply fadd_same.
    + rewrite (fmul_comm b' a'). now apply fmul_same.
  - intros f args args' _ IH Hz v Hv. inversion Hv; subst. exists v. split; [|apply same_value_refl].
    econstructor; eauto. apply IH; auto.
    + intros a Ha. eapply zsu_sub; [|exact Hz]. intros b Hb. eapply sub_arg; eauto.
    + intros a u Ha Hu. destruct Hz as [_ [_ Hz]]. eapply Hz; eauto. constructor.
  - auto.
  - intros a b l m _ IHa _ IHl Hz Hn vs Hvs. inversion Hvs; subst.
    destruct (IHa (Hz a (or_introl eq_refl)) _ ltac:(eassumption)) as [v' [Hm Hs]].
    assert (v = v') by (apply same_nonzero; [auto|eapply Hn; [now left|eauto]]). subst v'.
    constructor; auto. apply IHl; auto.
    + intros; apply Hz; now right.
    + intros; eapply Hn; eauto. now right.
Qed.

(** Equal expressions evaluate to the same value, wherever zero signs cannot be
    observed. *)
Theorem C39_equal_expressions_evaluate_equally : forall w x y rho v,
  no_binary_factorial (root x) -> xprs_eq x y = Val true ->
  zero_sign_unobservable w (lookup rho) (root x) ->
  eval w x rho = Val (Eval_ok v) ->
  exists v', eval w y rho = Val (Eval_ok v') /\ same_value v v'.
Proof.
  intros w x y rho v Hn He Hz Hv. apply no_bf_iff in Hn. unfold xprs_eq in He. apply and_true in He.
  destruct He as [He _]. apply (el_eq_equal _ _ Hn) in He. apply C21_eval_is_meaning in Hv.
  destruct (proj1 (equal_means w (lookup rho)) _ _ He Hz _ Hv) as [v' [Hm Hs]].
  exists v'. split; auto. now apply C21_eval_is_meaning.
Qed.

(** When no literal is a negative zero, the results are identical. *)
Definition no_negative_zero (e : element) : Prop := forall n, sub (Number n) e -> n <> B754_zero true.

Lemma nnz_sub : forall e a, (forall b, sub b a -> sub b e) -> no_negative_zero e -> no_negative_zero a.
Proof. intros e a H Hn n Hs. apply Hn. auto. Qed.

Lemma equal_means_exact : forall w rho,
  (forall a b, equal_exprs a b -> no_negative_zero a -> no_negative_zero b ->
     forall v, means w rho a v -> means w rho b v) /\
  (forall l m, equal_lists l m -> (forall a, In a l -> no_negative_zero a) ->
     (forall a, In a m -> no_negative_zero a) ->
     forall vs, means_all w rho l vs -> means_all w rho m vs).
Proof.
  intros w rho. apply equal_mutind.
  - intros x y H Hx Hy v Hv. inversion Hv; subst. apply feq_cases in H.
    assert (x' : v = y); [|subst; constructor].
    destruct H as [[H _]|[[s ->] [t ->]]]; auto.
    destruct s; [elim (Hx (B754_zero true)); constructor|].
    destruct t; [elim (Hy (B754_zero true)); constructor|]. reflexivity.
  - auto.
  - intros op a b _ IH Ha Hb v Hv.
    assert (Ha' : no_negative_zero a) by (eapply nnz_sub; [|exact Ha]; eauto using sub).
    assert (Hb' : no_negative_zero b) by (eapply nnz_sub; [|exact Hb]; eauto using sub).
    inversion Hv; subst; constructor; auto.
  - intros op l r l' r' Hop _ IHl _ IHr Ha Hb v Hv.
    assert (no_negative_zero l) by (eapply nnz_sub; [|exact Ha]; eauto using sub).
    assert (no_negative_zero r) by (eapply nnz_sub; [|exact Ha]; eauto using sub).
    assert (no_negative_zero l') by (eapply nnz_sub; [|exact Hb]; eauto using sub).
    assert (no_negative_zero r') by (eapply nnz_sub; [|exact Hb]; eauto using sub).
    inversion Hv; subst; constructor; auto.
  - intros op l r l' r' Hop _ IHl _ IHr Ha Hb v Hv.
    assert (no_negative_zero l) by (eapply nnz_sub; [|exact Ha]; eauto using sub).
    assert (no_negative_zero r) by (eapply nnz_sub; [|exact Ha]; eauto using sub).
    assert (no_negative_zero l') by (eapply nnz_sub; [|exact Hb]; eauto using sub).
    assert (no_negative_zero r') by (eapply nnz_sub; [|exact Hb]; eauto using sub).
    destruct Hop as [-> | ->]; inversion Hv; subst.
    + rewrite fadd_comm. constructor; auto.
    + rewrite fmul_comm. constructor; auto.
  - intros f args args' _ IH Ha Hb v Hv. inversion Hv; subst. econstructor; eauto. apply IH; auto.
    + intros a Hi. eapply nnz_sub; [|exact Ha]. eauto using sub.
    + intros a Hi. eapply nnz_sub; [|exact Hb]. eauto using sub.
  - auto.
  - intros a b l m _ IHa _ IHl Ha Hb vs Hvs. inversion Hvs; subst. constructor.
    + apply IHa; auto; [apply Ha|apply Hb]; now left.
    + apply IHl; auto; intros; [apply Ha|apply Hb]; now right.
Qed.

Theorem C39_same_literals_same_results : forall w x y rho v,
  no_binary_factorial (root x) -> xprs_eq x y = Val true ->
  no_negative_zero (root x) -> no_negative_zero (root y) ->
  (eval w x rho = Val (Eval_ok v) <-> eval w y rho = Val (Eval_ok v)).
Proof.
  intros w x y rho v Hn He Hx Hy. apply no_bf_iff in Hn. unfold xprs_eq in He. apply and_true in He.
  destruct He as [He _]. apply (el_eq_equal _ _ Hn) in He. rewrite !C21_eval_is_meaning. split.
  - now apply equal_means_exact.
  - apply equal_means_exact; auto. now apply equal_sym.
Qed.

Fixpoint sub_list (a e : element) : Prop :=
  a = e \/
  match e with
  | BinOp _ l r => sub_list a l \/ sub_list a r
  | UnOp _ b => sub_list a b
  | Call _ args => fold_right (fun b p => sub_list a b \/ p) False args
  | _ => False
  end.
Lemma sub_cases : forall a e, sub a e -> sub_list a e.
Proof.
  induction 1; try (destruct a; simpl; auto; fail); try (simpl; auto; fail).
  cbn [sub_list]. right. induction args as [|c args IH]; destruct H.
  - subst. left. auto.
  - right. auto.
Qed.

(** Without those hypotheses the claim fails: 0 == -0, but 1/0 and 1/-0 are
    opposite infinities. *)
Theorem C39_zero_sign_observable : exists x y,
  parse plain_config w0 (with_var ctx_default "z" fzero) "1/z" = Parse_ok x /\
  parse plain_config w0 (with_var ctx_default "z" fnzero) "1/z" = Parse_ok y /\
  xprs_eq x y = Val true /\
  eval w0 x [] = Val (Eval_ok finf) /\ eval w0 y [] = Val (Eval_ok (fneg finf)).
Proof.
  assert (H1 := parses_to (parse plain_config w0 (with_var ctx_default "z" fzero) "1/z")
    (BinOp Divide (Number (lit "1")) (Number fzero))).
  assert (H2 := parses_to (parse plain_config w0 (with_var ctx_default "z" fnzero) "1/z")
    (BinOp Divide (Number (lit "1")) (Number fnzero))).
  destruct H1 as [x [Hx Rx]]; [vm_compute; reflexivity|].
  destruct H2 as [y [Hy Ry]]; [vm_compute; reflexivity|].
  exists x, y. split; [exact Hx|]. split; [exact Hy|].
  assert (Hn : no_bf (root x)) by (rewrite Rx; cbn [no_bf]; repeat split; discriminate).
  split; [|split].
  - apply (C38_parsed_eq_is_tree_eq _ _ _ _ _ _ _ _ Hx Hy); [now apply no_bf_iff|].
    rewrite Rx, Ry. apply EQ_bin; [discriminate| |]; constructor; reflexivity.
  - unfold eval. rewrite Rx. vm_compute. reflexivity.
  - unfold eval. rewrite Ry. vm_compute. reflexivity.
Qed.

Example C39_witness : exists x y, parse plain_config w0 ctx_default "2x + max(y, 3)" = Parse_ok x /\
  parse plain_config w0 ctx_default "max(y,3)+x*2" = Parse_ok y /\ no_binary_factorial (root x) /\
  xprs_eq x y = Val true /\ no_negative_zero (root x) /\ no_negative_zero (root y) /\
  zero_sign_unobservable w0 (lookup [("x", fzero); ("y", fone)]) (root x).
Proof.
  destruct C38_witness_trees as [x [y [Hx [Hy [Rx [Ry [Hn He]]]]]]].
  exists x, y. split; [exact Hx|]. split; [exact Hy|]. split; [exact Hn|]. split; [exact He|].
  rewrite Rx, Ry. clear.
  assert (Z2 : lit "2" <> B754_zero true) by (intro H; assert (E : same_f64 (lit "2") (B754_zero true) = true) by (rewrite H; reflexivity); vm_compute in E; discriminate E).
  assert (Z3 : lit "3" <> B754_zero true) by (intro H; assert (E : same_f64 (lit "3") (B754_zero true) = true) by (rewrite H; reflexivity); vm_compute in E; discriminate E).
  assert (Z3' : ~ is_zero (lit "3")) by (intros [s H]; assert (E : same_f64 (lit "3") (B754_zero s) = true) by (rewrite H; destruct s; reflexivity); vm_compute in E; discriminate E).
  generalize dependent (lit "2"). generalize dependent (lit "3"). intros n3 N3 N3' n2 N2.
  split; [|split; [|split; [|split]]].
  - intros n Hs. apply sub_cases in Hs. cbn in Hs. decompose [or] Hs; try contradiction; try discriminate;
      match goal with H : Number _ = Number _ |- _ => injection H as ->; auto end.
  - intros n Hs. apply sub_cases in Hs. cbn in Hs. decompose [or] Hs; try contradiction; try discriminate;
      match goal with H : Number _ = Number _ |- _ => injection H as ->; auto end.
  - intros l r v Hs. apply sub_cases in Hs. cbn in Hs. decompose [or] Hs; try contradiction; discriminate.
  - intros l r v Hs. apply sub_cases in Hs. cbn in Hs. decompose [or] Hs; try contradiction; discriminate.
  - intros f args a v Hs Hi Hm. apply sub_cases in Hs. cbn in Hs.
    decompose [or] Hs; try contradiction; try discriminate.
    match goal with H : Call _ _ = Call _ _ |- _ => injection H as -> -> end.
    destruct Hi as [<-|[<-|[]]]; inversion Hm; subst; auto.
    match goal with H : lookup _ _ = Some _ |- _ => cbn in H; injection H as <- end.
    intros [s E]; discriminate E.
Qed.

(** ** C40 *)
(** A comparison that composes: chaining two answers gives the third. *)
Definition chains (r1 r2 r3 : option comparison) : Prop :=
  match r1, r2 with
  | Some Eq, Some o => r3 = Some o
  | Some o, Some Eq => r3 = Some o
  | Some Lt, Some Lt => r3 = Some Lt
  | Some Gt, Some Gt => r3 = Some Gt
  | _, _ => True
  end.

Lemma chains_then : forall a1 a2 b1 b2 c1 c2, chains a1 b1 c1 -> chains a2 b2 c2 ->
  chains (then_cmp a1 a2) (then_cmp b1 b2) (then_cmp c1 c2).
Proof.
  intros a1 a2 b1 b2 c1 c2. destruct a1 as [[]|], b1 as [[]|]; cbn; intros H1 H2; subst; cbn; auto;
    try (destruct a2 as [[]|]; cbn; auto; fail); try (destruct b2 as [[]|]; cbn; auto; fail).
Qed.

Lemma chains_nat : forall a b c,
  chains (Some (Nat.compare a b)) (Some (Nat.compare b c)) (Some (Nat.compare a c)).
Proof.
  intros a b c. destruct (Nat.compare_spec a b), (Nat.compare_spec b c); cbn; auto; f_equal; subst;
    try apply Nat.compare_refl; try (apply Nat.compare_lt_iff; lia); try (apply Nat.compare_gt_iff; lia).
Qed.

Lemma ascii_compare_spec : forall a b, Ascii.compare a b = N.compare (N_of_ascii a) (N_of_ascii b).
Proof. reflexivity. Qed.

Lemma chains_string : forall a b c,
  chains (Some (String.compare a b)) (Some (String.compare b c)) (Some (String.compare a c)).
Proof.
  induction a as [|x a IH]; intros [|y b] [|z c]; cbn -[Ascii.compare]; auto.
  - destruct (match Ascii.compare y z with Eq => _ | o => o end); cbn; auto.
  - destruct (match Ascii.compare x y with Eq => _ | o => o end); cbn; auto.
  - specialize (IH b c). rewrite !ascii_compare_spec.
    destruct (N.compare_spec (N_of_ascii x) (N_of_ascii y)) as [E1|E1|E1],
             (N.compare_spec (N_of_ascii y) (N_of_ascii z)) as [E2|E2|E2]; cbn.
    + rewrite E1, E2, N.compare_refl. exact IH.
    + rewrite E1. rewrite (proj2 (N.compare_lt_iff _ _) E2). destruct (String.compare a b); cbn; auto.
    + rewrite E1. rewrite (proj2 (N.compare_gt_iff _ _) E2). destruct (String.compare a b); cbn; auto.
    + rewrite <- E2. rewrite (proj2 (N.compare_lt_iff _ _) E1). destruct (String.compare b c); cbn; auto.
    + rewrite (proj2 (N.compare_lt_iff (N_of_ascii x) (N_of_ascii z)) ltac:(lia)). auto.
    + auto.
    + rewrite <- E2. rewrite (proj2 (N.compare_gt_iff _ _) E1). destruct (String.compare b c); cbn; auto.
    + auto.
    + rewrite (proj2 (N.compare_gt_iff (N_of_ascii x) (N_of_ascii z)) ltac:(lia)). auto.
Qed.

(** f64 comparison *)
Lemma fcmp_cases : forall x y, fcmp x y = None \/ exists o, fcmp x y = Some o /\ is_nan x = false /\ is_nan y = false.
Proof. intros x y. unfold fcmp. destruct x, y; cbn; eauto; right; eexists; split; eauto. Qed.

Lemma fcmp_toR : forall x y, is_nan x = false -> is_nan y = false ->
  fcmp x y = Some (Rcompare (toR x) (toR y)).
Proof.
  intros x y Hx Hy. unfold fcmp.
  assert (Hb : forall z : f64, (- bpow radix2 emax64 < B2R z < bpow radix2 emax64)%R).
  { intro z. apply Rabs_lt_inv. apply finite_bound. }
  assert (Hpos : (0 < bpow radix2 emax64)%R) by apply bpow_gt_0.
  destruct (is_finite x) eqn:Fx, (is_finite y) eqn:Fy.
  - rewrite Bcompare_correct by auto. f_equal. f_equal; [destruct x|destruct y]; try discriminate; reflexivity.
  - destruct y as [|s| |]; try discriminate.
    assert (toR x = B2R x) as -> by (destruct x; try discriminate; reflexivity).
    pose proof (Hb x). destruct s; cbn [toR].
    + rewrite Rcompare_Gt by lra. destruct x as [| | |[]]; try discriminate; reflexivity.
    + rewrite Rcompare_Lt by lra. destruct x as [| | |[]]; try discriminate; reflexivity.
  - destruct x as [|s| |]; try discriminate.
    assert (toR y = B2R y) as -> by (destruct y; try discriminate; reflexivity).
    pose proof (Hb y). destruct s; cbn [toR].
    + rewrite Rcompare_Lt by lra. destruct y as [| | |[]]; try discriminate; reflexivity.
    + rewrite Rcompare_Gt by lra. destruct y as [| | |[]]; try discriminate; reflexivity.
  - destruct x as [|s| |]; try discriminate. destruct y as [|t| |]; try discriminate.
    destruct s, t; cbn [toR].
    + rewrite Rcompare_Eq; reflexivity.
    + rewrite Rcompare_Lt; [reflexivity|lra].
    + rewrite Rcompare_Gt; [reflexivity|lra].
    + rewrite Rcompare_Eq; reflexivity.
Qed.

Lemma fcmp_rev : forall x y, fcmp y x = option_map CompOpp (fcmp x y).
Proof.
  intros x y. destruct (fcmp_cases x y) as [E|[o [_ [Hx Hy]]]].
  - rewrite E. unfold fcmp in *. destruct x, y; cbn in *; try discriminate; reflexivity.
  - rewrite !fcmp_toR by auto. cbn. f_equal. apply Rcompare_sym.
Qed.

Lemma chains_R : forall a b c, chains (Some (Rcompare a b)) (Some (Rcompare b c)) (Some (Rcompare a c)).
Proof.
  intros a b c. destruct (Rcompare_spec a b), (Rcompare_spec b c); cbn; auto; f_equal; subst;
    try (apply Rcompare_Lt; lra); try (apply Rcompare_Gt; lra); try (apply Rcompare_Eq; lra).
Qed.

Lemma chains_f64 : forall x y z, chains (fcmp x y) (fcmp y z) (fcmp x z).
Proof.
  intros x y z. destruct (fcmp_cases x y) as [E|[o [_ [Hx Hy]]]]; [rewrite E; exact I|].
  destruct (fcmp_cases y z) as [E|[o' [_ [_ Hz]]]].
  - rewrite E. destruct (fcmp x y) as [[]|]; exact I.
  - rewrite !fcmp_toR by auto. apply chains_R.
Qed.

Fixpoint el_cmp_list (l m : list element) : option comparison :=
  match l, m with
  | [], [] => Some Eq
  | [], _ :: _ => Some Lt
  | _ :: _, [] => Some Gt
  | a :: l', b :: m' => then_cmp (el_cmp a b) (el_cmp_list l' m')
  end.

Lemma el_cmp_call : forall f args g args', el_cmp (Call f args) (Call g args') =
  then_cmp (Some (String.compare (fn_name f) (fn_name g))) (el_cmp_list args args').
Proof.
  intros. reflexivity.
Qed.

Lemma then_rev : forall a b a' b', a' = option_map CompOpp a -> b' = option_map CompOpp b ->
  then_cmp a' b' = option_map CompOpp (then_cmp a b).
Proof. intros [[]|] b a' b' -> ->; reflexivity. Qed.

(** The two directions of the comparison agree. *)
Theorem C40_cmp_reverses : forall a b, el_cmp b a = option_map CompOpp (el_cmp a b).
Proof.
  assert (Hnat : forall x y, Some (Nat.compare y x) = option_map CompOpp (Some (Nat.compare x y)))
    by (intros; cbn; f_equal; apply Nat.compare_antisym).
  assert (Hstr : forall x y, Some (String.compare y x) = option_map CompOpp (Some (String.compare x y)))
    by (intros; cbn; f_equal; apply String.compare_antisym).
  induction a using element_ind'; intros b; destruct b; try reflexivity.
  - apply fcmp_rev.
  - cbn [el_cmp]. apply then_rev; auto. apply then_rev; auto.
  - cbn [el_cmp]. apply then_rev; auto.
  - rewrite !el_cmp_call. apply then_rev; auto. revert args0.
    induction H; intros [|b m]; auto. cbn [el_cmp_list]. apply then_rev; auto.
  - apply Hstr.
Qed.

Lemma el_cmp_tagged : forall a b, element_index a <> element_index b ->
  el_cmp a b = Some (Nat.compare (element_index a) (element_index b)).
Proof. intros a b H. destruct a, b; cbn in *; try congruence; reflexivity. Qed.

Lemma chains_mixed : forall a b c,
  element_index a <> element_index b \/ element_index b <> element_index c ->
  chains (el_cmp a b) (el_cmp b c) (el_cmp a c).
Proof.
  intros a b c H.
  assert (Hone : forall o o' : comparison, o = o' -> o <> Eq -> forall r, chains r (Some o) (Some o')).
  { intros o o' <- Ho [[]|]; destruct o; cbn; auto; congruence. }
  assert (Htwo : forall o o' : comparison, o = o' -> o <> Eq -> forall r, chains (Some o) r (Some o')).
  { intros o o' <- Ho [[]|]; destruct o; cbn; auto; congruence. }
  destruct (Nat.eq_dec (element_index a) (element_index b)) as [E1|E1].
  - destruct H as [H|H]; [contradiction|]. rewrite (el_cmp_tagged b c), (el_cmp_tagged a c) by congruence.
    apply Hone; [congruence|]. rewrite Nat.compare_eq_iff. auto.
  - destruct (Nat.eq_dec (element_index b) (element_index c)) as [E2|E2].
    + rewrite (el_cmp_tagged a b), (el_cmp_tagged a c) by congruence.
      apply Htwo; [congruence|]. rewrite Nat.compare_eq_iff. auto.
    + rewrite (el_cmp_tagged a b), (el_cmp_tagged b c) by congruence.
      destruct (Nat.eq_dec (element_index a) (element_index c)) as [E3|E3].
      * rewrite E3, (Nat.compare_antisym (element_index c) (element_index b)) in *.
        destruct (Nat.compare_spec (element_index c) (element_index b)); cbn; auto. congruence.
      * rewrite (el_cmp_tagged a c) by congruence. apply chains_nat.
Qed.

(** It is a partial order up to [Equal]: the answers compose. *)
Theorem C40_cmp_transitive : forall a b c, chains (el_cmp a b) (el_cmp b c) (el_cmp a c).
Proof.
  induction a using element_ind'; intros b c;
    destruct b; try (apply chains_mixed; cbn; left; discriminate);
    destruct c; try (apply chains_mixed; cbn; right; discriminate).
  - apply chains_f64.
  - cbn [el_cmp]. apply chains_then; [apply chains_nat|]. apply chains_then; auto.
  - cbn [el_cmp]. apply chains_then; [apply chains_nat|]. auto.
  - rewrite !el_cmp_call. apply chains_then; [apply chains_string|].
    revert args0 args1. induction H; intros [|y m] [|z n]; cbn [el_cmp_list]; try exact I; try reflexivity.
    + destruct (then_cmp _ _) as [[]|]; cbn; auto.
    + destruct (then_cmp _ _) as [[]|]; cbn; auto.
    + apply chains_then; auto.
  - apply chains_string.
Qed.

(** Where it answers [Equal] on expressions without function calls, [==] holds. *)
Definition no_calls (e : element) : Prop := forall f args, ~ sub (Call f args) e.

Lemma then_eq : forall a b, then_cmp a b = Some Eq <-> a = Some Eq /\ b = Some Eq.
Proof. intros [[]|] b; cbn; split; try tauto; try discriminate; intros [H _]; discriminate. Qed.

Lemma operator_index_inj : forall o o', operator_index o = operator_index o' -> o = o'.
Proof. destruct o, o'; cbn; congruence. Qed.

Lemma string_compare_eq : forall a b, String.compare a b = Eq -> a = b.
Proof. intros a b H. now apply String.compare_eq_iff. Qed.

Theorem C40_equal_implies_eq : forall a b, no_binary_factorial a -> no_calls a ->
  el_cmp a b = Some Eq -> el_eq a b = Val true.
Proof.
  intros a b Hn Hc He. apply no_bf_iff in Hn. apply el_eq_equal; auto. revert b He.
  induction a using element_ind'; intros b He.
  - destruct b; try discriminate. constructor. unfold feq, Beqb, SpecFloat.SFeqb. cbn in He.
    unfold fcmp, Bcompare in He. now rewrite He.
  - destruct Hn as [Hop [Hl Hr]]. destruct b; try discriminate. cbn [el_cmp] in He.
    apply then_eq in He. destruct He as [Ho He]. apply then_eq in He. destruct He as [H1 H2].
    injection Ho as Ho. apply Nat.compare_eq in Ho. apply operator_index_inj in Ho. subst.
    apply EQ_bin; auto.
    + apply IHa1; auto. intros f args Hs. eapply Hc; eauto using sub.
    + apply IHa2; auto. intros f args Hs. eapply Hc; eauto using sub.
  - destruct b; try discriminate. cbn [el_cmp] in He.
    apply then_eq in He. destruct He as [Ho He].
    injection Ho as Ho. apply Nat.compare_eq in Ho. apply operator_index_inj in Ho. subst.
    constructor. apply IHa; auto. intros f args Hs. eapply Hc; eauto using sub.
  - elim (Hc f args). constructor.
  - destruct b; try discriminate. injection He as He. apply string_compare_eq in He. subst. constructor.
Qed.

(** The converse fails under + and * (operands swapped); and with functions the
    comparison looks at the name only. *)
Theorem C40_swapped_operands_inconsistent : forall op a b, op = Plus \/ op = Times ->
  no_binary_factorial a -> no_binary_factorial b ->
  (forall n, sub (Number n) a \/ sub (Number n) b -> is_nan n = false) ->
  el_cmp a b <> Some Eq ->
  el_eq (BinOp op a b) (BinOp op b a) = Val true /\
  el_cmp (BinOp op a b) (BinOp op b a) <> Some Eq.
Proof.
  intros op a b Hop Ha Hb Hn Hc. split; [now apply C38_commutative|].
  cbn [el_cmp]. rewrite then_eq. intros [_ H]. apply then_eq in H. destruct H as [H _]. contradiction.
Qed.

Theorem C40_functions_compared_by_name : exists x y,
  parse plain_config w0 (with_fn ctx_default (mk_function "f" (Static_user 0) (Some 1))) "f(x)" = Parse_ok x /\
  parse plain_config w0 (with_fn ctx_default (mk_function "f" (Static_user 2) (Some 1))) "f(x)" = Parse_ok y /\
  el_cmp (root x) (root y) = Some Eq /\ el_eq (root x) (root y) = Val false.
Proof.
  assert (H1 := parses_to (parse plain_config w0 (with_fn ctx_default (mk_function "f" (Static_user 0) (Some 1))) "f(x)")
    (Call (mk_function "f" (Static_user 0) (Some 1)) [Var "x"])).
  assert (H2 := parses_to (parse plain_config w0 (with_fn ctx_default (mk_function "f" (Static_user 2) (Some 1))) "f(x)")
    (Call (mk_function "f" (Static_user 2) (Some 1)) [Var "x"])).
  destruct H1 as [x [Hx Rx]]; [vm_compute; reflexivity|].
  destruct H2 as [y [Hy Ry]]; [vm_compute; reflexivity|].
  exists x, y. split; [exact Hx|]. split; [exact Hy|]. rewrite Rx, Ry. split; reflexivity.
Qed.

Example C40_witness : exists x y,
  parse plain_config w0 ctx_default "a+3" = Parse_ok x /\ parse plain_config w0 ctx_default "3+a" = Parse_ok y /\
  no_binary_factorial (root x) /\ no_calls (root x) /\
  el_eq (root x) (root y) = Val true /\ el_cmp (root x) (root y) = Some Gt /\
  el_cmp (root x) (root x) = Some Eq.
Proof.
  assert (H1 := parses_to (parse plain_config w0 ctx_default "a+3") (BinOp Plus (Var "a") (Number (lit "3")))).
  assert (H2 := parses_to (parse plain_config w0 ctx_default "3+a") (BinOp Plus (Number (lit "3")) (Var "a"))).
  destruct H1 as [x [Hx Rx]]; [vm_compute; reflexivity|].
  destruct H2 as [y [Hy Ry]]; [vm_compute; reflexivity|].
  exists x, y. split; [exact Hx|]. split; [exact Hy|]. rewrite Rx, Ry.
  split; [|split; [|split; [|split]]].
  - apply no_bf_iff. cbn. repeat split; discriminate.
  - intros f args Hs. apply sub_cases in Hs. cbn in Hs. decompose [or] Hs; try contradiction; discriminate.
  - vm_compute. reflexivity.
  - vm_compute. reflexivity.
  - vm_compute. reflexivity.
Qed.
