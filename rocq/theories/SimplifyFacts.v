(** * Facts about simplification *)
From Coq Require Import ZArith NArith List String Ascii Bool Lia.
From Verif Require Import F64 Syntax Factorial Builtins Context Element Parser Xprs.
From Verif Require Import SpecTree TreeFacts SpecRewrite.
Import ListNotations.

(** ** Comparison *)
Lemma is_number_iff : forall e v, is_number e v = true <-> lit_eq e v.
Proof.
  unfold lit_eq. intros. destruct e; simpl; split; intro H; try discriminate;
    try (destruct H as [x [Hx _]]; discriminate).
  - eauto.
  - destruct H as [x [Hx He]]. congruence.
Qed.

Lemma is_number_false : forall e v, is_number e v = false <-> ~ lit_eq e v.
Proof.
  intros. rewrite <- is_number_iff. destruct (is_number e v); split; intro; congruence.
Qed.

Lemma and_out_val : forall a b, (exists x, a = Val x) -> (exists x, b = Val x) ->
  exists x, and_out a b = Val x.
Proof. intros a b [x ->] [y ->]. destruct x; simpl; eauto. Qed.
Lemma or_out_val : forall a b, (exists x, a = Val x) -> (exists x, b = Val x) ->
  exists x, or_out a b = Val x.
Proof. intros a b [x ->] [y ->]. destruct x; simpl; eauto. Qed.

(** [==] panics only on trees containing a binary factorial. *)
Fixpoint no_bf (e : element) : Prop :=
  match e with
  | Number _ | Var _ => True
  | BinOp op l r => op <> Factorial /\ no_bf l /\ no_bf r
  | UnOp _ a => no_bf a
  | Call _ args =>
      (fix go (l : list element) : Prop :=
            match l with [] => True | a :: l' => no_bf a /\ go l' end) args
  end.

Lemma no_bf_call : forall f args, no_bf (Call f args) <-> Forall no_bf args.
Proof.
  intros f args. simpl. induction args; split; intro H; auto; try (now constructor).
  - destruct H. constructor; tauto.
  - inversion H; subst. tauto.
Qed.

Lemma safe_no_bf : forall w e, safe w e -> no_bf e.
Proof.
  intros w. induction e using element_ind'; intro Hs; simpl; auto.
  - destruct Hs as [? [? ?]]. auto.
  - destruct Hs. auto.
  - apply safe_call in Hs. destruct Hs as [_ Hs]. apply (no_bf_call f args).
    rewrite Forall_forall in *. auto.
Qed.

(** the list comparison inside [el_eq] *)
Fixpoint el_eq_list (l m : list element) : out bool :=
  match l, m with
  | a :: l', b :: m' => and_out (el_eq a b) (el_eq_list l' m')
  | _, _ => Val true
  end.

Lemma el_eq_call : forall f args g args',
  el_eq (Call f args) (Call g args') =
  if function_eqb f g then
    if Nat.eqb (List.length args) (List.length args') then el_eq_list args args' else Val false
  else Val false.
Proof.
  intros. reflexivity.
Qed.

Lemma el_eq_val : forall a b, no_bf a -> exists c, el_eq a b = Val c.
Proof.
  induction a using element_ind'; intros b Hs.
  - destruct b; simpl; eauto.
  - destruct Hs as [Hop [Hl Hr]]. destruct b; simpl; eauto.
    destruct (operator_eqb op op0); [|eauto].
    destruct op; try congruence; try (apply and_out_val; auto);
      apply or_out_val; apply and_out_val; auto.
  - destruct b; simpl; eauto. destruct (operator_eqb op op0); eauto.
  - destruct b; try (simpl; eauto; fail). rewrite el_eq_call.
    destruct (function_eqb _ _); eauto. destruct (Nat.eqb _ _); eauto.
    apply no_bf_call in Hs. revert args0. induction H; intros args0; simpl; eauto.
    destruct args0; simpl; eauto. inversion Hs; subst. apply and_out_val; auto.
  - destruct b; simpl; eauto.
Qed.

(** ** One step *)
Ltac isn :=
  repeat match goal with
  | H : is_number _ _ = true |- _ => apply is_number_iff in H
  | H : is_number _ _ = false |- _ => apply is_number_false in H
  | H : _ && _ = true |- _ => apply andb_true_iff in H; destruct H
  end.

Lemma fold_binop_rewrites : forall cfg w op l r e,
  fold_binop w op l r = Val e -> rewrites cfg w op l r e.
Proof.
  intros cfg w op l r e H. unfold fold_binop in H.
  destruct l; try (injection H as <-; apply rw_keep).
  destruct r; try (injection H as <-; apply rw_keep).
  destruct (apply_binop w op n n0) eqn:E; simpl in H; [|discriminate].
  injection H as <-. now apply rw_fold.
Qed.

Lemma if_eq_inv : forall a b x y e, if_eq a b x y = Val e ->
  (el_eq a b = Val true /\ x = Val e) \/ (el_eq a b = Val false /\ y = Val e).
Proof.
  unfold if_eq. intros. destruct (el_eq a b) as [[]|]; simpl in H; auto. discriminate.
Qed.

(** Every result of the simplifier on an operation is given by a rule. *)
Lemma simplify_binop_rewrites : forall cfg w op l r e,
  simplify_binop cfg w op l r = Val e -> rewrites cfg w op l r e.
Proof.
  intros cfg w op l r e H.
  pose proof (fold_binop_rewrites cfg w op l r e) as HF.
  destruct op; unfold simplify_binop in H.
  - (* Plus *)
    destruct (is_number l fzero) eqn:E1; [injection H as <-; isn; now apply rw_zero_plus|].
    destruct (is_number r fzero) eqn:E2; [injection H as <-; isn; now apply rw_plus_zero|].
    destruct (nightly cfg) eqn:En; [|auto].
    assert (Hsec : match r with UnOp Minus o => if_eq l o (Val (Number fzero)) (fold_binop w Plus l r)
                   | _ => fold_binop w Plus l r end = Val e -> rewrites cfg w Plus l r e).
    { intro H2. destruct r; auto. destruct op; auto.
      apply if_eq_inv in H2. destruct H2 as [[H2 H3]|[_ H3]]; auto.
      injection H3 as <-. now apply rw_plus_neg. }
    destruct l; auto. destruct op; auto.
    apply if_eq_inv in H. destruct H as [[H2 H3]|[_ H3]]; auto.
    injection H3 as <-. now apply rw_neg_plus.
  - (* Minus *)
    destruct (is_number l fzero) eqn:E1; [injection H as <-; isn; now apply rw_zero_minus|].
    destruct (is_number r fzero) eqn:E2; [injection H as <-; isn; now apply rw_minus_zero|].
    apply if_eq_inv in H. destruct H as [[H2 H3]|[_ H3]].
    + injection H3 as <-. now apply rw_minus_same.
    + destruct r; auto. destruct op; auto. destruct (nightly cfg) eqn:En; auto.
      injection H3 as <-. now apply rw_minus_neg.
  - (* Times *)
    destruct (is_number l fzero) eqn:E1; [injection H as <-; isn; now apply rw_zero_times|].
    destruct (is_number r fzero) eqn:E2; [injection H as <-; isn; now apply rw_times_zero|].
    destruct (is_number l fone) eqn:E3; [injection H as <-; isn; now apply rw_one_times|].
    destruct (is_number r fone) eqn:E4; [injection H as <-; isn; now apply rw_times_one|].
    destruct l; auto. destruct op; auto. destruct r; auto. destruct op; auto.
    destruct (nightly cfg) eqn:En; auto. injection H as <-. now apply rw_neg_times_neg.
  - (* Divide *)
    destruct (is_number l fzero) eqn:E1, (is_number r fzero) eqn:E2; simpl in H; isn.
    + injection H as <-. now apply rw_zero_div_zero.
    + injection H as <-. now apply rw_zero_div.
    + injection H as <-. now apply rw_div_zero.
    + destruct (is_number r fone) eqn:E3; [injection H as <-; isn; now apply rw_div_one|].
      apply if_eq_inv in H. destruct H as [[H2 H3]|[_ H3]].
      * injection H3 as <-. now apply rw_div_same.
      * destruct l; auto. destruct op; auto. destruct r; auto. destruct op; auto.
        destruct (nightly cfg) eqn:En; auto. injection H3 as <-. now apply rw_neg_div_neg.
  - (* Power *)
    destruct (is_number l fzero) eqn:E1, (is_number r fzero) eqn:E2; simpl in H; isn.
    + injection H as <-. now apply rw_zero_pow_zero.
    + injection H as <-. now apply rw_zero_pow.
    + destruct (is_number r fone) eqn:E3; [injection H as <-; isn; now apply rw_pow_one|]. auto.
    + destruct (is_number r fone) eqn:E3; [injection H as <-; isn; now apply rw_pow_one|]. auto.
  - (* Modulo *)
    destruct (is_number l fzero) eqn:E1, (is_number r fzero) eqn:E2; simpl in H; isn.
    + injection H as <-. now apply rw_zero_mod_zero.
    + injection H as <-. now apply rw_zero_mod.
    + injection H as <-. now apply rw_mod_zero.
    + destruct (is_number r fone) eqn:E3; [injection H as <-; isn; now apply rw_mod_one|].
      apply if_eq_inv in H. destruct H as [[H2 H3]|[_ H3]]; auto.
      injection H3 as <-. now apply rw_mod_same.
  - auto.
Qed.

Lemma fold_binop_val : forall w op l r, op <> Factorial -> exists e, fold_binop w op l r = Val e.
Proof.
  intros. unfold fold_binop. destruct l; eauto. destruct r; eauto.
  destruct (apply_binop_safe w op n n0 H) as [v ->]. simpl; eauto.
Qed.

Lemma if_eq_val : forall a b x y, no_bf a -> (exists e, x = Val e) -> (exists e, y = Val e) ->
  exists e, if_eq a b x y = Val e.
Proof.
  intros a b x y Ha [e ->] [e' ->]. unfold if_eq.
  destruct (el_eq_val a b Ha) as [[] ->]; simpl; eauto.
Qed.

Lemma simplify_binop_val : forall cfg w op l r, op <> Factorial -> no_bf l -> no_bf r ->
  exists e, simplify_binop cfg w op l r = Val e.
Proof.
  intros cfg w op l r Hop Hl Hr.
  pose proof (fold_binop_val w op l r Hop) as HF.
  destruct op; unfold simplify_binop; try congruence.
  - destruct (is_number l fzero); eauto. destruct (is_number r fzero); eauto.
    destruct (nightly cfg); eauto.
    assert (exists e, match r with UnOp Minus o => if_eq l o (Val (Number fzero)) (fold_binop w Plus l r)
                   | _ => fold_binop w Plus l r end = Val e).
    { destruct r; eauto. destruct op; eauto. apply if_eq_val; eauto. }
    destruct l; auto. destruct op; auto. apply if_eq_val; eauto.
  - destruct (is_number l fzero); eauto. destruct (is_number r fzero); eauto.
    apply if_eq_val; eauto. destruct r; eauto. destruct op; eauto. destruct (nightly cfg); eauto.
  - destruct (is_number l fzero); eauto. destruct (is_number r fzero); eauto.
    destruct (is_number l fone); eauto. destruct (is_number r fone); eauto.
    destruct l; eauto. destruct op; eauto. destruct r; eauto. destruct op; eauto.
    destruct (nightly cfg); eauto.
  - destruct (is_number l fzero); destruct (is_number r fzero); simpl; eauto.
    destruct (is_number r fone); eauto. apply if_eq_val; eauto.
    destruct l; eauto. destruct op; eauto. destruct r; eauto. destruct op; eauto.
    destruct (nightly cfg); eauto.
  - destruct (is_number l fzero); destruct (is_number r fzero); simpl; eauto;
    destruct (is_number r fone); eauto.
  - destruct (is_number l fzero); destruct (is_number r fzero); simpl; eauto.
    destruct (is_number r fone); eauto. apply if_eq_val; eauto.
Qed.

(** ** Size *)
Fixpoint size (e : element) : nat :=
  match e with
  | Number _ | Var _ => 1
  | BinOp _ l r => S (size l + size r)
  | UnOp _ a => S (size a)
  | Call _ args => S (list_sum (map size args))
  end.

Lemma size_pos : forall e, 1 <= size e.
Proof. destruct e; simpl; lia. Qed.

(** ** Predicates preserved by the rules *)
Section Preserve.
  Variable cfg : config.
  Variable w : world.
  Variable P : element -> Prop.
  Hypothesis HN : forall v, P (Number v).
  Hypothesis HB : forall op l r, P (BinOp op l r) -> P l /\ P r.
  Hypothesis HU : forall op a, P (UnOp op a) -> P a.
  Hypothesis HNeg : forall a, P a -> P (UnOp Minus a).
  Hypothesis HNew : forall op l r, op <> Factorial -> P l -> P r -> P (BinOp op l r).
  Hypothesis HNew' : forall op l r l' r', P (BinOp op l r) -> P l' -> P r' -> P (BinOp op l' r').
  Hypothesis HNewU : forall op a a', P (UnOp op a) -> P a' -> P (UnOp op a').
  Hypothesis HArgs : forall f args, P (Call f args) -> Forall P args.
  Hypothesis HCall : forall f args args', P (Call f args) -> Forall P args' ->
    List.length args' = List.length args -> P (Call f args').

  Lemma rewrites_preserve : forall op l r e,
    rewrites cfg w op l r e -> (op <> Factorial \/ exists l0 r0, P (BinOp op l0 r0)) -> P l -> P r -> P e.
  Proof.
    intros op l r e H Hop Hl Hr. inversion H; subst; auto.
    - apply HNew; eauto. discriminate.
    - apply HNew; eauto. discriminate.
    - apply HNew; eauto. discriminate.
    - destruct Hop as [Hop|[l0 [r0 Hop]]]; eauto.
  Qed.

  Lemma simplify_unop_preserve : forall op a0 a e,
    simplify_unop op a = Val e -> P (UnOp op a0) -> P a -> P e.
  Proof.
    intros op a0 a e H H0 Ha. destruct op; simpl in H; try discriminate; try (injection H as <-; auto; fail).
    - destruct a; injection H as <-; eauto.
    - destruct a; injection H as <-; eauto.
  Qed.

  Lemma simplify_call_preserve : forall f args0 args e,
    simplify_call w f args = Val e -> P (Call f args0) -> List.length args = List.length args0 ->
    Forall P args -> P e.
  Proof.
    intros f args0 args e H H0 Hl Ha. unfold simplify_call in H.
    destruct (Nat.eqb _ _).
    - destruct (call_function w f (number_values args)); simpl in H; [|discriminate].
      injection H as <-. auto.
    - injection H as <-. eauto.
  Qed.

  Lemma map_out_inv : forall A B (f : A -> out B) l l', map_out f l = Val l' ->
    Forall2 (fun a b => f a = Val b) l l'.
  Proof.
    induction l; intros l' H; simpl in H.
    - injection H as <-. constructor.
    - destruct (f a) eqn:E; simpl in H; [|discriminate].
      destruct (map_out f l); simpl in H; [|discriminate]. injection H as <-. constructor; auto.
  Qed.

  Lemma simplify_preserve : forall e e', simplify cfg w e = Val e' -> P e -> P e'.
  Proof.
    induction e using element_ind'; intros e' H' HP; simpl in H'.
    - injection H' as <-. auto.
    - destruct (simplify cfg w e1) as [l'|] eqn:E1; simpl in H'; [|discriminate].
      destruct (simplify cfg w e2) as [r'|] eqn:E2; simpl in H'; [|discriminate].
      apply simplify_binop_rewrites in H'. destruct (HB _ _ _ HP).
      eapply rewrites_preserve; eauto.
    - destruct (simplify cfg w e) as [a'|] eqn:E1; simpl in H'; [|discriminate].
      eapply simplify_unop_preserve; eauto.
    - destruct (map_out (simplify cfg w) args) as [args'|] eqn:E1; simpl in H'; [|discriminate].
      apply map_out_inv in E1. pose proof (HArgs _ _ HP) as Ha.
      eapply simplify_call_preserve; eauto.
      + clear -E1. induction E1; simpl; auto.
      + clear -E1 H Ha. revert H Ha. induction E1; intros HF Ha; constructor; inversion HF; inversion Ha; subst; auto.
    - injection H' as <-. auto.
  Qed.

  Lemma simplify_for_preserve : forall x v e e',
    el_simplify_for cfg w x v e = Val e' -> P e -> P e'.
  Proof.
    intros x v. induction e using element_ind'; intros e' H' HP; simpl in H'.
    - injection H' as <-. auto.
    - destruct (el_simplify_for cfg w x v e1) as [l'|] eqn:E1; simpl in H'; [|discriminate].
      destruct (el_simplify_for cfg w x v e2) as [r'|] eqn:E2; simpl in H'; [|discriminate].
      change (simplify cfg w (BinOp op l' r') = Val e') in H'.
      eapply simplify_preserve; eauto. destruct (HB _ _ _ HP). eauto.
    - destruct (el_simplify_for cfg w x v e) as [a'|] eqn:E1; simpl in H'; [|discriminate].
      change (simplify cfg w (UnOp op a') = Val e') in H'.
      eapply simplify_preserve; eauto.
    - destruct (map_out (el_simplify_for cfg w x v) args) as [args'|] eqn:E1; simpl in H'; [|discriminate].
      change (simplify cfg w (Call f args') = Val e') in H'.
      apply map_out_inv in E1. pose proof (HArgs _ _ HP) as Ha.
      eapply simplify_preserve; eauto. eapply HCall; eauto.
      + clear -E1 H Ha. revert H Ha. induction E1; intros HF Ha; constructor; inversion HF; inversion Ha; subst; auto.
      + clear -E1. induction E1; simpl; auto.
    - destruct (String.eqb x0 x); injection H' as <-; auto.
  Qed.
End Preserve.

(** safety is preserved *)
Lemma simplify_safe : forall cfg w e e', simplify cfg w e = Val e' -> safe w e -> safe w e'.
Proof.
  intros cfg w. apply simplify_preserve; try (simpl; intuition; fail).
  - intros f args H. apply safe_call in H. tauto.
  - intros f args args' H Ha Hl. apply safe_call in H. apply safe_call. rewrite Hl. tauto.
Qed.

Lemma el_simplify_for_safe : forall cfg w x v e e',
  el_simplify_for cfg w x v e = Val e' -> safe w e -> safe w e'.
Proof.
  intros cfg w. apply simplify_for_preserve; try (simpl; intuition; fail).
  - intros f args H. apply safe_call in H. tauto.
  - intros f args args' H Ha Hl. apply safe_call in H. apply safe_call. rewrite Hl. tauto.
Qed.

Lemma map_out_val : forall A B (f : A -> out B) l, Forall (fun a => exists b, f a = Val b) l ->
  exists l', map_out f l = Val l'.
Proof.
  induction 1; simpl; eauto. destruct H as [b ->]. destruct IHForall as [l' ->]. simpl; eauto.
Qed.

Lemma number_values_length : forall args, List.length (number_values args) <= List.length args.
Proof. induction args as [|[]]; simpl; lia. Qed.

Lemma simplify_val : forall cfg w e, safe w e -> exists e', simplify cfg w e = Val e'.
Proof.
  intros cfg w. induction e using element_ind'; intros Hs; simpl; eauto.
  - destruct Hs as [Hop [Hl Hr]]. destruct (IHe1 Hl) as [l' El]. destruct (IHe2 Hr) as [r' Er].
    rewrite El, Er. simpl. apply simplify_binop_val; auto;
      eapply safe_no_bf, simplify_safe; eauto.
  - destruct Hs as [Hop Ha]. destruct (IHe Ha) as [a' ->]. simpl.
    destruct Hop as [->|[->| ->]]; simpl; eauto; destruct a'; eauto.
  - apply safe_call in Hs. destruct Hs as [Hf Ha].
    destruct (map_out_val _ _ (simplify cfg w) args) as [args' Em].
    { rewrite Forall_forall in *. auto. }
    rewrite Em. simpl. unfold simplify_call.
    destruct (Nat.eqb _ _) eqn:E; [|eauto]. apply Nat.eqb_eq in E.
    apply map_out_inv in Em.
    destruct (Hf (number_values args')) as [v ->]; simpl; eauto.
    rewrite E. clear -Em. induction Em; simpl; auto.
Qed.

Lemma el_simplify_for_val : forall cfg w x v e, safe w e -> exists e', el_simplify_for cfg w x v e = Val e'.
Proof.
  intros cfg w x v. induction e using element_ind'; intros Hs; cbn [el_simplify_for]; eauto.
  - destruct Hs as [Hop [Hl Hr]]. destruct (IHe1 Hl) as [l' El]. destruct (IHe2 Hr) as [r' Er].
    rewrite El, Er. cbn [bind_out]. apply simplify_val.
    split; auto. split; eapply el_simplify_for_safe; eauto.
  - destruct Hs as [Hop Ha]. destruct (IHe Ha) as [a' Ea]. rewrite Ea. cbn [bind_out].
    apply simplify_val. split; auto. eapply el_simplify_for_safe; eauto.
  - apply safe_call in Hs. destruct Hs as [Hf Ha].
    destruct (map_out_val _ _ (el_simplify_for cfg w x v) args) as [args' Em].
    { rewrite Forall_forall in *. auto. }
    rewrite Em. cbn [bind_out]. apply map_out_inv in Em. apply simplify_val. apply safe_call.
    split.
    + intros vs Hvs. apply Hf. rewrite Hvs. clear -Em. induction Em; simpl; auto.
    + clear -Em Ha. revert Ha. induction Em; intro Ha; constructor; inversion Ha; subst; auto.
      eapply el_simplify_for_safe; eauto.
  - destruct (String.eqb x0 x); eauto.
Qed.

(** variables: the result's are among the argument's *)
Lemma simplify_free : forall cfg w e e', simplify cfg w e = Val e' ->
  forall y, free y e' -> free y e.
Proof.
  intros cfg w e e' H.
  eapply (simplify_preserve cfg w (fun e' => forall y, free y e' -> free y e)); eauto.
  - intros v y [].
  - intros op l r Hf. split; intros; apply Hf; simpl; auto.
  - intros op l r Hn Hl Hr y [Hy|Hy]; auto.
  - intros op l r l' r' Hn Hl Hr y [Hy|Hy]; auto.
  - intros f args Hf. apply Forall_forall. intros a Ha y Hy. apply Hf.
    apply free_call, Exists_exists. eauto.
  - intros f args args' _ Ha _ y Hy. apply free_call, Exists_exists in Hy.
    destruct Hy as [a [Hi Hy]]. rewrite Forall_forall in Ha. eauto.
Qed.

Lemma el_simplify_for_free : forall cfg w x v e e', el_simplify_for cfg w x v e = Val e' ->
  forall y, free y e' -> free y e /\ y <> x.
Proof.
  intros cfg w x v. induction e using element_ind'; intros e' H' y Hy; cbn [el_simplify_for] in H'.
  - injection H' as <-. contradiction.
  - destruct (el_simplify_for cfg w x v e1) as [l'|] eqn:E1; cbn [bind_out] in H'; [|discriminate].
    destruct (el_simplify_for cfg w x v e2) as [r'|] eqn:E2; cbn [bind_out] in H'; [|discriminate].
    eapply simplify_free in H'; eauto. simpl in *. destruct H' as [H'|H'].
    + destruct (IHe1 _ eq_refl _ H'). auto.
    + destruct (IHe2 _ eq_refl _ H'). auto.
  - destruct (el_simplify_for cfg w x v e) as [a'|] eqn:E1; cbn [bind_out] in H'; [|discriminate].
    apply (simplify_free _ _ _ _ H') in Hy. simpl in *. apply (IHe _ eq_refl _ Hy).
  - destruct (map_out (el_simplify_for cfg w x v) args) as [args'|] eqn:E1; cbn [bind_out] in H'; [|discriminate].
    apply (simplify_free _ _ _ _ H') in Hy. apply map_out_inv in E1. rewrite free_call in *.
    revert H Hy. clear -E1. induction E1 as [|a b l l' Hab E1 IH]; intros HF Hy.
    + inversion Hy.
    + apply Forall_cons_iff in HF. destruct HF as [Ha HF].
      apply Exists_cons in Hy. destruct Hy as [Hy|Hy].
      * destruct (Ha _ Hab _ Hy). auto.
      * destruct (IH HF Hy). auto.
  - destruct (String.eqb x0 x) eqn:E; injection H' as <-; simpl in *; [contradiction|].
    apply String.eqb_neq in E. split; congruence.
Qed.

(** size never grows *)
Lemma rewrites_size : forall cfg w op l r e, rewrites cfg w op l r e -> size e <= S (size l + size r).
Proof.
  intros cfg w op l r e H.
  inversion H; subst; simpl; try lia.
Qed.

Lemma simplify_size : forall cfg w e e', simplify cfg w e = Val e' -> size e' <= size e.
Proof.
  intros cfg w. induction e using element_ind'; intros e' H'; simpl in H'.
  - injection H' as <-. auto.
  - destruct (simplify cfg w e1) as [l'|] eqn:E1; simpl in H'; [|discriminate].
    destruct (simplify cfg w e2) as [r'|] eqn:E2; simpl in H'; [|discriminate].
    apply simplify_binop_rewrites, rewrites_size in H'.
    specialize (IHe1 _ eq_refl). specialize (IHe2 _ eq_refl). simpl. lia.
  - destruct (simplify cfg w e) as [a'|] eqn:E1; simpl in H'; [|discriminate].
    specialize (IHe _ eq_refl). simpl.
    destruct op; simpl in H'; try discriminate; try (injection H' as <-; lia);
      destruct a'; injection H' as <-; simpl in *; lia.
  - destruct (map_out (simplify cfg w) args) as [args'|] eqn:E1; simpl in H'; [|discriminate].
    apply map_out_inv in E1.
    assert (list_sum (map size args') <= list_sum (map size args)) as Hl.
    { clear H'. revert H. induction E1 as [|a b l l' Hab E1 IH]; intro HF; simpl; auto.
      apply Forall_cons_iff in HF. destruct HF as [Ha HF].
      specialize (Ha _ Hab). specialize (IH HF). lia. }
    unfold simplify_call in H'. destruct (Nat.eqb _ _).
    + destruct (call_function _ _ _); simpl in H'; [|discriminate]. injection H' as <-. simpl. lia.
    + injection H' as <-. simpl. lia.
  - injection H' as <-. auto.
Qed.

Lemma el_simplify_for_size : forall cfg w x v e e',
  el_simplify_for cfg w x v e = Val e' -> size e' <= size e.
Proof.
  intros cfg w x v. induction e using element_ind'; intros e' H'; cbn [el_simplify_for] in H'.
  - injection H' as <-. auto.
  - destruct (el_simplify_for cfg w x v e1) as [l'|] eqn:E1; cbn [bind_out] in H'; [|discriminate].
    destruct (el_simplify_for cfg w x v e2) as [r'|] eqn:E2; cbn [bind_out] in H'; [|discriminate].
    apply simplify_size in H'. specialize (IHe1 _ eq_refl). specialize (IHe2 _ eq_refl).
    cbn [size] in *. lia.
  - destruct (el_simplify_for cfg w x v e) as [a'|] eqn:E1; cbn [bind_out] in H'; [|discriminate].
    apply simplify_size in H'. specialize (IHe _ eq_refl). cbn [size] in *. lia.
  - destruct (map_out (el_simplify_for cfg w x v) args) as [args'|] eqn:E1; cbn [bind_out] in H'; [|discriminate].
    apply simplify_size in H'. apply map_out_inv in E1.
    assert (list_sum (map size args') <= list_sum (map size args)) as Hl.
    { clear H'. revert H. induction E1 as [|a b l l' Hab E1 IH]; intro HF; simpl; auto.
      apply Forall_cons_iff in HF. destruct HF as [Ha HF].
      specialize (Ha _ Hab). specialize (IH HF). lia. }
    cbn [size] in *. lia.
  - destruct (String.eqb x0 x); injection H' as <-; auto.
Qed.
