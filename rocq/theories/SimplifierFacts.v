(** * The simplifier follows the table of rules *)
From Coq Require Import ZArith NArith List String Ascii Bool Lia.
From Flocq Require Import BinarySingleNaN.
From Verif Require Import F64 Syntax Factorial Builtins Context Element Parser Xprs.
From Verif Require Import SpecTree TreeFacts FloatFacts SpecRewrite SimplifyFacts PropertiesEq PropertiesNormal SpecSimplifier.
Import ListNotations.
Local Open Scope nat_scope.

Lemma zero_iff : forall e, is_number e fzero = true <-> zero e.
Proof.
  intro e. unfold zero. destruct e as [n|op l r|op a|f args|x]; cbn [is_number];
    try (split; [discriminate|intros [H|H]; discriminate H]).
  rewrite feq_cases. split.
  - intros [[-> _]|[[s ->] _]]; auto. destruct s; [right|left]; reflexivity.
  - intros [H|H]; injection H as ->; right; split; eexists; reflexivity.
Qed.

Lemma fone_not_zero : forall s, fone <> B754_zero s.
Proof.
  intros s H. apply (f_equal (fun x : f64 => fis_finite x && match x with B754_finite _ _ _ _ => true | _ => false end)) in H.
  vm_compute in H. discriminate H.
Qed.

Lemma one_iff : forall e, is_number e fone = true <-> one e.
Proof.
  intro e. unfold one. destruct e as [n|op l r|op a|f args|x]; cbn [is_number]; try (split; discriminate).
  rewrite feq_cases. split.
  - intros [[-> _]|[_ [s H]]]; auto. now apply fone_not_zero in H.
  - intro H. injection H as ->. left. split; reflexivity.
Qed.

Lemma zero_false : forall e, is_number e fzero = false <-> ~ zero e.
Proof. intro e. rewrite <- zero_iff. destruct (is_number e fzero); split; intro; congruence. Qed.
Lemma one_false : forall e, is_number e fone = false <-> ~ one e.
Proof. intro e. rewrite <- one_iff. destruct (is_number e fone); split; intro; congruence. Qed.

Lemma apply_means : forall w op x y v,
  apply_binop w op x y = Val v <-> means w nothing (BinOp op (Number x) (Number y)) v.
Proof.
  intros w op x y v. split.
  - intro H. destruct op; cbn [apply_binop] in H; try discriminate H; injection H as <-; repeat constructor.
  - intro H. inversion H; subst; repeat match goal with K : means _ _ (Number _) _ |- _ => inversion K; subst; clear K end; reflexivity.
Qed.

Section S.
  Variable ng : bool.
  Variable w : world.
  Notation rule := (rule ng w).
  Notation becomes := (becomes ng w).

  Lemma rule_det : forall op k l r e e', rule op k l r e -> rule op k l r e' -> e = e'.
  Proof.
    intros op k l r e e' H H'. destruct H; inversion H'; subst; try reflexivity.
    f_equal. eapply means_det; eauto.
  Qed.

  Lemma becomes_det : forall op l r e e', becomes op l r e -> becomes op l r e' -> e = e'.
  Proof.
    intros op l r e e' [k t H Hl|Hn] [k' t' H' Hl'|Hn']; auto.
    - destruct (Nat.lt_trichotomy k k') as [K|[K|K]].
      + elim (Hl' k t K H).
      + subst k'. eapply rule_det; eauto.
      + elim (Hl k' t' K H').
    - elim (Hn' _ _ H).
    - elim (Hn _ _ H').
  Qed.

  Lemma eq_true : forall a b, no_bf a -> el_eq a b = Val true -> equal_exprs a b.
  Proof. intros a b Ha H. now apply (el_eq_equal a b Ha). Qed.
  Lemma eq_false : forall a b, no_bf a -> el_eq a b = Val false -> ~ equal_exprs a b.
  Proof. intros a b Ha H E. apply (el_eq_equal a b Ha) in E. congruence. Qed.

  Ltac facts :=
    repeat match goal with
    | H : is_number _ fzero = true |- _ => apply zero_iff in H
    | H : is_number _ fzero = false |- _ => apply zero_false in H
    | H : is_number _ fone = true |- _ => apply one_iff in H
    | H : is_number _ fone = false |- _ => apply one_false in H
    | H : el_eq _ _ = Val true |- _ => apply eq_true in H; [|assumption]
    | H : el_eq _ _ = Val false |- _ => apply eq_false in H; [|assumption]
    end.
  (* no earlier rule fits *)
  Ltac earlier :=
    let k := fresh "k" in let e := fresh "e" in let K := fresh "K" in let R := fresh "R" in
    intros k e K R; inversion R; subst; try lia; try contradiction; try discriminate; try tauto.
  Ltac first_fit k := match goal with H : Val _ = Val _ |- _ => injection H as <- end; apply by_rule with k; [constructor; assumption || reflexivity|earlier].

  (** folding, when no rule below 9 fits *)
  Lemma fold_becomes : forall op l r e, (forall k e', k < 9 -> ~ rule op k l r e') ->
    fold_binop w op l r = Val e -> becomes op l r e.
  Proof.
    intros op l r e Hn H. unfold fold_binop in H.
    assert (Hk : (forall a b, ~ (l = Number a /\ r = Number b)) -> becomes op l r (BinOp op l r)).
    { intro Hnum. apply no_rule. intros k t R. destruct (Nat.lt_ge_cases k 9) as [K|K]; [exact (Hn k t K R)|].
      inversion R; subst; try lia. eapply Hnum; split; reflexivity. }
    destruct l as [x|o l1 l2|o l1|f args|x]; try (injection H as <-; apply Hk; intros a b [Ea Eb]; discriminate Ea).
    destruct r as [y|o r1 r2|o r1|f args|y]; try (injection H as <-; apply Hk; intros a b [Ea Eb]; discriminate Eb).
    destruct (apply_binop w op x y) as [v|p] eqn:E; cbn in H; [|discriminate H]. injection H as <-.
    apply by_rule with 9; [apply numbers; now apply apply_means|exact Hn].
  Qed.

  Lemma binop_becomes : forall cfg op l r e, nightly cfg = ng -> no_bf l -> no_bf r ->
    simplify_binop cfg w op l r = Val e -> becomes op l r e.
  Proof.
    intros cfg op l r e Hng Hl Hr H. assert (N : ng = true \/ ng = false) by (destruct ng; auto).
    destruct op; unfold simplify_binop in H; rewrite ?Hng in H; clear cfg Hng.
    - (* + *)
      destruct (is_number l fzero) eqn:E1; facts; [first_fit 1|].
      destruct (is_number r fzero) eqn:E2; facts; [first_fit 2|].
      destruct N as [N|N]; rewrite N in H; [|apply fold_becomes; [earlier; congruence|exact H]].
      assert (H2 : (forall e', ~ rule Plus 3 l r e') ->
        match r with UnOp Minus o => if_eq l o (Val (Number fzero)) (fold_binop w Plus l r)
                   | _ => fold_binop w Plus l r end = Val e -> becomes Plus l r e).
      { intros H3 H'.
        assert (Hn : (forall a, r = UnOp Minus a -> ~ equal_exprs l a) -> fold_binop w Plus l r = Val e -> becomes Plus l r e).
        { intros Hq HF. apply fold_becomes; [|exact HF]. intros k e' K R.
          inversion R; subst; try lia; try contradiction; [eapply H3; exact R|]. eapply Hq; eauto. }
        destruct r as [y|o r1 r2|o r1|f args|y]; try (apply Hn; [discriminate|exact H']).
        destruct o; try (apply Hn; [discriminate|exact H']).
        apply if_eq_inv in H'. destruct H' as [[Eq H']|[Eq H']]; facts.
        - injection H' as <-. apply by_rule with 4; [now constructor|].
          intros k e' K R. inversion R; subst; try lia; try contradiction. eapply H3; exact R.
        - apply Hn; [|exact H']. intros a Ea. injection Ea as <-. exact Eq. }
      destruct l as [x|o l1 l2|o l1|f args|x]; try (apply H2; [intros e' R; inversion R|exact H]).
      destruct o; try (apply H2; [intros e' R; inversion R|exact H]).
      apply if_eq_inv in H. cbn [no_bf] in Hl. destruct H as [[Eq H]|[Eq H]]; facts.
      + first_fit 3.
      + apply H2; [|exact H]. intros e' R. inversion R; subst. contradiction.
    - (* - *)
      destruct (is_number l fzero) eqn:E1; facts; [first_fit 1|].
      destruct (is_number r fzero) eqn:E2; facts; [first_fit 2|].
      apply if_eq_inv in H. destruct H as [[Eq H]|[Eq H]]; facts; [first_fit 3|].
      assert (Hn : (forall a, r = UnOp Minus a -> ng = true -> False) -> fold_binop w Minus l r = Val e -> becomes Minus l r e).
      { intros Hq HF. apply fold_becomes; [|exact HF]. earlier. eapply Hq; eauto. }
      destruct r as [y|o r1 r2|o r1|f args|y]; try (apply Hn; [discriminate|exact H]).
      destruct o; try (apply Hn; [discriminate|exact H]).
      destruct N as [N|N]; rewrite N in H; [first_fit 4|]. apply Hn; [congruence|exact H].
    - (* * *)
      destruct (is_number l fzero) eqn:E1; facts; [first_fit 1|].
      destruct (is_number r fzero) eqn:E2; facts; [first_fit 2|].
      destruct (is_number l fone) eqn:E3; facts; [first_fit 3|].
      destruct (is_number r fone) eqn:E4; facts; [first_fit 4|].
      assert (Hn : (forall a b, l = UnOp Minus a -> r = UnOp Minus b -> ng = true -> False) -> fold_binop w Times l r = Val e -> becomes Times l r e).
      { intros Hq HF. apply fold_becomes; [|exact HF]. earlier. eapply Hq; eauto. }
      destruct l as [x|o l1 l2|o l1|f args|x]; try (apply Hn; [discriminate|exact H]).
      destruct o; try (apply Hn; [discriminate|exact H]).
      destruct r as [y|o r1 r2|o r1|f args|y]; try (apply Hn; [discriminate|exact H]).
      destruct o; try (apply Hn; [discriminate|exact H]).
      destruct N as [N|N]; rewrite N in H; [first_fit 5|]. apply Hn; [congruence|exact H].
    - (* / *)
      destruct (is_number l fzero) eqn:E1; destruct (is_number r fzero) eqn:E2; cbn [andb] in H; facts;
        [first_fit 1|first_fit 2|first_fit 3|].
      destruct (is_number r fone) eqn:E3; facts; [first_fit 4|].
      apply if_eq_inv in H. destruct H as [[Eq H]|[Eq H]]; facts; [first_fit 5|]. cbv zeta in H.
      assert (Hn : (forall a b, l = UnOp Minus a -> r = UnOp Minus b -> ng = true -> False) -> fold_binop w Divide l r = Val e -> becomes Divide l r e).
      { intros Hq HF. apply fold_becomes; [|exact HF]. earlier. eapply Hq; eauto. }
      destruct l as [x|o l1 l2|o l1|f args|x]; try (apply Hn; [discriminate|exact H]).
      destruct o; try (apply Hn; [discriminate|exact H]).
      destruct r as [y|o r1 r2|o r1|f args|y]; try (apply Hn; [discriminate|exact H]).
      destruct o; try (apply Hn; [discriminate|exact H]).
      destruct N as [N|N]; rewrite N in H; [first_fit 6|]. apply Hn; [congruence|exact H].
    - (* ^ *)
      destruct (is_number l fzero) eqn:E1; destruct (is_number r fzero) eqn:E2; cbn [andb] in H; facts;
        [first_fit 1|first_fit 2| |].
      all: destruct (is_number r fone) eqn:E3; facts; [first_fit 3|].
      all: apply fold_becomes; [earlier|exact H].
    - (* % *)
      destruct (is_number l fzero) eqn:E1; destruct (is_number r fzero) eqn:E2; cbn [andb] in H; facts;
        [first_fit 1|first_fit 2|first_fit 3|].
      destruct (is_number r fone) eqn:E3; facts; [first_fit 4|].
      apply if_eq_inv in H. destruct H as [[Eq H]|[Eq H]]; facts; [first_fit 5|].
      apply fold_becomes; [earlier|exact H].
    - apply fold_becomes; [earlier|exact H].
  Qed.
End S.

Lemma becomes_iff : forall cfg w op l r e, op <> Factorial -> no_bf l -> no_bf r ->
  (simplify_binop cfg w op l r = Val e <-> becomes (nightly cfg) w op l r e).
Proof.
  intros cfg w op l r e Hop Hl Hr. split; [now apply binop_becomes|]. intro H.
  destruct (simplify_binop_val cfg w op l r Hop Hl Hr) as [t Ht].
  pose proof (binop_becomes (nightly cfg) w cfg op l r t eq_refl Hl Hr Ht) as H'.
  now rewrite (becomes_det _ _ _ _ _ _ _ H H').
Qed.

Lemma rewrites_no_bf : forall cfg w op l r e, rewrites cfg w op l r e -> op <> Factorial -> no_bf l -> no_bf r -> no_bf e.
Proof.
  intros cfg w op l r e H Hop Hl Hr. destruct H; cbn [no_bf] in *; auto; repeat split; auto; discriminate.
Qed.

Lemma map_out_all : forall A B (f : A -> out B) (P : A -> Prop) (Q : B -> Prop) l,
  (forall a b, P a -> f a = Val b -> Q b) -> Forall P l -> forall l', map_out f l = Val l' -> Forall Q l'.
Proof.
  intros A B f P Q l Hf. induction 1 as [|a l Ha Hl IH]; intros l' E; cbn in E.
  - injection E as <-. constructor.
  - destruct (f a) as [b|] eqn:Eb; cbn in E; [|discriminate E].
    change ((fix map_out (l : list A) : out (list B) := match l with [] => Val [] | x :: l => do y <- f x; do l' <- map_out l; Val (y :: l') end) l) with (map_out f l) in E.
    destruct (map_out f l) as [m|] eqn:Em; cbn in E; [|discriminate E]. injection E as <-. constructor; eauto.
Qed.

Lemma simplify_no_bf : forall cfg w e e', no_bf e -> simplify cfg w e = Val e' -> no_bf e'.
Proof.
  intros cfg w. induction e as [n|op l r IHl IHr|op e IHe|f args Hargs|y] using element_ind'; intros e' Hn H.
  - cbn in H. injection H as <-. exact Hn.
  - cbn [simplify] in H. destruct Hn as [Hop [Hl Hr]].
    destruct (simplify cfg w l) as [l'|] eqn:El; cbn [bind_out] in H; [|discriminate H].
    destruct (simplify cfg w r) as [r'|] eqn:Er; cbn [bind_out] in H; [|discriminate H].
    apply simplify_binop_rewrites in H. eapply rewrites_no_bf; eauto.
  - cbn [simplify] in H. cbn [no_bf] in Hn. destruct (simplify cfg w e) as [a|] eqn:Ea; cbn [bind_out] in H; [|discriminate H].
    pose proof (IHe _ Hn eq_refl) as Ha.
    destruct op; cbn [simplify_unop] in H; try discriminate H; try (injection H as <-; exact Ha).
    all: destruct a; injection H as <-; exact Ha || exact I.
  - cbn [simplify] in H. destruct (map_out (simplify cfg w) args) as [args'|] eqn:Em; cbn [bind_out] in H; [|discriminate H].
    apply no_bf_call in Hn. unfold simplify_call in H.
    destruct (Nat.eqb _ _).
    + destruct (call_function _ _ _); cbn [bind_out] in H; [|discriminate H]. injection H as <-. exact I.
    + injection H as <-. apply no_bf_call.
      eapply map_out_all with (P := fun a => no_bf a /\ forall e', no_bf a -> simplify cfg w a = Val e' -> no_bf e'); [| |exact Em].
      * intros a b [Ha1 Ha2] E. eauto.
      * rewrite Forall_forall in Hargs, Hn. rewrite Forall_forall. intros a Ha. split; [now apply Hn|]. intros e1. now apply Hargs.
  - cbn in H. injection H as <-. exact Hn.
Qed.

Scheme simplest_mut := Minimality for simplest Sort Prop
  with all_simplest_mut := Minimality for all_simplest Sort Prop.
Combined Scheme simplest_mutind from simplest_mut, all_simplest_mut.
Scheme simplest_for_mut := Minimality for simplest_for Sort Prop
  with all_simplest_for_mut := Minimality for all_simplest_for Sort Prop.
Combined Scheme simplest_for_mutind from simplest_for_mut, all_simplest_for_mut.

Lemma all_simplest_iff : forall ng w l l', all_simplest ng w l l' <-> Forall2 (simplest ng w) l l'.
Proof. intros. split; induction 1; constructor; auto. Qed.
Lemma all_simplest_for_iff : forall ng w x v l l', all_simplest_for ng w x v l l' <-> Forall2 (simplest_for ng w x v) l l'.
Proof. intros. split; induction 1; constructor; auto. Qed.

Lemma map_out_iff : forall A B (f : A -> out B) l l', map_out f l = Val l' <-> Forall2 (fun a b => f a = Val b) l l'.
Proof.
  intros A B f l. induction l as [|a l IH]; intros l'.
  - cbn. split; [intro H; injection H as <-; constructor|intro H; inversion H; reflexivity].
  - split.
    + intro H. apply map_out_inv in H. exact H.
    + intro H. inversion H as [|? b ? m Hb Hm]; subst. apply IH in Hm.
      change (map_out f (a :: l)) with (do b <- f a; do bs <- map_out f l; Val (b :: bs)). rewrite Hb, Hm. reflexivity.
Qed.

Lemma number_values_map : forall vs, number_values (map Number vs) = vs.
Proof. induction vs; cbn; congruence. Qed.

Section I.
  Variable cfg : config.
  Variable w : world.

  Lemma call_iff : forall f args' e, simplify_call w f args' = Val e <->
    ((exists vs v, args' = map Number vs /\ call_function w f vs = Val v /\ e = Number v) \/
     ((forall vs, args' <> map Number vs) /\ e = Call f args')).
  Proof.
    intros f args' e. unfold simplify_call. split.
    - destruct (Nat.eqb_spec (List.length (number_values args')) (List.length args')) as [E|E]; intro H.
      + apply number_values_all in E. destruct E as [vs ->]. rewrite number_values_map in H.
        destruct (call_function w f vs) as [v|] eqn:Ev; cbn in H; [|discriminate H]. injection H as <-. left. eauto.
      + injection H as <-. right. split; auto. intros vs ->. apply E. apply number_values_all. eauto.
    - intros [[vs [v [-> [Ev ->]]]]|[Hn ->]].
      + rewrite number_values_map, map_length, Nat.eqb_refl, Ev. reflexivity.
      + destruct (Nat.eqb_spec (List.length (number_values args')) (List.length args')) as [E|E]; auto.
        apply number_values_all in E. destruct E as [vs ->]. elim (Hn vs eq_refl).
  Qed.

  Lemma unop_iff : forall op a e, simplify_unop op a = Val e <->
    ((op = Plus /\ e = a) \/
     (exists n v, op <> Plus /\ a = Number n /\ means w nothing (UnOp op (Number n)) v /\ e = Number v) \/
     ((op = Minus \/ op = Factorial) /\ (forall n, a <> Number n) /\ e = UnOp op a)).
  Proof.
    intros op a e. split.
    - intro H. destruct op; cbn [simplify_unop] in H; try discriminate H.
      + left. injection H as <-. auto.
      + right. destruct a as [n|o l r|o b|f args|x].
        1: left; injection H as <-; exists n, (fneg n); repeat split; [discriminate|repeat constructor].
        all: right; injection H as <-; repeat split; auto; discriminate.
      + right. destruct a as [n|o l r|o b|f args|x].
        1: left; injection H as <-; exists n, (factorial n); split; [discriminate|]; split; [reflexivity|]; split; [repeat constructor|reflexivity].
        all: right; injection H as <-; repeat split; auto; discriminate.
    - intros [[-> ->]|[[n [v [Hop [-> [M ->]]]]]|[Hop [Hn ->]]]]; auto.
      + inversion M; subst; try congruence; match goal with K : means _ _ (Number _) _ |- _ => inversion K; subst end; reflexivity.
      + destruct Hop as [-> | ->]; destruct a as [n|o l r|o b|f args|x]; try reflexivity; elim (Hn n eq_refl).
  Qed.

  Theorem simplify_iff : forall e e', no_bf e ->
    (simplify cfg w e = Val e' <-> simplest (nightly cfg) w e e').
  Proof.
    induction e as [n|op l r IHl IHr|op e IHe|f args Hargs|y] using element_ind'; intros e' Hn.
    - cbn. split; [intro H; injection H as <-; constructor|intro H; inversion H; reflexivity].
    - destruct Hn as [Hop [Hl Hr]]. cbn [simplify]. split.
      + intro H. destruct (simplify cfg w l) as [l'|] eqn:El; cbn [bind_out] in H; [|discriminate H].
        destruct (simplify cfg w r) as [r'|] eqn:Er; cbn [bind_out] in H; [|discriminate H].
        pose proof (simplify_no_bf _ _ _ _ Hl El). pose proof (simplify_no_bf _ _ _ _ Hr Er).
        eapply SI_operation; [now apply IHl|now apply IHr|]. apply becomes_iff; auto.
      + intro H. inversion H as [| |? ? ? l' r' ? Sl Sr B| | | | |]; subst.
        apply IHl in Sl; auto. apply IHr in Sr; auto. rewrite Sl, Sr. cbn [bind_out].
        apply becomes_iff; [exact Hop|exact (simplify_no_bf _ _ _ _ Hl Sl)|exact (simplify_no_bf _ _ _ _ Hr Sr)|exact B].
    - cbn [simplify]. cbn [no_bf] in Hn. split.
      + intro H. destruct (simplify cfg w e) as [a|] eqn:Ea; cbn [bind_out] in H; [|discriminate H].
        assert (Sa : simplest (nightly cfg) w e a) by now apply IHe.
        apply unop_iff in H. destruct H as [[-> ->]|[[n [v [Hop [-> [M ->]]]]]|[Hop [Hnn ->]]]].
        * now apply SI_plus.
        * eapply SI_sign; eauto.
        * now apply SI_keep.
      + intro H. inversion H; subst;
          match goal with K : simplest _ _ e _ |- _ => apply IHe in K; [rewrite K|assumption] end; cbn [bind_out]; apply unop_iff.
        * auto.
        * right; left. eauto 8.
        * right; right. auto.
    - cbn [simplify]. apply no_bf_call in Hn.
      assert (Hall : forall l', map_out (simplify cfg w) args = Val l' <-> all_simplest (nightly cfg) w args l').
      { intro l'. rewrite map_out_iff, all_simplest_iff.
        assert (HE : forall a, In a args -> forall b, simplify cfg w a = Val b <-> simplest (nightly cfg) w a b).
        { rewrite Forall_forall in *. intros a Ha b. apply Hargs; auto. }
        clear Hargs Hn. revert l'. induction args as [|a l IH]; intro l'; split; intro H; inversion H; subst; constructor;
          try (apply HE; [left; reflexivity|assumption]); try (apply IH; [intros; apply HE; now right|assumption]). }
      split.
      + intro H. destruct (map_out (simplify cfg w) args) as [args'|] eqn:Em; cbn [bind_out] in H; [|discriminate H].
        apply call_iff in H. destruct H as [[vs [v [-> [Ev ->]]]]|[Hnn ->]].
        * eapply SI_call; eauto. now apply Hall.
        * apply SI_arguments; auto. now apply Hall.
      + intro H. inversion H; subst; match goal with K : all_simplest _ _ _ _ |- _ => apply Hall in K; rewrite K end; cbn [bind_out]; apply call_iff.
        * left; eauto.
        * right; eauto.
    - cbn. split; [intro H; injection H as <-; constructor|intro H; inversion H; reflexivity].
  Qed.

  Lemma for_no_bf : forall x v e e', no_bf e -> el_simplify_for cfg w x v e = Val e' -> no_bf e'.
  Proof.
    intros x v. induction e as [n|op l r IHl IHr|op e IHe|f args Hargs|y] using element_ind'; intros e' Hn H.
    - cbn in H. injection H as <-. exact Hn.
    - cbn [el_simplify_for] in H. destruct Hn as [Hop [Hl Hr]].
      destruct (el_simplify_for cfg w x v l) as [l'|] eqn:El; cbn [bind_out] in H; [|discriminate H].
      destruct (el_simplify_for cfg w x v r) as [r'|] eqn:Er; cbn [bind_out] in H; [|discriminate H].
      eapply simplify_no_bf; [|exact H]. cbn [no_bf]. eauto.
    - cbn [el_simplify_for] in H. destruct (el_simplify_for cfg w x v e) as [a|] eqn:Ea; cbn [bind_out] in H; [|discriminate H].
      eapply simplify_no_bf; [|exact H]. cbn [no_bf] in *. eauto.
    - cbn [el_simplify_for] in H. destruct (map_out _ args) as [args'|] eqn:Em; cbn [bind_out] in H; [|discriminate H].
      eapply simplify_no_bf; [|exact H]. apply no_bf_call in Hn. apply no_bf_call.
      eapply map_out_all with (P := fun a => no_bf a /\ forall e', no_bf a -> el_simplify_for cfg w x v a = Val e' -> no_bf e'); [| |exact Em].
      * intros a b [Ha1 Ha2] E. eauto.
      * rewrite Forall_forall in Hargs, Hn. rewrite Forall_forall. intros a Ha. split; [now apply Hn|]. intros e1. now apply Hargs.
    - cbn in H. destruct (String.eqb y x); injection H as <-; exact I.
  Qed.

  Theorem simplify_for_iff : forall x v e e', no_bf e ->
    (el_simplify_for cfg w x v e = Val e' <-> simplest_for (nightly cfg) w x v e e').
  Proof.
    intros x v. induction e as [n|op l r IHl IHr|op e IHe|f args Hargs|y] using element_ind'; intros e' Hn.
    - cbn. split; [intro H; injection H as <-; constructor|intro H; inversion H; reflexivity].
    - destruct Hn as [Hop [Hl Hr]]. cbn [el_simplify_for]. split.
      + intro H. destruct (el_simplify_for cfg w x v l) as [l'|] eqn:El; cbn [bind_out] in H; [|discriminate H].
        destruct (el_simplify_for cfg w x v r) as [r'|] eqn:Er; cbn [bind_out] in H; [|discriminate H].
        pose proof (for_no_bf _ _ _ _ Hl El). pose proof (for_no_bf _ _ _ _ Hr Er).
        eapply SF_operation; [now apply IHl|now apply IHr|]. apply simplify_iff; [cbn [no_bf]; auto|exact H].
      + intro H. inversion H as [| | |? ? ? l' r' ? Sl Sr B| |]; subst.
        apply IHl in Sl; auto. apply IHr in Sr; auto. rewrite Sl, Sr. cbn [bind_out].
        apply simplify_iff; [|exact B]. cbn [no_bf]. eauto using for_no_bf.
    - cbn [el_simplify_for]. cbn [no_bf] in Hn. split.
      + intro H. destruct (el_simplify_for cfg w x v e) as [a|] eqn:Ea; cbn [bind_out] in H; [|discriminate H].
        eapply SF_sign; [now apply IHe|]. apply simplify_iff; [|exact H]. cbn [no_bf]. eauto using for_no_bf.
      + intro H. inversion H as [| | | |? ? a' ? Sa B|]; subst. apply IHe in Sa; auto. rewrite Sa. cbn [bind_out].
        apply simplify_iff; [|exact B]. cbn [no_bf]. eauto using for_no_bf.
    - cbn [el_simplify_for]. apply no_bf_call in Hn.
      assert (Hall : forall l', map_out (el_simplify_for cfg w x v) args = Val l' <-> all_simplest_for (nightly cfg) w x v args l').
      { intro l'. rewrite map_out_iff, all_simplest_for_iff.
        assert (HE : forall a, In a args -> forall b, el_simplify_for cfg w x v a = Val b <-> simplest_for (nightly cfg) w x v a b).
        { rewrite Forall_forall in *. intros a Ha b. apply Hargs; auto. }
        clear Hargs Hn. revert l'. induction args as [|a l IH]; intro l'; split; intro H; inversion H; subst; constructor;
          try (apply HE; [left; reflexivity|assumption]); try (apply IH; [intros; apply HE; now right|assumption]). }
      assert (Hno : forall l', map_out (el_simplify_for cfg w x v) args = Val l' -> no_bf (Call f l')).
      { intros l' Em. apply no_bf_call. eapply map_out_all with (P := no_bf); [|exact Hn|exact Em]. intros; eauto using for_no_bf. }
      split.
      + intro H. destruct (map_out (el_simplify_for cfg w x v) args) as [args'|] eqn:Em; cbn [bind_out] in H; [|discriminate H].
        eapply SF_call; [now apply Hall|]. apply simplify_iff; auto.
      + intro H. inversion H as [| | | | |? ? args' ? Sa B]; subst. apply Hall in Sa. rewrite Sa. cbn [bind_out].
        apply simplify_iff; auto.
    - cbn. destruct (String.eqb_spec y x) as [->|Hne]; split; intro H.
      + injection H as <-. constructor.
      + inversion H; subst; congruence.
      + injection H as <-. now constructor.
      + inversion H; subst; congruence.
  Qed.
End I.
