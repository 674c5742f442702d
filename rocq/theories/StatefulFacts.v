(** * Facts about code that calls functions with a state *)
From Coq Require Import ZArith NArith List String Ascii Bool Lia.
From Verif Require Import SpecChars CharFacts.
From Verif Require Import F64 Syntax Factorial Builtins Context Element Parser Xprs ParserFacts TreeFacts.
From Verif Require Import SpecTree SpecTokens SpecGrammar TokenFacts TokenParser TokenSim GrammarFacts Stateful SpecStateful.
Import ListNotations.
Local Open Scope nat_scope.

(** ** Functions that ignore the history *)
Section Pure.
  Variable w : world.
  Variable b : behaviour.
  Hypothesis Hb : forall h id args, b h id args = user_fn w id args.

  Definition agrees {A} (x : act A) (y : out A) : Prop := forall h, fst (x h) = y.

  Lemma agrees_ret : forall A (a : A), agrees (aret a) (Val a).
  Proof. intros A a h. reflexivity. Qed.
  Lemma agrees_lift : forall A (a : out A), agrees (alift a) a.
  Proof. intros A a h. reflexivity. Qed.
  Lemma agrees_bind : forall A B (x : act A) y (f : A -> act B) g, agrees x y ->
    (forall a, agrees (f a) (g a)) -> agrees (abind x f) (match y with Val a => g a | Boom p => Boom p end).
  Proof.
    intros A B x y f g Hx Hf h. unfold abind. specialize (Hx h). destruct (x h) as [[a|p] h'']; cbn in Hx; subst y; auto.
    apply Hf.
  Qed.

  Lemma agrees_call : forall f args, agrees (call_function_s w b f args) (call_function w f args).
  Proof.
    intros f args h. unfold call_function_s, call_function, call_ptr.
    destruct (fn_ptr f); cbn; auto; now rewrite Hb.
  Qed.

  Lemma agrees_map : forall A B (f : A -> act B) g l, Forall (fun a => agrees (f a) (g a)) l ->
    agrees (map_act f l) (map_out g l).
  Proof.
    intros A B f g l H. induction H as [|a l Ha Hl IH]; [apply agrees_ret|].
    cbn [map_act map_out]. apply (agrees_bind _ _ _ _ _ _ Ha). intro a'.
    apply (agrees_bind _ _ _ _ _ _ IH). intro l'. apply agrees_ret.
  Qed.

  Lemma agrees_simplify : forall cfg e, agrees (simplify_s w b cfg e) (simplify cfg w e).
  Proof.
    intros cfg e. induction e as [n|op l r IHl IHr|op e IHe|f args Hargs|y] using element_ind'; cbn [simplify_s simplify].
    - apply agrees_ret.
    - apply (agrees_bind _ _ _ _ _ _ IHl). intro l'. apply (agrees_bind _ _ _ _ _ _ IHr). intro r'. apply agrees_lift.
    - apply (agrees_bind _ _ _ _ _ _ IHe). intro e'. apply agrees_lift.
    - apply (agrees_bind _ _ _ _ _ _ (agrees_map _ _ _ _ _ Hargs)). intro args'. unfold simplify_call_s, simplify_call.
      destruct (Nat.eqb _ _); [|apply agrees_ret]. apply (agrees_bind _ _ _ _ _ _ (agrees_call _ _)). intro v. apply agrees_ret.
    - apply agrees_ret.
  Qed.

  Lemma agrees_simplify_for : forall cfg x v e, agrees (el_simplify_for_s w b cfg x v e) (el_simplify_for cfg w x v e).
  Proof.
    intros cfg x v e. induction e as [n|op l r IHl IHr|op e IHe|f args Hargs|y] using element_ind';
      cbn [el_simplify_for_s el_simplify_for].
    - apply agrees_ret.
    - apply (agrees_bind _ _ _ _ _ _ IHl). intro l'. apply (agrees_bind _ _ _ _ _ _ IHr). intro r'. apply agrees_simplify.
    - apply (agrees_bind _ _ _ _ _ _ IHe). intro e'. apply agrees_simplify.
    - apply (agrees_bind _ _ _ _ _ _ (agrees_map _ _ _ _ _ Hargs)). intro args'. apply agrees_simplify.
    - destruct (String.eqb y x); apply agrees_ret.
  Qed.

  Lemma agrees_multiple : forall cfg l x, agrees (simplify_for_multiple_s w b cfg x l) (simplify_for_multiple cfg w x l).
  Proof.
    intros cfg l x. unfold simplify_for_multiple, simplify_for_multiple_in_place.
    generalize (root x) at 1 as orig. revert x.
    induction l as [|[y v] l IH]; intros x orig; cbn [simplify_for_multiple_s simplify_multiple_loop].
    - destruct x. apply agrees_ret.
    - intro h. cbn [fst snd]. unfold abind. pose proof (agrees_simplify_for cfg y v (root x) h) as Hs.
      destruct (el_simplify_for_s _ _ _ _ _ _ _) as [[e|p] h'] eqn:E; cbn in Hs; rewrite <- Hs.
      + exact (IH (mk_xprs e (set_remove y (vars x))) orig h').
      + reflexivity.
  Qed.

  Lemma agrees_eval : forall rho e, agrees (eval_element_s w b rho e) (eval_element w rho e).
  Proof.
    intros rho e. induction e as [n|op l r IHl IHr|op e IHe|f args Hargs|y] using element_ind';
      cbn [eval_element_s eval_element].
    - apply agrees_ret.
    - intro h. unfold ebind_s, ebind, abind. specialize (IHl h). destruct (eval_element_s _ _ _ l h) as [[[x|m]|p] h1]; cbn in IHl; rewrite <- IHl; auto.
      specialize (IHr h1). destruct (eval_element_s _ _ _ r h1) as [[[x'|m']|p'] h2]; cbn in IHr; rewrite <- IHr; auto.
    - intro h. unfold ebind_s, ebind, abind. specialize (IHe h). destruct (eval_element_s _ _ _ e h) as [[[x|m]|p] h1]; cbn in IHe; rewrite <- IHe; auto.
    - assert (Hm : agrees (map_eval_s (eval_element_s w b rho) args) (map_eval (eval_element w rho) args)).
      { induction Hargs as [|a l Ha Hl IH]; intro h; [reflexivity|]. cbn [map_eval_s map_eval]. unfold abind.
        specialize (Ha h). destruct (eval_element_s _ _ _ a h) as [[[x|m]|p] h1]; cbn in Ha; rewrite <- Ha; auto.
        specialize (IH h1). destruct (map_eval_s _ l h1) as [[[x'|m']|p'] h2]; cbn in IH; rewrite <- IH; auto. }
      intro h. unfold abind. specialize (Hm h). destruct (map_eval_s _ args h) as [[[vs|m]|p] h1]; cbn in Hm; rewrite <- Hm; auto.
      pose proof (agrees_call f vs h1) as Hc. destruct (call_function_s _ _ _ _ _) as [[v|p] h2]; cbn in Hc; rewrite <- Hc; auto.
    - destruct (sget y rho); apply agrees_ret.
  Qed.

  Lemma agrees_eval_unchecked : forall rho e, agrees (eval_unchecked_element_s w b rho e) (eval_element_unchecked w rho e).
  Proof.
    intros rho e. induction e as [n|op l r IHl IHr|op e IHe|f args Hargs|y] using element_ind';
      cbn [eval_unchecked_element_s eval_element_unchecked].
    - apply agrees_ret.
    - apply (agrees_bind _ _ _ _ _ _ IHl). intro l'. apply (agrees_bind _ _ _ _ _ _ IHr). intro r'. apply agrees_lift.
    - apply (agrees_bind _ _ _ _ _ _ IHe). intro e'. apply agrees_lift.
    - apply (agrees_bind _ _ _ _ _ _ (agrees_map _ _ _ _ _ Hargs)). intro vs. apply agrees_call.
    - apply agrees_lift.
  Qed.
End Pure.

(** ** The parser, when the simplification at the end of [element] agrees *)
Section PureParser.
  Variable cfg : config.
  Variable w : world.
  Variable b : behaviour.
  Variable ctx : context.
  Variable input : string.
  Variable quiet : Prop.
  Hypothesis Hfin : forall el h, fst (finish_element_s cfg w b el h) = finish_element cfg w el /\
    (quiet -> snd (finish_element_s cfg w b el h) = h).

  Definition pagrees {A} (x : pact A) (y : pres A) : Prop := forall h, fst (x h) = y /\ (quiet -> snd (x h) = h).

  Lemma pagrees_give : forall A (r : pres A), pagrees (pgive r) r.
  Proof. intros A r h. split; auto. Qed.
  Lemma pagrees_bind : forall A B (x : pact A) y (f : A -> nat -> pact B) g, pagrees x y ->
    (forall a c, pagrees (f a c) (g a c)) -> pagrees (pbind_s x f) (pbind y g).
  Proof.
    intros A B x y f g Hx Hf h. unfold pbind_s, pbind. destruct (Hx h) as [Ha Hq].
    destruct (x h) as [[a c|e c|p|] h']; cbn in Ha, Hq; subst y; cbn; auto.
    destruct (Hf a c h') as [Hfa Hfq]. split; auto. intro q. now rewrite (Hfq q), (Hq q).
  Qed.

  Section Open.
    Variable elem_s : nat -> nat -> pact element.
    Variable elem : nat -> nat -> pres element.
    Hypothesis He : forall p c, pagrees (elem_s p c) (elem p c).

    Lemma pagrees_loop : forall n p el c,
      pagrees (binop_loop_s cfg input elem_s n p el c) (binop_loop cfg input elem n p el c).
    Proof.
      induction n as [|n IH]; intros p el c; cbn [binop_loop_s binop_loop]; [apply pagrees_give|].
      destruct (get_operator_infos cfg input el p c) as [[[op k]|] c']; [|apply pagrees_give].
      apply pagrees_bind; auto.
    Qed.

    Lemma pagrees_argument : forall c, pagrees (argument_s cfg input elem_s c) (argument cfg input elem c).
    Proof.
      intros c h. unfold argument_s, argument. destruct (He NO_PRECEDENCE c h) as [Ha Hq].
      destruct (elem_s NO_PRECEDENCE c h) as [[a c'|e c'|p|] h']; cbn in Ha, Hq; rewrite <- Ha; cbn; auto.
      destruct (pe_kind e); cbn; auto.
    Qed.

    Lemma pagrees_arguments : forall n args c,
      pagrees (parse_arguments_s cfg input elem_s n args c) (parse_arguments cfg input elem n args c).
    Proof.
      induction n as [|n IH]; intros args c; cbn [parse_arguments_s parse_arguments]; [apply pagrees_give|].
      apply pagrees_bind; [apply pagrees_argument|]. intros a c1. cbv zeta. destruct (next_trim input c1) as [[tok|] c2]; [|apply pagrees_give].
      destruct (Ascii.eqb tok ","); [apply IH|]. destruct (Ascii.eqb tok ")"); apply pagrees_give.
    Qed.

    Lemma pagrees_identifier : forall n c,
      pagrees (parse_identifier_s cfg ctx input elem_s n c) (parse_identifier cfg ctx input elem n c).
    Proof.
      intros n c. unfold parse_identifier_s, parse_identifier. cbv zeta.
      destruct (resolve ctx _) as [f|v|x]; try apply pagrees_give.
      destruct (consume_if_eq input "(" _) as [[] c1]; [|apply pagrees_give].
      apply pagrees_bind; [apply pagrees_arguments|]. intros args c2. apply pagrees_bind; [apply pagrees_give|].
      intros _ c3. apply pagrees_give.
    Qed.

    Lemma pagrees_atom : forall n c, pagrees (atom_s cfg ctx input elem_s n c) (atom cfg ctx input elem n c).
    Proof.
      intros n c. unfold atom_s, atom. destruct (next_trim input c) as [[x|] c0]; [|apply pagrees_give].
      destruct (is_digit x || Ascii.eqb x "."); [apply pagrees_give|].
      destruct (is_alpha x); [apply pagrees_identifier|].
      destruct (Ascii.eqb x "+"); [apply pagrees_bind; auto; intros; apply pagrees_give|].
      destruct (Ascii.eqb x "-"); [apply pagrees_bind; auto; intros; apply pagrees_give|].
      destruct (Ascii.eqb x "("); [apply pagrees_bind; auto; intros; apply pagrees_bind; intros; apply pagrees_give|].
      destruct (Ascii.eqb x ")"); apply pagrees_give.
    Qed.
  End Open.

  Lemma pagrees_element : forall n p c, pagrees (element_at_s cfg w b ctx input n p c) (element_at cfg w ctx input n p c).
  Proof.
    induction n as [|n IH]; intros p c; cbn [element_at_s element_at]; [apply pagrees_give|].
    apply pagrees_bind; [now apply pagrees_atom|]. intros el c1. destruct (consume_if_eq input "!" c1) as [bang c2].
    cbv zeta. apply pagrees_bind; [now apply pagrees_loop|]. intros el' c3 h. destruct (Hfin el' h) as [Ha Hq].
    destruct (finish_element_s cfg w b el' h) as [o h']. cbn in *. subst o. auto.
  Qed.

  Lemma parse_agrees : forall h, fst (parse_s cfg w b ctx input h) = parse cfg w ctx input /\
    (quiet -> snd (parse_s cfg w b ctx input h) = h).
  Proof.
    intro h. unfold parse_s, parse.
    assert (Hp : pagrees (parse_impl_s cfg w b ctx input) (parse_impl cfg w ctx input)).
    { unfold parse_impl_s, parse_impl. apply pagrees_bind; [apply pagrees_element|]. intros r c.
      destruct (next_trim input c) as [[tok|] c']; apply pagrees_give. }
    destruct (Hp h) as [Ha Hq]. destruct (parse_impl_s cfg w b ctx input h) as [[[r vs] c|e c|p|] h']; cbn in Ha, Hq; rewrite <- Ha; cbn; auto.
  Qed.
End PureParser.

(** ** Sub-multisets *)
Lemma part_refl : forall a, part_of a a.
Proof. intros a x. lia. Qed.
Lemma part_nil : forall a, part_of [] a.
Proof. intros a x. cbn. lia. Qed.
Lemma part_trans : forall a b c, part_of a b -> part_of b c -> part_of a c.
Proof. intros a b c H K x. specialize (H x). specialize (K x). lia. Qed.
Lemma part_app : forall a b c d, part_of a b -> part_of c d -> part_of (a ++ c) (b ++ d).
Proof. intros a b c d H K x. specialize (H x). specialize (K x). rewrite !count_occ_app. lia. Qed.
Lemma part_left : forall a b c, part_of a b -> part_of a (b ++ c).
Proof. intros a b c H x. specialize (H x). rewrite count_occ_app. lia. Qed.
Lemma part_right : forall a b c, part_of a c -> part_of a (b ++ c).
Proof. intros a b c H x. specialize (H x). rewrite count_occ_app. lia. Qed.
Lemma part_cut : forall a b c, part_of (a ++ b) c -> part_of a c.
Proof. intros a b c H x. specialize (H x). rewrite count_occ_app in H. lia. Qed.
Lemma part_comm : forall a b, part_of (a ++ b) (b ++ a).
Proof. intros a b x. rewrite !count_occ_app. lia. Qed.

Lemma who_app : forall a b, who (a ++ b) = who a ++ who b.
Proof. intros. apply map_app. Qed.

(** ** What a piece of code calls *)
Section Account.
  Variable w : world.
  Variable b : behaviour.

  (** started with the calls [have] at its disposal, the code calls some of
      them and leaves some of the rest in its result *)
  Definition spends {A} (left_in : A -> list nat) (have : list nat) (x : act A) : Prop := forall h,
    exists ran, snd (x h) = h ++ ran /\
      match fst (x h) with
      | Val a => part_of (who ran ++ left_in a) have
      | Boom _ => part_of (who ran) have
      end.

  Lemma spends_ret : forall A (k : A -> list nat) have a, part_of (k a) have -> spends k have (aret a).
  Proof. intros A k have a H h. exists []. cbn. now rewrite app_nil_r. Qed.
  Lemma spends_lift : forall A (k : A -> list nat) have a, (forall v, a = Val v -> part_of (k v) have) -> spends k have (alift a).
  Proof.
    intros A k have a H h. exists []. cbn. rewrite app_nil_r. split; auto. destruct a as [v|p]; cbn; auto using part_nil.
  Qed.
  (** what is at hand splits into what the first part uses and what the second does *)
  Lemma spends_bind : forall A B (k : A -> list nat) (k' : B -> list nat) have more x (f : A -> act B),
    spends k have x -> (forall a, spends k' (k a ++ more) (f a)) -> spends k' (have ++ more) (abind x f).
  Proof.
    intros A B k k' have more x f Hx Hf h. destruct (Hx h) as [ran [E Hr]]. unfold abind.
    destruct (x h) as [[a|p] h1]; cbn in E, Hr; subst h1.
    - destruct (Hf a (h ++ ran)) as [ran' [E' Hr']]. exists (ran ++ ran'). rewrite E', app_assoc. split; auto.
      rewrite who_app. destruct (fst (f a (h ++ ran))) as [v|p].
      + rewrite <- app_assoc. eapply part_trans; [apply (part_app _ _ _ _ (part_refl (who ran)) Hr')|].
        rewrite app_assoc. apply part_app; [exact Hr|apply part_refl].
      + eapply part_trans; [apply (part_app _ _ _ _ (part_refl (who ran)) Hr')|].
        rewrite app_assoc. apply part_app; [exact Hr|apply part_refl].
    - exists ran. split; auto. apply part_left. exact Hr.
  Qed.
  Lemma spends_bind0 : forall A B (k : A -> list nat) (k' : B -> list nat) have x (f : A -> act B),
    spends k have x -> (forall a, spends k' (k a) (f a)) -> spends k' have (abind x f).
  Proof.
    intros A B k k' have x f Hx Hf. rewrite <- (app_nil_r have). apply (spends_bind _ _ k); auto.
    intro a. now rewrite app_nil_r.
  Qed.
  Lemma spends_weaken : forall A (k : A -> list nat) have have' x, part_of have have' -> spends k have x -> spends k have' x.
  Proof.
    intros A k have have' x Hp Hx h. destruct (Hx h) as [ran [E Hr]]. exists ran. split; auto.
    destruct (fst (x h)); eapply part_trans; eauto.
  Qed.

  Definition nothing {A} (_ : A) : list nat := [].
  Definition in_list (l : list element) : list nat := flat_map calls_of l.

  Lemma spends_call : forall f args, spends nothing (user_id f) (call_function_s w b f args).
  Proof.
    intros f args h. unfold call_function_s, user_id, nothing. destruct (fn_ptr f) as [bi|id|id]; cbn.
    - exists []. cbn. rewrite app_nil_r. split; auto. destruct (call_function w f args); apply part_refl.
    - exists [(id, args)]. split; auto. destruct (b h id args); apply part_refl.
    - exists [(id, args)]. split; auto. destruct (b h id args); apply part_refl.
  Qed.

  Lemma spends_map : forall A (f : A -> act element) (k : A -> list nat) l,
    Forall (fun a => spends calls_of (k a) (f a)) l ->
    spends in_list (flat_map k l) (map_act f l).
  Proof.
    intros A f k l H. induction H as [|a l Ha Hl IH]; [apply spends_ret, part_nil|].
    cbn [map_act flat_map]. apply (spends_bind _ _ calls_of); [exact Ha|]. intro a'.
    apply spends_weaken with (flat_map k l ++ calls_of a').
    { apply part_comm. }
    apply (spends_bind _ _ in_list); [exact IH|]. intro l'. apply spends_ret.
    cbn. apply part_comm.
  Qed.

  (** the rewrites keep at most the calls of the operands *)
  Lemma binop_calls : forall cfg op l r e, simplify_binop cfg w op l r = Val e ->
    part_of (calls_of e) (calls_of l ++ calls_of r).
  Proof.
    assert (Hfold : forall op l r e, fold_binop w op l r = Val e -> part_of (calls_of e) (calls_of l ++ calls_of r)).
    { intros op l r e H. unfold fold_binop in H.
      assert (Hk : Val (BinOp op l r) = Val e -> part_of (calls_of e) (calls_of l ++ calls_of r)).
      { intro K. injection K as <-. apply part_refl. }
      destruct l as [x| | | |]; auto. destruct r as [y| | | |]; auto.
      destruct (apply_binop w op x y); [|discriminate H]. injection H as <-. apply part_nil. }
    assert (Hif : forall a c x y l r e, (x = Val e -> part_of (calls_of e) (calls_of l ++ calls_of r)) ->
      (y = Val e -> part_of (calls_of e) (calls_of l ++ calls_of r)) ->
      if_eq a c x y = Val e -> part_of (calls_of e) (calls_of l ++ calls_of r)).
    { intros a c x y l r e Hx Hy H. unfold if_eq in H. destruct (el_eq a c) as [[]|]; auto. discriminate H. }
    assert (Hnum : forall n l r e, Val (Number n) = Val e -> part_of (calls_of e) (calls_of l ++ calls_of r)).
    { intros n l r e H. injection H as <-. apply part_nil. }
    assert (Hl : forall l r e, Val l = Val e -> part_of (calls_of e) (calls_of l ++ calls_of r)).
    { intros l r e H. injection H as <-. apply part_left, part_refl. }
    assert (Hr : forall l r e, Val r = Val e -> part_of (calls_of e) (calls_of l ++ calls_of r)).
    { intros l r e H. injection H as <-. apply part_right, part_refl. }
    intros cfg op l r e. unfold simplify_binop. destruct op.
    - destruct (is_number l fzero); eauto. destruct (is_number r fzero); eauto. cbv zeta.
      assert (Ht := Hfold Plus l r e). destruct (nightly cfg); auto.
      assert (H2 : match r with UnOp Minus operand => if_eq l operand (Val (Number fzero)) (fold_binop w Plus l r) | _ => fold_binop w Plus l r end = Val e ->
        part_of (calls_of e) (calls_of l ++ calls_of r)).
      { destruct r as [|o' l0 r0|o' e'|f' a'|y']; auto. destruct o'; auto. apply Hif; eauto. }
      destruct l as [|o' l0 r0|o' e'|f' a'|y']; auto. destruct o'; auto. apply Hif; eauto.
    - destruct (is_number l fzero); [intro H; injection H as <-; apply part_right, part_refl|].
      destruct (is_number r fzero); eauto. apply Hif; eauto.
      destruct r as [|o' l0 r0|o' e'|f' a'|y']; eauto. destruct o'; eauto. destruct (nightly cfg); eauto.
      intro H. injection H as <-. apply part_refl.
    - destruct (is_number l fzero); eauto. destruct (is_number r fzero); eauto.
      destruct (is_number l fone); eauto. destruct (is_number r fone); eauto.
      destruct l as [|o' l0 r0|o' e'|f' a'|y']; eauto. destruct o'; eauto.
      destruct r as [|o' l0 r0|o' e''|f' a'|y']; eauto. destruct o'; eauto. destruct (nightly cfg); eauto.
      intro H. injection H as <-. apply part_refl.
    - destruct (is_number l fzero && is_number r fzero); eauto. destruct (is_number l fzero); eauto. destruct (is_number r fzero); eauto.
      destruct (is_number r fone); eauto. apply Hif; eauto. cbv zeta.
      destruct l as [|o' l0 r0|o' e'|f' a'|y']; eauto. destruct o'; eauto.
      destruct r as [|o' l0 r0|o' e''|f' a'|y']; eauto. destruct o'; eauto. destruct (nightly cfg); eauto.
      intro H. injection H as <-. apply part_refl.
    - destruct (is_number l fzero && is_number r fzero); eauto. destruct (is_number l fzero); eauto.
      destruct (is_number r fone); eauto.
    - destruct (is_number l fzero && is_number r fzero); eauto. destruct (is_number l fzero); eauto. destruct (is_number r fzero); eauto.
      destruct (is_number r fone); eauto.
    - apply Hfold.
  Qed.

  Lemma unop_calls : forall op e e', simplify_unop op e = Val e' -> part_of (calls_of e') (calls_of e).
  Proof.
    intros op e e' H. destruct op; cbn in H; try discriminate H.
    - injection H as <-. apply part_refl.
    - destruct e; injection H as <-; first [apply part_refl|apply part_nil].
    - destruct e; injection H as <-; first [apply part_refl|apply part_nil].
  Qed.

  Lemma spends_simplify_call : forall f args, spends calls_of (in_list args ++ user_id f) (simplify_call_s w b f args).
  Proof.
    intros f args. unfold simplify_call_s. destruct (Nat.eqb _ _).
    - apply spends_weaken with (user_id f); [apply part_right, part_refl|].
      apply (spends_bind0 _ _ nothing); [apply spends_call|]. intro v. apply spends_ret. apply part_refl.
    - apply spends_ret. apply part_refl.
  Qed.

  Lemma spends_simplify : forall cfg e, spends calls_of (calls_of e) (simplify_s w b cfg e).
  Proof.
    intros cfg e. induction e as [n|op l r IHl IHr|op e IHe|f args Hargs|y] using element_ind'; cbn [simplify_s calls_of].
    - apply spends_ret, part_refl.
    - apply (spends_bind _ _ calls_of); [exact IHl|]. intro l'. apply spends_weaken with (calls_of r ++ calls_of l').
      { apply part_comm. }
      apply (spends_bind _ _ calls_of); [exact IHr|]. intro r'. apply spends_lift. intros e He.
      apply binop_calls in He. eapply part_trans; [exact He|]. apply part_comm.
    - apply (spends_bind0 _ _ calls_of); [exact IHe|]. intro e'. apply spends_lift. apply unop_calls.
    - apply (spends_bind _ _ in_list); [apply (spends_map _ _ calls_of); exact Hargs|]. intro args'. apply spends_simplify_call.
    - apply spends_ret, part_refl.
  Qed.

  Lemma spends_simplify_for : forall cfg x v e, spends calls_of (calls_of e) (el_simplify_for_s w b cfg x v e).
  Proof.
    intros cfg x v e. induction e as [n|op l r IHl IHr|op e IHe|f args Hargs|y] using element_ind'; cbn [el_simplify_for_s calls_of].
    - apply spends_ret, part_refl.
    - apply (spends_bind _ _ calls_of); [exact IHl|]. intro l'. apply spends_weaken with (calls_of r ++ calls_of l').
      { apply part_comm. }
      apply (spends_bind _ _ calls_of); [exact IHr|]. intro r'.
      apply spends_weaken with (calls_of (BinOp op l' r')); [|apply spends_simplify].
      cbn. apply part_comm.
    - apply (spends_bind0 _ _ calls_of); [exact IHe|]. intro e'. apply (spends_simplify cfg (UnOp op e')).
    - apply (spends_bind _ _ in_list); [apply (spends_map _ _ calls_of); exact Hargs|]. intro args'. apply (spends_simplify cfg (Call f args')).
    - destruct (String.eqb y x); apply spends_ret, part_refl.
  Qed.

  Lemma spends_multiple : forall cfg l x, spends (fun y => calls_of (root y)) (calls_of (root x)) (simplify_for_multiple_s w b cfg x l).
  Proof.
    intros cfg l. induction l as [|[y v] l IH]; intro x; cbn [simplify_for_multiple_s].
    - apply spends_ret, part_refl.
    - apply (spends_bind0 _ _ calls_of); [apply spends_simplify_for|]. intro e. apply (IH (mk_xprs e _)).
  Qed.

  (** ** Evaluation *)
  Definition known (rho : smap f64) (x : string) : bool := match sget x rho with Some _ => true | None => false end.

  (** the calls of a list of arguments up to a stop, as in [calls_until_stop] *)
  Fixpoint until_in (k : string -> bool) (l : list element) : list nat :=
    match l with
    | [] => []
    | a :: l' => calls_until_stop k a ++ (if stops k a then [] else until_in k l')
    end.
  Lemma until_call : forall k f args, calls_until_stop k (Call f args) =
    until_in k args ++ (if existsb (stops k) args then [] else user_id f).
  Proof.
    intros k f args. cbn [calls_until_stop]. f_equal. induction args as [|a l IH]; cbn; auto. now rewrite IH.
  Qed.

  Lemma until_all : forall k e, stops k e = false -> calls_until_stop k e = calls_of e.
  Proof.
    intros k e. induction e as [n|op l r IHl IHr|op e IHe|f args Hargs|y] using element_ind'; intro H; try reflexivity.
    - cbn [stops] in H. apply orb_false_iff in H. destruct H as [Hl Hr]. cbn [calls_until_stop calls_of]. rewrite Hl, IHl, IHr; auto.
    - apply IHe. exact H.
    - rewrite until_call. cbn [stops] in H. rewrite H. cbn [calls_of]. f_equal.
      induction Hargs as [|a l Ha Hl IH]; auto. cbn in H. apply orb_false_iff in H. destruct H as [H1 H2].
      cbn. rewrite H1, Ha, IH; auto.
  Qed.

  Lemma until_part : forall k e, part_of (calls_until_stop k e) (calls_of e).
  Proof.
    intros k e. induction e as [n|op l r IHl IHr|op e IHe|f args Hargs|y] using element_ind'; try apply part_refl.
    - cbn [calls_until_stop calls_of]. apply part_app; auto. destruct (stops k l); auto using part_nil.
    - exact IHe.
    - rewrite until_call. cbn [calls_of]. apply part_app; [|destruct (existsb _ _); auto using part_nil, part_refl].
      induction Hargs as [|a l Ha Hl IH]; [apply part_refl|]. cbn. apply part_app; auto. destruct (stops k a); auto using part_nil.
  Qed.

  Definition made (h h' : history) (l : list nat) : Prop := exists ran, h' = h ++ ran /\ who ran = l.
  Definition made_part (h h' : history) (l : list nat) : Prop := exists ran rest, h' = h ++ ran /\ l = who ran ++ rest.
  Lemma made_nil : forall h, made h h [].
  Proof. intro h. exists []. now rewrite app_nil_r. Qed.
  Lemma made_app : forall h h1 h2 a c, made h h1 a -> made h1 h2 c -> made h h2 (a ++ c).
  Proof. intros h h1 h2 a c [r [-> <-]] [s [-> <-]]. exists (r ++ s). rewrite app_assoc, who_app. auto. Qed.
  Lemma made_then_part : forall h h1 h2 a c, made h h1 a -> made_part h1 h2 c -> made_part h h2 (a ++ c).
  Proof. intros h h1 h2 a c [r [-> <-]] [s [t [-> ->]]]. exists (r ++ s), t. rewrite !app_assoc, who_app. auto. Qed.
  Lemma part_then : forall h h1 a c, made_part h h1 a -> made_part h h1 (a ++ c).
  Proof. intros h h1 a c [s [t [-> ->]]]. exists s, (t ++ c). rewrite app_assoc. auto. Qed.
  Lemma made_made_part : forall h h1 a, made h h1 a -> made_part h h1 a.
  Proof. intros h h1 a [r [-> <-]]. exists r, []. now rewrite app_nil_r. Qed.

  Lemma call_made : forall f args h v h', call_function_s w b f args h = (v, h') -> made h h' (user_id f).
  Proof.
    intros f args h v h' H. unfold call_function_s, user_id in *. destruct (fn_ptr f) as [bi|id|id]; injection H as _ <-;
      [apply made_nil|exists [(id, args)]; auto|exists [(id, args)]; auto].
  Qed.

  Definition eval_made (rho : smap f64) (until : list nat) (stop : bool) (r : out eval_result) (h h' : history) : Prop :=
    match r with
    | Val (Eval_ok _) => stop = false /\ made h h' until
    | Val (Eval_err _) => stop = true /\ made h h' until
    | Boom _ => made_part h h' until
    end.

  Lemma eval_calls : forall rho e h r h', eval_element_s w b rho e h = (r, h') ->
    eval_made rho (calls_until_stop (known rho) e) (stops (known rho) e) r h h'.
  Proof.
    intros rho e. induction e as [n|op l r IHl IHr|op e IHe|f args Hargs|y] using element_ind'; intros h o h' H.
    - injection H as <- <-. split; auto. apply made_nil.
    - cbn [eval_element_s] in H. unfold ebind_s, abind in H. cbn [calls_until_stop stops].
      destruct (eval_element_s w b rho l h) as [[[x|m]|p] h1] eqn:El; apply IHl in El.
      + destruct El as [-> Ml]. cbn [orb].
        destruct (eval_element_s w b rho r h1) as [[[y|m]|p] h2] eqn:Er; apply IHr in Er.
        * destruct Er as [-> Mr]. cbv [alift] in H. injection H as <- <-.
          destruct (apply_binop w op x y); cbn; [split; auto|apply made_made_part]; eapply made_app; eauto.
        * destruct Er as [-> Mr]. injection H as <- <-. split; auto. eapply made_app; eauto.
        * injection H as <- <-. eapply made_then_part; eauto.
      + destruct El as [-> Ml]. injection H as <- <-. rewrite app_nil_r. split; auto.
      + injection H as <- <-. cbn in *. apply part_then. exact El.
    - cbn [eval_element_s] in H. unfold ebind_s, abind in H. cbn [calls_until_stop stops].
      destruct (eval_element_s w b rho e h) as [[[x|m]|p] h1] eqn:El; apply IHe in El.
      + cbv [alift] in H. injection H as <- <-. destruct El as [Hs M]. destruct (apply_unop op x); cbn; auto. now apply made_made_part.
      + injection H as <- <-. exact El.
      + injection H as <- <-. exact El.
    - rewrite until_call. cbn [eval_element_s] in H. unfold abind in H. cbn [stops].
      assert (Hm : forall h o h', map_eval_s (eval_element_s w b rho) args h = (o, h') ->
        match o with
        | Val (inl _) => existsb (stops (known rho)) args = false /\ made h h' (until_in (known rho) args)
        | Val (inr _) => existsb (stops (known rho)) args = true /\ made h h' (until_in (known rho) args)
        | Boom _ => made_part h h' (until_in (known rho) args)
        end).
      { clear H h o h'. induction Hargs as [|a l Ha Hl IH]; intros h o h' H.
        - injection H as <- <-. split; auto. apply made_nil.
        - cbn [map_eval_s] in H. unfold abind in H. cbn [existsb until_in].
          destruct (eval_element_s w b rho a h) as [[[x|m]|p] h1] eqn:Ea; apply Ha in Ea.
          + destruct Ea as [-> Ma]. cbn [orb]. destruct (map_eval_s (eval_element_s w b rho) l h1) as [[[vs|m]|p] h2] eqn:El; apply IH in El.
            * injection H as <- <-. destruct El as [-> Ml]. split; auto. eapply made_app; eauto.
            * injection H as <- <-. destruct El as [-> Ml]. split; auto. eapply made_app; eauto.
            * injection H as <- <-. eapply made_then_part; eauto.
          + destruct Ea as [-> Ma]. injection H as <- <-. rewrite app_nil_r. split; auto.
          + injection H as <- <-. cbn in *. apply part_then. exact Ea. }
      destruct (map_eval_s (eval_element_s w b rho) args h) as [[[vs|m]|p] h1] eqn:Em; apply Hm in Em.
      + destruct Em as [-> M]. destruct (call_function_s w b f vs h1) as [v h2] eqn:Ec. apply call_made in Ec.
        destruct v as [v|p]; injection H as <- <-; cbn; [split; auto|apply made_made_part]; eapply made_app; eauto.
      + destruct Em as [-> M]. injection H as <- <-. rewrite app_nil_r. split; auto.
      + injection H as <- <-. cbn. apply part_then. exact Em.
    - cbn [eval_element_s calls_until_stop stops] in *. unfold known. destruct (sget y rho); injection H as <- <-; split; auto; apply made_nil.
  Qed.

  (** ** Evaluation has the value of the specification *)
  Lemma binop_run : forall rho op l r x y h h1 h2 v, runs w b rho l h x h1 -> runs w b rho r h1 y h2 ->
    apply_binop w op x y = Val v -> runs w b rho (BinOp op l r) h v h2.
  Proof. intros rho op l r x y h h1 h2 v Hl Hr E. destruct op; cbn in E; try discriminate E; injection E as <-; econstructor; eauto. Qed.
  Lemma unop_run : forall rho op e x h h1 v, runs w b rho e h x h1 -> apply_unop op x = Val v -> runs w b rho (UnOp op e) h v h1.
  Proof. intros rho op e x h h1 v He E. destruct op; cbn in E; try discriminate E; injection E as <-; constructor; auto. Qed.

  Lemma eval_runs : forall rho e h v h', eval_element_s w b rho e h = (Val (Eval_ok v), h') ->
    runs w b (fun x => sget x rho) e h v h'.
  Proof.
    intros rho e. induction e as [n|op l r IHl IHr|op e IHe|f args Hargs|y] using element_ind'; intros h v h' H; cbn [eval_element_s] in H.
    - injection H as <- <-. constructor.
    - unfold ebind_s, abind in H. destruct (eval_element_s w b rho l h) as [[[x|m]|p] h1] eqn:El; try discriminate H.
      destruct (eval_element_s w b rho r h1) as [[[y|m]|p] h2] eqn:Er; try discriminate H.
      cbv [alift] in H. destruct (apply_binop w op x y) eqn:Eb; [|discriminate H]. injection H as <- <-. eapply binop_run; eauto.
    - unfold ebind_s, abind in H. destruct (eval_element_s w b rho e h) as [[[x|m]|p] h1] eqn:El; try discriminate H.
      cbv [alift] in H. destruct (apply_unop op x) eqn:Eb; [|discriminate H]. injection H as <- <-. eapply unop_run; eauto.
    - unfold abind in H. destruct (map_eval_s (eval_element_s w b rho) args h) as [[[vs|m]|p] h1] eqn:Em; try discriminate H.
      assert (Hall : runs_all w b (fun x => sget x rho) args h vs h1).
      { clear H. revert h vs Em. induction Hargs as [|a l Ha Hl IH]; intros h vs Em.
        - injection Em as <- <-. constructor.
        - cbn [map_eval_s] in Em. unfold abind in Em. destruct (eval_element_s w b rho a h) as [[[x|m]|p] h2] eqn:Ea; try discriminate Em.
          destruct (map_eval_s (eval_element_s w b rho) l h2) as [[[vs'|m]|p] h3] eqn:El; try discriminate Em.
          injection Em as <- <-. econstructor; eauto. }
      destruct (call_function_s w b f vs h1) as [[x|p] h2] eqn:Ec; [|discriminate H]. injection H as <- <-.
      unfold call_function_s, call_function in Ec. destruct (fn_ptr f) as [bi|id|id] eqn:Ef; cbn [call_ptr] in Ec.
      + injection Ec as Ev <-. eapply R_builtin; eauto.
      + destruct (b h1 id vs) eqn:Ev; [|discriminate Ec]. injection Ec as <- <-. eapply R_user; eauto. unfold user_id. now rewrite Ef.
      + destruct (b h1 id vs) eqn:Ev; [|discriminate Ec]. injection Ec as <- <-. eapply R_user; eauto. unfold user_id. now rewrite Ef.
    - destruct (sget y rho) eqn:E; [|discriminate H]. injection H as <- <-. now constructor.
  Qed.

  Scheme runs_mut := Induction for runs Sort Prop
    with runs_all_mut := Induction for runs_all Sort Prop.
  Combined Scheme runs_mutind from runs_mut, runs_all_mut.

  Lemma runs_eval_both : forall rho,
    (forall e h v h', runs w b (fun x => sget x rho) e h v h' -> eval_element_s w b rho e h = (Val (Eval_ok v), h')) /\
    (forall l h vs h', runs_all w b (fun x => sget x rho) l h vs h' -> map_eval_s (eval_element_s w b rho) l h = (Val (inl vs), h')).
  Proof.
    intro rho. apply runs_mutind; intros; cbn [eval_element_s map_eval_s]; unfold ebind_s, abind;
      repeat match goal with H : _ = (Val _, _) |- _ => rewrite H; clear H end; auto.
    - now rewrite e.
    - unfold call_function_s, call_function. rewrite e. cbn. now rewrite e0.
    - unfold call_function_s. unfold user_id in e. destruct (fn_ptr f) as [bi|i|i]; [discriminate e| |];
        injection e as ->; rewrite e0; reflexivity.
  Qed.

  Lemma unchecked_same : forall rho e h v h',
    eval_unchecked_element_s w b rho e h = (Val v, h') <-> eval_element_s w b rho e h = (Val (Eval_ok v), h').
  Proof.
    intros rho e. induction e as [n|op l r IHl IHr|op e IHe|f args Hargs|y] using element_ind'; intros h v h';
      cbn [eval_element_s eval_unchecked_element_s].
    - unfold aret. split; intro H; injection H as <- <-; reflexivity.
    - unfold ebind_s, abind. split; intro H.
      + destruct (eval_unchecked_element_s w b rho l h) as [[x|p] h1] eqn:El; [|discriminate H]. apply IHl in El. rewrite El.
        destruct (eval_unchecked_element_s w b rho r h1) as [[y|p] h2] eqn:Er; [|discriminate H]. apply IHr in Er. rewrite Er.
        cbv [alift] in *. injection H as -> <-. reflexivity.
      + destruct (eval_element_s w b rho l h) as [[[x|m]|p] h1] eqn:El; try discriminate H. apply IHl in El. rewrite El.
        destruct (eval_element_s w b rho r h1) as [[[y|m]|p] h2] eqn:Er; try discriminate H. apply IHr in Er. rewrite Er.
        cbv [alift] in *. destruct (apply_binop w op x y); [|discriminate H]. injection H as <- <-. reflexivity.
    - unfold ebind_s, abind. split; intro H.
      + destruct (eval_unchecked_element_s w b rho e h) as [[x|p] h1] eqn:El; [|discriminate H]. apply IHe in El. rewrite El.
        cbv [alift] in *. injection H as -> <-. reflexivity.
      + destruct (eval_element_s w b rho e h) as [[[x|m]|p] h1] eqn:El; try discriminate H. apply IHe in El. rewrite El.
        cbv [alift] in *. destruct (apply_unop op x); [|discriminate H]. injection H as <- <-. reflexivity.
    - assert (Hm : forall h vs h', map_act (eval_unchecked_element_s w b rho) args h = (Val vs, h') <->
        map_eval_s (eval_element_s w b rho) args h = (Val (inl vs), h')).
      { clear h v h'. induction Hargs as [|a l Ha Hl IH]; intros h vs h'; cbn [map_act map_eval_s].
        - unfold aret. split; intro H; injection H as <- <-; reflexivity.
        - unfold abind. split; intro H.
          + destruct (eval_unchecked_element_s w b rho a h) as [[x|p] h1] eqn:El; [|discriminate H]. apply Ha in El. rewrite El.
            destruct (map_act _ l h1) as [[xs|p] h2] eqn:Er; [|discriminate H]. apply IH in Er. rewrite Er.
            injection H as <- <-. reflexivity.
          + destruct (eval_element_s w b rho a h) as [[[x|m]|p] h1] eqn:El; try discriminate H. apply Ha in El. rewrite El.
            destruct (map_eval_s _ l h1) as [[[xs|m]|p] h2] eqn:Er; try discriminate H. apply IH in Er. rewrite Er.
            injection H as <- <-. reflexivity. }
      unfold abind. split; intro H.
      + destruct (map_act _ args h) as [[vs|p] h1] eqn:Em; [|discriminate H]. apply Hm in Em. rewrite Em. rewrite H. reflexivity.
      + destruct (map_eval_s _ args h) as [[[vs|m]|p] h1] eqn:Em; try discriminate H. apply Hm in Em. rewrite Em.
        destruct (call_function_s w b f vs h1) as [[x|p] h2]; [|discriminate H]. injection H as <- <-. reflexivity.
    - unfold aret, alift. destruct (sget y rho); split; intro H; try discriminate H; injection H as <- <-; reflexivity.
  Qed.
End Account.
