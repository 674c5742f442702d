(** * C58-C59: what simplification leaves *)
From Coq Require Import ZArith NArith List String Ascii Bool Lia.
From Verif Require Import F64 Syntax Factorial Builtins Context Element Parser Xprs.
From Verif Require Import SpecParse SpecTree SpecRewrite SpecApi TreeFacts SimplifyFacts ParserResults.
From Verif Require Import TestWorld PropertiesParse PropertiesSimplify.
Import ListNotations.
Local Open Scope string_scope.

(** ** Specification: something is left to simplify at the root of [e] *)
Inductive redex (cfg : config) (w : world) : element -> Prop :=
| R_operation : forall op l r e, rewrites cfg w op l r e -> e <> BinOp op l r -> redex cfg w (BinOp op l r)
| R_plus : forall a, redex cfg w (UnOp Plus a)
| R_negated_number : forall n, redex cfg w (UnOp Minus (Number n))
| R_factorial : forall n, redex cfg w (UnOp Factorial (Number n))
| R_constant_call : forall f ns, redex cfg w (Call f (map Number ns)).

(** Nothing is left to simplify in [e], except signs of numbers. *)
Definition simplified (cfg : config) (w : world) (e : element) : Prop :=
  forall s, sub s e -> redex cfg w s -> exists n, s = UnOp Minus (Number n).

(** ** Proofs *)
Lemma is_number_no : forall e v, is_number e v = false -> ~ lit_eq e v.
Proof. intros e v H Hl. apply is_number_iff in Hl. congruence. Qed.

Lemma fold_kept : forall w op l r x, fold_binop w op l r = Val x ->
  (exists n, x = Number n) \/ (x = BinOp op l r /\ forall a b, l = Number a -> r = Number b -> False).
Proof.
  intros w op l r x H. unfold fold_binop in H.
  destruct l; try (injection H as <-; right; split; [reflexivity|congruence]).
  destruct r; try (injection H as <-; right; split; [reflexivity|congruence]).
  destruct (apply_binop w op n n0); cbn in H; [|discriminate H]. injection H as <-. eauto.
Qed.

Lemma step_cases : forall cfg w op l r x, nightly cfg = false -> simplify_binop cfg w op l r = Val x ->
  (exists n, x = Number n) \/ x = l \/ x = r \/ x = UnOp Minus r \/
  (x = BinOp op l r /\ forall e, rewrites cfg w op l r e -> e = BinOp op l r).
Proof.
  intros cfg w op l r x Hn H.
  assert (Hfold : fold_binop w op l r = Val x ->
    (forall e, rewrites cfg w op l r e -> e = BinOp op l r \/ exists a b, l = Number a /\ r = Number b) ->
    (exists n, x = Number n) \/ x = l \/ x = r \/ x = UnOp Minus r \/ (x = BinOp op l r /\ forall e, rewrites cfg w op l r e -> e = BinOp op l r)).
  { intros Hf Hr. destruct (fold_kept _ _ _ _ _ Hf) as [Hx|[-> Hx]]; [auto|]. do 4 right. split; auto.
    intros e He. destruct (Hr e He) as [|[a [b [Ea Eb]]]]; [auto|]. elim (Hx _ _ Ea Eb). }
  destruct op; unfold simplify_binop in H; rewrite ?Hn in H.
  - destruct (is_number l fzero) eqn:E1; [injection H as <-; auto|]. destruct (is_number r fzero) eqn:E2; [injection H as <-; auto|].
    apply Hfold; auto. apply is_number_no in E1, E2. intros e He. inversion He; subst; try contradiction; try congruence; eauto.
  - destruct (is_number l fzero) eqn:E1; [injection H as <-; auto|]. destruct (is_number r fzero) eqn:E2; [injection H as <-; auto|].
    apply is_number_no in E1, E2. apply if_eq_inv in H. destruct H as [[Eq H]|[Eq H]]; [injection H as <-; eauto|].
    apply Hfold; [destruct r; auto; destruct op; auto|]. intros e He. inversion He; subst; try contradiction; try congruence; eauto.
  - destruct (is_number l fzero) eqn:E1; [injection H as <-; eauto|]. destruct (is_number r fzero) eqn:E2; [injection H as <-; eauto|].
    destruct (is_number l fone) eqn:E3; [injection H as <-; auto|]. destruct (is_number r fone) eqn:E4; [injection H as <-; auto|].
    apply is_number_no in E1, E2, E3, E4.
    apply Hfold; [destruct l; auto; destruct op; auto; destruct r; auto; destruct op; auto|].
    intros e He. inversion He; subst; try contradiction; try congruence; eauto.
  - destruct (is_number l fzero) eqn:E1, (is_number r fzero) eqn:E2; cbn [andb] in H; try (injection H as <-; eauto; fail).
    destruct (is_number r fone) eqn:E3; [injection H as <-; auto|]. apply is_number_no in E1, E2, E3.
    apply if_eq_inv in H. destruct H as [[Eq H]|[Eq H]]; [injection H as <-; eauto|].
    apply Hfold; [destruct l; auto; destruct op; auto; destruct r; auto; destruct op; auto|].
    intros e He. inversion He; subst; try contradiction; try congruence; eauto.
  - destruct (is_number l fzero) eqn:E1, (is_number r fzero) eqn:E2; cbn [andb] in H; try (injection H as <-; eauto; fail);
      (destruct (is_number r fone) eqn:E3; [injection H as <-; auto|]); apply is_number_no in E1, E3;
      (apply Hfold; auto; intros e He; inversion He; subst; try contradiction; try congruence; eauto).
  - destruct (is_number l fzero) eqn:E1, (is_number r fzero) eqn:E2; cbn [andb] in H; try (injection H as <-; eauto; fail).
    destruct (is_number r fone) eqn:E3; [injection H as <-; eauto|]. apply is_number_no in E1, E2, E3.
    apply if_eq_inv in H. destruct H as [[Eq H]|[Eq H]]; [injection H as <-; eauto|].
    apply Hfold; auto. intros e He. inversion He; subst; try contradiction; try congruence; eauto.
  - apply Hfold; auto. intros e He. inversion He; subst; eauto.
Qed.

Lemma number_values_all : forall args, List.length (number_values args) = List.length args <-> exists ns, args = map Number ns.
Proof.
  assert (Hle : forall args, List.length (number_values args) <= List.length args).
  { induction args as [|a args IH]; cbn; auto. destruct a; cbn; lia. }
  induction args as [|a args IH]; [split; [exists []; reflexivity|reflexivity]|]. split.
  - intro H. destruct a; cbn in H; try (pose proof (Hle args); lia). injection H as H. apply IH in H. destruct H as [ns ->].
    exists (n :: ns). reflexivity.
  - intros [[|n ns] E]; [discriminate E|]. injection E as -> ->. cbn. f_equal. apply IH. eauto.
Qed.

Lemma simplified_number : forall cfg w n, simplified cfg w (Number n).
Proof. intros cfg w n s Hs Hr. inversion Hs; subst. inversion Hr. Qed.

Lemma simplify_simplified : forall cfg w e e', nightly cfg = false -> simplify cfg w e = Val e' -> simplified cfg w e'.
Proof.
  intros cfg w e e' Hn. revert e'. induction e as [n|op l0 r0 IHe1 IHe2|op e IHe|f args Hargs0|y] using element_ind'; intros e' H; cbn [simplify] in H.
  - injection H as <-. apply simplified_number.
  - destruct (simplify cfg w l0) as [l|] eqn:El; cbn [bind_out] in H; [|discriminate H].
    destruct (simplify cfg w r0) as [r|] eqn:Er; cbn [bind_out] in H; [|discriminate H].
    specialize (IHe1 _ eq_refl). specialize (IHe2 _ eq_refl).
    destruct (step_cases _ _ _ _ _ _ Hn H) as [[n ->]|[-> |[-> |[-> |[-> Hk]]]]]; auto using simplified_number.
    + intros s Hs Hr. inversion Hs; subst; [|eauto]. inversion Hr; subst; eauto.
    + intros s Hs Hr. inversion Hs; subst; eauto. inversion Hr; subst. match goal with K : _ <> _ |- _ => elim K end. now apply Hk.
  - destruct (simplify cfg w e) as [a|] eqn:Ea; cbn [bind_out] in H; [|discriminate H]. specialize (IHe _ eq_refl).
    destruct op; cbn in H; try discriminate H.
    + injection H as <-. auto.
    + destruct a; injection H as <-; try apply simplified_number; intros s Hs Hr; inversion Hs; subst; eauto; inversion Hr.
    + destruct a; injection H as <-; try apply simplified_number; intros s Hs Hr; inversion Hs; subst; eauto; inversion Hr.
  - destruct (map_out (simplify cfg w) args) as [args'|] eqn:Ea; cbn [bind_out] in H; [|discriminate H].
    unfold simplify_call in H. destruct (Nat.eqb_spec (List.length (number_values args')) (List.length args')) as [E|E].
    + destruct (call_function w f (number_values args')); cbn in H; [|discriminate H]. injection H as <-. apply simplified_number.
    + injection H as <-.
      assert (Hall : Forall (simplified cfg w) args').
      { clear E. revert args' Ea. induction Hargs0 as [|a args Ha Hargs IH]; intros args' Ea; cbn in Ea.
        - injection Ea as <-. constructor.
        - destruct (simplify cfg w a) as [a'|] eqn:E1; cbn [bind_out] in Ea; [|discriminate Ea].
          destruct (map_out (simplify cfg w) args) as [l|] eqn:E2; cbn [bind_out] in Ea; [|discriminate Ea].
          injection Ea as <-. constructor; auto. }
      intros s Hs Hr. inversion Hs; subst.
      * inversion Hr; subst. elim E. apply number_values_all. eauto.
      * rewrite Forall_forall in Hall. eapply Hall; eauto.
  - injection H as <-. intros s Hs Hr. inversion Hs; subst. inversion Hr.
Qed.

(** A rule either keeps the operation or makes it smaller. *)
Lemma rewrites_shrink : forall cfg w op l r e, rewrites cfg w op l r e -> e = BinOp op l r \/ size e < size (BinOp op l r).
Proof. intros cfg w op l r e H. pose proof (size_pos l). pose proof (size_pos r). inversion H; subst; cbn [size] in *; auto; right; lia. Qed.

(** Where the simplifier keeps an operation, no rule changes it. *)
Lemma kept : forall cfg w op l r e, simplify_binop cfg w op l r = Val (BinOp op l r) ->
  rewrites cfg w op l r e -> e = BinOp op l r.
Proof.
  intros cfg w op l r e H Hr. destruct (rewrites_shrink _ _ _ _ _ _ Hr) as [|Hlt]; [assumption|exfalso].
  assert (Hsz : forall a, Val a = Val (BinOp op l r) -> size a < size (BinOp op l r) -> False).
  { intros a Ha. injection Ha as ->. lia. }
  assert (Hn : forall v, Val (Number v) = Val (BinOp op l r) -> False) by (intros v Hv; discriminate Hv).
  pose proof (size_pos l). pose proof (size_pos r).
  assert (Hl : Val l = Val (BinOp op l r) -> False). { intro Ha. apply (Hsz _ Ha). cbn [size]. lia. }
  assert (Hr' : Val r = Val (BinOp op l r) -> False). { intro Ha. apply (Hsz _ Ha). cbn [size]. lia. }
  unfold simplify_binop, fold_binop in H.
  inversion Hr; subst; repeat match goal with
    | K : lit_eq _ _ |- _ => apply is_number_iff in K
    | K : ~ lit_eq _ _ |- _ => apply is_number_false in K
    | K : is_number _ _ = _ |- _ => rewrite K in H
    | K : nightly cfg = true |- _ => rewrite K in H
    end; cbn [andb is_number] in H;
  repeat (match type of H with
    | (if is_number ?a ?b then _ else _) = _ => destruct (is_number a b); cbn [andb] in H
    | (if is_number ?a ?b && _ then _ else _) = _ => destruct (is_number a b); cbn [andb] in H
    end);
  try (now (eapply Hn; exact H)); try (now apply Hl); try (now apply Hr');
  try (now (apply (Hsz _ H); cbn [size]; lia));
  try (unfold if_eq in H; match goal with K : el_eq _ _ = Val true |- _ => rewrite K in H; cbn [bind_out] in H end;
       now (eapply Hn; exact H)).
  - assert (E : forall t, if_eq l a (Val (Number fzero)) t = Val (Number fzero)) by (intro t; unfold if_eq; rewrite H3; reflexivity).
    rewrite !E in H. destruct l; try (eapply Hn; exact H). destruct op; try (eapply Hn; exact H).
    apply if_eq_inv in H. destruct H as [[_ H]|[_ H]]; eapply Hn; exact H.
  - apply if_eq_inv in H. destruct H as [[_ H]|[_ H]]; [eapply Hn; exact H|discriminate H].
  - apply if_eq_inv in H. destruct H as [[_ H]|[_ H]]; [eapply Hn; exact H|].
    injection H as Ha Hb. apply (f_equal size) in Ha. cbn [size] in Ha. lia.
  - destruct op; unfold if_eq in H; cbn [el_eq bind_out apply_binop is_number] in H;
      repeat match type of H with
        | (if ?b then _ else _) = _ => destruct b; cbn [andb] in H
        | (if ?b && _ then _ else _) = _ => destruct b; cbn [andb] in H
        end; discriminate H.
  - lia.
Qed.

Lemma list_shrink : forall (args args' : list element),
  Forall2 (fun a a' => a' = a \/ size a' < size a) args args' ->
  args' = args \/ list_sum (map size args') < list_sum (map size args).
Proof.
  intros args args' H. induction H as [|a b l l' Hab H IH]; [auto|]. unfold list_sum in *. cbn [map fold_right].
  assert (fold_right Nat.add 0 (map size l') <= fold_right Nat.add 0 (map size l)) by (destruct IH as [-> | ]; lia).
  destruct Hab as [-> |]; [|right; lia]. destruct IH as [-> |]; [auto|right; lia].
Qed.

Lemma simplify_shrink : forall cfg w e e', (forall f, ~ sub (Call f []) e) -> simplify cfg w e = Val e' -> e' = e \/ size e' < size e.
Proof.
  intros cfg w. induction e as [n|op l0 r0 IHl IHr|op e IHe|f args Hargs|y] using element_ind'; intros e' Hno H; cbn [simplify] in H.
  - injection H as <-. auto.
  - destruct (simplify cfg w l0) as [l|] eqn:El; cbn [bind_out] in H; [|discriminate H].
    destruct (simplify cfg w r0) as [r|] eqn:Er; cbn [bind_out] in H; [|discriminate H].
    apply simplify_size in El, Er. specialize (IHl _ (fun f K => Hno f (sub_binl _ _ _ _ K)) eq_refl). specialize (IHr _ (fun f K => Hno f (sub_binr _ _ _ _ K)) eq_refl).
    apply simplify_binop_rewrites, rewrites_shrink in H. cbn [size] in *.
    destruct H as [-> |H]; [|right; lia]. cbn [size].
    destruct IHl as [-> |]; [|right; lia]. destruct IHr as [-> |]; [auto|right; lia].
  - destruct (simplify cfg w e) as [a|] eqn:Ea; cbn [bind_out] in H; [|discriminate H].
    apply simplify_size in Ea. specialize (IHe _ (fun f K => Hno f (sub_un _ _ _ K)) eq_refl). pose proof (size_pos a). pose proof (size_pos e). cbn [size].
    destruct op; cbn in H; try discriminate H.
    + injection H as <-. right. lia.
    + destruct a; injection H as <-; cbn [size] in *; try (right; lia);
        (destruct IHe as [<- |]; [auto|right; lia]).
    + destruct a; injection H as <-; cbn [size] in *; try (right; lia);
        (destruct IHe as [<- |]; [auto|right; lia]).
  - destruct (map_out (simplify cfg w) args) as [args'|] eqn:Ea; cbn [bind_out] in H; [|discriminate H].
    apply map_out_inv in Ea.
    assert (Hs : args' = args \/ list_sum (map size args') < list_sum (map size args)).
    { apply list_shrink. clear H.
      assert (Hno' : forall a, In a args -> forall g, ~ sub (Call g []) a) by (intros a Ha g K; apply (Hno g); econstructor; eauto).
      clear Hno. induction Ea as [|a b l l' Hab Ea IH]; constructor; apply Forall_cons_iff in Hargs.
      - apply Hargs; [|assumption]. apply Hno'. now left.
      - apply IH; [apply Hargs|]. intros c Hc. apply Hno'. now right. }
    unfold simplify_call in H. destruct (Nat.eqb_spec (List.length (number_values args')) (List.length args')) as [E|E].
    + destruct (call_function w f (number_values args')); cbn in H; [|discriminate H]. injection H as <-.
      cbn [size]. destruct args as [|a0 args]; [|right; cbn; pose proof (size_pos a0); lia].
      elim (Hno f). constructor.
    + injection H as <-. destruct Hs as [-> |Hs]; [auto|right; cbn [size]; lia].
  - injection H as <-. auto.
Qed.

Lemma map_out_fixed : forall (f : element -> out element) l, (forall a, In a l -> f a = Val a) -> map_out f l = Val l.
Proof.
  induction l as [|a l IH]; intro H; cbn; [reflexivity|]. rewrite (H a) by now left. cbn. rewrite IH; [reflexivity|].
  intros b Hb. apply H. now right.
Qed.

Lemma fixed_when_irreducible : forall cfg w e, safe w e -> (forall s, sub s e -> ~ redex cfg w s) -> simplify cfg w e = Val e.
Proof.
  intros cfg w. induction e as [n|op l r IHl IHr|op e IHe|f args Hargs|y] using element_ind'; intros Hs H; cbn [simplify].
  - reflexivity.
  - pose proof Hs as Hs0. cbn in Hs. destruct Hs as [Ho [Hl Hr]].
    rewrite IHl, IHr; auto; [|intros s K; apply H; now apply sub_binr|intros s K; apply H; now apply sub_binl]. cbn [bind_out].
    destruct (simplify_binop_val cfg w op l r) as [x Hx]; eauto using safe_no_bf. rewrite Hx. f_equal.
    apply simplify_binop_rewrites in Hx. destruct (rewrites_shrink _ _ _ _ _ _ Hx) as [|Hlt]; [assumption|].
    elim (H (BinOp op l r) (sub_refl _)). apply R_operation with x; [assumption|]. intros ->. lia.
  - cbn in Hs. rewrite IHe; [|tauto|intros s K; apply H; now apply sub_un]. cbn [bind_out].
    assert (Hr := H (UnOp op e) (sub_refl _)).
    destruct Hs as [[-> |[-> | ->]] _]; cbn.
    + elim Hr. constructor.
    + destruct e; try reflexivity. elim Hr. constructor.
    + destruct e; try reflexivity. elim Hr. constructor.
  - rewrite map_out_fixed; cbn [bind_out].
    + unfold simplify_call. destruct (Nat.eqb_spec (List.length (number_values args)) (List.length args)) as [E|E]; [|reflexivity].
      apply number_values_all in E. destruct E as [ns ->]. elim (H _ (sub_refl _)). constructor.
    + intros a Ha. rewrite Forall_forall in Hargs. apply Hargs; [assumption| |].
      * apply safe_call in Hs. destruct Hs as [_ Hs]. rewrite Forall_forall in Hs. auto.
      * intros s K. apply H. econstructor; eauto.
  - reflexivity.
Qed.

Lemma Forall2_diag : forall (R : element -> element -> Prop) l, Forall2 R l l -> forall a, In a l -> R a a.
Proof.
  induction l as [|b l IH]; intros H a Ha; [contradiction|]. inversion H; subst. destruct Ha as [<- |Ha]; auto.
Qed.

Lemma irreducible_when_fixed : forall cfg w e, (forall f, ~ sub (Call f []) e) -> simplify cfg w e = Val e ->
  forall s, sub s e -> ~ redex cfg w s.
Proof.
  intros cfg w. induction e as [n|op l r IHl IHr|op e IHe|f args Hargs|y] using element_ind'; intros Hno H s Hs Hr; cbn [simplify] in H.
  - inversion Hs; subst. inversion Hr.
  - assert (Hnl : forall f, ~ sub (Call f []) l) by (intros f K; apply (Hno f); now apply sub_binl).
    assert (Hnr : forall f, ~ sub (Call f []) r) by (intros f K; apply (Hno f); now apply sub_binr).
    destruct (simplify cfg w l) as [l'|] eqn:El; cbn [bind_out] in H; [|discriminate H].
    destruct (simplify cfg w r) as [r'|] eqn:Er; cbn [bind_out] in H; [|discriminate H].
    pose proof (simplify_binop_rewrites _ _ _ _ _ _ H) as Hw. apply rewrites_size in Hw. cbn [size] in Hw.
    pose proof (simplify_size _ _ _ _ El). pose proof (simplify_size _ _ _ _ Er).
    destruct (simplify_shrink _ _ _ _ Hnl El) as [-> |]; [|lia].
    destruct (simplify_shrink _ _ _ _ Hnr Er) as [-> |]; [|lia].
    inversion Hs; subst; [|now apply (IHl Hnl eq_refl s)|now apply (IHr Hnr eq_refl s)].
    inversion Hr; subst. match goal with K : _ <> _ |- _ => apply K end. eapply kept; eauto.
  - assert (Hne : forall f, ~ sub (Call f []) e) by (intros f K; apply (Hno f); now apply sub_un).
    destruct (simplify cfg w e) as [a|] eqn:Ea; cbn [bind_out] in H; [|discriminate H].
    pose proof (simplify_size _ _ _ _ Ea) as Hsz.
    assert (Hcase : a = e /\ ~ redex cfg w (UnOp op e)).
    { destruct op; cbn in H; try discriminate H.
      - injection H as ->. cbn [size] in Hsz. lia.
      - destruct a; try discriminate H; injection H as <-; (split; [reflexivity|intro K; inversion K]).
      - destruct a; try discriminate H; injection H as <-; (split; [reflexivity|intro K; inversion K]). }
    destruct Hcase as [-> Hcase]. inversion Hs; subst; [contradiction|]. now apply (IHe Hne eq_refl s).
  - destruct (map_out (simplify cfg w) args) as [args'|] eqn:Ea; cbn [bind_out] in H; [|discriminate H].
    unfold simplify_call in H. destruct (Nat.eqb_spec (List.length (number_values args')) (List.length args')) as [E|E].
    + destruct (call_function w f (number_values args')); cbn in H; discriminate H.
    + injection H as ->. apply map_out_inv in Ea. inversion Hs; subst.
      * inversion Hr; subst. apply E, number_values_all. eauto.
      * rewrite Forall_forall in Hargs. match goal with K : In ?b args |- _ =>
          apply (Hargs b K) with (s := s); auto; [intros g Kg; apply (Hno g); econstructor; eauto|];
          apply (Forall2_diag _ _ Ea _ K) end.
  - inversion Hs; subst. inversion Hr.
Qed.

(** *** The same for [simplify_for] on a variable that does not occur *)
Lemma args_not_free : forall x f args, ~ free x (Call f args) -> forall a, In a args -> ~ free x a.
Proof. intros x f args H a Ha Hf. apply H, free_call, Exists_exists. eauto. Qed.

Lemma for_shrink : forall cfg w x v e e', (forall f, ~ sub (Call f []) e) -> ~ free x e ->
  el_simplify_for cfg w x v e = Val e' -> e' = e \/ size e' < size e.
Proof.
  intros cfg w x v. induction e as [n|op l0 r0 IHl IHr|op e IHe|f args Hargs|y] using element_ind'; intros e' Hno Hx H; cbn [el_simplify_for] in H.
  - injection H as <-. auto.
  - assert (Hnl : forall f, ~ sub (Call f []) l0) by (intros f K; apply (Hno f); now apply sub_binl).
    assert (Hnr : forall f, ~ sub (Call f []) r0) by (intros f K; apply (Hno f); now apply sub_binr).
    destruct (el_simplify_for cfg w x v l0) as [l|] eqn:El; cbn [bind_out] in H; [|discriminate H].
    destruct (el_simplify_for cfg w x v r0) as [r|] eqn:Er; cbn [bind_out] in H; [|discriminate H].
    pose proof (el_simplify_for_size _ _ _ _ _ _ El). pose proof (el_simplify_for_size _ _ _ _ _ _ Er).
    cbn in Hx. pose proof (simplify_size _ _ _ _ H) as Hs.
    destruct (IHl _ Hnl ltac:(tauto) eq_refl) as [-> |]; [|right; cbn [size] in *; lia].
    destruct (IHr _ Hnr ltac:(tauto) eq_refl) as [-> |]; [|right; cbn [size] in *; lia].
    eapply simplify_shrink; eauto.
  - assert (Hne : forall f, ~ sub (Call f []) e) by (intros f K; apply (Hno f); now apply sub_un).
    destruct (el_simplify_for cfg w x v e) as [a|] eqn:Ea; cbn [bind_out] in H; [|discriminate H].
    pose proof (simplify_size _ _ _ _ H) as Hs.
    destruct (IHe _ Hne Hx eq_refl) as [-> |]; [|right; cbn [size] in *; lia].
    eapply simplify_shrink; eauto.
  - destruct (map_out (el_simplify_for cfg w x v) args) as [args'|] eqn:Ea; cbn [bind_out] in H; [|discriminate H].
    apply map_out_inv in Ea. pose proof (simplify_size _ _ _ _ H) as Hs.
    assert (Hc : args' = args \/ list_sum (map size args') < list_sum (map size args)).
    { apply list_shrink. pose proof (args_not_free _ _ _ Hx) as Hx'.
      assert (Hno' : forall a, In a args -> forall g, ~ sub (Call g []) a) by (intros a Ha g K; apply (Hno g); econstructor; eauto).
      clear - Ea Hx' Hno' Hargs. induction Ea as [|a b l l' Hab Ea IH]; constructor; apply Forall_cons_iff in Hargs.
      - apply Hargs; [| |assumption]; [apply Hno'|apply Hx']; now left.
      - apply IH; [apply Hargs| |]; intros c Hc; [apply Hx'|apply Hno']; now right. }
    destruct Hc as [-> |]; [eapply simplify_shrink; eauto|right; cbn [size] in *; lia].
  - cbn in Hx. destruct (String.eqb_spec y x); [congruence|]. injection H as <-. auto.
Qed.

Lemma for_fixed : forall cfg w x v e, ~ free x e -> simplify cfg w e = Val e -> (forall f, ~ sub (Call f []) e) ->
  el_simplify_for cfg w x v e = Val e.
Proof.
  intros cfg w x v. induction e as [n|op l r IHl IHr|op e IHe|f args Hargs|y] using element_ind'; intros Hx H Hno; cbn [el_simplify_for].
  - reflexivity.
  - assert (Hnl : forall f, ~ sub (Call f []) l) by (intros f K; apply (Hno f); now apply sub_binl).
    assert (Hnr : forall f, ~ sub (Call f []) r) by (intros f K; apply (Hno f); now apply sub_binr).
    pose proof H as H0. cbn [simplify] in H. cbn in Hx.
    destruct (simplify cfg w l) as [l'|] eqn:El; cbn [bind_out] in H; [|discriminate H].
    destruct (simplify cfg w r) as [r'|] eqn:Er; cbn [bind_out] in H; [|discriminate H].
    apply simplify_binop_rewrites, rewrites_size in H. cbn [size] in H.
    pose proof (simplify_size _ _ _ _ El). pose proof (simplify_size _ _ _ _ Er).
    destruct (simplify_shrink _ _ _ _ Hnl El) as [-> |]; [|lia].
    destruct (simplify_shrink _ _ _ _ Hnr Er) as [-> |]; [|lia].
    rewrite IHl, IHr by tauto. exact H0.
  - assert (Hne : forall f, ~ sub (Call f []) e) by (intros f K; apply (Hno f); now apply sub_un).
    pose proof H as H0. cbn [simplify] in H.
    destruct (simplify cfg w e) as [a|] eqn:Ea; cbn [bind_out] in H; [|discriminate H].
    pose proof (simplify_size _ _ _ _ Ea).
    assert (a = e) as ->.
    { destruct op; cbn in H; try discriminate H.
      - injection H as ->. cbn [size] in *. lia.
      - destruct a; try discriminate H; injection H as <-; reflexivity.
      - destruct a; try discriminate H; injection H as <-; reflexivity. }
    rewrite IHe; auto.
  - pose proof H as H0. cbn [simplify] in H.
    destruct (map_out (simplify cfg w) args) as [args'|] eqn:Ea; cbn [bind_out] in H; [|discriminate H].
    unfold simplify_call in H. destruct (Nat.eqb_spec (List.length (number_values args')) (List.length args')) as [E|E].
    { destruct (call_function w f (number_values args')); cbn in H; discriminate H. }
    injection H as ->. apply map_out_inv in Ea. rewrite map_out_fixed; [exact H0|].
    intros a Ha. rewrite Forall_forall in Hargs. apply Hargs; auto.
    + eapply args_not_free; eauto.
    + apply (Forall2_diag _ _ Ea _ Ha).
    + intros g Kg. apply (Hno g). econstructor; eauto.
  - cbn in Hx. destruct (String.eqb_spec y x); [congruence|reflexivity].
Qed.

Lemma fixed_for : forall cfg w x v e, ~ free x e -> el_simplify_for cfg w x v e = Val e -> (forall f, ~ sub (Call f []) e) ->
  simplify cfg w e = Val e.
Proof.
  intros cfg w x v e Hx H Hno. destruct e as [n|op l r|op a|f args|y]; cbn [el_simplify_for] in H; [reflexivity| | | |reflexivity].
  - destruct (el_simplify_for cfg w x v l) as [l'|] eqn:El; cbn [bind_out] in H; [|discriminate H].
    destruct (el_simplify_for cfg w x v r) as [r'|] eqn:Er; cbn [bind_out] in H; [|discriminate H].
    pose proof (simplify_size _ _ _ _ H) as Hs. cbn [size] in Hs. cbn in Hx.
    pose proof (el_simplify_for_size _ _ _ _ _ _ El). pose proof (el_simplify_for_size _ _ _ _ _ _ Er).
    assert (Hl : ~ free x l) by tauto. assert (Hr : ~ free x r) by tauto.
    destruct (for_shrink _ _ _ _ _ _ (fun f K => Hno f (sub_binl _ _ _ _ K)) Hl El) as [-> |]; [|lia].
    destruct (for_shrink _ _ _ _ _ _ (fun f K => Hno f (sub_binr _ _ _ _ K)) Hr Er) as [-> |]; [|lia]. exact H.
  - destruct (el_simplify_for cfg w x v a) as [a'|] eqn:Ea; cbn [bind_out] in H; [|discriminate H].
    pose proof (simplify_size _ _ _ _ H) as Hs. cbn [size] in Hs.
    destruct (for_shrink _ _ _ _ _ _ (fun f K => Hno f (sub_un _ _ _ K)) Hx Ea) as [-> |]; [|lia]. exact H.
  - destruct (map_out (el_simplify_for cfg w x v) args) as [args'|] eqn:Ea; cbn [bind_out] in H; [|discriminate H].
    pose proof (simplify_size _ _ _ _ H) as Hs. cbn [size] in Hs. apply map_out_inv in Ea.
    assert (Hc : args' = args \/ list_sum (map size args') < list_sum (map size args)).
    { apply list_shrink. pose proof (args_not_free _ _ _ Hx) as Hx'.
      assert (Hno' : forall a, In a args -> forall g, ~ sub (Call g []) a) by (intros a Ha g K; apply (Hno g); econstructor; eauto).
      clear - Ea Hx' Hno'. induction Ea as [|a b l l' Hab Ea IH]; constructor.
      - eapply for_shrink; [| |exact Hab]; [apply Hno'|apply Hx']; now left.
      - apply IH; intros c Hc; [apply Hx'|apply Hno']; now right. }
    destruct Hc as [-> |]; [exact H|lia].
Qed.

(** ** C58 *)
(** The tree of an expression parsed with compile-time optimisations, on a
    stable compiler, has nothing left to simplify, apart from the signs of
    numbers that "0 - 1" leaves behind. *)
Theorem C58_parsed_is_simplified : forall cfg w ctx input x, optimize cfg = true -> nightly cfg = false ->
  parse cfg w ctx input = Parse_ok x -> simplified cfg w (root x).
Proof.
  intros cfg w ctx input x Ho Hn H. destruct (parse_ok_inv _ _ _ _ _ H) as [c E].
  unfold parse_impl in E. change (parse_budget input) with (S (1 + String.length input)) in E. cbn [element_at] in E.
  destruct (atom _ _ _ _ _) as [el c1|e c1|p|]; cbn [pbind] in E; try discriminate E.
  destruct (consume_if_eq _ _ _) as [b c2]. destruct (binop_loop _ _ _ _ _ _ _) as [el' c3|e c3|p|]; cbn [pbind] in E; try discriminate E.
  unfold finish_element in E. rewrite Ho in E. destruct (simplify cfg w el') as [t|p] eqn:Es; cbn in E; [|discriminate E].
  destruct (current input _) as [tok|] in E; [discriminate E|].
  injection E as E _ _. subst t.
  eapply simplify_simplified; eauto.
Qed.

Theorem C58_partially_evaluated_is_simplified : forall cfg w x var x', nightly cfg = false ->
  simplify_for cfg w x var = Val x' -> simplified cfg w (root x').
Proof.
  intros cfg w x [n v] x' Hn H. apply simplify_for_inv in H. cbn [fst snd] in H. destruct H as [H _].
  destruct (root x) as [m|op l r|op a|f args|y]; cbn [el_simplify_for] in H.
  - injection H as <-. apply simplified_number.
  - destruct (el_simplify_for cfg w n v l) as [l'|]; cbn [bind_out] in H; [|discriminate H].
    destruct (el_simplify_for cfg w n v r) as [r'|]; cbn [bind_out] in H; [|discriminate H]. eapply simplify_simplified; eauto.
  - destruct (el_simplify_for cfg w n v a) as [a'|]; cbn [bind_out] in H; [|discriminate H]. eapply simplify_simplified; eauto.
  - destruct (map_out _ args) as [l'|]; cbn [bind_out] in H; [|discriminate H]. eapply simplify_simplified; eauto.
  - destruct (String.eqb y n); injection H as <-; [apply simplified_number|].
    intros s Hs Hr. inversion Hs; subst. inversion Hr.
Qed.

Ltac rule := first [apply rw_zero_plus; assumption | apply rw_plus_zero; assumption | apply rw_zero_minus; assumption | apply rw_minus_zero; assumption | apply rw_minus_same; assumption | apply rw_zero_times; assumption | apply rw_times_zero; assumption | apply rw_one_times; assumption | apply rw_times_one; assumption | apply rw_zero_div_zero; assumption | apply rw_zero_div; assumption | apply rw_div_zero; assumption | apply rw_div_one; assumption | apply rw_div_same; assumption | apply rw_zero_pow_zero; assumption | apply rw_zero_pow; assumption | apply rw_pow_one; assumption | apply rw_zero_mod_zero; assumption | apply rw_zero_mod; assumption | apply rw_mod_zero; assumption | apply rw_mod_one; assumption | apply rw_mod_same; assumption].

(** What this excludes, spelled out. *)
Theorem C58_no_trivial_operation_left : forall cfg w e, simplified cfg w e ->
  (forall op a b, op <> Factorial -> ~ sub (BinOp op (Number a) (Number b)) e) /\
  (forall n, ~ sub (UnOp Factorial (Number n)) e) /\
  (forall a, ~ sub (UnOp Plus a) e) /\
  (forall f ns, ~ sub (Call f (map Number ns)) e) /\
  (forall z a, feq z fzero = true ->
     (forall op, op <> Factorial -> ~ sub (BinOp op (Number z) a) e) /\
     (forall op, op <> Factorial -> op <> Power -> ~ sub (BinOp op a (Number z)) e)) /\
  (forall u a, feq u fone = true ->
     ~ sub (BinOp Times (Number u) a) e /\
     (forall op, op = Times \/ op = Divide \/ op = Power \/ op = Modulo -> ~ sub (BinOp op a (Number u)) e)) /\
  (forall a b, el_eq a b = Val true -> ~ lit_eq b fzero ->
     forall op, op = Minus \/ op = Divide \/ op = Modulo -> ~ sub (BinOp op a b) e).
Proof.
  intros cfg w e H.
  assert (Hb : forall op l r t, sub (BinOp op l r) e -> rewrites cfg w op l r t -> size t < size (BinOp op l r) -> False).
  { intros op l r t Hs Hr Ht. destruct (H _ Hs) as [n Hn]; [|discriminate Hn].
    apply R_operation with t; [exact Hr|]. intros ->. lia. }
  assert (Hd : forall b v, {lit_eq b v} + {~ lit_eq b v}).
  { intros b v. destruct (is_number b v) eqn:E; [left; now apply is_number_iff|right; now apply is_number_false]. }
  repeat match goal with |- _ /\ _ => split end.
  - intros op a b Hop Hs. destruct (apply_binop w op a b) as [v|p] eqn:E; [|destruct op; try discriminate E; congruence].
    eapply Hb; [exact Hs|apply rw_fold; exact E|cbn; lia].
  - intros n Hs. destruct (H _ Hs) as [m Hm]; [constructor|discriminate Hm].
  - intros a Hs. destruct (H _ Hs) as [m Hm]; [constructor|discriminate Hm].
  - intros f ns Hs. destruct (H _ Hs) as [m Hm]; [constructor|discriminate Hm].
  - intros z a Hz. assert (Hlz : lit_eq (Number z) fzero) by (exists z; auto). pose proof (size_pos a). split.
    + intros op Hop Hs. destruct op; [| | |destruct (Hd a fzero)|destruct (Hd a fzero)|destruct (Hd a fzero)|congruence];
        (eapply Hb; [exact Hs|rule|cbn [size]; lia]).
    + intros op Hop Hop' Hs. destruct op; [| | |destruct (Hd a fzero)| |destruct (Hd a fzero)|]; try congruence;
        (eapply Hb; [exact Hs|rule|cbn [size]; lia]).
  - intros u a Hu. assert (Hlu : lit_eq (Number u) fone) by (exists u; auto). pose proof (size_pos a). split.
    + intro Hs. eapply Hb; [exact Hs|rule|cbn [size]; lia].
    + intros op [-> |[-> |[-> | ->]]] Hs; (eapply Hb; [exact Hs|rule|cbn [size]; lia]).
  - intros a b Heq Hnz op Hop Hs. pose proof (size_pos a). pose proof (size_pos b).
    destruct Hop as [-> |[-> | ->]]; (eapply Hb; [exact Hs|rule|cbn [size]; lia]).
Qed.

(** On a nightly compiler, whose rules for signs build new operations, a pass
    may leave work for the next one: x - (-(-x)) becomes x + (-x). *)
Definition nightly_config : config := mk_config true true true false.
Theorem C58_nightly_refuted : exists x,
  parse nightly_config w0 ctx_default "x-(-(-x))" = Parse_ok x /\
  root x = BinOp Plus (Var "x") (UnOp Minus (Var "x")) /\ ~ simplified nightly_config w0 (root x).
Proof.
  destruct (parses_to (parse nightly_config w0 ctx_default "x-(-(-x))")
    (BinOp Plus (Var "x") (UnOp Minus (Var "x")))) as [x [Hp Hr]]; [vm_compute; reflexivity|].
  exists x. split; [exact Hp|]. split; [exact Hr|]. rewrite Hr. intro H.
  destruct (H _ (sub_refl _)) as [n Hn]; [|discriminate Hn].
  eapply R_operation; [apply rw_plus_neg; reflexivity|discriminate].
Qed.

(** The exception for signs is needed: "0-1+y" keeps the sign of 1 apart. *)
Theorem C58_sign_left : exists x,
  parse default_config w0 ctx_default "0-1+y" = Parse_ok x /\
  root x = BinOp Plus (UnOp Minus (Number (lit "1"))) (Var "y") /\
  simplified default_config w0 (root x) /\ redex default_config w0 (UnOp Minus (Number (lit "1"))).
Proof.
  destruct (parses_to (parse default_config w0 ctx_default "0-1+y")
    (BinOp Plus (UnOp Minus (Number (lit "1"))) (Var "y"))) as [x [Hp Hr]]; [vm_compute; reflexivity|].
  exists x. split; [exact Hp|]. split; [exact Hr|]. split; [|constructor].
  eapply C58_parsed_is_simplified; [| |exact Hp]; reflexivity.
Qed.

(** A zero exponent is not simplified: the arm meant for it matches division. *)
Theorem C58_power_zero_stays : exists x,
  parse default_config w0 ctx_default "x^0" = Parse_ok x /\ root x = BinOp Power (Var "x") (Number (lit "0")).
Proof. apply parses_to. vm_compute. reflexivity. Qed.

Example C58_witness : exists x,
  parse default_config w0 ctx_default "1*(x+0)*(2+3) - max(1,2)*y/1 + (y-y)" = Parse_ok x /\
  root x = BinOp Minus (BinOp Times (Var "x") (Number (lit "5"))) (BinOp Times (Number (lit "2")) (Var "y")) /\
  simplified default_config w0 (root x).
Proof.
  destruct (parses_to (parse default_config w0 ctx_default "1*(x+0)*(2+3) - max(1,2)*y/1 + (y-y)")
    (BinOp Minus (BinOp Times (Var "x") (Number (lit "5"))) (BinOp Times (Number (lit "2")) (Var "y")))) as [x [Hp Hr]];
    [vm_compute; reflexivity|].
  exists x. split; [exact Hp|]. split; [exact Hr|]. eapply C58_parsed_is_simplified; [| |exact Hp]; reflexivity.
Qed.

(** ** C59 *)
Lemma obtained_no_empty_call : forall cfg w x, obtained cfg w x -> forall f, ~ sub (Call f []) (root x).
Proof.
  intros cfg w x H. assert (Ha : arity_ok (root x)).
  { induction H as [ctx input x Hc Hd Hp|x [n v] x' Ho IH Hs].
    - destruct (parse_ok_inv _ _ _ _ _ Hp) as [c E].
      apply (parse_impl_tree cfg w ctx input arity_ok) with (vs := vars x) (c := c); auto; try (simpl; auto; fail).
      + intros o k name f args _ _ Hne Ha Hn. apply arity_ok_call. auto.
      + apply arity_ok_simplify.
    - apply simplify_for_inv in Hs. cbn [fst snd] in Hs. destruct Hs as [Hs _]. revert Hs IH.
      apply simplify_for_preserve; try (simpl; intuition; fail).
      + intros f args K. apply arity_ok_call in K. tauto.
      + intros f args args' K Kf Kl. apply arity_ok_call in K. apply arity_ok_call.
        rewrite Kl. destruct K as [[K1 K2] _]. split; [|assumption]. split; [|assumption].
        destruct args; [congruence|]. destruct args'; [discriminate Kl|discriminate]. }
  intros f Hs. apply arity_ok_sub in Ha. destruct (Ha _ _ Hs) as [Hn _]. now apply Hn.
Qed.

(** Simplifying for a variable that does not occur changes nothing exactly when
    there is nothing to simplify. *)
Theorem C59_unchanged_iff_irreducible : forall cfg w x name v, obtained cfg w x -> ~ occurs name (root x) ->
  (exists x', simplify_for cfg w x (name, v) = Val x' /\ root x' = root x) <->
  (forall s, sub s (root x) -> ~ redex cfg w s).
Proof.
  intros cfg w x name v Ho Hx. pose proof (obtained_no_empty_call _ _ _ Ho) as Hno. destruct (obtained_inv _ _ _ Ho) as [Hs _].
  assert (Hf : ~ free name (root x)) by (intro K; apply Hx; now apply free_iff). split.
  - intros [x' [H Hr]]. apply simplify_for_inv in H. cbn [fst snd] in H. destruct H as [H _]. rewrite Hr in H.
    apply irreducible_when_fixed; [assumption|]. eapply fixed_for; eauto.
  - intro H. pose proof (fixed_when_irreducible _ _ _ Hs H) as K. apply (for_fixed cfg w name v _ Hf) in K; [|assumption].
    exists (mk_xprs (root x) (set_remove name (vars x))). unfold simplify_for, simplify_for_in_place. cbn [fst snd]. rewrite K. auto.
Qed.

(** When it changes something, the tree gets smaller. *)
Theorem C59_each_pass_shrinks : forall cfg w x name v x', obtained cfg w x -> ~ occurs name (root x) ->
  simplify_for cfg w x (name, v) = Val x' ->
  root x' = root x \/ nodes (root x') < nodes (root x).
Proof.
  intros cfg w x name v x' Ho Hx H. apply simplify_for_inv in H. destruct H as [H _]. rewrite !nodes_size.
  eapply for_shrink; [| |exact H]; [eapply obtained_no_empty_call; eauto|]. intro K. apply Hx. now apply free_iff.
Qed.

(** The result of simplifying [k] times for the unused variable [name]. *)
Inductive passes (cfg : config) (w : world) (name : string) (v : f64) : nat -> xprs -> xprs -> Prop :=
| P_none : forall x, passes cfg w name v 0 x x
| P_one : forall k x y z, simplify_for cfg w x (name, v) = Val y -> passes cfg w name v k y z -> passes cfg w name v (S k) x z.

(** So repeating it ends, after fewer passes than the expression has nodes, with
    nothing left to simplify at all (also on nightly, and for signs). *)
Theorem C59_passes_converge : forall cfg w x name v, obtained cfg w x -> ~ occurs name (root x) ->
  exists k x', k < nodes (root x) /\ passes cfg w name v k x x' /\ obtained cfg w x' /\
    forall s, sub s (root x') -> ~ redex cfg w s.
Proof.
  intros cfg w x name v. remember (nodes (root x)) as n eqn:En. assert (Hn : nodes (root x) <= n) by lia. clear En.
  revert x Hn. induction n as [|n IH]; intros x Hn Ho Hx.
  { pose proof (size_pos (root x)). rewrite nodes_size in Hn. lia. }
  destruct (C31_simplify_for_total cfg w x name v Ho) as [y [Hy [Hoy _]]].
  destruct (C59_each_pass_shrinks _ _ _ _ _ _ Ho Hx Hy) as [E|Hlt].
  - exists 0, x. split; [lia|]. split; [constructor|]. split; [assumption|].
    apply (C59_unchanged_iff_irreducible cfg w x name v Ho Hx). eauto.
  - destruct (IH y) as [k [z [Hk [Hp [Hoz Hz]]]]]; [lia|assumption| |].
    { apply (C31_simplify_for_eliminates _ _ _ _ _ _ Hy). }
    exists (S k), z. split; [lia|]. split; [econstructor; eauto|]. auto.
Qed.

(** On a stable compiler one pass is enough unless it leaves the sign of a
    number: then a second one changes nothing. *)
Theorem C59_second_pass_changes_nothing : forall cfg w x name v y name' v' z, obtained cfg w x -> nightly cfg = false ->
  simplify_for cfg w x (name, v) = Val y ->
  (forall n, ~ sub (UnOp Minus (Number n)) (root y)) -> ~ occurs name' (root y) ->
  simplify_for cfg w y (name', v') = Val z -> root z = root y.
Proof.
  intros cfg w x name v y name' v' z Ho Hn Hy Hm Hx Hz.
  assert (Hoy : obtained cfg w y) by (eapply ob_simplify; eauto).
  assert (Hr : forall s, sub s (root y) -> ~ redex cfg w s).
  { intros s Hs K. destruct (C58_partially_evaluated_is_simplified _ _ _ _ _ Hn Hy s Hs K) as [n ->]. eapply Hm; eauto. }
  apply (C59_unchanged_iff_irreducible cfg w y name' v' Hoy Hx) in Hr. destruct Hr as [z' [Hz' E]]. congruence.
Qed.

(** Signs do need several passes: 0-1+1-y first becomes (-(1)+1)-y. *)
Example C59_witness : exists x, obtained default_config w0 x /\
  parse default_config w0 ctx_default "0-1+1-y" = Parse_ok x /\
  root x = BinOp Minus (BinOp Plus (UnOp Minus (Number (lit "1"))) (Number (lit "1"))) (Var "y") /\
  exists x', simplify_for default_config w0 x ("t", fzero) = Val x' /\ root x' = UnOp Minus (Var "y").
Proof.
  destruct (parses_to (parse default_config w0 ctx_default "0-1+1-y")
    (BinOp Minus (BinOp Plus (UnOp Minus (Number (lit "1"))) (Number (lit "1"))) (Var "y"))) as [x [Hp Hr]]; [vm_compute; reflexivity|].
  exists x. split; [eapply ob_parse; [apply default_context_returns| |exact Hp]; apply no_double_bang_check; reflexivity|].
  split; [exact Hp|]. split; [exact Hr|].
  assert (E : match el_simplify_for default_config w0 "t" fzero (BinOp Minus (BinOp Plus (UnOp Minus (Number (lit "1"))) (Number (lit "1"))) (Var "y")) with
              | Val e => same_tree e (UnOp Minus (Var "y")) | Boom _ => false end = true) by (vm_compute; reflexivity).
  unfold simplify_for, simplify_for_in_place. cbn [fst snd]. rewrite Hr.
  destruct (el_simplify_for _ _ _ _ _) as [e|p]; [|discriminate E]. apply same_tree_eq in E.
  eexists. split; [reflexivity|]. exact E.
Qed.
