(** * Properties of partial evaluation (C31-C35, C47) *)
From Coq Require Import ZArith NArith List String Ascii Bool Lia.
From Verif Require Import F64 Syntax Factorial Builtins Context Element Parser Xprs.
From Verif Require Import SpecParse SpecTree TreeFacts SpecRewrite SimplifyFacts SpecApi ParserResults.
From Verif Require Import TestWorld PropertiesParse PropertiesEval.
Import ListNotations.
Local Open Scope string_scope.

Lemma simplify_for_inv : forall cfg w x var x', simplify_for cfg w x var = Val x' ->
  el_simplify_for cfg w (fst var) (snd var) (root x) = Val (root x') /\
  vars x' = set_remove (fst var) (vars x).
Proof.
  intros cfg w x var x' H. unfold simplify_for, simplify_for_in_place in H.
  destruct (el_simplify_for cfg w (fst var) (snd var) (root x)); cbn in H; [|discriminate].
  injection H as <-. auto.
Qed.

(** ** C31 *)
Theorem C31_simplify_for_eliminates : forall cfg w x name v x',
  simplify_for cfg w x (name, v) = Val x' ->
  ~ occurs name (root x') /\
  (forall y, occurs y (root x') -> occurs y (root x)) /\
  (forall y, In y (vars x') <-> In y (vars x) /\ y <> name).
Proof.
  intros cfg w x name v x' H. apply simplify_for_inv in H. cbn [fst snd] in H. destruct H as [He Hv].
  pose proof (el_simplify_for_free _ _ _ _ _ _ He) as Hf. split; [|split].
  - intro Hc. apply free_iff, Hf in Hc. tauto.
  - intros y Hy. apply free_iff. apply free_iff, Hf in Hy. tauto.
  - intro y. rewrite Hv. apply set_remove_In.
Qed.

(** It never panics on an expression the program can hold, and [vars] keeps
    covering the tree. *)
Theorem C31_simplify_for_total : forall cfg w x name v, obtained cfg w x ->
  exists x', simplify_for cfg w x (name, v) = Val x' /\ obtained cfg w x' /\ NoDup (vars x') /\
             forall y, occurs y (root x') -> In y (vars x').
Proof.
  intros cfg w x name v Ho. destruct (obtained_inv _ _ _ Ho) as [Hs _].
  destruct (el_simplify_for_val cfg w name v (root x) Hs) as [e He].
  exists (mk_xprs e (set_remove name (vars x))).
  assert (Hx : simplify_for cfg w x (name, v) = Val (mk_xprs e (set_remove name (vars x)))).
  { unfold simplify_for, simplify_for_in_place. cbn [fst snd]. rewrite He. reflexivity. }
  assert (Ho' : obtained cfg w (mk_xprs e (set_remove name (vars x)))) by (eapply ob_simplify; eauto).
  split; auto. split; auto. destruct (obtained_inv _ _ _ Ho') as [_ [Hn Hf]].
  split; auto. intros y Hy. apply Hf, free_iff, Hy.
Qed.

(** [vars] may name variables that the simplification made disappear: here "y"
    in x*y with x = 0. *)
Theorem C31_vars_may_be_stale : exists x x', obtained default_config w0 x /\
  simplify_for default_config w0 x ("x", fzero) = Val x' /\
  In "y" (vars x') /\ ~ occurs "y" (root x').
Proof.
  destruct (ok_and_spec (parse default_config w0 ctx_default "x*y")
    (fun x => same_tree (root x) (BinOp Times (Var "x") (Var "y")) && mem "y" (vars x))) as [x [Hp Ht]];
    [vm_compute; reflexivity|].
  apply andb_true_iff in Ht. destruct Ht as [Ht Hy]. apply same_tree_eq in Ht.
  apply mem_In in Hy. exists x, (mk_xprs (Number fzero) (set_remove "x" (vars x))).
  split; [eapply ob_parse; [apply default_context_returns| |exact Hp]; apply no_double_bang_check; reflexivity|].
  split; [|split].
  - unfold simplify_for, simplify_for_in_place. rewrite Ht. reflexivity.
  - apply set_remove_In. split; auto. discriminate.
  - intro Hc. inversion Hc.
Qed.

(** ** C32 *)
(** [steps cfg w x l x']: applying [simplify_for] with the pairs of [l], one
    after the other, leads from [x] to [x']. *)
Inductive steps (cfg : config) (w : world) : xprs -> list (string * f64) -> xprs -> Prop :=
| steps_nil : forall x, steps cfg w x [] x
| steps_cons : forall x var x1 l x', simplify_for cfg w x var = Val x1 -> steps cfg w x1 l x' ->
    steps cfg w x (var :: l) x'.

Theorem C32_multiple_is_iteration : forall cfg w l x x',
  simplify_for_multiple cfg w x l = Val x' <-> steps cfg w x l x'.
Proof.
  intros cfg w l. unfold simplify_for_multiple, simplify_for_multiple_in_place.
  assert (H : forall orig e vs x',
    take_self (simplify_multiple_loop cfg w l orig e vs) = Val x' <-> steps cfg w (mk_xprs e vs) l x').
  { induction l as [|var l IH]; intros orig e vs x'.
    - cbn. split; intro H; [injection H as <-; constructor|]. inversion H; subst. reflexivity.
    - cbn [simplify_multiple_loop].
      destruct (el_simplify_for cfg w (fst var) (snd var) e) as [e'|p] eqn:E.
      + rewrite IH. split; intro H.
        * econstructor; [|exact H]. unfold simplify_for, simplify_for_in_place.
          cbn [root vars]. rewrite E. reflexivity.
        * inversion H; subst. apply simplify_for_inv in H3. destruct H3 as [H3 H4].
          cbn [root vars] in *. destruct x1 as [e1 v1]. cbn [root vars] in *. subst v1.
          assert (e1 = e') by congruence. subst. auto.
      + cbn. split; intro H; [discriminate|]. exfalso. inversion H; subst.
        apply simplify_for_inv in H3. cbn [root] in H3. destruct H3. congruence. }
  intros x x'. rewrite H. destruct x. tauto.
Qed.

(** The in-place method leaves what the by-value method returns. *)
Theorem C32_in_place_agrees : forall cfg w x l x',
  simplify_for_multiple_in_place cfg w x l = Returned (mk_cell (Owned (root x')) (vars x')) <->
  steps cfg w x l x'.
Proof.
  intros cfg w x l x'. rewrite <- C32_multiple_is_iteration. unfold simplify_for_multiple.
  unfold simplify_for_multiple_in_place.
  assert (Hown : forall orig e vs c, simplify_multiple_loop cfg w l orig e vs = Returned c ->
    exists e' , cell_root c = Owned e').
  { induction l as [|var l IH]; intros orig e vs c H; cbn in H; [injection H as <-; eexists; reflexivity|].
    destruct (el_simplify_for cfg w (fst var) (snd var) e); [eauto|discriminate]. }
  destruct (simplify_multiple_loop cfg w l (root x) (root x) (vars x)) as [[[e|e] vs]|] eqn:E; cbn.
  - destruct x' as [r v]. cbn. split; intro H; injection H as -> ->; reflexivity.
  - destruct (Hown _ _ _ _ E). discriminate.
  - split; discriminate.
Qed.

Theorem C32_in_place_single : forall cfg w x var x',
  simplify_for_in_place cfg w x var = Returned (mk_cell (Owned (root x')) (vars x')) <->
  simplify_for cfg w x var = Val x'.
Proof.
  intros cfg w x var x'. unfold simplify_for, simplify_for_in_place.
  destruct (el_simplify_for cfg w (fst var) (snd var) (root x)); cbn; [|split; discriminate].
  destruct x'. cbn. split; intro H; injection H as -> ->; reflexivity.
Qed.

(** ** C33 *)
Theorem C33_substituting_all_closes : forall cfg w x l, obtained cfg w x ->
  (forall y, In y (vars x) -> In y (map fst l)) ->
  exists x' v, simplify_for_multiple cfg w x l = Val x' /\ vars x' = [] /\
               eval_no_vars w x' = Val (Eval_ok v).
Proof.
  intros cfg w x l Ho Hall.
  assert (H : forall l x, obtained cfg w x -> exists x', steps cfg w x l x' /\ obtained cfg w x' /\
            forall y, In y (vars x') -> In y (vars x) /\ ~ In y (map fst l)).
  { clear. induction l as [|[n v] l IH]; intros x Ho.
    - exists x. split; [constructor|]. split; auto.
    - destruct (C31_simplify_for_total cfg w x n v Ho) as [x1 [H1 [Ho1 _]]].
      destruct (IH x1 Ho1) as [x' [Hs [Ho' Hv]]]. exists x'. split; [econstructor; eauto|].
      split; auto. intros y Hy. apply Hv in Hy. destruct Hy as [Hy Hn].
      apply (C31_simplify_for_eliminates _ _ _ _ _ _ H1) in Hy. destruct Hy as [Hy Hne].
      split; auto. cbn. intros [Hc|Hc]; auto. }
  destruct (H l x Ho) as [x' [Hs [Ho' Hv]]].
  assert (He : vars x' = []).
  { destruct (vars x') as [|y ys]; auto. exfalso.
    destruct (Hv y); [now left|]. auto. }
  destruct (proj2 (C20_eval_ok_iff_variables_given cfg w x' [] Ho')) as [u Hu].
  { intros y Hy. exfalso. destruct (obtained_inv _ _ _ Ho') as [_ [_ Hf]].
    apply free_iff, Hf in Hy. rewrite He in Hy. inversion Hy. }
  exists x', u. split; [apply C32_multiple_is_iteration; auto|]. auto.
Qed.

Example C33_witness : exists x x', obtained default_config w0 x /\ vars x = ["y"; "x"] /\
  simplify_for_multiple default_config w0 x [("x", lit "3"); ("y", lit "1.5")] = Val x' /\
  eval_no_vars w0 x' = Val (Eval_ok (lit "11")).
Proof.
  destruct expr1_obtained as [x [Hr [Hv Ho]]]. exists x.
  destruct (C33_substituting_all_closes _ _ x [("x", lit "3"); ("y", lit "1.5")] Ho) as [x' [v [H1 [H2 H3]]]].
  { rewrite Hv. cbn. tauto. }
  exists x'. split; [exact Ho|]. split; [exact Hv|]. split; [exact H1|]. rewrite H3. do 2 f_equal.
  destruct (parses_to (match simplify_for_multiple default_config w0 x [("x", lit "3"); ("y", lit "1.5")] with
    Val x' => Parse_ok x' | _ => Parse_diverges end) (Number (lit "11"))) as [x'' [Hx Hroot]].
  { unfold simplify_for_multiple, simplify_for_multiple_in_place. rewrite Hr. vm_compute. reflexivity. }
  rewrite H1 in Hx. injection Hx as <-. unfold eval_no_vars, eval in H3. rewrite Hroot in H3.
  cbn [eval_element] in H3. congruence.
Qed.

(** ** C34 *)
(** A closed expression folds to a number, provided no difference [l - r] in it
    has a left operand that simplifies to a zero. *)
Theorem C34_closed_folds : forall cfg w e,
  (forall y, ~ occurs y e) -> proper_operators e -> functions_return w e ->
  (forall l r n, sub (BinOp Minus l r) e -> simplify cfg w l = Val (Number n) -> feq n fzero = false) ->
  exists v, simplify cfg w e = Val (Number v).
Proof.
  intros cfg w e Hc Ho Hf Hz.
  assert (Hs : safe w e) by (apply safe_iff; auto). clear Ho Hf.
  induction e using element_ind'.
  - cbn. eauto.
  - destruct Hs as [Hop [Hl Hr]].
    destruct IHe1 as [a Ha]; auto.
    { intros y Hy. apply (Hc y). now constructor. }
    { intros. eapply Hz; eauto using sub. }
    destruct IHe2 as [b Hb]; auto.
    { intros y Hy. apply (Hc y). now constructor 3. }
    { intros. eapply Hz; eauto using sub. }
    cbn [simplify]. rewrite Ha, Hb. cbn [bind_out].
    destruct op; try congruence; cbn [simplify_binop is_number fold_binop apply_binop bind_out].
    + destruct (feq a fzero), (feq b fzero), (nightly cfg); eauto.
    + rewrite (Hz e1 e2 a); auto using sub_refl. destruct (feq b fzero); eauto.
      unfold if_eq. cbn. destruct (feq a b); eauto.
    + destruct (feq a fzero), (feq b fzero), (feq a fone), (feq b fone); eauto.
    + destruct (feq a fzero), (feq b fzero), (feq b fone); cbn; eauto.
      unfold if_eq. cbn. destruct (feq a b); eauto.
    + destruct (feq a fzero), (feq b fzero), (feq b fone); cbn; eauto.
    + destruct (feq a fzero), (feq b fzero), (feq b fone); cbn; eauto.
      unfold if_eq. cbn. destruct (feq a b); eauto.
  - destruct Hs as [Hop Ha].
    destruct IHe as [a Ha']; auto.
    { intros y Hy. apply (Hc y). now constructor. }
    { intros. eapply Hz; eauto using sub. }
    cbn [simplify]. rewrite Ha'. cbn [bind_out].
    destruct Hop as [->|[->| ->]]; cbn; eauto.
  - apply safe_call in Hs. destruct Hs as [Hf Ha].
    assert (Hargs : exists vs, map_out (simplify cfg w) args = Val (map Number vs)).
    { rewrite Forall_forall in *.
      assert (Hall : forall a, In a args -> exists v, simplify cfg w a = Val (Number v)).
      { intros a Hi. apply H; auto.
        - intros y Hy. apply (Hc y). econstructor; eauto.
        - intros. eapply Hz; eauto using sub. }
      clear -Hall. induction args as [|a args IH]; cbn; [exists []; auto|].
      destruct (Hall a) as [v ->]; [now left|].
      destruct IH as [vs ->]; [intros; apply Hall; now right|]. exists (v :: vs). reflexivity. }
    destruct Hargs as [vs Hvs]. cbn [simplify]. rewrite Hvs. cbn [bind_out].
    assert (number_values (map Number vs) = vs) as Hnv by (clear; induction vs; cbn; congruence).
    unfold simplify_call. rewrite Hnv, map_length, Nat.eqb_refl.
    destruct (Hf vs) as [v ->]; [|cbn; eauto].
    apply map_out_inv in Hvs. rewrite <- (map_length Number vs). clear -Hvs. induction Hvs; cbn; auto.
  - exfalso. apply (Hc x). constructor.
Qed.

(** Without subtraction: every closed parsed expression. *)
Theorem C34_closed_folds_without_minus : forall cfg w e,
  (forall y, ~ occurs y e) -> proper_operators e -> functions_return w e ->
  (forall l r, ~ sub (BinOp Minus l r) e) ->
  exists v, simplify cfg w e = Val (Number v).
Proof.
  intros cfg w e Hc Ho Hf Hz. apply C34_closed_folds; auto.
  intros l r n Hs. exfalso. eapply Hz; eauto.
Qed.

(** The condition is needed: "0-5" stays a negation, in the optimising parser
    and after simplifying again. *)
Theorem C34_zero_minus_refuted : exists x,
  parse default_config w0 ctx_default "0-5" = Parse_ok x /\
  (forall y, ~ occurs y (root x)) /\ root x = UnOp Minus (Number (lit "5")).
Proof.
  destruct (parses_to (parse default_config w0 ctx_default "0-5") (UnOp Minus (Number (lit "5")))) as [x [Hp Hr]];
    [vm_compute; reflexivity|].
  exists x. split; [exact Hp|]. split; [|exact Hr]. rewrite Hr. generalize (lit "5"). clear. intros n y Hy.
  inversion Hy; subst. inversion H0.
Qed.

Example C34_witness : exists x v,
  parse plain_config w0 ctx_default "(7-2)*max(1, 2)!" = Parse_ok x /\
  proper_operators (root x) /\ functions_return w0 (root x) /\ (forall y, ~ occurs y (root x)) /\
  simplify plain_config w0 (root x) = Val (Number v).
Proof.
  destruct (ok_and_spec (parse plain_config w0 ctx_default "(7-2)*max(1, 2)!")
    (fun x => is_nil (vars x) &&
      match simplify plain_config w0 (root x) with Val (Number _) => true | _ => false end)) as [x [Hp Ht]];
    [vm_compute; reflexivity|].
  apply andb_true_iff in Ht. destruct Ht as [Hv Ht].
  assert (Ho : obtained plain_config w0 x).
  { eapply ob_parse; [apply default_context_returns| |exact Hp]; apply no_double_bang_check; reflexivity. }
  destruct (obtained_inv _ _ _ Ho) as [Hs [_ Hf]]. apply safe_iff in Hs.
  destruct (simplify plain_config w0 (root x)) as [[v| | | |]|] eqn:E; try discriminate Ht.
  exists x, v. split; [exact Hp|]. destruct Hs as [Hs1 Hs2].
  split; [exact Hs1|]. split; [exact Hs2|]. split; [|exact E].
  intros y Hy. apply free_iff, Hf in Hy. destruct (vars x); [inversion Hy|discriminate].
Qed.

(** ** C35 *)
(** When the method returns, the expression owns the simplified tree; when it
    panics, the expression is left with a tree that has been moved out. *)
Theorem C35_in_place_ownership : forall cfg w x var,
  match simplify_for_in_place cfg w x var with
  | Returned c => exists e, cell_root c = Owned e
  | Panicked _ c => exists e, cell_root c = MovedOut e
  end.
Proof.
  intros. unfold simplify_for_in_place.
  destruct (el_simplify_for cfg w (fst var) (snd var) (root x)); cbn; eauto.
Qed.

Theorem C35_in_place_multiple_ownership : forall cfg w x l,
  match simplify_for_multiple_in_place cfg w x l with
  | Returned c => exists e, cell_root c = Owned e
  | Panicked _ c => cell_root c = MovedOut (root x)
  end.
Proof.
  intros. unfold simplify_for_multiple_in_place.
  assert (H : forall orig e vs, match simplify_multiple_loop cfg w l orig e vs with
    | Returned c => exists e, cell_root c = Owned e
    | Panicked _ c => cell_root c = MovedOut orig end).
  { induction l as [|var l IH]; intros orig e vs; cbn; eauto.
    destruct (el_simplify_for cfg w (fst var) (snd var) e); [apply IH|reflexivity]. }
  apply H.
Qed.

(** On expressions the program can hold (user functions that return, no "!!")
    no panic occurs, so the tree is always owned afterwards. *)
Theorem C35_in_place_safe : forall cfg w x l, obtained cfg w x ->
  exists e vs, simplify_for_multiple_in_place cfg w x l = Returned (mk_cell (Owned e) vs).
Proof.
  intros cfg w x l Ho. destruct (obtained_inv _ _ _ Ho) as [Hs _].
  unfold simplify_for_multiple_in_place. generalize (root x) at 1 as orig, (vars x) as vs.
  revert Hs. generalize (root x) as e. clear. induction l as [|var l IH]; intros e Hs orig vs; cbn; eauto.
  destruct (el_simplify_for_val cfg w (fst var) (snd var) e Hs) as [e' He]. rewrite He.
  apply IH. eapply el_simplify_for_safe; eauto.
Qed.

(** The dangerous case exists: a user function that panics, called during
    partial evaluation, leaves the caller's expression moved out. *)
Theorem C35_panic_leaves_moved_out : exists x c,
  parse default_config w0 (with_fn ctx_default bad_fn) "1+bad(x)" = Parse_ok x /\
  simplify_for_in_place default_config w0 x ("x", fone) = Panicked UserPanic c /\
  cell_root c = MovedOut (root x).
Proof.
  destruct (parses_to (parse default_config w0 (with_fn ctx_default bad_fn) "1+bad(x)")
    (BinOp Plus (Number fone) (Call bad_fn [Var "x"]))) as [x [Hp Hr]]; [vm_compute; reflexivity|].
  eexists x, _. split; [exact Hp|]. unfold simplify_for_in_place. rewrite Hr. cbn. split; reflexivity.
Qed.

(** ** C47 *)
(** The number of nodes of a tree. *)
Fixpoint nodes (e : element) : nat :=
  match e with
  | Number _ | Var _ => 1
  | BinOp _ l r => 1 + nodes l + nodes r
  | UnOp _ a => 1 + nodes a
  | Call _ args => 1 + fold_right (fun a n => nodes a + n) 0 args
  end.

Lemma nodes_size : forall e, nodes e = size e.
Proof.
  induction e using element_ind'; cbn; auto. f_equal.
  induction H; cbn; auto.
Qed.

Theorem C47_simplify_never_grows : forall cfg w e e', simplify cfg w e = Val e' ->
  nodes e' <= nodes e /\ forall y, occurs y e' -> occurs y e.
Proof.
  intros cfg w e e' H. rewrite !nodes_size. split; [eapply simplify_size; eauto|].
  intros y Hy. apply free_iff. eapply simplify_free; eauto. now apply free_iff.
Qed.

Theorem C47_simplify_for_never_grows : forall cfg w x var x', simplify_for cfg w x var = Val x' ->
  nodes (root x') <= nodes (root x) /\ forall y, occurs y (root x') -> occurs y (root x).
Proof.
  intros cfg w x [n v] x' H. split.
  - apply simplify_for_inv in H. rewrite !nodes_size. eapply el_simplify_for_size. apply H.
  - apply (C31_simplify_for_eliminates _ _ _ _ _ _ H).
Qed.
