(** * Properties of evaluation (C20-C25, C43) *)
From Coq Require Import ZArith NArith List String Ascii Bool Lia Permutation.
From Verif Require Import F64 Syntax Factorial Builtins Context Element Parser Xprs.
From Verif Require Import SpecParse SpecTree TreeFacts SimplifyFacts SpecApi ParserResults.
From Verif Require Import TestWorld PropertiesParse.
Import ListNotations.
Local Open Scope string_scope.

(** The expression of the examples. *)
Definition text1 : string := "2x ^ 2 - double(y) / max(x, 1, k)".
Definition expr1 : element :=
  BinOp Minus (BinOp Times (Number (lit "2")) (BinOp Power (Var "x") (Number (lit "2"))))
    (BinOp Divide (Call double_fn [Var "y"])
       (Call (builtin_function B_MAX) [Var "x"; Number (lit "1"); Number (lit "2.5")])).

Lemma expr1_obtained : exists x, root x = expr1 /\ vars x = ["y"; "x"] /\ obtained default_config w0 x.
Proof.
  destruct (parses_to (parse default_config w0 ctx1 text1) expr1) as [x [H1 H2]].
  { vm_compute. reflexivity. }
  exists x. split; [exact H2|]. split.
  - destruct (parse_ok_inv _ _ _ _ _ H1) as [c E].
    pose proof (parse_impl_basic default_config w0 ctx1 text1) as Hb. rewrite E in Hb. rewrite Hb, H2.
    reflexivity.
  - apply ob_parse with ctx1 text1; [exact ctx1_returns| |exact H1].
    apply no_double_bang_check. reflexivity.
Qed.

(** ** C20: eval succeeds iff its variables are given *)
Lemma eval_obtained_cases : forall cfg w x rho, obtained cfg w x ->
  (exists v, eval w x rho = Val (Eval_ok v)) \/ (exists y, eval w x rho = Val (Eval_err y)).
Proof.
  intros cfg w x rho H. destruct (obtained_inv _ _ _ H) as [Hs _]. unfold eval.
  clear H. induction (root x) using element_ind'; simpl.
  - eauto.
  - destruct Hs as [Hop [Hl Hr]].
    destruct (IHe1 Hl) as [[a ->]|[y ->]]; simpl; eauto.
    destruct (IHe2 Hr) as [[b ->]|[y ->]]; simpl; eauto.
    destruct (apply_binop_safe w op a b Hop) as [v ->]. simpl; eauto.
  - destruct Hs as [Hop Ha]. destruct (IHe Ha) as [[a ->]|[y ->]]; simpl; eauto.
    destruct (apply_unop_safe op a Hop) as [v ->]. simpl; eauto.
  - apply safe_call in Hs. destruct Hs as [Hf Ha].
    assert (Hl : (exists vs, map_eval (eval_element w rho) args = Val (inl vs) /\ List.length vs = List.length args)
              \/ exists y, map_eval (eval_element w rho) args = Val (inr y)).
    { clear Hf. induction H; [left; exists []; auto|]. inversion Ha; subst. simpl.
      destruct (H H3) as [[v ->]|[y ->]]; [|eauto].
      destruct (IHForall H4) as [[vs [-> Hl]]|[y ->]]; [|eauto].
      left. exists (v :: vs). simpl. auto. }
    destruct Hl as [[vs [-> Hl]]|[y ->]]; [|eauto]. destruct (Hf vs Hl) as [v ->]. simpl; eauto.
  - destruct (sget x0 rho); eauto.
Qed.

Lemma first_missing_det : forall rho e x y, first_missing rho e x -> first_missing rho e y -> x = y.
Proof.
  intros rho. induction e using element_ind'; intros m y Hx Hy.
  - inversion Hx.
  - inversion Hx; subst; inversion Hy; subst; auto.
    + destruct (first_missing_occurs _ _ _ H3) as [Ho Hn]. exfalso. eapply H4; eauto.
    + match goal with H : first_missing _ e1 _ |- _ => destruct (first_missing_occurs _ _ _ H) as [Ho Hn] end.
      exfalso. match goal with H : forall _, occurs _ e1 -> _ |- _ => eapply H; eauto end.
  - inversion Hx; subst; inversion Hy; subst; auto.
  - inversion Hx as [| | | |f1 b1 a1 c1 x1 Hb1 Ha1]; subst.
    inversion Hy as [| | | |f2 b2 a2 c2 x2 Hb2 Ha2]; subst.
    match goal with E : (_ ++ _ :: _)%list = (_ ++ _ :: _)%list |- _ => rename E into Ea end.
    assert (Ea' : (b1 ++ a1 :: c1)%list = (b2 ++ a2 :: c2)%list) by congruence.
    rewrite Forall_forall in H. clear Ea Hx Hy.
    assert (Hab : a1 = a2).
    { clear H. revert b2 Hb2 Ea'. induction b1 as [|b b1 IH]; intros [|d b2] Hb2 Ea'; cbn [app] in Ea'.
      - congruence.
      - injection Ea' as <- _. destruct (first_missing_occurs _ _ _ Ha1) as [Ho Hn].
        exfalso. eapply (Hb2 a1); eauto. now left.
      - injection Ea' as -> _. destruct (first_missing_occurs _ _ _ Ha2) as [Ho Hn].
        exfalso. eapply (Hb1 a2); eauto. now left.
      - injection Ea' as <- Ea'. apply (IH) with b2; auto.
        + intros z u Hz. apply Hb1. now right.
        + intros z u Hz. apply Hb2. now right. }
    subst a2. apply (H a1); auto. apply in_elt.
  - inversion Hx; subst. inversion Hy; subst. auto.
Qed.

Theorem C20_eval_ok_iff_variables_given : forall cfg w x rho, obtained cfg w x ->
  ((exists v, eval w x rho = Val (Eval_ok v)) <->
   (forall y, occurs y (root x) -> exists v, sget y rho = Some v)).
Proof.
  intros cfg w x rho H. destruct (obtained_inv _ _ _ H) as [Hs _]. split.
  - intros [v Hv] y Hy. apply free_iff in Hy. pose proof (eval_ok_defined w _ _ _ Hv y Hy).
    destruct (sget y rho); eauto. congruence.
  - intros Hy. apply eval_total_ok; auto. intros y Hf. apply free_iff in Hf.
    destruct (Hy y Hf) as [v ->]. discriminate.
Qed.

Theorem C20_eval_error_names_leftmost_missing : forall cfg w x rho y, obtained cfg w x ->
  (eval w x rho = Val (Eval_err y) <-> first_missing (lookup rho) (root x) y).
Proof.
  intros cfg w x rho y H. split.
  - apply eval_err_first.
  - intro Hf. destruct (eval_obtained_cases _ _ _ rho H) as [[v Hv]|[z Hz]].
    + exfalso. destruct (first_missing_occurs _ _ _ Hf) as [Ho Hn]. apply free_iff in Ho.
      eapply eval_ok_defined; eauto.
    + rewrite Hz. pose proof (eval_err_first _ _ _ _ Hz) as Hf'.
      rewrite (first_missing_det _ _ _ _ Hf Hf'). reflexivity.
Qed.

(** The variable named by an error occurs in the expression and has no value. *)
Theorem C20_eval_error_variable : forall w x rho y,
  eval w x rho = Val (Eval_err y) -> occurs y (root x) /\ sget y rho = None.
Proof. intros w x rho y H. apply eval_err_first in H. apply (first_missing_occurs _ _ _ H). Qed.

Example C20_witness : exists x, obtained default_config w0 x /\
  (exists v, eval w0 x [("x", fone); ("y", fone)] = Val (Eval_ok v)) /\
  eval w0 x [("x", fone)] = Val (Eval_err "y") /\ eval w0 x [] = Val (Eval_err "x").
Proof.
  destruct expr1_obtained as [x [Hr [_ Ho]]]. exists x. split; [exact Ho|]. unfold eval. rewrite Hr.
  split; [|split; vm_compute; reflexivity].
  apply eval_total_ok.
  - rewrite <- Hr. apply (obtained_inv _ _ _ Ho).
  - intros y Hy. cbn in Hy. decompose [or] Hy; subst; try contradiction; discriminate.
Qed.

(** ** C21: eval computes the meaning *)
Theorem C21_eval_is_meaning : forall w x rho v,
  eval w x rho = Val (Eval_ok v) <-> means w (lookup rho) (root x) v.
Proof.
  intros. split; [apply eval_sound|]. intro H. apply (proj1 (eval_complete w rho)). exact H.
Qed.

Example C21_witness : exists v,
  means w0 (lookup [("x", lit "3"); ("y", lit "1.5")]) expr1 v /\ v = lit "11".
Proof.
  exists (lit "11"). split; [|reflexivity].
  pose proof (C21_eval_is_meaning w0 (mk_xprs expr1 []) [("x", lit "3"); ("y", lit "1.5")] (lit "11")) as H.
  apply H. clear H. unfold eval. cbn [root].
  assert (is_val (eval_element_unchecked w0 [("x", lit "3"); ("y", lit "1.5")] expr1) (lit "11") = true) as E
    by (vm_compute; reflexivity).
  apply is_val_eq in E. rewrite unchecked_agrees in E.
  destruct (eval_element _ _ _) as [[u|]|]; try discriminate. congruence.
Qed.

(** ** C22: eval depends only on the variables of the expression *)
Theorem C22_eval_depends_on_occurring_variables : forall w x rho rho',
  (forall y, occurs y (root x) -> sget y rho = sget y rho') ->
  eval w x rho = eval w x rho' /\ eval_unchecked w x rho = eval_unchecked w x rho'.
Proof.
  intros w x rho rho' H.
  assert (H' : forall y, free y (root x) -> sget y rho = sget y rho').
  { intros y Hy. apply H. now apply free_iff. }
  split; [apply eval_ext|apply eval_unchecked_ext]; exact H'.
Qed.

Example C22_witness : (forall y, occurs y (Var "x") -> sget y [("x", fone)] = sget y [("z", fzero); ("x", fone)])
  /\ sget "z" [("x", fone)] <> sget "z" [("z", fzero); ("x", fone)].
Proof. split; [|discriminate]. intros y Hy. inversion Hy; subst. reflexivity. Qed.

(** ** C23: eval_unchecked agrees with eval *)
Theorem C23_unchecked_agrees : forall w x rho v,
  eval_unchecked w x rho = Val v <-> eval w x rho = Val (Eval_ok v).
Proof.
  intros w x rho v. unfold eval, eval_unchecked. rewrite unchecked_agrees.
  destruct (eval_element w rho (root x)) as [[u|y]|p]; split; intro H; congruence.
Qed.

Theorem C23_unchecked_panics : forall w x rho,
  (exists p, eval_unchecked w x rho = Boom p) <->
  (exists y, eval w x rho = Val (Eval_err y)) \/ (exists p, eval w x rho = Boom p).
Proof.
  intros w x rho. unfold eval, eval_unchecked. rewrite unchecked_agrees.
  destruct (eval_element w rho (root x)) as [[u|y]|p]; split; intros H; eauto.
  - destruct H; discriminate.
  - destruct H as [[y H]|[p H]]; discriminate.
Qed.

Theorem C23_missing_variable_panics : forall cfg w x rho, obtained cfg w x ->
  ((exists y, occurs y (root x) /\ sget y rho = None) <-> eval_unchecked w x rho = Boom UnwrapNone).
Proof.
  intros cfg w x rho H. unfold eval_unchecked. rewrite unchecked_agrees.
  destruct (eval_obtained_cases _ _ _ rho H) as [[v Hv]|[z Hz]].
  - unfold eval in Hv. rewrite Hv. split; [|discriminate]. intros [y [Ho Hn]]. exfalso.
    apply free_iff in Ho. eapply eval_ok_defined; eauto.
  - unfold eval in Hz. rewrite Hz. split; auto. intros _. exists z.
    exact (C20_eval_error_variable w x rho z Hz).
Qed.

Example C23_witness : exists x, obtained default_config w0 x /\
  eval_unchecked w0 x [("x", fone)] = Boom UnwrapNone.
Proof.
  destruct expr1_obtained as [x [Hr [_ Ho]]]. exists x. split; [exact Ho|].
  apply (C23_missing_variable_panics _ _ _ _ Ho). exists "y". split; [|reflexivity].
  apply free_iff. rewrite Hr. simpl. tauto.
Qed.

(** ** C24: eval_no_vars *)
Theorem C24_eval_no_vars_closed : forall cfg w x, obtained cfg w x ->
  ((exists v, eval_no_vars w x = Val (Eval_ok v)) <-> forall y, ~ occurs y (root x)).
Proof.
  intros cfg w x H. unfold eval_no_vars. rewrite (C20_eval_ok_iff_variables_given cfg w x [] H).
  split; intros Hy y Hv.
  - destruct (Hy y Hv); discriminate.
  - exfalso. eapply Hy; eauto.
Qed.

Theorem C24_eval_no_vars_agrees : forall w x rho,
  (forall y, ~ occurs y (root x)) ->
  eval_no_vars w x = eval w x rho /\ eval_no_vars_unchecked w x = eval_unchecked w x rho.
Proof.
  intros w x rho H. apply C22_eval_depends_on_occurring_variables. intros y Hy. exfalso. eapply H; eauto.
Qed.

Lemma parse_obtained : forall cfg w input x, ~ has_double_bang input ->
  parse cfg w ctx_default input = Parse_ok x -> obtained cfg w x.
Proof.
  intros. apply ob_parse with ctx_default input; auto. apply default_context_returns.
Qed.

Example C24_witness : exists x, obtained plain_config w0 x /\ (forall y, ~ occurs y (root x)) /\
  root x = BinOp Plus (Number (lit "1")) (UnOp Factorial (Number (lit "3"))).
Proof.
  destruct (parses_to (parse plain_config w0 ctx_default "1 + 3!")
     (BinOp Plus (Number (lit "1")) (UnOp Factorial (Number (lit "3"))))) as [x [H1 H2]].
  { vm_compute. reflexivity. }
  exists x. split; [|split; auto].
  - eapply parse_obtained; [|exact H1]. apply no_double_bang_check. reflexivity.
  - intros y Hy. apply free_iff in Hy. rewrite H2 in Hy. simpl in Hy. tauto.
Qed.

(** ** C25: evaluation never panics *)
Theorem C25_eval_never_panics : forall cfg w x rho p, obtained cfg w x -> eval w x rho <> Boom p.
Proof.
  intros cfg w x rho p H E. destruct (eval_obtained_cases _ _ _ rho H) as [[v Hv]|[z Hz]]; congruence.
Qed.

(** A text with "!!" between operands is accepted, and evaluating it panics. *)
Theorem C25_double_bang_refuted : forall w, exists x,
  parse default_config w ctx_default "x!!y" = Parse_ok x /\
  forall a b, eval w x [("x", a); ("y", b)] = Boom Unreachable.
Proof.
  intro w. exists (mk_xprs (BinOp Factorial (UnOp Factorial (Var "x")) (Var "y")) ["y"; "x"]).
  split; [vm_compute; reflexivity|]. intros. reflexivity.
Qed.

(** ** C43: the REPL *)
Lemma ask_for_variables_get : forall w answers s y, fair_order w -> In y s ->
  sget y (ask_for_variables w answers s) = Some (answers y).
Proof.
  intros w answers s y Hf Hy. unfold ask_for_variables.
  assert (Hy' : In y (hash_order w s)) by (eapply Permutation_in; [apply Hf|auto]). clear Hy.
  assert (Hg : forall l m, (In y l \/ sget y m = Some (answers y)) ->
     sget y (fold_left (fun acc v => sinsert v (answers v) acc) l m) = Some (answers y)).
  { induction l as [|a l IH]; intros m [H|H]; cbn [fold_left]; auto; try contradiction.
    - destruct H as [->|H]; apply IH; auto. right. rewrite sget_sinsert, String.eqb_refl. reflexivity.
    - apply IH. right. rewrite sget_sinsert. destruct (String.eqb y a) eqn:E; auto.
      apply String.eqb_eq in E. congruence. }
  apply Hg. auto.
Qed.

(** Every turn prints a value or a parse error; the value is the meaning of the
    typed expression under the answers given. *)
Theorem C43_repl_never_unreachable : forall cfg w line answers,
  fair_order w -> ~ has_double_bang line -> (line = "" -> overflow_checks cfg = false) ->
  (exists x v, parse cfg w ctx_default line = Parse_ok x /\
               repl_turn cfg w line answers = Repl_value v /\
               means w (fun y => Some (answers y)) (root x) v)
  \/ (exists e, parse cfg w ctx_default line = Parse_err e /\ repl_turn cfg w line answers = Repl_error e).
Proof.
  intros cfg w line answers Hf Hd He. unfold repl_turn.
  destruct (parse cfg w ctx_default line) as [x|e|p|] eqn:E.
  - left. pose proof (parse_obtained _ _ _ _ Hd E) as Ho.
    destruct (obtained_inv _ _ _ Ho) as [Hs [_ Hv]].
    set (rho := ask_for_variables w answers (vars x)).
    assert (Hg : forall y, free y (root x) -> sget y rho = Some (answers y)).
    { intros y Hy. apply ask_for_variables_get; auto. }
    destruct (eval_total_ok w rho (root x) Hs) as [v Ev].
    { intros y Hy. rewrite Hg by auto. discriminate. }
    exists x, v. unfold eval. rewrite Ev. split; [reflexivity|split; [reflexivity|]].
    apply eval_sound in Ev. eapply means_local; [|exact Ev]. exact Hg.
  - right. eauto.
  - exfalso. destruct (C02_optimised_parse_panics cfg w ctx_default line p (default_context_returns w) Hd E)
      as [_ [-> Hc]]. rewrite He in Hc; [discriminate|reflexivity].
  - exfalso. eapply C01_parse_terminates; eauto.
Qed.

Example C43_witness : fair_order w0 /\ ~ has_double_bang "2x + y!" /\
  match repl_turn default_config w0 "2x + y!" (fun _ => lit "3") with
  | Repl_value v => same_f64 v (lit "12") | _ => false end = true.
Proof.
  split; [exact w0_fair|]. split; [apply no_double_bang_check; reflexivity|vm_compute; reflexivity].
Qed.
