(** * C71: in which order variables are replaced *)
From Coq Require Import ZArith NArith List String Ascii Bool Permutation.
From Verif Require Import F64 Syntax Factorial Builtins Context Element Parser Xprs.
From Verif Require Import SpecParse SpecTree SpecApi SpecRegular FloatFacts TreeFacts RegularFacts.
From Verif Require Import PropertiesEval PropertiesEq PropertiesSimplify PropertiesOptimise TestWorld.
Import ListNotations.
Local Open Scope string_scope.

Lemma with_all_permutation : forall l l' rho, NoDup (map fst l) -> Permutation l l' ->
  forall y, with_all l rho y = with_all l' rho y.
Proof.
  intros l l' rho N P. induction P as [|[n c] l l' P IH|[n c] [m d] l|l1 l2 l3 P1 IH1 P2 IH2]; intro y; auto.
  - inversion N as [|? ? _ N']; subst. specialize (IH N' y). unfold with_all in *. cbn [find fst snd].
    destruct (String.eqb n y); auto.
  - unfold with_all. cbn [find fst snd]. destruct (String.eqb_spec n y) as [->|Nn], (String.eqb_spec m y) as [->|Nm]; auto.
    exfalso. inversion N as [|? ? H _]; subst. apply H. now left.
  - rewrite IH1 by auto. apply IH2. eapply Permutation_NoDup; [apply Permutation_map; exact P1|exact N].
Qed.

Lemma lookup_app : forall l rho y, lookup (l ++ rho)%list y = with_all l rho y.
Proof.
  intros l rho y. unfold lookup, with_all. induction l as [|[n c] l IH]; cbn [app sget find fst snd]; auto.
  rewrite (String.eqb_sym n y). destruct (String.eqb y n); auto.
Qed.

(** ** C71 *)
(** Replacing variables in several stages is replacing them all. *)
Theorem C71_stages : forall cfg w x l1 l2 b,
  simplify_for_multiple cfg w x (l1 ++ l2)%list = Val b <->
  exists a, simplify_for_multiple cfg w x l1 = Val a /\ simplify_for_multiple cfg w a l2 = Val b.
Proof.
  intros cfg w x l1 l2 b. rewrite C32_multiple_is_iteration. split.
  - revert x. induction l1 as [|var l1 IH]; intros x H; cbn [app] in H.
    + exists x. rewrite !C32_multiple_is_iteration. split; [constructor|exact H].
    + inversion H; subst. destruct (IH _ H5) as [a [Ha Hb]]. exists a. split; auto. rewrite C32_multiple_is_iteration in *. econstructor; eauto.
  - intros [a [Ha Hb]]. rewrite C32_multiple_is_iteration in *. induction Ha; cbn [app]; auto. econstructor; eauto.
Qed.

(** Which variables remain does not depend on the order. *)
Theorem C71_remaining_variables : forall cfg w x l a y,
  simplify_for_multiple cfg w x l = Val a -> (In y (vars a) <-> In y (vars x) /\ ~ In y (map fst l)).
Proof.
  intros cfg w x l a y H. rewrite C32_multiple_is_iteration in H. induction H as [x|x var x1 l a H1 H2 IH]; [cbn; tauto|].
  apply simplify_for_inv in H1. destruct H1 as [_ H1]. rewrite H1, set_remove_In in IH. rewrite IH. cbn [map In]. intuition.
Qed.

(** On the domain where simplification preserves values, the order does not
    matter for the values, nor does the build. *)
Theorem C71_order_does_not_matter : forall cfg cfg' w x l l' a b rho v,
  NoDup (map fst l) -> Permutation l l' ->
  simplify_for_multiple cfg w x l = Val a -> simplify_for_multiple cfg' w x l' = Val b ->
  regular w (lookup (l ++ rho)%list) (root x) v ->
  exists va vb, eval w a rho = Val (Eval_ok va) /\ eval w b rho = Val (Eval_ok vb) /\ same_value va vb /\
    eval w x (l ++ rho)%list = Val (Eval_ok v) /\ same_value v va.
Proof.
  intros cfg cfg' w x l l' a b rho v N P Ha Hb R.
  destruct (C30_simplify_for_multiple_value cfg w x l a rho (l ++ rho)%list v (lookup_app l rho) Ha R) as [E [va [Ea Sa]]].
  assert (R' : regular w (lookup (l' ++ rho)%list) (root x) v).
  { eapply regular_ext; [|exact R]. intro y. rewrite !lookup_app. now apply with_all_permutation. }
  destruct (C30_simplify_for_multiple_value cfg' w x l' b rho (l' ++ rho)%list v (lookup_app l' rho) Hb R') as [_ [vb [Eb Sb]]].
  exists va, vb. split; [exact Ea|]. split; [exact Eb|]. split; [|split; [exact E|exact Sa]].
  eapply same_trans; [|exact Sb]. rewrite same_value_iff in *. destruct Sa as [->|[Z1 Z2]]; auto.
Qed.

(** Outside it the order matters: x / y with x = 0, y = 0 becomes 0 or inf
    (and evaluates to NaN). *)
Theorem C71_order_refuted : exists x a b,
  parse plain_config w0 ctx_default "x / y" = Parse_ok x /\
  simplify_for_multiple plain_config w0 x [("x", fzero); ("y", fzero)] = Val a /\
  simplify_for_multiple plain_config w0 x [("y", fzero); ("x", fzero)] = Val b /\
  root a = Number fzero /\ root b = Number finf /\ eval w0 x [("x", fzero); ("y", fzero)] = Val (Eval_ok fnan).
Proof.
  destruct (parses_to (parse plain_config w0 ctx_default "x / y") (BinOp Divide (Var "x") (Var "y"))) as [x [Hp Hr]]; [vm_compute; reflexivity|].
  destruct x as [e vs]. cbn [root] in Hr. subst e. do 3 eexists. split; [exact Hp|].
  split; [reflexivity|]. split; [reflexivity|]. split; [reflexivity|]. split; reflexivity.
Qed.

(** Even when the values agree, the expressions need not be equal: x - y with
    x = 0, y = 3 becomes -3, once as a number and once as the negation of 3. *)
Theorem C71_equal_expressions_refuted : exists x a b,
  parse plain_config w0 ctx_default "x - y" = Parse_ok x /\
  simplify_for_multiple plain_config w0 x [("x", fzero); ("y", lit "3")] = Val a /\
  simplify_for_multiple plain_config w0 x [("y", lit "3"); ("x", fzero)] = Val b /\
  root a = Number (fneg (lit "3")) /\ root b = UnOp Minus (Number (lit "3")) /\ el_eq (root a) (root b) = Val false /\
  eval w0 a [] = eval w0 b [].
Proof.
  destruct (parses_to (parse plain_config w0 ctx_default "x - y") (BinOp Minus (Var "x") (Var "y"))) as [x [Hp Hr]]; [vm_compute; reflexivity|].
  assert (G : forall l t, same_tree (match simplify_for_multiple plain_config w0 (mk_xprs (BinOp Minus (Var "x") (Var "y")) (vars x)) l with Val a => root a | _ => Var "" end) t = true ->
    t <> Var "" -> exists a, simplify_for_multiple plain_config w0 x l = Val a /\ root a = t).
  { intros l t H Ht. apply same_tree_eq in H. destruct x as [e vs]. cbn [root vars] in *. subst e.
    destruct (simplify_for_multiple plain_config w0 (mk_xprs (BinOp Minus (Var "x") (Var "y")) vs) l) as [a|p]; [eauto|congruence]. }
  destruct (G [("x", fzero); ("y", lit "3")] (Number (fneg (lit "3")))) as [a [Ha Ra]]; [vm_compute; reflexivity|intro D; discriminate D|].
  destruct (G [("y", lit "3"); ("x", fzero)] (UnOp Minus (Number (lit "3")))) as [b [Hb Rb]]; [vm_compute; reflexivity|intro D; discriminate D|].
  exists x, a, b. split; [exact Hp|]. split; [exact Ha|]. split; [exact Hb|]. unfold eval. rewrite Ra, Rb.
  generalize (lit "3"). intro c. repeat split.
Qed.

Example C71_witness : exists x a b v,
  let l := [("x", lit "3"); ("y", lit "5")] in let l' := [("y", lit "5"); ("x", lit "3")] in
  parse plain_config w0 ctx_default mixed_text = Parse_ok x /\
  NoDup (map fst l) /\ Permutation l l' /\
  simplify_for_multiple plain_config w0 x l = Val a /\ simplify_for_multiple default_config w0 x l' = Val b /\
  regular w0 (lookup (l ++ [])%list) (root x) v.
Proof.
  destruct (parses_to (parse plain_config w0 ctx_default mixed_text) mixed_tree) as [x [Hx Ex]]; [vm_compute; reflexivity|].
  assert (G : forall cfg l t, same_tree (match simplify_for_multiple cfg w0 (mk_xprs mixed_tree (vars x)) l with Val a => root a | _ => Var "" end) t = true ->
    t <> Var "" -> exists a, simplify_for_multiple cfg w0 x l = Val a).
  { intros cfg l t H Ht. apply same_tree_eq in H. destruct x as [e vs]. cbn [root vars] in *. subst e.
    destruct (simplify_for_multiple cfg w0 (mk_xprs mixed_tree vs) l) as [a|p]; [eauto|congruence]. }
  destruct (G plain_config [("x", lit "3"); ("y", lit "5")] (Number (lit "6"))) as [a Ha]; [vm_compute; reflexivity|intro D; discriminate D|].
  destruct (G default_config [("y", lit "5"); ("x", lit "3")] (Number (lit "6"))) as [b Hb]; [vm_compute; reflexivity|intro D; discriminate D|].
  destruct mixed_regular as [v [Hv _]]. exists x, a, b, v. cbv zeta. split; [exact Hx|].
  split; [repeat constructor; cbn; intuition discriminate|]. split; [apply perm_swap|]. split; [exact Ha|]. split; [exact Hb|]. rewrite Ex. exact Hv.
Qed.
