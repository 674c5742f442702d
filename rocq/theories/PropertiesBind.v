(** * Properties of binding (C26-C29, C42) *)
From Coq Require Import ZArith NArith List String Ascii Bool Lia Permutation.
From Verif Require Import F64 Syntax Factorial Builtins Context Element Parser Xprs.
From Verif Require Import SpecParse SpecTree TreeFacts SimplifyFacts SpecApi ParserResults BindFacts.
From Verif Require Import TestWorld PropertiesParse PropertiesEval.
Import ListNotations.
Local Open Scope string_scope.

(** Fewer than 256 variables are missing (the counter is a [u8]). *)
Definition few_missing (x : xprs) (names : list string) : Prop :=
  forall m, missing_from x names m -> List.length m < 256.

Definition succeeds {F} (r : out (bind_result F)) : Prop := exists f, r = Val (Bound f).

(** An error of a [bind] method lists exactly the missing variables, each once,
    separated by ", ", in some order; its variant says whether there are several. *)
Definition reports_missing {F} (r : out (bind_result F)) (x : xprs) (names : list string) : Prop :=
  exists m, missing_from x names m /\
    match m with
    | [] => succeeds r
    | [v] => r = Val (Bind_err (OneVariable v))
    | _ => r = Val (Bind_err (MultipleVariables (String.concat ", " m)))
    end.

(** ** C26, C29 *)
Lemma reports_of_check : forall cfg w x names F (r : out (bind_result F)) (k : F),
  fair_order w -> NoDup (vars x) -> few_missing x names ->
  r = (do e <- bind_check cfg w x names;
       Val (match e with Some err => Bind_err err | None => Bound k end)) ->
  reports_missing r x names.
Proof.
  intros cfg w x names F r k Hf Hn Hm ->.
  destruct (bind_check_spec cfg w x names Hf Hn Hm) as [m [Hmm ->]]. exists m. split; auto.
  destruct m as [|a [|b m]]; cbn [bind_out]; auto. exists k. reflexivity.
Qed.

Lemma succeeds_iff : forall F (r : out (bind_result F)) x names,
  reports_missing r x names -> (succeeds r <-> forall v, In v (vars x) -> In v names).
Proof.
  intros F r x names [m [[Hn Hm] H]]. split.
  - intros [f Hf] v Hv. destruct m as [|a [|b m]].
    + destruct (in_dec string_dec v names); auto. exfalso. apply (proj2 (Hm v)). auto.
    + congruence.
    + congruence.
  - intro Hall. destruct m as [|a m]; auto.
    exfalso. destruct (proj1 (Hm a)); [now left|]. auto.
Qed.

(** Each method of the family reports exactly the missing variables (C29). *)
Theorem C29_bind_errors_list_missing : forall cfg w x, fair_order w -> NoDup (vars x) ->
  (forall v1 : string, few_missing x [v1] -> reports_missing (bind cfg w x v1) x [v1]) /\
  (forall v1 v2 : string, few_missing x [v1; v2] -> reports_missing (bind2 cfg w x v1 v2) x [v1; v2]) /\
  (forall v1 v2 v3 : string, few_missing x [v1; v2; v3] -> reports_missing (bind3 cfg w x v1 v2 v3) x [v1; v2; v3]) /\
  (forall v1 v2 v3 v4 : string, few_missing x [v1; v2; v3; v4] -> reports_missing (bind4 cfg w x v1 v2 v3 v4) x [v1; v2; v3; v4]) /\
  (forall v1 v2 v3 v4 v5 : string, few_missing x [v1; v2; v3; v4; v5] -> reports_missing (bind5 cfg w x v1 v2 v3 v4 v5) x [v1; v2; v3; v4; v5]) /\
  (forall v1 v2 v3 v4 v5 v6 : string, few_missing x [v1; v2; v3; v4; v5; v6] -> reports_missing (bind6 cfg w x v1 v2 v3 v4 v5 v6) x [v1; v2; v3; v4; v5; v6]) /\
  (forall v1 v2 v3 v4 v5 v6 v7 : string, few_missing x [v1; v2; v3; v4; v5; v6; v7] -> reports_missing (bind7 cfg w x v1 v2 v3 v4 v5 v6 v7) x [v1; v2; v3; v4; v5; v6; v7]) /\
  (forall v1 v2 v3 v4 v5 v6 v7 v8 : string, few_missing x [v1; v2; v3; v4; v5; v6; v7; v8] -> reports_missing (bind8 cfg w x v1 v2 v3 v4 v5 v6 v7 v8) x [v1; v2; v3; v4; v5; v6; v7; v8]) /\
  (forall v1 v2 v3 v4 v5 v6 v7 v8 v9 : string, few_missing x [v1; v2; v3; v4; v5; v6; v7; v8; v9] -> reports_missing (bind9 cfg w x v1 v2 v3 v4 v5 v6 v7 v8 v9) x [v1; v2; v3; v4; v5; v6; v7; v8; v9]) /\
  (forall names, few_missing x names -> reports_missing (bind_n cfg w x names) x names) /\
  (forall names, few_missing x names -> reports_missing (bind_n_runtime cfg w x names) x names).
Proof.
  intros cfg w x Hf Hn. repeat split; intros; eapply reports_of_check; eauto; reflexivity.
Qed.

(** ... and succeeds exactly when none is missing (C26). *)
Theorem C26_bind_succeeds_iff_all_listed : forall cfg w x, fair_order w -> NoDup (vars x) ->
  (forall v1 : string, few_missing x [v1] ->
     (succeeds (bind cfg w x v1) <-> forall v, In v (vars x) -> In v [v1])) /\
  (forall v1 v2 : string, few_missing x [v1; v2] ->
     (succeeds (bind2 cfg w x v1 v2) <-> forall v, In v (vars x) -> In v [v1; v2])) /\
  (forall v1 v2 v3 : string, few_missing x [v1; v2; v3] ->
     (succeeds (bind3 cfg w x v1 v2 v3) <-> forall v, In v (vars x) -> In v [v1; v2; v3])) /\
  (forall v1 v2 v3 v4 : string, few_missing x [v1; v2; v3; v4] ->
     (succeeds (bind4 cfg w x v1 v2 v3 v4) <-> forall v, In v (vars x) -> In v [v1; v2; v3; v4])) /\
  (forall v1 v2 v3 v4 v5 : string, few_missing x [v1; v2; v3; v4; v5] ->
     (succeeds (bind5 cfg w x v1 v2 v3 v4 v5) <-> forall v, In v (vars x) -> In v [v1; v2; v3; v4; v5])) /\
  (forall v1 v2 v3 v4 v5 v6 : string, few_missing x [v1; v2; v3; v4; v5; v6] ->
     (succeeds (bind6 cfg w x v1 v2 v3 v4 v5 v6) <-> forall v, In v (vars x) -> In v [v1; v2; v3; v4; v5; v6])) /\
  (forall v1 v2 v3 v4 v5 v6 v7 : string, few_missing x [v1; v2; v3; v4; v5; v6; v7] ->
     (succeeds (bind7 cfg w x v1 v2 v3 v4 v5 v6 v7) <-> forall v, In v (vars x) -> In v [v1; v2; v3; v4; v5; v6; v7])) /\
  (forall v1 v2 v3 v4 v5 v6 v7 v8 : string, few_missing x [v1; v2; v3; v4; v5; v6; v7; v8] ->
     (succeeds (bind8 cfg w x v1 v2 v3 v4 v5 v6 v7 v8) <-> forall v, In v (vars x) -> In v [v1; v2; v3; v4; v5; v6; v7; v8])) /\
  (forall v1 v2 v3 v4 v5 v6 v7 v8 v9 : string, few_missing x [v1; v2; v3; v4; v5; v6; v7; v8; v9] ->
     (succeeds (bind9 cfg w x v1 v2 v3 v4 v5 v6 v7 v8 v9) <-> forall v, In v (vars x) -> In v [v1; v2; v3; v4; v5; v6; v7; v8; v9])) /\
  (forall names, few_missing x names ->
     (succeeds (bind_n cfg w x names) <-> forall v, In v (vars x) -> In v names)) /\
  (forall names, few_missing x names ->
     (succeeds (bind_n_runtime cfg w x names) <-> forall v, In v (vars x) -> In v names)).
Proof.
  intros cfg w x Hf Hn. repeat split; intros; eapply succeeds_iff; eauto;
    eapply reports_of_check; eauto; reflexivity.
Qed.

(** For an expression with fewer than 256 variables the side condition holds
    whatever the names. *)
Lemma few_vars_few_missing : forall x names, List.length (vars x) < 256 -> few_missing x names.
Proof.
  intros x names H m [Hn Hm]. eapply Nat.le_lt_trans; [|exact H].
  apply NoDup_incl_length; auto. intros v Hv. apply Hm in Hv. tauto.
Qed.

Example C26_witness : exists x, obtained default_config w0 x /\ NoDup (vars x) /\
  (forall names, few_missing x names) /\
  succeeds (bind2 default_config w0 x "x" "y") /\
  bind default_config w0 x "x" = Val (Bind_err (OneVariable "y")) /\
  bind default_config w0 x "k" = Val (Bind_err (MultipleVariables "y, x")) /\
  bind default_config w1 x "k" = Val (Bind_err (MultipleVariables "x, y")).
Proof.
  destruct expr1_obtained as [x [Hr [Hv Ho]]]. exists x. split; [exact Ho|].
  split; [apply (obtained_inv _ _ _ Ho)|].
  split; [intro names; apply few_vars_few_missing; rewrite Hv; cbn; lia|].
  unfold succeeds, bind2, bind, bind_check. rewrite Hv. cbn.
  split; [eexists; reflexivity|]. auto.
Qed.

(** Beyond 255 missing variables the counter overflows: a debug build panics ... *)
Theorem C26_many_missing_panics_in_debug : forall cfg w x names m,
  fair_order w -> NoDup (vars x) -> overflow_checks cfg = true ->
  missing_from x names m -> 256 <= List.length m ->
  bind_n cfg w x names = Boom ArithOverflow.
Proof.
  intros cfg w x names m Hf Hn Ho Hm Hl. unfold bind_n, bind_check.
  rewrite from_diff_overflow; auto.
  rewrite (missing_from_length x names _ m); auto. apply missing_names_ok; auto.
Qed.

(** ... and a release build with exactly 256 missing variables returns Ok. *)
Theorem C26_256_missing_accepted_in_release : forall cfg w x names m,
  fair_order w -> NoDup (vars x) -> overflow_checks cfg = false ->
  missing_from x names m -> List.length m = 256 ->
  succeeds (bind_n cfg w x names).
Proof.
  intros cfg w x names m Hf Hn Ho Hm Hl. unfold bind_n, bind_check.
  rewrite from_diff_wrap; auto.
  - cbn [bind_out]. eexists. reflexivity.
  - rewrite <- Hl. apply (missing_from_length x names); auto. apply missing_names_ok; auto.
Qed.

(** A text with 256 variables: a release build binds it to no name at all, and
    calling the bound function panics. *)
Definition digit_letter (n : nat) : string := String (ascii_of_nat (97 + n)) "".
Definition var_name (n : nat) : string := "v" ++ digit_letter (n / 16) ++ digit_letter (n mod 16).
Definition text256 : string := String.concat "+" (map var_name (seq 0 256)).

Example C26_256_witness : exists x f,
  parse default_config w0 ctx_default text256 = Parse_ok x /\
  List.length (vars x) = 256 /\
  bind_n default_config w0 x [] = Val (Bound f) /\
  f [] = Boom UnwrapNone.
Proof.
  destruct (ok_and_spec (parse default_config w0 ctx_default text256)
    (fun x => Nat.eqb (List.length (vars x)) 256 &&
              match eval_element w0 [] (root x) with Val (Eval_err _) => true | _ => false end)) as [x [H1 H2]].
  { vm_compute. reflexivity. }
  apply andb_true_iff in H2. destruct H2 as [H2 H3]. apply Nat.eqb_eq in H2.
  destruct (C26_256_missing_accepted_in_release default_config w0 x [] (vars x)) as [f Hf].
  - exact w0_fair.
  - apply (C17_vars_exact _ _ _ _ _ H1).
  - reflexivity.
  - split; [apply (C17_vars_exact _ _ _ _ _ H1)|]. simpl. tauto.
  - exact H2.
  - exists x, f. repeat split; auto. clear -Hf H3.
    unfold bind_n in Hf. destruct (bind_check default_config w0 x []) as [[e|]|]; try discriminate.
    cbn [bind_out] in Hf. injection Hf as <-. unfold eval_unchecked. rewrite unchecked_agrees.
    cbn [combine smap_of_list fold_left].
    destruct (eval_element w0 [] (root x)) as [[]|]; congruence.
Qed.

(** ** C27: bound functions compute eval *)
Lemma bound_of_check : forall cfg w x names F (k f : F),
  fair_order w -> obtained cfg w x -> few_missing x names ->
  (do e <- bind_check cfg w x names;
       Val (match e with Some err => Bind_err err | None => Bound k end)) = Val (Bound f) ->
  f = k /\ forall v, free v (root x) -> In v names.
Proof.
  intros cfg w x names F k f Hf Ho Hm H. destruct (obtained_inv _ _ _ Ho) as [_ [Hn Hv]].
  destruct (bind_check cfg w x names) as [[e|]|] eqn:E; try discriminate.
  cbn [bind_out] in H. split; [congruence|].
  intros v Hfr. eapply bind_check_none; eauto.
Qed.

(** The value computed by every bound function is the meaning of the expression
    with the values assigned to the names. *)
Theorem C27_bound_functions_compute_meaning : forall cfg w x, fair_order w -> obtained cfg w x ->
  (forall v1 f, few_missing x [v1] -> bind cfg w x v1 = Val (Bound f) ->
     forall a1, exists u, f a1 = Val u /\ means w (assign [v1] [a1]) (root x) u) /\
  (forall v1 v2 f, few_missing x [v1; v2] -> bind2 cfg w x v1 v2 = Val (Bound f) ->
     forall a1 a2, exists u, f a1 a2 = Val u /\ means w (assign [v1; v2] [a1; a2]) (root x) u) /\
  (forall v1 v2 v3 f, few_missing x [v1; v2; v3] -> bind3 cfg w x v1 v2 v3 = Val (Bound f) ->
     forall a1 a2 a3, exists u, f a1 a2 a3 = Val u /\ means w (assign [v1; v2; v3] [a1; a2; a3]) (root x) u) /\
  (forall v1 v2 v3 v4 f, few_missing x [v1; v2; v3; v4] -> bind4 cfg w x v1 v2 v3 v4 = Val (Bound f) ->
     forall a1 a2 a3 a4, exists u, f a1 a2 a3 a4 = Val u /\ means w (assign [v1; v2; v3; v4] [a1; a2; a3; a4]) (root x) u) /\
  (forall v1 v2 v3 v4 v5 f, few_missing x [v1; v2; v3; v4; v5] -> bind5 cfg w x v1 v2 v3 v4 v5 = Val (Bound f) ->
     forall a1 a2 a3 a4 a5, exists u, f a1 a2 a3 a4 a5 = Val u /\ means w (assign [v1; v2; v3; v4; v5] [a1; a2; a3; a4; a5]) (root x) u) /\
  (forall v1 v2 v3 v4 v5 v6 f, few_missing x [v1; v2; v3; v4; v5; v6] -> bind6 cfg w x v1 v2 v3 v4 v5 v6 = Val (Bound f) ->
     forall a1 a2 a3 a4 a5 a6, exists u, f a1 a2 a3 a4 a5 a6 = Val u /\ means w (assign [v1; v2; v3; v4; v5; v6] [a1; a2; a3; a4; a5; a6]) (root x) u) /\
  (forall v1 v2 v3 v4 v5 v6 v7 f, few_missing x [v1; v2; v3; v4; v5; v6; v7] -> bind7 cfg w x v1 v2 v3 v4 v5 v6 v7 = Val (Bound f) ->
     forall a1 a2 a3 a4 a5 a6 a7, exists u, f a1 a2 a3 a4 a5 a6 a7 = Val u /\ means w (assign [v1; v2; v3; v4; v5; v6; v7] [a1; a2; a3; a4; a5; a6; a7]) (root x) u) /\
  (forall v1 v2 v3 v4 v5 v6 v7 v8 f, few_missing x [v1; v2; v3; v4; v5; v6; v7; v8] -> bind8 cfg w x v1 v2 v3 v4 v5 v6 v7 v8 = Val (Bound f) ->
     forall a1 a2 a3 a4 a5 a6 a7 a8, exists u, f a1 a2 a3 a4 a5 a6 a7 a8 = Val u /\ means w (assign [v1; v2; v3; v4; v5; v6; v7; v8] [a1; a2; a3; a4; a5; a6; a7; a8]) (root x) u) /\
  (forall v1 v2 v3 v4 v5 v6 v7 v8 v9 f, few_missing x [v1; v2; v3; v4; v5; v6; v7; v8; v9] -> bind9 cfg w x v1 v2 v3 v4 v5 v6 v7 v8 v9 = Val (Bound f) ->
     forall a1 a2 a3 a4 a5 a6 a7 a8 a9, exists u, f a1 a2 a3 a4 a5 a6 a7 a8 a9 = Val u /\ means w (assign [v1; v2; v3; v4; v5; v6; v7; v8; v9] [a1; a2; a3; a4; a5; a6; a7; a8; a9]) (root x) u) /\
  (forall names f, few_missing x names -> bind_n cfg w x names = Val (Bound f) ->
     forall vals, List.length vals = List.length names ->
     exists u, f vals = Val u /\ means w (assign names vals) (root x) u).
Proof.
  intros cfg w x Hf Ho. destruct (obtained_inv _ _ _ Ho) as [Hs _].
  repeat split; intros;
    match goal with H : _ = Val (Bound _) |- _ =>
      destruct (bound_of_check cfg w x _ _ _ _ Hf Ho ltac:(eassumption) H) as [-> Hn] end;
    match goal with |- exists u, _ /\ means _ (assign ?names ?vals) _ _ =>
      exact (bound_value w x names vals Hs Hn ltac:(first [reflexivity | symmetry; assumption])) end.
Qed.

(** Consequently it is what [eval] returns for that assignment. *)
Theorem C27_bound_functions_agree_with_eval : forall cfg w x names f vals rho,
  fair_order w -> obtained cfg w x -> few_missing x names ->
  bind_n cfg w x names = Val (Bound f) -> List.length vals = List.length names ->
  (forall y, occurs y (root x) -> sget y rho = assign names vals y) ->
  exists u, f vals = Val u /\ eval w x rho = Val (Eval_ok u).
Proof.
  intros cfg w x names f vals rho Hf Ho Hm Hb Hl Hr.
  destruct (obtained_inv _ _ _ Ho) as [Hs _].
  destruct (bound_of_check cfg w x _ _ _ _ Hf Ho Hm Hb) as [-> Hn].
  destruct (bound_value w x names vals Hs Hn (eq_sym Hl)) as [u [Hu Hmean]].
  exists u. split; auto. apply C21_eval_is_meaning. eapply means_local; [|exact Hmean].
  intros y Hy. unfold lookup. symmetry. apply Hr. now apply free_iff.
Qed.

Example C27_witness : exists x f, obtained default_config w0 x /\
  bind2 default_config w0 x "x" "y" = Val (Bound f) /\ f (lit "3") (lit "1.5") = Val (lit "11").
Proof.
  destruct expr1_obtained as [x [Hr [Hv Ho]]]. exists x.
  eexists. split; [exact Ho|]. split.
  - unfold bind2, bind_check. rewrite Hv. cbn. reflexivity.
  - cbv beta. apply is_val_eq. unfold eval_unchecked. rewrite Hr. vm_compute. reflexivity.
Qed.

(** ** C28: bind_n_runtime *)
Theorem C28_bind_n_runtime_total : forall cfg w x names f, fair_order w -> obtained cfg w x ->
  few_missing x names -> bind_n_runtime cfg w x names = Val (Bound f) ->
  forall vals,
    (exists u, f vals = Val (Eval_ok u) /\ means w (assign names vals) (root x) u) \/
    (exists y, f vals = Val (Eval_err y) /\ first_missing (assign names vals) (root x) y /\
               In y names /\ List.length vals < List.length names).
Proof.
  intros cfg w x names f Hf Ho Hm Hb vals.
  destruct (bound_of_check cfg w x _ _ _ _ Hf Ho Hm Hb) as [-> Hn].
  set (rho := smap_of_list (combine names vals)).
  assert (Hr : forall y, sget y rho = assign names vals y) by (intro; apply assign_sget).
  destruct (eval_obtained_cases _ _ _ rho Ho) as [[v Hv]|[z Hz]].
  - left. exists v. split; auto. eapply means_ext; [exact Hr|]. apply eval_sound. exact Hv.
  - right. exists z. split; auto. pose proof (eval_err_first _ _ _ _ Hz) as Hfm.
    destruct (first_missing_occurs _ _ _ Hfm) as [Hoc Hnone]. cbv beta in Hnone.
    split; [|split].
    + clear -Hfm Hr. assert (H : forall e, first_missing (fun y => sget y rho) e z -> first_missing (assign names vals) e z).
      { clear Hfm. intros e H. induction H.
        - apply FM_var. rewrite <- Hr. auto.
        - now apply FM_un.
        - now apply FM_left.
        - apply FM_right; auto. intros y Hy. rewrite <- Hr. auto.
        - apply FM_arg; auto. intros b y Hb Hy. rewrite <- Hr. eauto. }
      auto.
    + apply Hn. now apply free_iff.
    + destruct (le_lt_dec (List.length names) (List.length vals)) as [Hle|]; auto. exfalso.
      assert (Hd : exists u, assign names vals z = Some u).
      { assert (Hin : In z names) by (apply Hn; now apply free_iff).
        clear -Hle Hin. revert vals Hle. induction names as [|n names IH]; intros vals Hle; [inversion Hin|].
        destruct vals as [|v vals]; [simpl in Hle; lia|]. cbn [assign].
        destruct (assign names vals z) eqn:E; eauto.
        destruct Hin as [->|Hin]; [rewrite String.eqb_refl; eauto|].
        destruct (IH Hin vals) as [u Hu]; [simpl in Hle; lia|]. congruence. }
      destruct Hd as [u Hu]. rewrite Hr in Hnone. congruence.
Qed.

Example C28_witness : exists x f, obtained default_config w0 x /\
  bind_n_runtime default_config w0 x ["x"; "y"] = Val (Bound f) /\
  f [fone] = Val (Eval_err "y") /\ f [] = Val (Eval_err "x").
Proof.
  destruct expr1_obtained as [x [Hr [Hv Ho]]]. exists x.
  eexists. split; [exact Ho|]. split.
  - unfold bind_n_runtime, bind_check. rewrite Hv. cbn. reflexivity.
  - cbv beta. unfold eval. rewrite Hr. split; vm_compute; reflexivity.
Qed.

(** ** C42: an expression used as a function

    A bound expression [f] (of [bind_n]; the other methods are the special cases
    of C27) is registered as user function [id] of a context, and called by
    another expression. *)

(** [uses_user id e]: the tree calls user function [id]. *)
Definition uses_user (id : nat) (e : element) : Prop :=
  exists f args, sub (Call f args) e /\ (fn_ptr f = Static_user id \/ fn_ptr f = Dyn_user id).

Lemma call_other : forall w id g f vs,
  fn_ptr f <> Static_user id -> fn_ptr f <> Dyn_user id ->
  call_function (with_user_fn w id g) f vs = call_function w f vs.
Proof.
  intros w id g f vs H1 H2. unfold call_function, call_ptr. destruct (fn_ptr f) as [b|i|i].
  - destruct b; reflexivity.
  - cbn [with_user_fn user_fn]. destruct (Nat.eqb i id) eqn:E; auto. apply Nat.eqb_eq in E. congruence.
  - cbn [with_user_fn user_fn]. destruct (Nat.eqb i id) eqn:E; auto. apply Nat.eqb_eq in E. congruence.
Qed.

(** The value of a call is the value of the bound expression with its names
    standing for the values of the arguments. *)
Theorem C42_call_of_bound_expression : forall cfg w inner names f id hof rho args v,
  fair_order w -> obtained cfg w inner -> few_missing inner names ->
  bind_n cfg w inner names = Val (Bound f) ->
  fn_ptr hof = Dyn_user id -> List.length args = List.length names ->
  (means (with_user_fn w id (closure_fn f)) rho (Call hof args) v <->
   exists vs, means_all (with_user_fn w id (closure_fn f)) rho args vs /\
              means w (assign names vs) (root inner) v).
Proof.
  intros cfg w inner names f id hof rho args v Hf Ho Hm Hb Hp Hl.
  destruct (C27_bound_functions_compute_meaning cfg w inner Hf Ho) as [_ [_ [_ [_ [_ [_ [_ [_ [_ HN]]]]]]]]].
  specialize (HN names f Hm Hb).
  assert (Hlen : forall vs, means_all (with_user_fn w id (closure_fn f)) rho args vs -> List.length vs = List.length args).
  { clear. induction args; intros vs H; inversion H; subst; simpl; auto. }
  assert (Hcall : forall vs, List.length vs = List.length args ->
    exists u, call_function (with_user_fn w id (closure_fn f)) hof vs = Val u /\
              means w (assign names vs) (root inner) u).
  { intros vs Hvs. destruct (HN vs) as [u [Hu Hmean]]; [congruence|]. exists u. split; auto.
    unfold call_function, call_ptr. rewrite Hp. cbn [with_user_fn user_fn].
    rewrite Nat.eqb_refl. unfold closure_fn. rewrite Hu. reflexivity. }
  split.
  - intro H. inversion H; subst. exists vs. split; auto.
    destruct (Hcall vs (Hlen vs ltac:(assumption))) as [u [Hu Hmean]]. congruence.
  - intros [vs [Ha Hmean]]. destruct (Hcall vs (Hlen vs Ha)) as [u [Hu Hmu]].
    rewrite (means_det _ _ _ _ _ Hmean Hmu). econstructor; eauto.
Qed.

(** Replacing the names in a tree by other trees, simultaneously. *)
Fixpoint substitute (sigma : string -> option element) (e : element) : element :=
  match e with
  | Number n => Number n
  | Var y => match sigma y with Some t => t | None => Var y end
  | BinOp op l r => BinOp op (substitute sigma l) (substitute sigma r)
  | UnOp op a => UnOp op (substitute sigma a)
  | Call f args => Call f (map (substitute sigma) args)
  end.

(** The first tree listed for a name. *)
Fixpoint assoc (names : list string) (args : list element) (y : string) : option element :=
  match names, args with
  | n :: names', a :: args' => if String.eqb y n then Some a else assoc names' args' y
  | _, _ => None
  end.

Lemma assoc_assign : forall w rho names args vs, NoDup names -> means_all w rho args vs ->
  List.length args = List.length names ->
  forall y, match assign names vs y with
            | Some v => exists t, assoc names args y = Some t /\ means w rho t v
            | None => assoc names args y = None
            end.
Proof.
  induction names as [|n names IH]; intros args vs Hn Hm Hl y.
  - destruct args; reflexivity.
  - destruct args as [|a args]; [discriminate|]. inversion Hm; subst. inversion Hn; subst.
    cbn [assign assoc]. specialize (IH args vs0 ltac:(assumption) ltac:(assumption) ltac:(simpl in Hl; lia) y).
    destruct (String.eqb y n) eqn:E.
    + apply String.eqb_eq in E. subst y.
      assert (assign names vs0 n = None) as ->; [|eauto].
      destruct (assign names vs0 n) eqn:Ea; auto. exfalso. destruct IH as [t [Ht _]].
      match goal with H : ~ In n names |- _ => apply H end. clear -Ht.
      revert args Ht. induction names; intros args Ht; [destruct args; discriminate|].
      destruct args; [discriminate|]. cbn [assoc] in Ht. destruct (String.eqb n a) eqn:E.
      * apply String.eqb_eq in E. left. congruence.
      * right. eauto.
    + destruct (assign names vs0 y); auto.
Qed.

(** ... hence the same value as the outer expression with the call replaced by
    the inner expression in which every name is replaced by its argument. *)
Theorem C42_call_is_substitution : forall cfg w inner names f id hof rho args vs v,
  fair_order w -> obtained cfg w inner -> few_missing inner names -> NoDup names ->
  bind_n cfg w inner names = Val (Bound f) ->
  fn_ptr hof = Dyn_user id -> ~ uses_user id (root inner) ->
  List.length args = List.length names ->
  means_all (with_user_fn w id (closure_fn f)) rho args vs ->
  (means (with_user_fn w id (closure_fn f)) rho (Call hof args) v <->
   means (with_user_fn w id (closure_fn f)) rho (substitute (assoc names args) (root inner)) v).
Proof.
  intros cfg w inner names f id hof rho args vs v Hf Ho Hm Hnd Hb Hp Hu Hl Hargs.
  set (w' := with_user_fn w id (closure_fn f)) in *.
  destruct (obtained_inv _ _ _ Ho) as [_ [_ Hfree]].
  assert (HA := assoc_assign w' rho names args vs Hnd Hargs Hl).
  assert (Hall : forall y, free y (root inner) -> In y names).
  { destruct (bound_of_check cfg w inner names _ _ _ Hf Ho Hm Hb) as [_ H]. exact H. }
  assert (Hdef : forall y, In y names -> assign names vs y <> None).
  { intros y Hy.
    assert (List.length names = List.length vs) as Hlv.
    { rewrite <- Hl. clear -Hargs. induction Hargs; simpl; auto. }
    destruct (assign_defined names vs y Hlv Hy) as [u ->]. discriminate. }
  (* the meaning of the substituted tree *)
  assert (HS : forall e, (forall y, free y e -> In y names) -> ~ uses_user id e ->
             forall u, means w (assign names vs) e u -> means w' rho (substitute (assoc names args) e) u).
  { intros e. induction e using element_ind'; intros Hin Hnu u Hmu.
    - inversion Hmu; subst. constructor.
    - assert (~ uses_user id e1) by (intros [g [a [Hs Hg]]]; apply Hnu; exists g, a; split; eauto using sub).
      assert (~ uses_user id e2) by (intros [g [a [Hs Hg]]]; apply Hnu; exists g, a; split; eauto using sub).
      cbn [substitute]. cbn [free] in Hin.
      inversion Hmu; subst; [apply M_plus|apply M_minus|apply M_times|apply M_divide|
        change (l_powf w a b) with (l_powf w' a b); apply M_power|apply M_modulo]; auto.
    - assert (~ uses_user id e) by (intros [g [a [Hs Hg]]]; apply Hnu; exists g, a; split; eauto using sub).
      cbn [substitute]. cbn [free] in Hin. inversion Hmu; subst; [apply M_unplus|apply M_unminus|apply M_factorial]; auto.
    - cbn [substitute]. inversion Hmu; subst. apply M_call with (vs := vs0).
      + assert (Hin' : Forall (fun a => forall y, free y a -> In y names) args0).
        { apply Forall_forall. intros a Ha y Hy. apply Hin. apply free_call, Exists_exists. eauto. }
        assert (Hnu' : Forall (fun a => ~ uses_user id a) args0).
        { apply Forall_forall. intros a Ha [g [a' [Hs Hg]]]. apply Hnu. exists g, a'. split; eauto using sub. }
        match goal with H : means_all _ _ args0 _ |- _ => revert H end. clear - H Hin' Hnu'.
        revert vs0. induction args0; intros vs0 Hm; inversion Hm; subst; [constructor|].
        inversion H; inversion Hin'; inversion Hnu'; subst. constructor; auto.
      + unfold w'. rewrite call_other; auto; intro Hc; apply Hnu; exists f0, args0; split; eauto using sub.
    - inversion Hmu; subst. cbn [substitute]. specialize (HA x).
      match goal with H : assign names vs x = Some _ |- _ => rewrite H in HA end.
      destruct HA as [t [Ht Hmt]]. rewrite Ht. auto. }
  destruct (C27_bound_functions_compute_meaning cfg w inner Hf Ho) as [_ [_ [_ [_ [_ [_ [_ [_ [_ HN]]]]]]]]].
  destruct (HN names f Hm Hb vs) as [u [_ Hmu]].
  { rewrite <- Hl. clear -Hargs. induction Hargs; simpl; auto. }
  pose proof (HS (root inner) Hall Hu u Hmu) as Hsub.
  assert (Hcall : means w' rho (Call hof args) u).
  { apply (C42_call_of_bound_expression cfg w inner names f id hof rho args u); eauto. }
  split; intro H.
  - now rewrite (means_det _ _ _ _ _ H Hcall).
  - now rewrite (means_det _ _ _ _ _ H Hsub).
Qed.

(** A context with such a function satisfies the hypothesis of the evaluation
    theorems, so the outer expression is covered by C20-C25. *)
Theorem C42_bound_expression_is_a_good_function : forall cfg w inner names f id name,
  fair_order w -> obtained cfg w inner -> few_missing inner names ->
  bind_n cfg w inner names = Val (Bound f) ->
  context_functions_return (with_user_fn w id (closure_fn f))
    (with_fn ctx_default (mk_function name (Dyn_user id) (Some (List.length names)))).
Proof.
  intros cfg w inner names f id name Hf Ho Hm Hb n g Hg vs Hne Hlen.
  destruct (C27_bound_functions_compute_meaning cfg w inner Hf Ho) as [_ [_ [_ [_ [_ [_ [_ [_ [_ HN]]]]]]]]].
  cbn in Hg. destruct (String.eqb n name); [|discriminate]. injection Hg as <-.
  specialize (Hlen _ eq_refl). destruct (HN names f Hm Hb vs Hlen) as [u [Hu _]].
  exists u. cbn. rewrite Nat.eqb_refl. unfold closure_fn. rewrite Hu. reflexivity.
Qed.

(** For example: h(a, b) = 2a+b registered and used in "h(x, 3)^2". *)
Example C42_witness : exists inner f outer,
  obtained default_config w0 inner /\
  bind_n default_config w0 inner ["a"; "b"] = Val (Bound f) /\
  ~ uses_user 7 (root inner) /\
  let w' := with_user_fn w0 7 (closure_fn f) in
  parse default_config w' (with_fn ctx_default (mk_function "h" (Dyn_user 7) (Some 2))) "h(x, 3)-1"
    = Parse_ok outer /\
  eval w' outer [("x", lit "5")] = Val (Eval_ok (lit "12")).
Proof.
  destruct (parses_to (parse default_config w0 ctx_default "2a+b")
    (BinOp Plus (BinOp Times (Number (lit "2")) (Var "a")) (Var "b"))) as [inner [Hp Hr]];
    [vm_compute; reflexivity|].
  assert (Hv : forall v, In v (vars inner) -> In v ["a"; "b"]).
  { intros v Hv. pose proof (proj2 (C17_vars_exact _ _ _ _ _ Hp)) as He. apply He in Hv.
    rewrite Hr in Hv. apply free_iff in Hv. simpl in Hv. intuition (subst; simpl; auto). }
  assert (Hn := proj1 (C17_vars_exact _ _ _ _ _ Hp)).
  assert (Hfew : few_missing inner ["a"; "b"]).
  { intros m [_ Hm]. destruct m as [|v m]; [simpl; lia|]. exfalso.
    destruct (proj1 (Hm v) (or_introl eq_refl)) as [H1 H2]. auto. }
  destruct (C26_bind_succeeds_iff_all_listed default_config w0 inner w0_fair Hn)
    as [_ [_ [_ [_ [_ [_ [_ [_ [_ [Hb _]]]]]]]]]].
  destruct (proj2 (Hb _ Hfew) Hv) as [f Hf]. clear Hb.
  assert (Ho : obtained default_config w0 inner).
  { econstructor; [apply default_context_returns| |exact Hp]. apply no_double_bang_check. reflexivity. }
  assert (Hno : ~ uses_user 7 (root inner)).
  { rewrite Hr. generalize (lit "2"). clear. intros n [g [args [Hs _]]].
    repeat match goal with H : sub (Call _ _) _ |- _ => inversion H; subst; clear H end. }
  set (hof := mk_function "h" (Dyn_user 7) (Some 2)).
  destruct (parses_to (parse default_config (with_user_fn w0 7 (closure_fn f)) (with_fn ctx_default hof) "h(x, 3)-1")
    (BinOp Minus (Call hof [Var "x"; Number (lit "3")]) (Number fone))) as [outer [Hq Hro]];
    [vm_compute; reflexivity|].
  exists inner, f, outer. repeat (split; auto).
  apply C21_eval_is_meaning. unfold lookup. rewrite Hro.
  assert (lit "12" = fsub (lit "13") fone) as -> by (apply same_f64_eq; vm_compute; reflexivity).
  apply M_minus; [|constructor].
  apply (C42_call_of_bound_expression default_config w0 inner ["a"; "b"] f 7 hof); auto using w0_fair.
  exists [lit "5"; lit "3"]. split.
  - repeat constructor.
  - rewrite Hr.
    assert (lit "13" = fadd (fmul (lit "2") (lit "5")) (lit "3")) as -> by (apply same_f64_eq; vm_compute; reflexivity).
    repeat constructor.
Qed.
