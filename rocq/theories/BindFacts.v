(** * Facts about binding *)
From Coq Require Import ZArith NArith List String Ascii Bool Lia Permutation.
From Verif Require Import F64 Syntax Factorial Builtins Context Element Parser Xprs.
From Verif Require Import SpecTree TreeFacts SimplifyFacts SpecApi ParserResults.
Import ListNotations.
Local Open Scope string_scope.

Lemma append_assoc : forall a b c : string, (a ++ b) ++ c = a ++ (b ++ c).
Proof. induction a; intros; simpl; congruence. Qed.
Lemma append_nil_r : forall a : string, a ++ "" = a.
Proof. induction a; simpl; congruence. Qed.

Lemma from_diff_loop_spec : forall cfg missing count text, (count < 256)%N ->
  from_diff_loop cfg missing count text =
    if (overflow_checks cfg && (256 <=? count + N.of_nat (List.length missing)))%N%bool
    then Boom ArithOverflow
    else Val (((count + N.of_nat (List.length missing)) mod 256)%N, text ++ String.concat ", " missing).
Proof.
  induction missing as [|m rest IH]; intros count text Hc.
  - cbn [from_diff_loop List.length String.concat]. rewrite N.add_0_r.
    replace (256 <=? count)%N with false by (symmetry; apply N.leb_gt; lia).
    rewrite andb_false_r, append_nil_r, N.mod_small by lia. reflexivity.
  - cbn [from_diff_loop].
    destruct (overflow_checks cfg) eqn:Eo.
    + rewrite andb_true_r, andb_true_l. destruct (count =? 255)%N eqn:Ec.
      * apply N.eqb_eq in Ec. replace (256 <=? _)%N with true; [reflexivity|].
        symmetry. apply N.leb_le. cbn [List.length]. lia.
      * apply N.eqb_neq in Ec. rewrite N.mod_small by lia. rewrite IH by lia. rewrite andb_true_l.
        replace (count + 1 + N.of_nat (List.length rest))%N
          with (count + N.of_nat (List.length (m :: rest)))%N by (cbn [List.length]; lia).
        destruct (256 <=? _)%N; [reflexivity|]. do 2 f_equal.
        destruct rest; cbn [String.concat]; rewrite ?append_assoc, ?append_nil_r; reflexivity.
    + rewrite andb_false_r, andb_false_l. rewrite IH by (apply N.mod_lt; lia). rewrite andb_false_l.
      f_equal. f_equal.
      * cbn [List.length]. rewrite N.add_mod_idemp_l by lia. f_equal. lia.
      * destruct rest; cbn [String.concat]; rewrite ?append_assoc, ?append_nil_r; reflexivity.
Qed.

(** What [from_diff] returns, in terms of the list of missing names. *)
Lemma from_diff_spec : forall cfg missing, List.length missing < 256 ->
  from_diff cfg missing = Val
    match missing with
    | [] => None
    | [v] => Some (OneVariable v)
    | _ => Some (MultipleVariables (String.concat ", " missing))
    end.
Proof.
  intros cfg missing H. unfold from_diff. rewrite from_diff_loop_spec by lia.
  replace (256 <=? _)%N with false by (symmetry; apply N.leb_gt; lia).
  rewrite andb_false_r. cbn [bind_out]. rewrite N.mod_small by lia. rewrite N.add_0_l.
  destruct missing as [|a [|b rest]]; [reflexivity|reflexivity|].
  cbn [List.length]. destruct (N.of_nat (S (S (List.length rest)))) as [|[p|p|]] eqn:E; try lia; reflexivity.
Qed.

Lemma from_diff_wrap : forall cfg missing, overflow_checks cfg = false ->
  List.length missing = 256 -> from_diff cfg missing = Val None.
Proof.
  intros cfg missing Ho H. unfold from_diff. rewrite from_diff_loop_spec by lia.
  rewrite Ho, andb_false_l, H. reflexivity.
Qed.

Lemma from_diff_overflow : forall cfg missing, overflow_checks cfg = true ->
  256 <= List.length missing -> from_diff cfg missing = Boom ArithOverflow.
Proof.
  intros cfg missing Ho H. unfold from_diff. rewrite from_diff_loop_spec by lia.
  rewrite Ho, andb_true_l. replace (256 <=? _)%N with true; [reflexivity|].
  symmetry. apply N.leb_le. lia.
Qed.

(** ** The check shared by the [bind] family *)
Definition missing_names (w : world) (x : xprs) (names : list string) : list string :=
  set_diff (hash_order w (vars x)) (fold_left (fun s n => set_insert n s) names []).

Lemma missing_names_ok : forall w x names, fair_order w -> NoDup (vars x) ->
  missing_from x names (missing_names w x names).
Proof.
  intros w x names Hf Hn. unfold missing_from, missing_names. split.
  - apply NoDup_filter. eapply Permutation_NoDup; [apply Hf|auto].
  - intro v. rewrite set_diff_In, fold_insert_In. split.
    + intros [H1 H2]. split; [|tauto]. eapply Permutation_in; [symmetry; apply Hf|auto].
    + intros [H1 H2]. split; [eapply Permutation_in; [apply Hf|auto]|]. simpl. tauto.
Qed.

Lemma missing_from_length : forall x names m m',
  missing_from x names m -> missing_from x names m' -> List.length m = List.length m'.
Proof.
  intros x names m m' [H1 H2] [H3 H4]. apply Permutation_length. apply NoDup_Permutation; auto.
  intro v. rewrite H2, H4. tauto.
Qed.

(** An outcome of binding is faithful: an [Ok] exactly when nothing is missing,
    otherwise an error listing the missing names. *)
Lemma bind_check_spec : forall cfg w x names,
  fair_order w -> NoDup (vars x) ->
  (forall m, missing_from x names m -> List.length m < 256) ->
  exists m, missing_from x names m /\
    bind_check cfg w x names = Val
      match m with
      | [] => None
      | [v] => Some (OneVariable v)
      | _ => Some (MultipleVariables (String.concat ", " m))
      end.
Proof.
  intros cfg w x names Hf Hn Hlt. exists (missing_names w x names).
  pose proof (missing_names_ok w x names Hf Hn) as Hm. split; auto.
  unfold bind_check. apply from_diff_spec. auto.
Qed.

Lemma bind_check_none : forall cfg w x names,
  fair_order w -> NoDup (vars x) ->
  (forall m, missing_from x names m -> List.length m < 256) ->
  bind_check cfg w x names = Val None -> forall v, In v (vars x) -> In v names.
Proof.
  intros cfg w x names Hf Hn Hlt H v Hv.
  destruct (bind_check_spec cfg w x names Hf Hn Hlt) as [m [Hm E]]. rewrite E in H.
  destruct m as [|a [|b m]]; try discriminate.
  destruct (in_dec string_dec v names); auto. exfalso.
  destruct Hm as [_ Hm]. apply (proj2 (Hm v)). auto.
Qed.

(** ** Values *)
Lemma assign_sget : forall names vals y,
  sget y (smap_of_list (combine names vals)) = assign names vals y.
Proof.
  intros. rewrite sget_smap_of_list. unfold last_binding. revert vals.
  induction names as [|n names IH]; intros vals; [reflexivity|].
  destruct vals as [|v vals]; [reflexivity|]. cbn [combine rev assign].
  rewrite sget_app, IH. destruct (assign names vals y); auto.
Qed.

Lemma assign_defined : forall names vals y, List.length names = List.length vals ->
  In y names -> exists v, assign names vals y = Some v.
Proof.
  induction names as [|n names IH]; intros vals y Hl Hy; [inversion Hy|].
  destruct vals as [|v vals]; [discriminate|]. cbn [assign].
  destruct (assign names vals y) eqn:E; eauto.
  destruct Hy as [->|Hy]; [rewrite String.eqb_refl; eauto|].
  destruct (IH vals y) as [u Hu]; auto. congruence.
Qed.

Lemma means_ext : forall w rho rho' e v, (forall x, rho x = rho' x) -> means w rho e v -> means w rho' e v.
Proof.
  intros w rho rho' e v Hx.
  assert (H : (forall e v, means w rho e v -> means w rho' e v) /\
              (forall l vs, means_all w rho l vs -> means_all w rho' l vs)).
  { apply means_mutind; intros; try (econstructor; eauto; fail). constructor. congruence. }
  apply H.
Qed.

Lemma bound_value : forall w x names vals,
  safe w (root x) -> (forall v, free v (root x) -> In v names) ->
  List.length names = List.length vals ->
  exists v, eval_unchecked w x (smap_of_list (combine names vals)) = Val v /\
            means w (assign names vals) (root x) v.
Proof.
  intros w x names vals Hs Hf Hl.
  destruct (eval_total_ok w (smap_of_list (combine names vals)) (root x) Hs) as [v Hv].
  - intros y Hy. rewrite assign_sget. destruct (assign_defined names vals y Hl) as [u ->]; auto. discriminate.
  - exists v. unfold eval_unchecked. rewrite unchecked_agrees, Hv. split; auto.
    eapply means_ext; [|apply eval_sound; eauto]. intro y. apply assign_sget.
Qed.
