(** * The texts of evaluation and bind errors (C51) *)
From Coq Require Import ZArith NArith List String Ascii Bool Lia Permutation.
From Verif Require Import F64 Syntax Factorial Builtins Context Element Parser Xprs Display.
From Verif Require Import SpecParse SpecTree TreeFacts SpecApi TestWorld PropertiesParse PropertiesEval PropertiesBind.
Import ListNotations.
Local Open Scope string_scope.

(** The text of an evaluation error names a variable of the expression for which
    no value was given. *)
Theorem C51_eval_error_text : forall w x rho y, eval w x rho = Val (Eval_err y) ->
  display_eval_error y = "Evaluation error: '" ++ y ++ "' was not provided" /\
  occurs y (root x) /\ lookup rho y = None.
Proof.
  intros w x rho y H. split; [reflexivity|]. apply eval_err_first in H. apply first_missing_occurs in H.
  destruct H as [H1 H2]. auto.
Qed.

(** The text for [bind] and its relatives: the missing variables, each once, in
    the singular or the plural. *)
Definition missing_text (m : list string) : string :=
  match m with
  | [v] => "Variable '" ++ v ++ "' was not provided"
  | _ => "Variables '" ++ String.concat ", " m ++ "' were not provided"
  end.
Definition text_names_missing {F} (r : out (bind_result F)) (x : xprs) (names : list string) : Prop :=
  forall e, r = Val (Bind_err e) ->
  exists m, NoDup m /\ m <> [] /\ (forall v, In v m <-> In v (vars x) /\ ~ In v names) /\ display_bind_error e = missing_text m.

Lemma reported_text : forall F (r : out (bind_result F)) x names, reports_missing r x names -> text_names_missing r x names.
Proof.
  intros F r x names [m [[Hn Hm] H]] e ->. exists m. split; [exact Hn|].
  destruct m as [|a [|b m]].
  - destruct H as [f Hf]. discriminate Hf.
  - injection H as ->. split; [discriminate|]. split; [exact Hm|reflexivity].
  - injection H as ->. split; [discriminate|]. split; [exact Hm|reflexivity].
Qed.

Theorem C51_bind_error_text : forall cfg w x, fair_order w -> NoDup (vars x) ->
  (forall v1 : string, few_missing x [v1] -> text_names_missing (bind cfg w x v1) x [v1]) /\
  (forall v1 v2 : string, few_missing x [v1; v2] -> text_names_missing (bind2 cfg w x v1 v2) x [v1; v2]) /\
  (forall v1 v2 v3 : string, few_missing x [v1; v2; v3] -> text_names_missing (bind3 cfg w x v1 v2 v3) x [v1; v2; v3]) /\
  (forall v1 v2 v3 v4 : string, few_missing x [v1; v2; v3; v4] -> text_names_missing (bind4 cfg w x v1 v2 v3 v4) x [v1; v2; v3; v4]) /\
  (forall v1 v2 v3 v4 v5 : string, few_missing x [v1; v2; v3; v4; v5] -> text_names_missing (bind5 cfg w x v1 v2 v3 v4 v5) x [v1; v2; v3; v4; v5]) /\
  (forall v1 v2 v3 v4 v5 v6 : string, few_missing x [v1; v2; v3; v4; v5; v6] -> text_names_missing (bind6 cfg w x v1 v2 v3 v4 v5 v6) x [v1; v2; v3; v4; v5; v6]) /\
  (forall v1 v2 v3 v4 v5 v6 v7 : string, few_missing x [v1; v2; v3; v4; v5; v6; v7] -> text_names_missing (bind7 cfg w x v1 v2 v3 v4 v5 v6 v7) x [v1; v2; v3; v4; v5; v6; v7]) /\
  (forall v1 v2 v3 v4 v5 v6 v7 v8 : string, few_missing x [v1; v2; v3; v4; v5; v6; v7; v8] -> text_names_missing (bind8 cfg w x v1 v2 v3 v4 v5 v6 v7 v8) x [v1; v2; v3; v4; v5; v6; v7; v8]) /\
  (forall v1 v2 v3 v4 v5 v6 v7 v8 v9 : string, few_missing x [v1; v2; v3; v4; v5; v6; v7; v8; v9] -> text_names_missing (bind9 cfg w x v1 v2 v3 v4 v5 v6 v7 v8 v9) x [v1; v2; v3; v4; v5; v6; v7; v8; v9]) /\
  (forall names, few_missing x names -> text_names_missing (bind_n cfg w x names) x names) /\
  (forall names, few_missing x names -> text_names_missing (bind_n_runtime cfg w x names) x names).
Proof.
  intros cfg w x Hf Hn. pose proof (C29_bind_errors_list_missing cfg w x Hf Hn) as H.
  repeat (destruct H as [H0 H]; split; [intros; apply reported_text; now apply H0|clear H0]). intros. apply reported_text. now apply H.
Qed.

Example C51_texts_witness : exists x, obtained default_config w0 x /\ NoDup (vars x) /\ fair_order w0 /\ (forall names, few_missing x names) /\
  (exists e, bind default_config w0 x "x" = Val (Bind_err e) /\ display_bind_error e = "Variable 'y' was not provided") /\
  (exists e, bind default_config w0 x "k" = Val (Bind_err e) /\ display_bind_error e = "Variables 'y, x' were not provided").
Proof.
  destruct C26_witness as [x [Ho [Hn [Hm [_ [H1 [H2 _]]]]]]]. exists x. split; [exact Ho|]. split; [exact Hn|]. split; [exact w0_fair|].
  split; [exact Hm|]. split; eexists; (split; [eassumption|reflexivity]).
Qed.
