(** * C106, continued: clamping a text *)
From Coq Require Import ZArith NArith List String Ascii Bool Lia.
From Flocq Require Import BinarySingleNaN.
From Verif Require Import F64 Syntax Factorial Builtins Context Element Parser Xprs.
From Verif Require Import SpecParse SpecTree SpecApi SpecNames SpecTokens SpecGrammar SpecMonotone SpecJoin SpecBounds.
From Verif Require LawsFacts.
From Verif Require Import FloatFacts MonotoneFacts BindFacts TestWorld PropertiesParse PropertiesNames PropertiesEval PropertiesEq PropertiesOptimise PropertiesNumeric PropertiesJoin PropertiesBounds.
Import ListNotations.
Local Open Scope string_scope.

Lemma clamped : forall w u a b, at_most a b ->
  exists m v, call_function w (builtin_function B_MAX) [u; a] = Val m /\ call_function w (builtin_function B_MIN) [m; b] = Val v /\
  at_most a v /\ at_most v b /\ (at_most a u -> at_most u b -> feq v u = true).
Proof.
  intros w u a b L. apply at_most_toR in L as L'. destruct L' as [Na [Nb Lab]].
  destruct (C46_max w [u; a]) as [m [Em [Im [Nm Lm]]]]; [exists a; cbn; auto|].
  destruct (C46_min w [m; b]) as [v [Ev [Iv [Nv Lv]]]]; [exists b; cbn; auto|].
  exists m, v. split; [exact Em|]. split; [exact Ev|].
  assert (A : at_most a m) by (apply not_flt_le; auto; apply Lm; cbn; auto).
  assert (V : at_most v b) by (apply not_flt_le; auto; apply Lv; cbn; auto).
  split; [destruct Iv as [<-|[<-|[]]]; auto|]. split; [exact V|].
  intros Au Ub. apply at_most_toR in Au, Ub, A, V. destruct Au as [_ [Nu Au]], Ub as [_ [_ Ub]], A as [_ [_ A]], V as [_ [_ V]].
  assert (M : at_most u m) by (apply not_flt_le; auto; apply Lm; cbn; auto).
  assert (W : at_most v m) by (apply not_flt_le; auto; apply Lv; cbn; auto).
  apply at_most_toR in M, W. destruct M as [_ [_ M]], W as [_ [_ W]].
  assert (K : same_value v u); [|destruct K as [K|[K _]]; [exact K|congruence]].
  apply LawsFacts.toR_same; auto. destruct Im as [<-|[<-|[]]], Iv as [<-|[<-|[]]]; Lra.lra.
Qed.

(** Whatever accepted text [t] is, [min(max(t, lo), hi)] is accepted, evaluates
    whenever the three texts do, and lies between the values of [lo] and [hi];
    if [t]'s value does already, it is that value. *)
Theorem C106_clamp_text : forall cfg w ctx t lo hi x l h,
  optimize cfg = false -> fair_order w ->
  stands_for ctx "min" = I_Function (builtin_function B_MIN) -> stands_for ctx "max" = I_Function (builtin_function B_MAX) ->
  parse cfg w ctx t = Parse_ok x -> parse cfg w ctx lo = Parse_ok l -> parse cfg w ctx hi = Parse_ok h ->
  exists z, parse cfg w ctx ("min(max(" ++ t ++ ", " ++ lo ++ "), " ++ hi ++ ")") = Parse_ok z /\
  forall rho u a b, eval w x rho = Val (Eval_ok u) -> eval w l rho = Val (Eval_ok a) -> eval w h rho = Val (Eval_ok b) -> at_most a b ->
  exists v, eval w z rho = Val (Eval_ok v) /\ at_most a v /\ at_most v b /\ (at_most a u -> at_most u b -> feq v u = true).
Proof.
  intros cfg w ctx t lo hi x l h Ho Hf Smin Smax Hx Hl Hh.
  assert (N1 : is_name "max") by (apply is_name_check; reflexivity). assert (N2 : is_name "min") by (apply is_name_check; reflexivity).
  destruct (C90_arguments cfg w ctx "max" _ [t; lo] [x; l] Ho Hf N1 Smax ltac:(discriminate) I) as [m [Hm Em]]; [repeat constructor; assumption|].
  destruct (C90_arguments cfg w ctx "min" _ [applied "max" [t; lo]; hi] [m; h] Ho Hf N2 Smin ltac:(discriminate) I) as [z [Hz Ez]]; [repeat constructor; assumption|].
  exists z. split.
  - rewrite <- Hz. f_equal. unfold applied. cbn [String.concat Display.join append]. rewrite ?append_assoc. reflexivity.
  - intros rho u a b Eu Ea Eb L. destruct (clamped w u a b L) as [p [v [Cp [Cv R]]]]. exists v. split; [|exact R].
    apply C21_eval_is_meaning. apply C21_eval_is_meaning in Eu, Ea, Eb. rewrite Ez. cbn [map]. rewrite Em. cbn [map].
    econstructor; [|exact Cv]. repeat (econstructor; eauto).
Qed.

(** In the default context, for the text 1/x: at 0 it is clamped to 5, at NaN
    to the lower bound, at 0.4 it is kept. *)
Example C106_clamp_witness : exists x l h z,
  stands_for ctx_default "min" = I_Function (builtin_function B_MIN) /\ stands_for ctx_default "max" = I_Function (builtin_function B_MAX) /\
  parse plain_config w0 ctx_default "1/x" = Parse_ok x /\ parse plain_config w0 ctx_default "-y" = Parse_ok l /\ parse plain_config w0 ctx_default "5" = Parse_ok h /\
  parse plain_config w0 ctx_default "min(max(1/x, -y), 5)" = Parse_ok z /\
  forall u v, In (u, v) [(fzero, lit "5"); (lit "0.4", lit "2.5"); (fnan, fneg (lit "2"))] ->
    eval w0 x [("x", u); ("y", lit "2")] = Val (Eval_ok (fdiv fone u)) /\ eval w0 z [("x", u); ("y", lit "2")] = Val (Eval_ok v).
Proof.
  destruct (parses_to (parse plain_config w0 ctx_default "1/x") (BinOp Divide (Number fone) (Var "x"))) as [x [Hx Ex]]; [vm_compute; reflexivity|].
  destruct (parses_ok (parse plain_config w0 ctx_default "-y")) as [l Hl]; [vm_compute; reflexivity|].
  destruct (parses_ok (parse plain_config w0 ctx_default "5")) as [h Hh]; [vm_compute; reflexivity|].
  destruct (parses_to (parse plain_config w0 ctx_default "min(max(1/x, -y), 5)")
    (Call (builtin_function B_MIN) [Call (builtin_function B_MAX) [BinOp Divide (Number fone) (Var "x"); UnOp Minus (Var "y")]; Number (lit "5")])) as [z [Hz Ez]]; [vm_compute; reflexivity|].
  exists x, l, h, z. split; [reflexivity|]. split; [reflexivity|]. repeat (split; [assumption|]).
  intros u v H. split; [apply C21_eval_is_meaning; rewrite Ex; constructor; constructor; reflexivity|].
  cbn [In] in H. destruct H as [H|[H|[H|[]]]]; injection H as <- <-; apply eval_check; rewrite Ez; vm_compute; reflexivity.
Qed.
