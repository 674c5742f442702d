(** * C90 and C106 in the default build: texts as arguments, and clamping *)
From Coq Require Import ZArith NArith List String Ascii Bool Lia.
From Flocq Require Import BinarySingleNaN.
From Verif Require Import F64 Syntax Factorial Builtins Context Element Parser Xprs Display.
From Verif Require Import ParserFacts ParserResults SpecParse SpecTree TreeFacts SimplifyFacts SpecApi SpecMonotone.
From Verif Require Import SpecTokens SpecGrammar SpecNames SpecBuild SpecSimplifier SpecJoin TokenFacts LexFacts LexExec TokenParser TokenSim TokenMono.
From Verif Require Import SpecDisplay SpecBrackets DisplayFacts GrammarFacts GrammarEquiv JuxtaFacts BuildFacts SimplifierFacts FloatFacts MonotoneFacts.
From Verif Require Import TestWorld PropertiesParse PropertiesGrammar PropertiesEval PropertiesEq PropertiesNames PropertiesNumeric PropertiesSimplify PropertiesOptimise PropertiesDisplay PropertiesNormal PropertiesDefault PropertiesBrackets PropertiesBuild PropertiesJoin PropertiesCancel PropertiesBounds PropertiesClamp.
Import ListNotations.
Local Open Scope string_scope.

(** In an optimising build a function's name applied to accepted texts is read
    as the call on what they are read as, simplified once. *)
Theorem C90_default_arguments : forall cfg w ctx name f texts xs e,
  optimize cfg = true -> fair_order w -> is_name name -> stands_for ctx name = I_Function f ->
  texts <> [] -> match fn_nb_args f with None => True | Some n => List.length texts = n end ->
  Forall2 (fun a x => parse cfg w ctx a = Parse_ok x) texts xs ->
  simplify cfg w (Call f (map root xs)) = Val e ->
  exists z, parse cfg w ctx (applied name texts) = Parse_ok z /\ root z = e.
Proof.
  intros cfg w ctx name f texts xs e Ho Hf Hn Hs Hne Har H He.
  assert (L : List.length texts = List.length xs) by (clear - H; induction H; cbn; congruence).
  assert (G : exists ts, tokens_of (join ", " texts) ts /\ parts (pejmdas cfg) ctx (fun raw t => simplify cfg w raw = Val t) ts (map root xs) /\
     Forall (fun x => declared ctx (root x)) xs).
  { clear Har L Hs Hn He. induction H as [|a x texts xs Ha Hall IH]; [congruence|].
    destruct (lexes_total (bytes a)) as [ts Hts]. pose proof (accepted_nonempty _ _ _ _ _ Ha) as Na.
    destruct (proj1 (C86_every_text cfg w ctx a ts (root x) Ho Hf Na Hts)) as [[raw [q [n [Bx Cx]]]] Vx]; [eauto|].
    destruct Hall as [|b y texts xs Hb Hall].
    - exists ts. split; [exact Hts|]. split; [eapply B_last; [exact Bx|exact Cx]|]. repeat constructor. exact Vx.
    - destruct IH as [ts' [T' [A' D']]]; [discriminate|]. exists (ts ++ TSym "," :: ts')%list. split; [|split].
      + change (join ", " (a :: b :: texts)) with (a ++ ", " ++ join ", " (b :: texts)).
        unfold tokens_of. rewrite !list_ascii_app. apply lexes_glue; [exact Hts|apply separates_check; reflexivity|].
        apply sym_check; [reflexivity|]. apply L_ws; [reflexivity|exact T'].
      + cbn [map]. eapply B_more; [exact Bx|exact Cx|exact A'].
      + constructor; assumption. }
  destruct G as [ts [T [A D]]].
  assert (V : declared ctx (Call f (map root xs))).
  { intros s E v Hv. inversion Hv as [| | | |f' args a Ha Hoc]; subst. apply in_map_iff in Ha. destruct Ha as [x [<- Hx]].
    rewrite Forall_forall in D. exact (D x Hx s E v Hoc). }
  assert (Na : applied name texts <> "").
  { apply (tokens_nonempty _ _ (call_tokens name _ ts Hn T)). discriminate. }
  apply (C86_every_text cfg w ctx (applied name texts) _ _ Ho Hf Na (call_tokens name _ ts Hn T)).
  split; [|exact (simplify_declared cfg w ctx _ _ He V)].
  eexists. eexists. eexists. split; [|exact He]. apply B_operand, B_plain. apply B_call; [exact Hs|exact A|].
  unfold SpecGrammar.arity_ok. destruct (fn_nb_args f); auto. rewrite map_length. congruence.
Qed.

(** ** Expressions that stay clamped *)
Definition from_below (a : f64) (e : element) : Prop :=
  (exists u, e = Number u /\ at_most a u) \/ exists e', e = Call (builtin_function B_MAX) [e'; Number a].
Definition held (a b : f64) (e : element) : Prop :=
  (exists u, e = Number u /\ at_most a u /\ at_most u b) \/ exists e', e = Call (builtin_function B_MIN) [e'; Number b] /\ from_below a e'.

Lemma max_above : forall w u a m, is_nan a = false -> call_function w (builtin_function B_MAX) [u; a] = Val m -> at_most a m.
Proof.
  intros w u a m Na C. destruct (C46_max w [u; a]) as [m' [Em [_ [Nm Lm]]]]; [exists a; cbn; auto|].
  change (call_function w (builtin_function B_MAX) [u; a] = Val m') in Em. rewrite Em in C. injection C as <-.
  apply not_flt_le; auto. apply Lm. cbn; auto.
Qed.
Lemma min_between : forall w m a b v, at_most a b -> at_most a m -> call_function w (builtin_function B_MIN) [m; b] = Val v -> at_most a v /\ at_most v b.
Proof.
  intros w m a b v L A C. apply at_most_toR in L as L'. destruct L' as [Na [Nb _]].
  destruct (C46_min w [m; b]) as [v' [Ev [Iv [Nv Lv]]]]; [exists b; cbn; auto|].
  change (call_function w (builtin_function B_MIN) [m; b] = Val v') in Ev. rewrite Ev in C. injection C as <-.
  split; [|apply not_flt_le; auto; apply Lv; cbn; auto]. destruct Iv as [<-|[<-|[]]]; auto.
Qed.
Lemma folds_or_stays : forall w f e' c e, simplify_call w f [e'; Number c] = Val e ->
  (exists n v, e' = Number n /\ call_function w f [n; c] = Val v /\ e = Number v) \/ e = Call f [e'; Number c].
Proof.
  intros w f e' c e H. unfold simplify_call in H. destruct e' as [n|op l r|op a|g args|y]; cbn [number_values List.length Nat.eqb] in H;
    try (injection H as <-; now right).
  destruct (call_function w f [n; c]) as [v|p] eqn:E; cbn [bind_out] in H; [|discriminate H]. injection H as <-. left. eauto.
Qed.
Lemma simplify_from_below : forall cfg w a e e', is_nan a = false -> from_below a e -> simplify cfg w e = Val e' -> from_below a e'.
Proof.
  intros cfg w a e e' Na [[u [-> L]]|[s ->]] H; [injection H as <-; left; eauto|].
  cbn [simplify map_out] in H. destruct (simplify cfg w s) as [s'|p] eqn:E; cbn [bind_out] in H; [|discriminate H].
  destruct (folds_or_stays _ _ _ _ _ H) as [[n [v [-> [C ->]]]]| ->]; [left; eauto using max_above|right; eauto].
Qed.
Lemma simplify_held : forall cfg w a b e e', at_most a b -> held a b e -> simplify cfg w e = Val e' -> held a b e'.
Proof.
  intros cfg w a b e e' L [[u [-> K]]|[s [-> F]]] H; [injection H as <-; left; eauto|].
  apply at_most_toR in L as L'. destruct L' as [Na [Nb _]].
  cbn [simplify map_out] in H. destruct (simplify cfg w s) as [s'|p] eqn:E; cbn [bind_out] in H; [|discriminate H].
  pose proof (simplify_from_below _ _ _ _ _ Na F E) as F'.
  destruct (folds_or_stays _ _ _ _ _ H) as [[n [v [-> [C ->]]]]| ->]; [|right; eauto].
  destruct F' as [[u [Eu A]]|[? ?]]; [|discriminate]. injection Eu as <-. left. exists v. split; [reflexivity|]. eapply min_between; eauto.
Qed.
Lemma substitute_held : forall cfg w a b y c e e', at_most a b -> held a b e -> el_simplify_for cfg w y c e = Val e' -> held a b e'.
Proof.
  intros cfg w a b y c e e' L [[u [-> K]]|[s [-> F]]] H; [injection H as <-; left; eauto|].
  apply at_most_toR in L as L'. destruct L' as [Na [Nb _]].
  cbn [el_simplify_for map_out] in H. destruct (el_simplify_for cfg w y c s) as [s'|p] eqn:E; cbn [bind_out] in H; [|discriminate H].
  refine (simplify_held cfg w a b _ _ L _ H). right. exists s'. split; [reflexivity|].
  destruct F as [[u [-> A]]|[r ->]]; [injection E as <-; left; eauto|].
  cbn [el_simplify_for map_out] in E. destruct (el_simplify_for cfg w y c r) as [r'|p] eqn:E'; cbn [bind_out] in E; [|discriminate E].
  refine (simplify_from_below cfg w a _ _ Na _ E). right. eauto.
Qed.
Lemma held_value : forall w rho a b e v, at_most a b -> held a b e -> means w rho e v -> at_most a v /\ at_most v b.
Proof.
  intros w rho a b e v L [[u [-> K]]|[s [-> F]]] E.
  - inversion E; subst. exact K.
  - apply at_most_toR in L as L'. destruct L' as [Na [Nb _]].
    inversion E as [| | | | | | | | | | |f args vs v0 Hargs Hc]; subst. inversion Hargs as [|e1 l1 m vs1 Hm Hr]; subst. inversion Hr as [|e2 l2 u vs2 Hu Hn]; subst. inversion Hn; subst. assert (Eu : u = b) by (inversion Hu; auto). subst u.
    apply (min_between w m a b v L); [|exact Hc].
    destruct F as [[u [-> A]]|[r ->]]; [inversion Hm; subst; exact A|].
    clear E Hargs Hr Hn Hu Hc.
    inversion Hm as [| | | | | | | | | | |f args vs v0 Hargs' Hc']; subst. inversion Hargs' as [|e1 l1 p vs1 Hp Hr']; subst. inversion Hr' as [|e2 l2 q vs2 Hq Hn']; subst. inversion Hn'; subst. assert (Eq : q = a) by (inversion Hq; auto). subst q.
    eapply max_above; eauto.
Qed.

(** In an optimising build too: whatever accepted text [t] is, and however its
    expression is simplified, also after fixing variables, what
    [min(max(t, lo), hi)] evaluates to lies between the numbers [lo] and [hi]
    are read as. *)
Theorem C106_clamp_default : forall cfg w ctx t lo hi x l h a b,
  optimize cfg = true -> fair_order w -> context_functions_return w ctx -> ~ has_double_bang t ->
  stands_for ctx "min" = I_Function (builtin_function B_MIN) -> stands_for ctx "max" = I_Function (builtin_function B_MAX) ->
  parse cfg w ctx t = Parse_ok x -> parse cfg w ctx lo = Parse_ok l -> parse cfg w ctx hi = Parse_ok h ->
  root l = Number a -> root h = Number b -> at_most a b ->
  exists z, parse cfg w ctx ("min(max(" ++ t ++ ", " ++ lo ++ "), " ++ hi ++ ")") = Parse_ok z /\
  (forall rho v, eval w z rho = Val (Eval_ok v) -> at_most a v /\ at_most v b) /\
  forall vals z' rho v, simplify_for_multiple cfg w z vals = Val z' -> eval w z' rho = Val (Eval_ok v) -> at_most a v /\ at_most v b.
Proof.
  intros cfg w ctx t lo hi x l h a b Ho Hf Hc Hd Smin Smax Hx Hl Hh El Eh L.
  assert (N1 : is_name "max") by (apply is_name_check; reflexivity). assert (N2 : is_name "min") by (apply is_name_check; reflexivity).
  pose proof (accepted_safe cfg w ctx t x Hc Hd Hx) as Sx. apply at_most_toR in L as L'. destruct L' as [Na [Nb _]].
  assert (S1 : safe w (Call (builtin_function B_MAX) [root x; Number a])).
  { cbn [safe]. split; [intros vs _; eexists; reflexivity|]. auto. }
  destruct (simplify_val cfg w _ S1) as [e1 He1].
  destruct (C90_default_arguments cfg w ctx "max" _ [t; lo] [x; l] e1 Ho Hf N1 Smax ltac:(discriminate) I) as [m [Hm Em]]; [repeat constructor; assumption|cbn [map]; now rewrite El|].
  assert (B1 : from_below a (root m)) by (rewrite Em; refine (simplify_from_below cfg w a _ _ Na _ He1); right; eauto).
  assert (S2 : safe w (Call (builtin_function B_MIN) [root m; Number b])).
  { cbn [safe]. split; [intros vs _; eexists; reflexivity|]. rewrite Em. split; [exact (simplify_safe _ _ _ _ He1 S1)|auto]. }
  destruct (simplify_val cfg w _ S2) as [e2 He2].
  destruct (C90_default_arguments cfg w ctx "min" _ [applied "max" [t; lo]; hi] [m; h] e2 Ho Hf N2 Smin ltac:(discriminate) I) as [z [Hz Ez]]; [repeat constructor; assumption|cbn [map]; now rewrite Eh|].
  assert (B2 : held a b (root z)) by (rewrite Ez; refine (simplify_held cfg w a b _ _ L _ He2); right; eauto).
  exists z. split.
  - rewrite <- Hz. f_equal. unfold applied. cbn [String.concat Display.join append]. rewrite ?BindFacts.append_assoc. reflexivity.
  - split.
    + intros rho v E. apply C21_eval_is_meaning in E. eapply held_value; eauto.
    + intros vals z' rho v M E. apply C32_multiple_is_iteration in M.
      assert (B3 : held a b (root z')).
      { clear - M B2 L. induction M as [y|y [n c] y1 vals y' H M IH]; [exact B2|]. apply IH.
        unfold simplify_for, simplify_for_in_place in H. cbn [fst snd] in H.
        destruct (el_simplify_for cfg w n c (root y)) as [e|p] eqn:E; cbn [take_self] in H; [|discriminate H]. injection H as <-. cbn [root].
        eapply substitute_held; eauto. }
      apply C21_eval_is_meaning in E. eapply held_value; eauto.
Qed.

(** The default build on the text of [C106_clamp_witness] with numbers as the
    bounds, the lower one negative. *)
Example C106_clamp_default_witness : exists x l h z,
  parse default_config w0 ctx_default "1/x" = Parse_ok x /\ ~ has_double_bang "1/x" /\
  parse default_config w0 ctx_default "-2" = Parse_ok l /\ root l = Number (fneg (lit "2")) /\
  parse default_config w0 ctx_default "5" = Parse_ok h /\ root h = Number (lit "5") /\ at_most (fneg (lit "2")) (lit "5") /\
  parse default_config w0 ctx_default "min(max(1/x, -2), 5)" = Parse_ok z /\
  forall u v, In (u, v) [(fzero, lit "5"); (lit "0.4", lit "2.5"); (fnan, fneg (lit "2"))] -> eval w0 z [("x", u)] = Val (Eval_ok v).
Proof.
  destruct (parses_ok (parse default_config w0 ctx_default "1/x")) as [x Hx]; [vm_compute; reflexivity|].
  destruct (parses_to (parse default_config w0 ctx_default "-2") (Number (fneg (lit "2")))) as [l [Hl El]]; [vm_compute; reflexivity|].
  destruct (parses_to (parse default_config w0 ctx_default "5") (Number (lit "5"))) as [h [Hh Eh]]; [vm_compute; reflexivity|].
  destruct (parses_to (parse default_config w0 ctx_default "min(max(1/x, -2), 5)")
    (Call (builtin_function B_MIN) [Call (builtin_function B_MAX) [BinOp Divide (Number fone) (Var "x"); Number (fneg (lit "2"))]; Number (lit "5")])) as [z [Hz Ez]]; [vm_compute; reflexivity|].
  exists x, l, h, z. split; [exact Hx|]. split; [apply no_double_bang_check; reflexivity|]. repeat (split; [assumption|]). split; [vm_compute; reflexivity|]. split; [exact Hz|].
  intros u v H. cbn [In] in H. destruct H as [H|[H|[H|[]]]]; injection H as <- <-; apply eval_check; rewrite Ez; vm_compute; reflexivity.
Qed.
