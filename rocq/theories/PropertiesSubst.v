(** * Replacing names in a text (C61, C62, C63) *)
From Coq Require Import ZArith NArith List String Ascii Bool Lia.
From Verif Require Import SpecChars CharFacts.
From Verif Require Import F64 Syntax Factorial Builtins Context Element Parser Xprs.
From Verif Require Import ParserFacts SpecParse SpecTree TreeFacts SpecApi ParserResults.
From Verif Require Import SpecTokens SpecGrammar SpecNames SpecRegular SpecSubst TokenFacts LexFacts LexExec GrammarFacts GrammarEquiv JuxtaFacts SubstFacts.
From Verif Require Import FloatFacts TestWorld PropertiesParse PropertiesGrammar PropertiesNames PropertiesEval PropertiesEq PropertiesOptimise PropertiesDefault.
Import ListNotations.
Local Open Scope string_scope.

Lemma stands_variable : forall ctx s x, stands_for ctx s = I_Variable x -> x = s.
Proof.
  intros ctx s x H. unfold stands_for in H. destruct (sget s (ctx_symbols ctx)) as [[v|f]|]; try discriminate H.
  destruct (builtin_cases w0 s) as [[r [_ [f [E _]]]]|[[_ [v E]]|[_ [_ E]]]]; congruence.
Qed.

(** A sequence whose image is clear is clear, if what is replaced does not end a number. *)
Lemma clear_before : forall ctx ctx' timg ts ts', rewritten timg ts ts' ->
  (forall s us, timg s us -> ends_number ctx (TId s) = true -> us = [TId s]%list /\ ends_number ctx' (TId s) = true) ->
  clear_tokens ctx' ts' -> clear_tokens ctx ts.
Proof.
  intros ctx ctx' timg ts ts' Hr Hn [H1 H2]. split.
  - intros [u [a [b [v [-> [-> ->]]]]]]. apply H1. apply rewritten_app in Hr. destruct Hr as [u' [r [-> [_ Hr]]]].
    apply rewritten_sym in Hr. destruct Hr as [r1 [-> Hr]]. apply rewritten_sym in Hr. destruct Hr as [r2 [-> Hr]].
    exists u', (TSym "!"), (TSym "!"), r2. auto.
  - intros [u [a [b [v [-> [Ha [s ->]]]]]]]. apply H2. apply rewritten_app in Hr. destruct Hr as [u' [r [-> [_ Hr]]]].
    destruct a as [k|k|k].
    + apply rewritten_num in Hr. destruct Hr as [r1 [-> Hr]]. apply rewritten_num in Hr. destruct Hr as [r2 [-> Hr]].
      exists u', (TNum k), (TNum s), r2. eauto.
    + apply rewritten_id in Hr. destruct Hr as [us [r1 [-> [Hi Hr]]]]. destruct (Hn _ _ Hi Ha) as [-> Ha'].
      apply rewritten_num in Hr. destruct Hr as [r2 [-> Hr]]. exists u', (TId k), (TNum s), r2. eauto.
    + apply rewritten_sym in Hr. destruct Hr as [r1 [-> Hr]]. apply rewritten_num in Hr. destruct Hr as [r2 [-> Hr]].
      exists u', (TSym k), (TNum s), r2. eauto.
Qed.

Lemma ends_constant : forall ctx s, ends_number ctx (TId s) = true -> exists v, stands_for ctx s = I_Constant v.
Proof. intros ctx s H. cbn in H. destruct (stands_for ctx s) eqn:E; try discriminate H. eauto. Qed.

(** Results of the parser are declared. *)
Lemma parsed_declared : forall cfg w ctx input ts x, optimize cfg = false -> fair_order w -> tokens_of input ts ->
  clear_tokens ctx ts -> parse cfg w ctx input = Parse_ok x -> sentence (pejmdas cfg) ctx ts (root x) /\ declared ctx (root x).
Proof.
  intros cfg w ctx input ts x Ho Hf Hts Hc Hx. apply (C05_parser_decides_grammar cfg w ctx input ts (root x) Ho Hf Hts Hc). eauto.
Qed.

(** ** C61: a name may be replaced by an expression in parentheses *)
Section Replace.
  Variables (x : string) (us : list token) (q : element).

  (** Some of the occurrences. *)
  Definition some_timg (s : string) (vs : list token) : Prop := vs = [TId s]%list \/ (s = x /\ vs = (TSym "(" :: us ++ [TSym ")"])%list).
  Definition some_img (y : string) (e : element) : Prop := e = Var y \/ (y = x /\ e = q).
  (** All of them. *)
  Definition all_timg (s : string) (vs : list token) : Prop := (s <> x /\ vs = [TId s]%list) \/ (s = x /\ vs = (TSym "(" :: us ++ [TSym ")"])%list).
  Definition all_img (y : string) (e : element) : Prop := (y <> x /\ e = Var y) \/ (y = x /\ e = q).

  Lemma some_rewritten : forall ts ts', replaces_some x us ts ts' -> rewritten some_timg ts ts'.
  Proof.
    induction 1 as [|t ts ts' H IH|ts ts' H IH]; [constructor| |].
    - destruct t as [k|k|k]; try (constructor; [discriminate|exact IH]).
      change (TId k :: ts')%list with ([TId k] ++ ts')%list. apply RW_name; [now left|exact IH].
    - change (TSym "(" :: us ++ TSym ")" :: ts')%list with (TSym "(" :: (us ++ ([TSym ")"] ++ ts')))%list. rewrite app_assoc.
      change (TSym "(" :: (us ++ [TSym ")"]) ++ ts')%list with ((TSym "(" :: us ++ [TSym ")"]) ++ ts')%list. apply RW_name; [now right|exact IH].
  Qed.

  Lemma all_rewritten_tokens : forall ts, rewritten all_timg ts (replace_name x us ts).
  Proof.
    induction ts as [|[k|k|k] ts IH]; cbn [replace_name]; try (constructor; [discriminate|exact IH]); [constructor|].
    destruct (String.eqb_spec k x) as [->|Hn].
    - change (TSym "(" :: us ++ TSym ")" :: replace_name x us ts)%list with (TSym "(" :: (us ++ ([TSym ")"] ++ replace_name x us ts)))%list. rewrite app_assoc.
      change (TSym "(" :: (us ++ [TSym ")"]) ++ replace_name x us ts)%list with ((TSym "(" :: us ++ [TSym ")"]) ++ replace_name x us ts)%list. apply RW_name; [now right|exact IH].
    - change (TId k :: replace_name x us ts)%list with ([TId k] ++ replace_name x us ts)%list. apply RW_name; [now left|exact IH].
  Qed.

  Lemma all_substitute : forall t t', tree_rewritten (fun v e => e = Number v) all_img t t' -> t' = substitute x q t.
  Proof.
    induction t as [n|op l r IHl IHr|op e IHe|f args Hargs|y] using element_ind'; intros t' H; inversion H; subst; cbn [substitute].
    - reflexivity.
    - f_equal; auto.
    - f_equal; auto.
    - f_equal. match goal with K : all_rewritten _ _ _ ?l |- _ => rename l into args'; rename K into Ha end. clear H.
      revert args' Ha. induction Hargs as [|a l Hh _ IH]; intros args' Ha; inversion Ha; subst; [reflexivity|]. cbn [map]. f_equal; auto.
    - match goal with K : all_img _ _ |- _ => destruct K as [[Hn ->]|[-> ->]] end.
      + now apply String.eqb_neq in Hn as ->.
      + now rewrite String.eqb_refl.
  Qed.

  Variable pj : bool.
  Variable ctx : context.
  Hypothesis Hx : stands_for ctx x = I_Variable x.
  Hypothesis Hq : sentence pj ctx us q.

  Lemma some_fun : forall s f vs, stands_for ctx s = I_Function f -> some_timg s vs -> vs = [TId s]%list /\ stands_for ctx s = I_Function f.
  Proof. intros s f vs Hs [->|[-> ->]]; auto. congruence. Qed.
  Lemma some_con : forall s v vs, stands_for ctx s = I_Constant v -> some_timg s vs -> exists e, prim pj ctx vs e /\ e = Number v.
  Proof. intros s v vs Hs [->|[-> ->]]; [|congruence]. eexists. split; [|reflexivity]. now apply P_constant. Qed.
  Lemma some_var : forall s y vs, stands_for ctx s = I_Variable y -> some_timg s vs -> exists e, prim pj ctx vs e /\ some_img y e.
  Proof.
    intros s y vs Hs [->|[-> ->]].
    - exists (Var y). split; [now constructor|now left].
    - exists q. split; [now apply P_paren|]. right. split; [congruence|reflexivity].
  Qed.
  Lemma some_head : forall s vs, some_timg s vs -> a_small (token_byte (TId s)) = true ->
    match vs with TSym c :: _ => c = "("%char | TId s' :: _ => a_small (token_byte (TId s')) = true | _ => False end.
  Proof. intros s vs [->|[-> ->]] H; cbn; auto. Qed.
  Lemma all_some : forall s vs, all_timg s vs -> some_timg s vs.
  Proof. intros s vs [[_ ->]|[-> ->]]; [now left|now right]. Qed.
  Lemma all_var : forall s y vs, stands_for ctx s = I_Variable y -> all_timg s vs -> exists e, prim pj ctx vs e /\ all_img y e.
  Proof.
    intros s y vs Hs [[Hn ->]|[-> ->]].
    - exists (Var y). split; [now constructor|]. left. split; [|reflexivity]. now rewrite (stands_variable _ _ _ Hs).
    - exists q. split; [now apply P_paren|]. right. split; [congruence|reflexivity].
  Qed.

  Lemma some_ends : forall s vs, some_timg s vs -> ends_number ctx (TId s) = true -> vs = [TId s]%list /\ ends_number ctx (TId s) = true.
  Proof.
    intros s vs Hs He. destruct Hs as [->|[-> ->]]; auto. apply ends_constant in He. destruct He as [v He]. congruence.
  Qed.
End Replace.

Lemma replace_sentence : forall pj ctx x us u ts t, stands_for ctx x = I_Variable x ->
  sentence pj ctx us u -> sentence pj ctx ts t -> clear_tokens ctx (replace_name x us ts) ->
  clear_tokens ctx ts /\ sentence pj ctx (replace_name x us ts) (substitute x u t).
Proof.
  intros pj ctx x us u ts t Hx Su St Hc'. pose proof (all_rewritten_tokens x us ts) as Hr. split.
  - eapply clear_before; [exact Hr| |exact Hc']. intros s vs Hs. eapply (some_ends x us); eauto. now apply all_some.
  - destruct (sentences_rewritten pj ctx ctx (all_timg x us) (fun v e => e = Number v) (all_img x u)) with (ts := ts) (t := t) (ts' := replace_name x us ts)
      as [t' [St' Tt]]; auto.
    { intros s f vs Hs Hi. apply (some_fun x us ctx Hx s f vs Hs). now apply all_some. }
    { intros s v vs Hs Hi. apply (some_con x us pj ctx Hx s v vs Hs). now apply all_some. }
    { intros s y vs Hs Hi. eapply all_var; eauto. }
    { intros s vs Hi. eapply some_head. apply all_some. exact Hi. }
    apply all_substitute in Tt. now subst t'.
Qed.

Lemma replace_clear : forall ctx x us ts, stands_for ctx x = I_Variable x -> clear_tokens ctx (replace_name x us ts) -> clear_tokens ctx ts.
Proof.
  intros ctx x us ts Hx Hc'. eapply clear_before; [apply all_rewritten_tokens| |exact Hc'].
  intros s vs Hs. eapply (some_ends x us); eauto. now apply all_some.
Qed.

Lemma substitute_occurs : forall x q t y, occurs y (substitute x q t) -> (y <> x /\ occurs y t) \/ (occurs x t /\ occurs y q).
Proof.
  intros x q. induction t as [n|op l r IHl IHr|op e IHe|g args Hargs|z] using element_ind'; intros y H; cbn [substitute] in H.
  - inversion H.
  - inversion H; subst.
    + destruct (IHl _ H1) as [[A B]|[A B]]; [left|right]; eauto using occurs.
    + destruct (IHr _ H1) as [[A B]|[A B]]; [left|right]; eauto using occurs.
  - inversion H; subst. destruct (IHe _ H1) as [[A B]|[A B]]; [left|right]; eauto using occurs.
  - inversion H; subst. apply in_map_iff in H2. destruct H2 as [b [<- Hb]]. rewrite Forall_forall in Hargs.
    destruct (Hargs b Hb _ H3) as [[A B]|[A B]]; [left|right]; eauto using occurs.
  - destruct (String.eqb_spec z x) as [->|Hn]; [right; split; [constructor|exact H]|]. inversion H; subst. left. eauto using occurs.
Qed.

Lemma substitute_eval : forall w x q rho v t, eval_element w rho q = Val (Eval_ok v) ->
  eval_element w rho (substitute x q t) = eval_element w (sinsert x v rho) t.
Proof.
  intros w x q rho v t Hq. induction t as [n|op l r IHl IHr|op e IHe|g args Hargs|z] using element_ind'; cbn [substitute eval_element].
  - reflexivity.
  - now rewrite IHl, IHr.
  - now rewrite IHe.
  - assert (E : map_eval (eval_element w rho) (map (substitute x q) args) = map_eval (eval_element w (sinsert x v rho)) args).
    { induction Hargs as [|a l Ha _ IH]; [reflexivity|]. cbn [map map_eval]. rewrite Ha.
      destruct (eval_element w (sinsert x v rho) a) as [[u|z]|p]; auto. now rewrite IH. }
    now rewrite E.
  - rewrite sget_sinsert. destruct (String.eqb z x); [exact Hq|reflexivity].
Qed.

(** Replacing every [x] of a text by "(text)": the result is accepted, its tree
    is the substituted tree, and evaluating it is evaluating the original with
    [x] set to the value of [text]. *)
Theorem C61_replace_all : forall cfg w ctx x input ts text us input' p q,
  optimize cfg = false -> fair_order w -> stands_for ctx x = I_Variable x ->
  tokens_of input ts -> parse cfg w ctx input = Parse_ok p ->
  tokens_of text us -> clear_tokens ctx us -> parse cfg w ctx text = Parse_ok q ->
  tokens_of input' (replace_name x us ts) -> clear_tokens ctx (replace_name x us ts) ->
  exists r, parse cfg w ctx input' = Parse_ok r /\ root r = substitute x (root q) (root p) /\
    forall rho v, eval w q rho = Val (Eval_ok v) -> eval w r rho = eval w p (sinsert x v rho).
Proof.
  intros cfg w ctx x input ts text us input' p q Ho Hf Hx Hts Hp Hus Hcu Hq Hts' Hc'.
  pose proof (replace_clear _ _ _ _ Hx Hc') as Hc.
  destruct (parsed_declared cfg w ctx input ts p Ho Hf Hts Hc Hp) as [Sp Dp].
  destruct (parsed_declared cfg w ctx text us q Ho Hf Hus Hcu Hq) as [Sq Dq].
  destruct (replace_sentence _ _ _ _ _ _ _ Hx Sq Sp Hc') as [_ St].
  assert (Dt : declared ctx (substitute x (root q) (root p))).
  { intros l Hl y Hy. apply substitute_occurs in Hy. destruct Hy as [[_ Hy]|[_ Hy]]; [eapply Dp|eapply Dq]; eauto. }
  destruct (C05_sentences_are_accepted cfg w ctx input' _ _ Ho Hf Hts' St Dt) as [r [Hr Er]].
  exists r. split; [exact Hr|]. split; [exact Er|]. intros rho v Hv. unfold eval. rewrite Er. now apply substitute_eval.
Qed.

(** Replacing some of the occurrences: wherever [x] has the value of [text], the
    results are equal. *)
Theorem C61_replace_some : forall cfg w ctx x input ts text us ts' input' p q,
  optimize cfg = false -> fair_order w -> stands_for ctx x = I_Variable x ->
  tokens_of input ts -> parse cfg w ctx input = Parse_ok p ->
  tokens_of text us -> clear_tokens ctx us -> parse cfg w ctx text = Parse_ok q ->
  replaces_some x us ts ts' -> tokens_of input' ts' -> clear_tokens ctx ts' ->
  exists r, parse cfg w ctx input' = Parse_ok r /\
    forall rho v, eval w q rho = Val (Eval_ok v) -> sget x rho = Some v -> eval w r rho = eval w p rho.
Proof.
  intros cfg w ctx x input ts text us ts' input' p q Ho Hf Hx Hts Hp Hus Hcu Hq Hsome Hts' Hc'.
  pose proof (some_rewritten x us ts ts' Hsome) as Hr.
  assert (Hc : clear_tokens ctx ts).
  { eapply clear_before; [exact Hr| |exact Hc']. intros s vs Hs. eapply (some_ends x us); eauto. }
  destruct (parsed_declared cfg w ctx input ts p Ho Hf Hts Hc Hp) as [Sp Dp].
  destruct (parsed_declared cfg w ctx text us q Ho Hf Hus Hcu Hq) as [Sq Dq].
  destruct (sentences_rewritten (pejmdas cfg) ctx ctx (some_timg x us) (fun v e => e = Number v) (some_img x (root q))) with (ts := ts) (t := root p) (ts' := ts')
    as [t' [St Tt]]; auto.
  { intros s f vs Hs Hi. eapply some_fun; eauto. }
  { intros s v vs Hs Hi. eapply some_con; eauto. }
  { intros s y vs Hs Hi. eapply some_var; eauto. }
  { intros s vs Hi. eapply some_head. exact Hi. }
  assert (Dt : declared ctx t').
  { intros l Hl y Hy. destruct (tree_occurs (fun v e => e = Number v) (some_img x (root q)) y) with (t := root p) (t' := t') as [z [e [Hz [Oz Oy]]]]; auto.
    { intros n e ->. intro K. inversion K. }
    destruct Hz as [->|[-> ->]]; [|eapply Dq; eauto]. inversion Oy; subst. eapply Dp; eauto. }
  destruct (C05_sentences_are_accepted cfg w ctx input' _ t' Ho Hf Hts' St Dt) as [r [Hr' <-]].
  exists r. split; [exact Hr'|].
  intros rho v Hv Hxv. unfold eval. eapply tree_eval; [| |exact Tt].
  - intros n e ->. reflexivity.
  - intros y e [->|[-> ->]]; cbn [eval_element]; auto. rewrite Hxv. exact Hv.
Qed.

(** With compile-time optimisation: accepted too.  With [t] and [u] the trees of
    the texts before simplification, the result is the substituted tree with
    parts simplified, and has its values wherever simplifying preserves values. *)
Theorem C61_default_replace_all : forall cfg w ctx x input ts text us input' p q,
  optimize cfg = true -> fair_order w -> context_functions_return w ctx -> get_expected_vars ctx = None ->
  stands_for ctx x = I_Variable x ->
  tokens_of input ts -> parse cfg w ctx input = Parse_ok p ->
  tokens_of text us -> clear_tokens ctx us -> parse cfg w ctx text = Parse_ok q ->
  tokens_of input' (replace_name x us ts) -> clear_tokens ctx (replace_name x us ts) ->
  exists r t u, parse cfg w ctx input' = Parse_ok r /\
    sentence (pejmdas cfg) ctx ts t /\ sentence (pejmdas cfg) ctx us u /\
    simplified_from cfg w (substitute x u t) (root r) /\
    forall rho v, regular w (lookup rho) (substitute x u t) v ->
      exists v', eval w r rho = Val (Eval_ok v') /\ same_value v v'.
Proof.
  intros cfg w ctx x input ts text us input' p q Ho Hf Hcf He Hx Hts Hp Hus Hcu Hq Hts' Hc'.
  pose proof (replace_clear _ _ _ _ Hx Hc') as Hc.
  destruct (C04_default_accepted_texts_are_sentences cfg w ctx input ts p Ho Hts Hc Hp) as [t [St _]].
  destruct (C04_default_accepted_texts_are_sentences cfg w ctx text us q Ho Hus Hcu Hq) as [u [Su _]].
  destruct (replace_sentence _ _ _ _ _ _ _ Hx Su St Hc') as [_ Sr].
  assert (D : declared ctx (substitute x u t)) by (intros l Hl; congruence).
  destruct (C05_default_sentences_are_accepted cfg w ctx input' _ _ Ho Hf Hcf Hts' Hc' Sr D) as [r [Hr' [Zr Vr]]].
  exists r, t, u. auto.
Qed.

(** ** C62: a constant of the context is a variable with that value *)
Lemma stands_set_var : forall ctx x v s,
  stands_for (set_var ctx x v) s = if String.eqb s x then I_Constant v else stands_for ctx s.
Proof.
  intros ctx x v s. unfold stands_for, set_var. cbn [ctx_symbols]. rewrite sget_sinsert. now destruct (String.eqb s x).
Qed.

Definition same_timg (s : string) (vs : list token) : Prop := vs = [TId s]%list.
Lemma same_rewritten : forall ts, rewritten same_timg ts ts.
Proof.
  induction ts as [|[k|k|k] ts IH]; try (constructor; [discriminate|exact IH]); [constructor|].
  change (TId k :: ts)%list with ([TId k] ++ ts)%list at 2. apply RW_name; [reflexivity|exact IH].
Qed.
Lemma same_head : forall s vs, same_timg s vs -> a_small (token_byte (TId s)) = true ->
  match vs with TSym c :: _ => c = "("%char | TId s' :: _ => a_small (token_byte (TId s')) = true | _ => False end.
Proof. intros s vs ->. auto. Qed.

Lemma clear_set_var : forall ctx x v ts, stands_for ctx x = I_Variable x -> clear_tokens (set_var ctx x v) ts -> clear_tokens ctx ts.
Proof.
  intros ctx x v ts Hx H. eapply clear_before; [apply same_rewritten| |exact H].
  intros s vs -> He. split; [reflexivity|]. apply ends_constant in He. destruct He as [u He]. unfold ends_number.
  rewrite stands_set_var, He. now destruct (String.eqb s x).
Qed.

Lemma constant_sentence : forall pj ctx x v ts t, stands_for ctx x = I_Variable x ->
  clear_tokens (set_var ctx x v) ts -> sentence pj ctx ts t -> sentence pj (set_var ctx x v) ts (substitute x (Number v) t).
Proof.
  intros pj ctx x v ts t Hx Hc' Sp.
  destruct (sentences_rewritten pj ctx (set_var ctx x v) same_timg (fun v e => e = Number v) (all_img x (Number v))) with (ts := ts) (t := t) (ts' := ts)
    as [t' [St Tt]]; auto.
  { intros s f vs Hs ->. split; [reflexivity|]. rewrite stands_set_var. destruct (String.eqb_spec s x) as [->|]; [congruence|auto]. }
  { intros s u vs Hs ->. eexists. split; [|reflexivity]. apply P_constant. rewrite stands_set_var. destruct (String.eqb_spec s x) as [->|]; [congruence|auto]. }
  { intros s y vs Hs ->. destruct (String.eqb_spec s x) as [->|Hn].
    - exists (Number v). split; [apply P_constant; now rewrite stands_set_var, String.eqb_refl|]. right. split; [congruence|reflexivity].
    - exists (Var y). split; [apply P_variable; rewrite stands_set_var; now apply String.eqb_neq in Hn as ->|].
      left. split; [|reflexivity]. now rewrite (stands_variable _ _ _ Hs). }
  { apply same_head. }
  { apply same_rewritten. }
  apply all_substitute in Tt. now subst t'.
Qed.

Theorem C62_constant_is_variable : forall cfg w ctx x v input ts p,
  optimize cfg = false -> fair_order w -> stands_for ctx x = I_Variable x ->
  tokens_of input ts -> clear_tokens (set_var ctx x v) ts -> parse cfg w ctx input = Parse_ok p ->
  exists r, parse cfg w (set_var ctx x v) input = Parse_ok r /\ root r = substitute x (Number v) (root p) /\
    forall rho, eval w r rho = eval w p (sinsert x v rho).
Proof.
  intros cfg w ctx x v input ts p Ho Hf Hx Hts Hc' Hp. pose proof (clear_set_var _ _ _ _ Hx Hc') as Hc.
  destruct (parsed_declared cfg w ctx input ts p Ho Hf Hts Hc Hp) as [Sp Dp].
  pose proof (constant_sentence _ _ _ _ _ _ Hx Hc' Sp) as St.
  assert (Dt : declared (set_var ctx x v) (substitute x (Number v) (root p))).
  { intros l Hl y Hy. apply substitute_occurs in Hy. destruct Hy as [[_ Hy]|[_ Hy]]; [|inversion Hy]. eapply Dp; eauto. }
  destruct (C05_sentences_are_accepted cfg w _ input _ _ Ho Hf Hts St Dt) as [r [Hr Er]].
  exists r. split; [exact Hr|]. split; [exact Er|]. intros rho. unfold eval. rewrite Er. now apply substitute_eval.
Qed.

(** And the other way: a text accepted with the constant is accepted without it
    (if variables are declared, the name must be among them). *)
Theorem C62_variable_is_constant : forall cfg w ctx x v input ts r,
  optimize cfg = false -> fair_order w -> stands_for ctx x = I_Variable x -> declared ctx (Var x) ->
  tokens_of input ts -> clear_tokens (set_var ctx x v) ts -> parse cfg w (set_var ctx x v) input = Parse_ok r ->
  exists p, parse cfg w ctx input = Parse_ok p /\ root r = substitute x (Number v) (root p) /\
    forall rho, eval w r rho = eval w p (sinsert x v rho).
Proof.
  intros cfg w ctx x v input ts r Ho Hf Hx Dx Hts Hc' Hr. pose proof (clear_set_var _ _ _ _ Hx Hc') as Hc.
  destruct (parsed_declared cfg w _ input ts r Ho Hf Hts Hc' Hr) as [Sr Dr].
  destruct (sentences_rewritten (pejmdas cfg) (set_var ctx x v) ctx same_timg (fun v e => e = Number v \/ e = Var x) (fun y e => e = Var y)) with (ts := ts) (t := root r) (ts' := ts)
    as [t [St Tt]]; auto.
  { intros s f vs Hs ->. split; [reflexivity|]. rewrite stands_set_var in Hs. destruct (String.eqb_spec s x) as [->|]; [congruence|auto]. }
  { intros s u vs Hs ->. rewrite stands_set_var in Hs. destruct (String.eqb_spec s x) as [->|].
    - exists (Var x). split; [now apply P_variable|now right].
    - exists (Number u). split; [now apply P_constant|now left]. }
  { intros s y vs Hs ->. rewrite stands_set_var in Hs. destruct (String.eqb_spec s x) as [->|Hn]; [congruence|].
    exists (Var y). split; [now apply P_variable|reflexivity]. }
  { apply same_head. }
  { apply same_rewritten. }
  assert (Dt : declared ctx t).
  { intros l Hl y Hy. destruct (String.eqb_spec y x) as [->|Hn].
    - apply (Dx l Hl). constructor.
    - destruct (tree_occurs (fun v e => e = Number v \/ e = Var x) (fun y e => e = Var y) y) with (t := root r) (t' := t) as [z [e [-> [Oz Oy]]]]; auto.
      + intros n e [->| ->] K; inversion K; subst. congruence.
      + inversion Oy; subst. eapply Dr; eauto. }
  destruct (C05_sentences_are_accepted cfg w _ input _ t Ho Hf Hts St Dt) as [p [Hp <-]].
  exists p. split; [exact Hp|].
  destruct (C62_constant_is_variable cfg w ctx x v input ts p Ho Hf Hx Hts Hc' Hp) as [r' [Hr' K]].
  assert (r' = r) by congruence. subst r'. exact K.
Qed.

(** With compile-time optimisation: the result is the plain tree, with the
    constant filled in and parts simplified. *)
Theorem C62_default_constant_is_variable : forall cfg w ctx x v input ts p,
  optimize cfg = true -> fair_order w -> context_functions_return w ctx -> get_expected_vars ctx = None ->
  stands_for ctx x = I_Variable x ->
  tokens_of input ts -> clear_tokens (set_var ctx x v) ts -> parse cfg w ctx input = Parse_ok p ->
  exists r t, parse cfg w (set_var ctx x v) input = Parse_ok r /\ sentence (pejmdas cfg) ctx ts t /\
    simplified_from cfg w t (root p) /\ simplified_from cfg w (substitute x (Number v) t) (root r) /\
    forall rho a, regular w (lookup rho) (substitute x (Number v) t) a ->
      exists a', eval w r rho = Val (Eval_ok a') /\ same_value a a'.
Proof.
  intros cfg w ctx x v input ts p Ho Hf Hcf He Hx Hts Hc' Hp. pose proof (clear_set_var _ _ _ _ Hx Hc') as Hc.
  destruct (C04_default_accepted_texts_are_sentences cfg w ctx input ts p Ho Hts Hc Hp) as [t [St Zt]].
  pose proof (constant_sentence _ _ _ _ _ _ Hx Hc' St) as Sr.
  assert (D : declared (set_var ctx x v) (substitute x (Number v) t)) by (intros l Hl; change (get_expected_vars ctx = Some l) in Hl; congruence).
  assert (Hcf' : context_functions_return w (set_var ctx x v)).
  { intros name f Hn. unfold set_var in Hn. cbn [ctx_symbols] in Hn. rewrite sget_sinsert in Hn. destruct (String.eqb name x); [discriminate Hn|]. eapply Hcf; eauto. }
  destruct (C05_default_sentences_are_accepted cfg w (set_var ctx x v) input _ _ Ho Hf Hcf' Hts Hc' Sr D) as [r [Hr' [Zr Vr]]].
  exists r, t. auto.
Qed.

(** ** C63: variables may be renamed *)
Definition keeps_names (ctx : context) (f : string -> string) (ts : list token) : Prop :=
  forall s, In (TId s) ts ->
    match stands_for ctx s with
    | I_Variable _ => stands_for ctx (f s) = I_Variable (f s) /\
        (a_small (token_byte (TId s)) = true -> a_small (token_byte (TId (f s))) = true)
    | _ => f s = s
    end.

Definition name_timg (f : string -> string) (ts : list token) (s : string) (vs : list token) : Prop := In (TId s) ts /\ vs = [TId (f s)]%list.

Lemma rename_rewritten : forall f all ts, (forall s, In (TId s) ts -> In (TId s) all) ->
  rewritten (name_timg f all) ts (rename_tokens f ts).
Proof.
  intros f all. induction ts as [|[k|k|k] ts IH]; intro H; cbn; try (constructor; [discriminate|apply IH; intros s Hs; apply H; now right]); [constructor|].
  change (TId (f k) :: rename_tokens f ts)%list with ([TId (f k)] ++ rename_tokens f ts)%list.
  apply RW_name; [|apply IH; intros s Hs; apply H; now right]. split; [|reflexivity]. apply H. now left.
Qed.

Lemma rename_tree : forall f t t', tree_rewritten (fun v e => e = Number v) (fun y e => e = Var (f y)) t t' -> t' = rename f t.
Proof.
  intro f. induction t as [n|op l r IHl IHr|op e IHe|g args Hargs|y] using element_ind'; intros t' H; inversion H; subst; cbn [rename]; auto.
  - f_equal; auto.
  - f_equal; auto.
  - f_equal. match goal with K : all_rewritten _ _ _ ?l |- _ => rename l into args'; rename K into Ha end. clear H.
    revert args' Ha. induction Hargs as [|a l Hh _ IH]; intros args' Ha; inversion Ha; subst; [reflexivity|]. cbn [map]. f_equal; auto.
Qed.

Lemma rename_occurs : forall f t y, occurs y (rename f t) -> exists z, y = f z /\ occurs z t.
Proof.
  intro f. induction t as [n|op l r IHl IHr|op e IHe|g args Hargs|z] using element_ind'; intros y H; cbn [rename] in H; inversion H; subst.
  - destruct (IHl _ H1) as [z [-> Hz]]. exists z. eauto using occurs.
  - destruct (IHr _ H1) as [z [-> Hz]]. exists z. eauto using occurs.
  - destruct (IHe _ H1) as [z [-> Hz]]. exists z. eauto using occurs.
  - apply in_map_iff in H2. destruct H2 as [b [<- Hb]]. rewrite Forall_forall in Hargs. destruct (Hargs b Hb _ H3) as [z [-> Hz]].
    exists z. split; auto. eapply occ_arg; eauto.
  - exists z. split; constructor.
Qed.

(** The value of a renamed tree is that of the tree with the values of the new
    names; an error names the new name. *)
Definition renamed_result (f : string -> string) (r : out eval_result) : out eval_result :=
  match r with Val (Eval_err y) => Val (Eval_err (f y)) | r => r end.

Lemma rename_eval : forall w f rho rho' t, (forall y, occurs y t -> sget y rho' = sget (f y) rho) ->
  eval_element w rho (rename f t) = renamed_result f (eval_element w rho' t).
Proof.
  intros w f rho rho'. induction t as [n|op l r IHl IHr|op e IHe|g args Hargs|z] using element_ind'; intros H; cbn [rename eval_element].
  - reflexivity.
  - rewrite IHl by (intros y Hy; apply H; now constructor). destruct (eval_element w rho' l) as [[a|z]|p]; cbn [renamed_result ebind]; auto.
    rewrite IHr by (intros y Hy; apply H; now constructor). destruct (eval_element w rho' r) as [[b|z]|p]; cbn [renamed_result ebind]; auto.
    destruct (apply_binop w op a b); reflexivity.
  - rewrite IHe by (intros y Hy; apply H; now constructor). destruct (eval_element w rho' e) as [[a|z]|p]; cbn [renamed_result ebind]; auto.
    destruct (apply_unop op a); reflexivity.
  - assert (E : map_eval (eval_element w rho) (map (rename f) args) =
      match map_eval (eval_element w rho') args with Val (inr y) => Val (inr (f y)) | r => r end).
    { assert (H' : forall a y, In a args -> occurs y a -> sget y rho' = sget (f y) rho) by (intros a y Ha Hy; apply H; eapply occ_arg; eauto).
      clear H. induction Hargs as [|a l Ha _ IH]; [reflexivity|]. cbn [map map_eval].
      rewrite Ha by (intros y Hy; eapply H'; eauto; now left). destruct (eval_element w rho' a) as [[v|z]|p]; cbn [renamed_result]; auto.
      rewrite IH by (intros b y Hb Hy; eapply H'; eauto; now right).
      change ((fix go (l0 : list element) : out (list f64 + string) := _) l) with (map_eval (eval_element w rho') l).
      destruct (map_eval (eval_element w rho') l) as [[vs|y]|p]; reflexivity. }
    rewrite E. destruct (map_eval (eval_element w rho') args) as [[vs|y]|p]; cbn [renamed_result]; auto. destruct (call_function w g vs); reflexivity.
  - rewrite (H z) by constructor. destruct (sget (f z) rho); reflexivity.
Qed.

Theorem C63_renaming : forall cfg w ctx f input ts input' p,
  optimize cfg = false -> fair_order w -> get_expected_vars ctx = None ->
  tokens_of input ts -> clear_tokens ctx ts -> keeps_names ctx f ts -> parse cfg w ctx input = Parse_ok p ->
  tokens_of input' (rename_tokens f ts) ->
  exists r, parse cfg w ctx input' = Parse_ok r /\ root r = rename f (root p) /\
    forall rho rho', (forall y, occurs y (root p) -> sget y rho' = sget (f y) rho) ->
      eval w r rho = renamed_result f (eval w p rho').
Proof.
  intros cfg w ctx f input ts input' p Ho Hf He Hts Hc Hk Hp Hts'.
  destruct (parsed_declared cfg w ctx input ts p Ho Hf Hts Hc Hp) as [Sp Dp].
  pose proof (rename_rewritten f ts ts (fun s H => H)) as Hr.
  assert (Hc' : clear_tokens ctx (rename_tokens f ts)).
  { assert (A : forall (P : token -> token -> Prop), adjacent P (rename_tokens f ts) ->
      exists u a b v, ts = (u ++ a :: b :: v)%list /\ P (match a with TId s => TId (f s) | _ => a end) (match b with TId s => TId (f s) | _ => b end)).
    { intros P [u [a [b [v [E HP]]]]]. apply map_eq_app in E. destruct E as [u1 [r1 [-> [_ E]]]]. apply map_eq_cons in E.
      destruct E as [a1 [r2 [-> [<- E]]]]. apply map_eq_cons in E. destruct E as [b1 [v1 [-> [<- E]]]]. exists u1, a1, b1, v1. auto. }
    destruct Hc as [C1 C2]. split; intro K; apply A in K; destruct K as [u [a [b [v [E [P1 P2]]]]]].
    - apply C1. exists u, a, b, v. split; [exact E|]. destruct a, b; try discriminate; auto.
    - apply C2. exists u, a, b, v. split; [exact E|]. split; [|destruct b; destruct P2 as [s P2]; try discriminate P2; eauto].
      destruct a as [k|k|k]; auto. assert (Hi : In (TId k) ts) by (rewrite E; apply in_elt).
      pose proof (Hk k Hi) as K. cbn in P1 |- *. destruct (stands_for ctx k) eqn:Es; [rewrite K, Es in P1; discriminate P1|reflexivity|].
      destruct K as [K _]. rewrite K in P1. discriminate P1. }
  destruct (sentences_rewritten (pejmdas cfg) ctx ctx (name_timg f ts) (fun v e => e = Number v) (fun y e => e = Var (f y))) with (ts := ts) (t := root p) (ts' := rename_tokens f ts)
    as [t' [St Tt]]; auto.
  { intros s g vs Hs [Hi ->]. pose proof (Hk s Hi) as K. rewrite Hs in K. rewrite K. auto. }
  { intros s v vs Hs [Hi ->]. pose proof (Hk s Hi) as K. rewrite Hs in K. rewrite K. exists (Number v). split; [now apply P_constant|reflexivity]. }
  { intros s y vs Hs [Hi ->]. pose proof (Hk s Hi) as K. rewrite Hs in K. destruct K as [K _]. apply stands_variable in Hs. subst y.
    exists (Var (f s)). split; [now apply P_variable|reflexivity]. }
  { intros s vs [Hi ->] Ha. pose proof (Hk s Hi) as K. destruct (stands_for ctx s); try (rewrite K; exact Ha). destruct K as [_ K]. auto. }
  apply rename_tree in Tt. subst t'.
  assert (D : declared ctx (rename f (root p))) by (intros l Hl; congruence).
  destruct (C05_sentences_are_accepted cfg w ctx input' _ _ Ho Hf Hts' St D) as [r [Hr' Er]].
  exists r. split; [exact Hr'|]. split; [exact Er|]. intros rho rho' H. unfold eval. rewrite Er. now apply rename_eval.
Qed.

(** ** Concrete cases, and why the adjacencies are excluded *)
Lemma x_variable : stands_for ctx_default "x" = I_Variable "x".
Proof. reflexivity. Qed.

Example C61_witness : exists ts us p q,
  tokens_of "2x^2+max(x,1)" ts /\ parse debug_plain w0 ctx_default "2x^2+max(x,1)" = Parse_ok p /\
  tokens_of "y-1" us /\ clear_tokens ctx_default us /\ parse debug_plain w0 ctx_default "y-1" = Parse_ok q /\
  tokens_of "2(y-1)^2+max((y-1),1)" (replace_name "x" us ts) /\ clear_tokens ctx_default (replace_name "x" us ts) /\
  replaces_some "x" us ts ([TNum "2"; TId "x"; TSym "^"; TNum "2"; TSym "+"; TId "max"; TSym "("; TSym "("; TId "y"; TSym "-"; TNum "1"; TSym ")"; TSym ","; TNum "1"; TSym ")"])%list.
Proof.
  exists [TNum "2"; TId "x"; TSym "^"; TNum "2"; TSym "+"; TId "max"; TSym "("; TId "x"; TSym ","; TNum "1"; TSym ")"]%list, [TId "y"; TSym "-"; TNum "1"]%list.
  destruct (parses_ok (parse debug_plain w0 ctx_default "2x^2+max(x,1)")) as [p Hp]; [vm_compute; reflexivity|].
  destruct (parses_ok (parse debug_plain w0 ctx_default "y-1")) as [q Hq]; [vm_compute; reflexivity|].
  exists p, q. split; [apply tokens_check; vm_compute; reflexivity|]. split; [exact Hp|].
  split; [apply tokens_check; vm_compute; reflexivity|]. split; [apply clear_check; vm_compute; reflexivity|]. split; [exact Hq|].
  split; [apply tokens_check; vm_compute; reflexivity|]. split; [apply clear_check; vm_compute; reflexivity|].
  do 7 apply RS_keep. apply (RS_here "x" [TId "y"; TSym "-"; TNum "1"]%list). do 3 apply RS_keep. apply RS_nil.
Qed.

(** The same texts with optimisation. *)
Example C61_default_witness : exists p q,
  parse default_config w0 ctx_default "2x^2+max(x,1)" = Parse_ok p /\ parse default_config w0 ctx_default "y-1" = Parse_ok q /\
  context_functions_return w0 ctx_default /\ get_expected_vars ctx_default = None /\ optimize default_config = true.
Proof.
  destruct (parses_ok (parse default_config w0 ctx_default "2x^2+max(x,1)")) as [p Hp]; [vm_compute; reflexivity|].
  destruct (parses_ok (parse default_config w0 ctx_default "y-1")) as [q Hq]; [vm_compute; reflexivity|].
  exists p, q. split; [exact Hp|]. split; [exact Hq|]. split; [apply default_context_returns|]. now split.
Qed.

(** A number directly after the name: "1+x 2" is 1+x*2, but "1+(5) 2" is (1+5)*2. *)
Theorem C61_number_after_refuted : exists p r,
  parse debug_plain w0 ctx_default "1+x 2" = Parse_ok p /\ eval w0 p [("x", lit "5")] = Val (Eval_ok (lit "11")) /\
  parse debug_plain w0 ctx_default "1+(5) 2" = Parse_ok r /\ eval w0 r [] = Val (Eval_ok (lit "12")).
Proof.
  destruct (ok_and_spec (parse debug_plain w0 ctx_default "1+x 2") (fun p => is_val (eval_element_unchecked w0 [("x", lit "5")] (root p)) (lit "11"))) as [p [Hp Ep]]; [vm_compute; reflexivity|].
  destruct (ok_and_spec (parse debug_plain w0 ctx_default "1+(5) 2") (fun p => is_val (eval_element_unchecked w0 [] (root p)) (lit "12"))) as [r [Hr Er]]; [vm_compute; reflexivity|].
  exists p, r. split; [exact Hp|]. split; [unfold eval; now apply eval_check|]. split; [exact Hr|]. unfold eval; now apply eval_check.
Qed.

Example C62_witness : exists ts p,
  tokens_of "2c+c sin(y)/c" ts /\ stands_for ctx_default "c" = I_Variable "c" /\ declared ctx_default (Var "c") /\
  clear_tokens (set_var ctx_default "c" (lit "5")) ts /\ parse debug_plain w0 ctx_default "2c+c sin(y)/c" = Parse_ok p /\
  exists r, parse debug_plain w0 (set_var ctx_default "c" (lit "5")) "2c+c sin(y)/c" = Parse_ok r.
Proof.
  exists [TNum "2"; TId "c"; TSym "+"; TId "c"; TId "sin"; TSym "("; TId "y"; TSym ")"; TSym "/"; TId "c"]%list.
  destruct (parses_ok (parse debug_plain w0 ctx_default "2c+c sin(y)/c")) as [p Hp]; [vm_compute; reflexivity|].
  destruct (parses_ok (parse debug_plain w0 (set_var ctx_default "c" (lit "5")) "2c+c sin(y)/c")) as [r Hr]; [vm_compute; reflexivity|].
  exists p. split; [apply tokens_check; vm_compute; reflexivity|]. split; [reflexivity|]. split; [intros l Hl; discriminate Hl|].
  split; [apply clear_check; vm_compute; reflexivity|]. split; [exact Hp|]. exists r. exact Hr.
Qed.

(** A number directly after the constant's name. *)
Theorem C62_number_after_refuted : exists p r,
  parse debug_plain w0 ctx_default "1+c 2" = Parse_ok p /\ eval w0 p [("c", lit "5")] = Val (Eval_ok (lit "11")) /\
  parse debug_plain w0 (set_var ctx_default "c" (lit "5")) "1+c 2" = Parse_ok r /\ eval w0 r [] = Val (Eval_ok (lit "12")).
Proof.
  destruct (ok_and_spec (parse debug_plain w0 ctx_default "1+c 2") (fun p => is_val (eval_element_unchecked w0 [("c", lit "5")] (root p)) (lit "11"))) as [p [Hp Ep]]; [vm_compute; reflexivity|].
  destruct (ok_and_spec (parse debug_plain w0 (set_var ctx_default "c" (lit "5")) "1+c 2") (fun p => is_val (eval_element_unchecked w0 [] (root p)) (lit "12"))) as [r [Hr Er]]; [vm_compute; reflexivity|].
  exists p, r. split; [exact Hp|]. split; [unfold eval; now apply eval_check|]. split; [exact Hr|]. unfold eval; now apply eval_check.
Qed.

Example C63_witness : let f := (fun s => if s =? "a" then "u" else if s =? "b" then "v" else s) in
  exists ts p, tokens_of "a+2b*sin(a)" ts /\ clear_tokens ctx_default ts /\ keeps_names ctx_default f ts /\
    parse debug_plain w0 ctx_default "a+2b*sin(a)" = Parse_ok p /\ tokens_of "u+2v*sin(u)" (rename_tokens f ts).
Proof.
  intro f. exists [TId "a"; TSym "+"; TNum "2"; TId "b"; TSym "*"; TId "sin"; TSym "("; TId "a"; TSym ")"]%list.
  destruct (parses_ok (parse debug_plain w0 ctx_default "a+2b*sin(a)")) as [p Hp]; [vm_compute; reflexivity|].
  exists p. split; [apply tokens_check; vm_compute; reflexivity|]. split; [apply clear_check; vm_compute; reflexivity|].
  split; [|split; [exact Hp|apply tokens_check; vm_compute; reflexivity]].
  intros s Hs. cbn in Hs. repeat (destruct Hs as [Hs|Hs]; [first [discriminate Hs|injection Hs as <-; cbn; auto]|]). destruct Hs.
Qed.

(** A capital letter cannot follow an operand directly: "2b" is 2*b, "2B" is rejected. *)
Theorem C63_capital_refuted : forall w, (exists p, parse default_config w ctx_default "2b" = Parse_ok p) /\
  (exists e, parse default_config w ctx_default "2B" = Parse_err e) /\ (exists p, parse default_config w ctx_default "B" = Parse_ok p).
Proof.
  intro w. split; [apply parses_ok; vm_compute; reflexivity|]. split; [|apply parses_ok; vm_compute; reflexivity].
  assert (E : match parse default_config w ctx_default "2B" with Parse_err _ => true | _ => false end = true) by (vm_compute; reflexivity).
  destruct (parse default_config w ctx_default "2B"); try discriminate E. eauto.
Qed.
