(** * Which rules simplify (C85) and what the default build reads (C86) *)
From Coq Require Import ZArith NArith List String Ascii Bool Lia Permutation.
From Flocq Require Import BinarySingleNaN.
From Verif Require Import F64 Syntax Factorial Builtins Context Element Parser Xprs.
From Verif Require Import ParserFacts ParserResults SpecParse SpecTree TreeFacts SimplifyFacts SpecApi.
From Verif Require Import SpecTokens SpecGrammar SpecBuild SpecSimplifier TokenFacts LexFacts LexExec TokenParser TokenSim TokenMono.
From Verif Require Import GrammarFacts GrammarEquiv JuxtaFacts BuildFacts SimplifierFacts.
From Verif Require Import TestWorld PropertiesParse PropertiesGrammar PropertiesEq PropertiesOptimise.
Import ListNotations.
Local Open Scope string_scope.

(** ** C85: the rules and their order *)

(** What [simplify_for] returns is what the table of rules gives, and it returns
    whenever the table gives something. *)
Theorem C85_rules_in_order : forall cfg w x var v e, no_binary_factorial (root x) ->
  ((exists y, simplify_for cfg w x (var, v) = Val y /\ root y = e) <->
   simplest_for (nightly cfg) w var v (root x) e).
Proof.
  intros cfg w x var v e Hn. apply no_bf_iff in Hn. rewrite <- (simplify_for_iff cfg w var v (root x) e Hn).
  unfold simplify_for, simplify_for_in_place. cbn [fst snd].
  destruct (el_simplify_for cfg w var v (root x)) as [t|p]; cbn [take_self]; split.
  - intros [y [E Er]]. injection E as <-. cbn in Er. now subst.
  - intro E. injection E as <-. eexists. split; reflexivity.
  - intros [y [E _]]. discriminate E.
  - discriminate.
Qed.

(** The table gives at most one result. *)
Theorem C85_one_result : forall nightly w,
  (forall e a b, simplest nightly w e a -> simplest nightly w e b -> a = b) /\
  (forall x v e a b, simplest_for nightly w x v e a -> simplest_for nightly w x v e b -> a = b).
Proof.
  intros ng w.
  assert (H : (forall e a, simplest ng w e a -> forall b, simplest ng w e b -> a = b) /\
    (forall l m, all_simplest ng w l m -> forall m', all_simplest ng w l m' -> m = m')).
  { assert (Hm : forall vs vs', map Number vs = map Number vs' -> vs = vs').
    { induction vs as [|v vs IH]; intros [|v' vs'] E; cbn in E; try discriminate E; auto.
      injection E as -> E. f_equal. auto. }
    apply simplest_mutind.
    - intros n b K. inversion K. reflexivity.
    - intros x b K. inversion K. reflexivity.
    - intros op l r l' r' e _ IHl _ IHr B b K. inversion K as [| |? ? ? l2 r2 ? Sl Sr B2| | | | |]; subst.
      apply IHl in Sl. apply IHr in Sr. subst. eapply becomes_det; eauto.
    - intros a a' _ IH b K. inversion K as [| | |? ? Sa|? ? n v Hop Sa M|? ? ? Hop Sa Hn| |]; subst; auto; try congruence.
      destruct Hop; discriminate.
    - intros op a n v Hop _ IH M b K. inversion K as [| | |? ? Sa|? ? n2 v2 Hop2 Sa M2|? ? a2 Hop2 Sa Hn| |]; subst; try congruence.
      + apply IH in Sa. injection Sa as <-. f_equal. eapply means_det; eauto.
      + apply IH in Sa. subst. elim (Hn n eq_refl).
    - intros op a a' Hop _ IH Hn b K. inversion K as [| | |? ? Sa|? ? n2 v2 Hop2 Sa M2|? ? a2 Hop2 Sa Hn2| |]; subst.
      + destruct Hop; discriminate.
      + apply IH in Sa. subst. elim (Hn n2 eq_refl).
      + apply IH in Sa. now subst.
    - intros f args vs v _ IH E b K. inversion K as [| | | | | |? ? vs2 v2 Sa E2|? ? a2 Sa Hn]; subst.
      + apply IH in Sa. apply Hm in Sa. subst. congruence.
      + apply IH in Sa. subst. elim (Hn vs eq_refl).
    - intros f args args' _ IH Hn b K. inversion K as [| | | | | |? ? vs2 v2 Sa E2|? ? a2 Sa Hn2]; subst.
      + apply IH in Sa. subst. elim (Hn vs2 eq_refl).
      + apply IH in Sa. now subst.
    - intros m' K. inversion K. reflexivity.
    - intros a a' l l' _ IHa _ IHl m' K. inversion K; subst. f_equal; auto. }
  split; [intros e a b Ha Hb; exact (proj1 H _ _ Ha _ Hb)|].
  intros x v.
  assert (HF : (forall e a, simplest_for ng w x v e a -> forall b, simplest_for ng w x v e b -> a = b) /\
    (forall l m, all_simplest_for ng w x v l m -> forall m', all_simplest_for ng w x v l m' -> m = m')).
  { apply simplest_for_mutind.
    - intros b K. inversion K; subst; congruence.
    - intros y Hy b K. inversion K; subst; congruence.
    - intros n b K. inversion K. reflexivity.
    - intros op l r l' r' e _ IHl _ IHr S b K. inversion K as [| | |? ? ? l2 r2 ? Sl Sr S2| |]; subst.
      apply IHl in Sl. apply IHr in Sr. subst. exact (proj1 H _ _ S _ S2).
    - intros op a a' e _ IH S b K. inversion K as [| | | |? ? a2 ? Sa S2|]; subst. apply IH in Sa. subst. exact (proj1 H _ _ S _ S2).
    - intros f args args' e _ IH S b K. inversion K as [| | | | |? ? a2 ? Sa S2]; subst. apply IH in Sa. subst. exact (proj1 H _ _ S _ S2).
    - intros m' K. inversion K. reflexivity.
    - intros a a' l l' _ IHa _ IHl m' K. inversion K; subst. f_equal; auto. }
  intros e a b Ha Hb. exact (proj1 HF _ _ Ha _ Hb).
Qed.

(** For every expression that can be obtained without "!!" and from contexts
    whose functions return, the table gives a result, which [simplify_for]
    returns. *)
Theorem C85_some_result : forall cfg w x var v, obtained cfg w x ->
  exists y, simplify_for cfg w x (var, v) = Val y /\ simplest_for (nightly cfg) w var v (root x) (root y).
Proof.
  intros cfg w x var v Hx. destruct (obtained_inv cfg w x Hx) as [Hs _].
  destruct (el_simplify_for_val cfg w var v (root x) Hs) as [e He].
  assert (Hy : exists y, simplify_for cfg w x (var, v) = Val y /\ root y = e).
  { unfold simplify_for, simplify_for_in_place. cbn [fst snd]. rewrite He. cbn. eexists. split; reflexivity. }
  destruct Hy as [y [Hy <-]]. exists y. split; [exact Hy|]. apply (C85_rules_in_order cfg w x var v (root y)).
  - apply no_bf_iff. eapply safe_no_bf; eauto.
  - eauto.
Qed.

(** The order decides: four rules fit 0/0, with four different results; the
    first gives NaN. *)
Theorem C85_order_matters : forall nightly w,
  let z := Number fzero in
  rule nightly w Divide 1 z z (Number fnan) /\ rule nightly w Divide 2 z z (Number fzero) /\
  rule nightly w Divide 3 z z (Number finf) /\ rule nightly w Divide 5 z z (Number fone) /\
  becomes nightly w Divide z z (Number fnan) /\
  forall e, becomes nightly w Divide z z e -> e = Number fnan.
Proof.
  intros ng w z. assert (Z : zero z) by (left; reflexivity).
  assert (B : becomes ng w Divide z z (Number fnan)).
  { apply by_rule with 1; [now constructor|]. intros k e K R. inversion R; subst; lia. }
  repeat split; try (constructor; auto; fail).
  - constructor. constructor. reflexivity.
  - exact B.
  - intros e H. eapply becomes_det; eauto.
Qed.

(** There is no rule for a power with exponent 0, whatever the base, unless the
    base is a literal. *)
Theorem C85_power_zero_stays : forall nightly w a e, (forall n, a <> Number n) ->
  becomes nightly w Power a (Number fzero) e -> e = BinOp Power a (Number fzero).
Proof.
  intros ng w a e Ha H. eapply becomes_det; [exact H|]. apply no_rule. intros k t R.
  inversion R as [| | | | | | | | | | | | | | | | | | |l r Zl Zr|l r Zl|l r Zr| | | | | |]; subst.
  - destruct Zl as [-> | ->]; eapply Ha; reflexivity.
  - destruct Zl as [-> | ->]; eapply Ha; reflexivity.
  - injection Zr as Zr. symmetry in Zr. now apply fone_not_zero in Zr.
  - eapply Ha; reflexivity.
Qed.

(** An expression with several rules at work: with x = 1, "x*(y-0) + 0/(x-1) + z^0"
    becomes "y + NaN + z^0" (and 0/0 is NaN by its own rule). *)
Example C85_example : exists x y,
  parse plain_config w0 ctx_default "x*(y-0) + 0/(x-1) + z^0" = Parse_ok x /\
  no_binary_factorial (root x) /\
  simplify_for default_config w0 x ("x", fone) = Val y /\
  root y = BinOp Plus (BinOp Plus (Var "y") (Number fnan)) (BinOp Power (Var "z") (Number fzero)) /\
  simplest_for false w0 "x" fone (root x) (root y).
Proof.
  destruct (parses_to (parse plain_config w0 ctx_default "x*(y-0) + 0/(x-1) + z^0")
    (BinOp Plus (BinOp Plus (BinOp Times (Var "x") (BinOp Minus (Var "y") (Number (lit "0"))))
       (BinOp Divide (Number (lit "0")) (BinOp Minus (Var "x") (Number (lit "1")))))
       (BinOp Power (Var "z") (Number (lit "0"))))) as [x [Hx Ex]]; [vm_compute; reflexivity|].
  assert (Hn : no_binary_factorial (root x)).
  { apply no_bf_iff. rewrite Ex. cbn [no_bf]. repeat split; discriminate. }
  assert (Hy : exists y, simplify_for default_config w0 x ("x", fone) = Val y /\
    root y = BinOp Plus (BinOp Plus (Var "y") (Number fnan)) (BinOp Power (Var "z") (Number fzero))).
  { unfold simplify_for, simplify_for_in_place. cbn [fst snd]. rewrite Ex.
    destruct (el_simplify_for _ _ _ _ _) as [t|p] eqn:E.
    - cbn [take_self]. eexists. split; [reflexivity|]. cbn [root].
      apply (f_equal (fun r => match r with Val t => same_tree t (BinOp Plus (BinOp Plus (Var "y") (Number fnan)) (BinOp Power (Var "z") (Number fzero))) | Boom _ => false end)) in E.
      apply same_tree_eq. rewrite <- E. vm_compute. reflexivity.
    - exfalso. apply (f_equal (fun r => match r with Val _ => true | Boom _ => false end)) in E. vm_compute in E. discriminate E. }
  destruct Hy as [y [Hy Ey]]. exists x, y. split; [exact Hx|]. split; [exact Hn|]. split; [exact Hy|]. split; [exact Ey|].
  apply (C85_rules_in_order default_config w0 x "x" fone (root y) Hn). exists y. auto.
Qed.

(** ** C86: what the default build reads *)

(** no "!" directly after "!" *)
Definition no_double_bang (ts : list token) : Prop := ~ adjacent (fun a b => a = TSym "!" /\ b = TSym "!") ts.

Section Convert.
  Variable pj : bool.
  Variable ctx : context.
  Variable c1 c2 : element -> element -> Prop.
  Hypothesis Hcl : forall raw t, no_bf raw -> c1 raw t -> c2 raw t /\ no_bf t.

  Lemma run_last :
    (forall p ts t q n, run pj ctx c1 p ts t q n -> exists u a, ts = (u ++ [a])%list /\ (5 <= q -> a = TSym "!")) /\
    (forall ts t q, piece pj ctx c1 ts t q -> exists u a, ts = (u ++ [a])%list /\ (5 <= q -> a = TSym "!")) /\
    (forall ts t, part pj ctx c1 ts t -> exists u a, ts = (u ++ [a])%list) /\
    (forall ts l, parts pj ctx c1 ts l -> True).
  Proof.
    apply run_mutind; auto.
    - intros p ts l q n tok op ts' raw r q' n' _ _ _ _ _ _ [u [a [-> H1]]] _. exists (ts ++ tok :: u)%list, a.
      split; [rewrite <- app_assoc; reflexivity|]. intro; apply H1; lia.
    - intros p ts l q n ts' raw r q' n' j _ _ _ _ _ _ [u [a [-> H1]]] _. exists (ts ++ u)%list, a.
      split; [rewrite <- app_assoc; reflexivity|]. intro; apply H1; lia.
    - intros ts t _ [u [a ->]]. exists u, a. split; auto. lia.
    - intros ts t _ [u [a ->]]. exists (u ++ [a])%list, (TSym "!"). split; auto.
    - intros c op ts raw t q n _ _ [u [a [-> _]]] _. exists (TSym c :: u), a. split; [reflexivity|]. lia.
    - intros s v H. exists [], (TNum s). auto.
    - intros s v H. exists [], (TId s). auto.
    - intros s x H. exists [], (TId s). auto.
    - intros s f ts args H _ _ _. exists (TId s :: TSym "(" :: ts), (TSym ")"). auto.
    - intros ts raw t q n _ _ _. exists (TSym "(" :: ts), (TSym ")"). auto.
  Qed.

  Lemma ndb_prefix : forall u v, no_double_bang (u ++ v)%list -> no_double_bang u.
  Proof. intros u v H K. apply H. now apply adjacent_prefix. Qed.
  Lemma ndb_suffix : forall u v, no_double_bang (u ++ v)%list -> no_double_bang v.
  Proof. intros u v H K. apply H. now apply adjacent_suffix. Qed.

  Lemma run_convert :
    (forall p ts t q n, run pj ctx c1 p ts t q n -> no_double_bang ts -> run pj ctx c2 p ts t q n /\ no_bf t) /\
    (forall ts t q, piece pj ctx c1 ts t q -> no_double_bang ts -> piece pj ctx c2 ts t q /\ no_bf t) /\
    (forall ts t, part pj ctx c1 ts t -> no_double_bang ts -> part pj ctx c2 ts t /\ no_bf t) /\
    (forall ts l, parts pj ctx c1 ts l -> no_double_bang ts -> parts pj ctx c2 ts l /\ Forall no_bf l).
  Proof.
    apply run_mutind.
    - intros p ts t q _ IH H. destruct (IH H). split; auto. now constructor.
    - intros p ts l q n tok op ts' raw r q' n' H1 IH1 Ht Hp Hq H2 IH2 Hc H.
      destruct (IH1 (ndb_prefix _ _ H)) as [R1 N1].
      assert (H' : no_double_bang ts') by (apply (ndb_suffix (ts ++ [tok])%list); rewrite <- app_assoc; exact H).
      destruct (IH2 H') as [R2 N2]. destruct (Hcl _ _ N2 Hc) as [C2 Nr].
      split; [eapply B_operator; eauto|]. cbn [no_bf]. repeat split; auto. intros ->.
      destruct (proj1 run_last _ _ _ _ _ H1) as [u [a [-> Ha]]]. specialize (Ha Hq). subst a.
      destruct tok as [s|s|c]; try contradiction.
      assert (Hb : forall b, (match operator_of_byte b with Some Factorial => Ascii.eqb b "!" | _ => true end) = true).
      { apply byte_cases. vm_compute. reflexivity. }
      specialize (Hb c). cbn in Ht. rewrite Ht in Hb. apply Ascii.eqb_eq in Hb. subst c.
      apply H. exists u, (TSym "!"), (TSym "!"), ts'. split; auto. rewrite <- app_assoc. reflexivity.
    - intros p ts l q n ts' raw r q' n' j H1 IH1 Hm Hp Hq H2 IH2 Hc H.
      destruct (IH1 (ndb_prefix _ _ H)) as [R1 N1]. destruct (IH2 (ndb_suffix _ _ H)) as [R2 N2].
      destruct (Hcl _ _ N2 Hc) as [C2 Nr]. split; [eapply B_implicit; eauto|]. cbn [no_bf]. repeat split; auto. discriminate.
    - intros ts t _ IH H. destruct (IH H). split; auto. now constructor.
    - intros ts t _ IH H. destruct (IH (ndb_prefix _ _ H)). split; auto. now constructor.
    - intros c op ts raw t q n Hs _ IH Hc H. destruct (IH (ndb_suffix [TSym c] _ H)) as [R N].
      destruct (Hcl _ _ N Hc). split; auto. eapply B_sign; eauto.
    - intros s v Hv _. split; [now constructor|exact I].
    - intros s v Hv _. split; [now constructor|exact I].
    - intros s x Hv _. split; [now constructor|exact I].
    - intros s f ts args Hf _ IH Ha H.
      destruct (IH (ndb_prefix _ [TSym ")"] (ndb_suffix [TId s; TSym "("] _ H))) as [R N].
      split; [eapply B_call; eauto|]. now apply no_bf_call.
    - intros ts raw t q n _ IH Hc H.
      destruct (IH (ndb_prefix _ [TSym ")"] (ndb_suffix [TSym "("] _ H))) as [R N]. destruct (Hcl _ _ N Hc).
      split; auto. eapply B_paren; eauto.
    - intros ts raw t q n _ IH Hc H. destruct (IH H) as [R N]. destruct (Hcl _ _ N Hc). split; [eapply B_last; eauto|auto].
    - intros ts raw t q n ts' l _ IH Hc _ IHl H. destruct (IH (ndb_prefix _ _ H)) as [R N]. destruct (Hcl _ _ N Hc).
      assert (H' : no_double_bang ts') by (apply (ndb_suffix (ts ++ [TSym ","])%list); rewrite <- app_assoc; exact H).
      destruct (IHl H'). split; [eapply B_more; eauto|auto].
  Qed.

  Lemma builds_convert : forall ts t, no_double_bang ts -> builds pj ctx c1 ts t -> builds pj ctx c2 ts t.
  Proof.
    intros ts t H [raw [q [n [R C]]]]. destruct (proj1 run_convert _ _ _ _ _ R H) as [R' N].
    destruct (Hcl _ _ N C). exists raw, q, n. auto.
  Qed.
End Convert.

Lemma parse_by_building : forall cfg w ctx input ts t, input <> "" -> tokens_of input ts ->
  (t_parse cfg w ctx (parse_budget input) ts = TOk t [] <-> builds (pejmdas cfg) ctx (finishes cfg w) ts t).
Proof.
  intros cfg w ctx input ts t Hne Hts. rewrite <- (t_parse_builds cfg w ctx). split; [eauto|].
  intros [b Hb]. rewrite <- Hb. apply same_answer; [now apply parse_not_fuel|]. rewrite Hb. discriminate.
Qed.

Lemma builds_exactly : forall cfg w ctx input ts t, fair_order w -> input <> "" -> tokens_of input ts ->
  ((exists x, parse cfg w ctx input = Parse_ok x /\ root x = t) <->
   builds (pejmdas cfg) ctx (finishes cfg w) ts t /\ declared ctx t).
Proof.
  intros cfg w ctx input ts t Hf Hne Hts. pose proof (parse_outcome cfg w ctx input ts Hne Hts) as Hp.
  rewrite <- (parse_by_building cfg w ctx input ts t Hne Hts). split.
  - intros [x [Hx <-]]. rewrite Hx in Hp. cbn in Hp. symmetry in Hp.
    destruct (token_gives _ _ _ _ Hp) as [rest [E Hv]]. pose proof (ok_rest_nil _ _ _ _ _ _ _ E). subst rest.
    split; [exact E|]. apply (declared_check w ctx (root x) Hf). rewrite E in Hp. rewrite Hp. rewrite <- Hv. now destruct x.
  - intros [E Hd]. rewrite E in Hp. rewrite (proj2 (declared_check w ctx t Hf) Hd) in Hp. apply outcome_gives in Hp.
    eexists. split; [exact Hp|reflexivity].
Qed.

Lemma builds_same : forall pj ctx (c1 c2 : element -> element -> Prop) ts t,
  (forall a b, c1 a b <-> c2 a b) -> builds pj ctx c1 ts t -> builds pj ctx c2 ts t.
Proof.
  intros pj ctx c1 c2 ts t Hc.
  assert (H : (forall p ts t q n, run pj ctx c1 p ts t q n -> run pj ctx c2 p ts t q n) /\
    (forall ts t q, piece pj ctx c1 ts t q -> piece pj ctx c2 ts t q) /\
    (forall ts t, part pj ctx c1 ts t -> part pj ctx c2 ts t) /\
    (forall ts l, parts pj ctx c1 ts l -> parts pj ctx c2 ts l)).
  { apply run_mutind; intros; try (constructor; auto; fail).
    - eapply B_operator; eauto. now apply Hc.
    - eapply B_implicit; eauto. now apply Hc.
    - eapply B_sign; eauto. now apply Hc.
    - eapply B_paren; eauto. now apply Hc.
    - eapply B_last; eauto. now apply Hc.
    - eapply B_more; eauto. now apply Hc. }
  intros [raw [q [n [R C]]]]. exists raw, q, n. split; [now apply H|now apply Hc].
Qed.

(** The default build accepts a text without "!!" and returns the tree [t]
    exactly when reading the text's tokens, simplifying by the rules of C85
    whatever has been read, builds [t]; and its variables are declared. *)
Theorem C86_default_reads_exactly : forall cfg w ctx input ts t,
  optimize cfg = true -> fair_order w -> input <> "" -> tokens_of input ts -> no_double_bang ts ->
  ((exists x, parse cfg w ctx input = Parse_ok x /\ root x = t) <->
   builds (pejmdas cfg) ctx (simplest (nightly cfg) w) ts t /\ declared ctx t).
Proof.
  intros cfg w ctx input ts t Ho Hf Hne Hts Hb. rewrite (builds_exactly cfg w ctx input ts t Hf Hne Hts).
  assert (E : builds (pejmdas cfg) ctx (finishes cfg w) ts t <-> builds (pejmdas cfg) ctx (simplest (nightly cfg) w) ts t); [|now rewrite E].
  split; apply builds_convert; auto; intros raw t' Hn H.
  - unfold finishes, finish_element in H. rewrite Ho in H. split; [now apply simplify_iff|eapply simplify_no_bf; eauto].
  - apply (simplify_iff cfg w raw t' Hn) in H. split; [unfold finishes, finish_element; now rewrite Ho|eapply simplify_no_bf; eauto].
Qed.

(** With "!!" too, the simplification being the one the code performs. *)
Theorem C86_every_text : forall cfg w ctx input ts t,
  optimize cfg = true -> fair_order w -> input <> "" -> tokens_of input ts ->
  ((exists x, parse cfg w ctx input = Parse_ok x /\ root x = t) <->
   builds (pejmdas cfg) ctx (fun raw t => simplify cfg w raw = Val t) ts t /\ declared ctx t).
Proof.
  intros cfg w ctx input ts t Ho Hf Hne Hts. rewrite (builds_exactly cfg w ctx input ts t Hf Hne Hts).
  assert (Hc : forall a b, finishes cfg w a b <-> simplify cfg w a = Val b).
  { intros a b. unfold finishes, finish_element. now rewrite Ho. }
  split; intros [H Hd]; (split; [|exact Hd]); eapply builds_same; eauto. intros a b. now rewrite Hc.
Qed.

(** Without optimisation nothing is replaced: the same grammar is the one of C04. *)
Theorem C86_plain_is_the_grammar : forall pj ctx ts t, builds pj ctx eq ts t <-> derives pj ctx true ts t.
Proof.
  intros pj ctx ts t.
  set (cfg := {| pejmdas := pj; optimize := false; nightly := false; overflow_checks := false |}).
  change pj with (pejmdas cfg). rewrite <- (t_parse_iff cfg w0 ctx eq_refl ts t), (t_parse_builds cfg w0 ctx ts t).
  assert (Hc : forall a b, a = b <-> finishes cfg w0 a b).
  { intros a b. unfold finishes, finish_element. cbn. split; intro H; [now subst|now injection H]. }
  split; apply builds_same; auto. intros; now rewrite Hc.
Qed.

(** A text has at most one reading. *)
Theorem C86_one_reading : forall nightly w pj ctx ts a b, no_double_bang ts ->
  builds pj ctx (simplest nightly w) ts a -> builds pj ctx (simplest nightly w) ts b -> a = b.
Proof.
  intros ng w pj ctx ts a b Hb Ha Hb'.
  set (cfg := {| pejmdas := pj; optimize := true; nightly := ng; overflow_checks := false |}).
  assert (Hc : forall t, builds pj ctx (simplest ng w) ts t -> builds (pejmdas cfg) ctx (finishes cfg w) ts t).
  { intro t. apply builds_convert; auto. intros raw t' Hn H. change ng with (nightly cfg) in H.
    apply (simplify_iff cfg w raw t' Hn) in H. split; [exact H|eapply simplify_no_bf; eauto]. }
  apply Hc, (t_parse_builds cfg w ctx) in Ha. apply Hc, (t_parse_builds cfg w ctx) in Hb'.
  destruct Ha as [n Ha], Hb' as [m Hb'].
  assert (E : t_parse cfg w ctx n ts = t_parse cfg w ctx m ts).
  { apply same_answer; [rewrite Ha|rewrite Hb']; discriminate. }
  rewrite Ha, Hb' in E. congruence.
Qed.

(** What this grammar says beyond the one of C04: in "x+(1+2)3" the parenthesis
    counts as the number 3, so the number after it multiplies the whole sum, and
    "(1+2)3" cannot be read at all.  The plain grammar reads both. *)
Definition folded_tokens : list token := [TSym "("; TNum "1"; TSym "+"; TNum "2"; TSym ")"; TNum "3"]%char.
Definition sum_tokens : list token := (TId "x" :: TSym "+"%char :: folded_tokens)%list.

Lemma folded_no_bang : no_double_bang folded_tokens /\ no_double_bang sum_tokens.
Proof.
  assert (H : forall ts, existsb (fun a => match a with TSym c => Ascii.eqb c "!" | _ => false end) ts = false -> no_double_bang ts).
  { intros ts H [u [a [b [v [E [-> _]]]]]]. subst ts. rewrite existsb_app in H. cbn in H.
    destruct (existsb _ u); discriminate H. }
  split; apply H; reflexivity.
Qed.

Theorem C86_example :
  tokens_of "x+(1+2)3" sum_tokens /\ no_double_bang sum_tokens /\
  builds false ctx_default (simplest false w0) sum_tokens
    (BinOp Times (BinOp Plus (Var "x") (Number (lit "3"))) (Number (lit "3"))) /\
  derives false ctx_default true sum_tokens
    (BinOp Plus (Var "x") (BinOp Times (BinOp Plus (Number (lit "1")) (Number (lit "2"))) (Number (lit "3")))).
Proof.
  assert (Ht : tokens_of "x+(1+2)3" sum_tokens) by (apply tokens_check; vm_compute; reflexivity).
  split; [exact Ht|]. split; [apply folded_no_bang|]. split.
  - apply (C86_default_reads_exactly default_config w0 ctx_default "x+(1+2)3" sum_tokens); auto using w0_fair; try discriminate; [apply folded_no_bang|].
    apply parses_to. vm_compute. reflexivity.
  - apply C86_plain_is_the_grammar.
    apply (builds_same false ctx_default (finishes plain_config w0) eq).
    { intros a b. unfold finishes, finish_element. cbn. split; intro H; [now injection H|now subst]. }
    apply (builds_exactly plain_config w0 ctx_default "x+(1+2)3" sum_tokens); auto using w0_fair; try discriminate.
    apply parses_to. vm_compute. reflexivity.
Qed.

Theorem C86_no_reading : tokens_of "(1+2)3" folded_tokens /\ no_double_bang folded_tokens /\
  (forall t, ~ builds false ctx_default (simplest false w0) folded_tokens t) /\
  exists t, derives false ctx_default true folded_tokens t.
Proof.
  assert (Ht : tokens_of "(1+2)3" folded_tokens) by (apply tokens_check; vm_compute; reflexivity).
  split; [exact Ht|]. split; [apply folded_no_bang|]. split.
  - intros t H.
    assert (D : declared ctx_default t) by (intros s Hs; discriminate Hs).
    destruct (proj2 (C86_default_reads_exactly default_config w0 ctx_default "(1+2)3" folded_tokens t eq_refl w0_fair ltac:(discriminate) Ht (proj1 folded_no_bang)) (conj H D)) as [x [Hx _]].
    apply (f_equal parses) in Hx. vm_compute in Hx. discriminate Hx.
  - destruct (parses_ok (parse plain_config w0 ctx_default "(1+2)3")) as [x Hx]; [vm_compute; reflexivity|].
    exists (root x). apply C86_plain_is_the_grammar.
    apply (builds_same false ctx_default (finishes plain_config w0) eq).
    { intros a b. unfold finishes, finish_element. cbn. split; intro H; [now injection H|now subst]. }
    apply (builds_exactly plain_config w0 ctx_default "(1+2)3" folded_tokens); eauto using w0_fair. discriminate.
Qed.
