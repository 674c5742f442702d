(** * C97: what becomes of joined texts in the default build *)
From Coq Require Import ZArith NArith List String Ascii Bool Lia.
From Flocq Require Import BinarySingleNaN.
From Verif Require Import F64 Syntax Factorial Builtins Context Element Parser Xprs Display.
From Verif Require Import ParserFacts ParserResults SpecParse SpecTree TreeFacts SimplifyFacts SpecApi.
From Verif Require Import SpecTokens SpecGrammar SpecNames SpecBuild SpecSimplifier SpecJoin SpecCancel TokenFacts LexFacts LexExec TokenParser TokenSim TokenMono.
From Verif Require Import SpecDisplay SpecBrackets DisplayFacts GrammarFacts GrammarEquiv JuxtaFacts BuildFacts SimplifierFacts FloatFacts.
From Verif Require Import TestWorld PropertiesParse PropertiesGrammar PropertiesEq PropertiesNames PropertiesOptimise PropertiesDisplay PropertiesNormal PropertiesDefault PropertiesBrackets PropertiesBuild PropertiesJoin.
Import ListNotations.
Local Open Scope string_scope.

(** ** proofs *)
Lemma sapp_assoc : forall a b c : string, (a ++ b) ++ c = a ++ (b ++ c).
Proof. induction a as [|x a IH]; intros; cbn; [reflexivity|now rewrite IH]. Qed.

Lemma simplify_declared : forall cfg w ctx e e', simplify cfg w e = Val e' -> declared ctx e -> declared ctx e'.
Proof.
  intros cfg w ctx e e' H D s Hg v Hv. apply (D s Hg). apply free_iff. eapply simplify_free; eauto. now apply free_iff.
Qed.

Lemma strength_bounds : forall op, op <> Factorial -> 0 < strength op <= 4.
Proof. intros [] H; cbn; try lia; congruence. Qed.

Lemma brackets_build : forall cfg w ctx op a b x y r e, optimize cfg = true -> fair_order w -> op <> Factorial ->
  parse cfg w ctx a = Parse_ok x -> parse cfg w ctx b = Parse_ok y ->
  simplify cfg w (root y) = Val r -> simplify cfg w (BinOp op (root x) r) = Val e ->
  exists z, parse cfg w ctx (joined_in_brackets op a b) = Parse_ok z /\ root z = e.
Proof.
  intros cfg w ctx op a b x y r e Ho Hf Hop Px Py Hr He.
  destruct (lexes_total (bytes a)) as [ts Hts]. destruct (lexes_total (bytes b)) as [ts' Hts'].
  pose proof (accepted_nonempty _ _ _ _ _ Px) as Na. pose proof (accepted_nonempty _ _ _ _ _ Py) as Nb.
  destruct (proj1 (C86_every_text cfg w ctx a ts (root x) Ho Hf Na Hts)) as [[rx [q [n [Bx Cx]]]] Dx]; [eauto|].
  destruct (proj1 (C86_every_text cfg w ctx b ts' (root y) Ho Hf Nb Hts')) as [[ry [q' [n' [By Cy]]]] Dy]; [eauto|].
  assert (T : tokens_of (joined_in_brackets op a b) ((TSym "(" :: ts ++ [TSym ")"]) ++ TSym (op_byte op) :: TSym "(" :: ts' ++ [TSym ")"])%list).
  { apply joined_has_tokens; [exact Hop|apply tokens_parens; exact Hts|apply tokens_parens; exact Hts']. }
  apply (C86_every_text cfg w ctx _ _ _ Ho Hf (joined_nonempty _ _ _) T). split.
  - eexists. eexists. eexists. split; [|exact He]. pose proof (strength_bounds op Hop).
    eapply B_operator; [apply B_operand, B_plain; eapply B_paren; [exact Bx|exact Cx]|apply op_byte_token|lia|lia| |exact Hr].
    apply B_operand, B_plain. eapply B_paren; [exact By|exact Cy].
  - apply (simplify_declared cfg w ctx _ _ He). apply declared_bin; [exact Dx|]. exact (simplify_declared cfg w ctx _ _ Hr Dy).
Qed.

Lemma accepted_safe : forall cfg w ctx a x, context_functions_return w ctx -> ~ has_double_bang a ->
  parse cfg w ctx a = Parse_ok x -> safe w (root x).
Proof. intros. apply (obtained_inv cfg). eapply ob_parse; eauto. Qed.

(** In the default build "(A) op (B)" is read as: A's expression simplified once
    more, B's simplified twice more, and the first rule that fits applied to
    the two.  Both texts are read in the same context. *)
Theorem C97_in_brackets : forall cfg w ctx op a b x y, optimize cfg = true -> fair_order w ->
  context_functions_return w ctx -> ~ has_double_bang a -> ~ has_double_bang b -> op <> Factorial ->
  parse cfg w ctx a = Parse_ok x -> parse cfg w ctx b = Parse_ok y ->
  exists z l r r', parse cfg w ctx (joined_in_brackets op a b) = Parse_ok z /\
    simplest (nightly cfg) w (root x) l /\
    simplest (nightly cfg) w (root y) r' /\ simplest (nightly cfg) w r' r /\
    becomes (nightly cfg) w op l r (root z).
Proof.
  intros cfg w ctx op a b x y Ho Hf Hc Ha Hb Hop Px Py.
  pose proof (accepted_safe cfg w ctx a x Hc Ha Px) as Sx. pose proof (accepted_safe cfg w ctx b y Hc Hb Py) as Sy.
  destruct (simplify_val cfg w (root x) Sx) as [l Hl]. destruct (simplify_val cfg w (root y) Sy) as [r' Hr'].
  pose proof (simplify_safe _ _ _ _ Hr' Sy) as Sr'. destruct (simplify_val cfg w r' Sr') as [r Hr].
  destruct (simplify_val cfg w (BinOp op (root x) r')) as [e He].
  { cbn [safe]. split; [exact Hop|]. split; [exact Sx|exact Sr']. }
  destruct (brackets_build cfg w ctx op a b x y r' e Ho Hf Hop Px Py Hr' He) as [z [Pz <-]].
  exists z, l, r, r'. pose proof (safe_no_bf _ _ Sx) as Nx. pose proof (safe_no_bf _ _ Sy) as Ny. pose proof (safe_no_bf _ _ Sr') as Nr'.
  split; [exact Pz|]. split; [now apply simplify_iff|]. split; [now apply simplify_iff|]. split; [now apply simplify_iff|].
  cbn [simplify] in He. rewrite Hl, Hr in He. cbn [bind_out] in He.
  apply becomes_iff; [exact Hop|exact (simplify_no_bf _ _ _ _ Nx Hl)|exact (simplify_no_bf _ _ _ _ Nr' Hr)|exact He].
Qed.

Lemma simplest_det : forall ng w e a b, simplest ng w e a -> simplest ng w e b -> a = b.
Proof. intros ng w. apply (proj1 (C85_one_result ng w)). Qed.

Theorem C97_settled : forall cfg w ctx op a b x y l r, optimize cfg = true -> fair_order w ->
  context_functions_return w ctx -> ~ has_double_bang a -> ~ has_double_bang b -> op <> Factorial ->
  parse cfg w ctx a = Parse_ok x -> parse cfg w ctx b = Parse_ok y ->
  settles_to (nightly cfg) w (root x) l -> settles_to (nightly cfg) w (root y) r ->
  exists z, parse cfg w ctx (joined_in_brackets op a b) = Parse_ok z /\ becomes (nightly cfg) w op l r (root z).
Proof.
  intros cfg w ctx op a b x y l r Ho Hf Hc Ha Hb Hop Px Py [L _] [R1 R2].
  destruct (C97_in_brackets cfg w ctx op a b x y Ho Hf Hc Ha Hb Hop Px Py) as [z [l1 [r1 [r2 [Pz [L1 [Ra [Rb B]]]]]]]].
  exists z. split; [exact Pz|]. rewrite (simplest_det _ _ _ _ _ L L1).
  rewrite <- (simplest_det _ _ _ _ _ R1 Ra) in Rb. now rewrite (simplest_det _ _ _ _ _ R2 Rb).
Qed.

Lemma constant_answer : forall cfg w ctx input x n, parse cfg w ctx input = Parse_ok x -> root x = Number n -> x = mk_xprs (Number n) [].
Proof.
  intros cfg w ctx input x n Px Hr. pose proof (accepted_nonempty _ _ _ _ _ Px) as Hne.
  destruct (C06_tokens_unique input) as [ts [Hts _]].
  pose proof (parse_outcome cfg w ctx input ts Hne Hts) as Hp. rewrite Px in Hp. cbn in Hp. symmetry in Hp.
  destruct (token_gives _ _ _ _ Hp) as [rest [_ Hv]]. rewrite Hr in Hv. cbn in Hv. destruct x. cbn in *. now subst.
Qed.

Lemma equal_self : forall a, no_bf a -> without_nan a -> equal_exprs a a.
Proof.
  intros a Hn Hw. apply el_eq_equal; [exact Hn|]. apply C38_eq_reflexive_iff; [now apply no_bf_iff|exact Hw].
Qed.

Lemma settled_no_bf : forall cfg w ctx a x l, context_functions_return w ctx -> ~ has_double_bang a ->
  parse cfg w ctx a = Parse_ok x -> settles_to (nightly cfg) w (root x) l -> no_bf l.
Proof.
  intros cfg w ctx a x l Hc Ha Px [L _]. pose proof (safe_no_bf _ _ (accepted_safe cfg w ctx a x Hc Ha Px)) as N.
  apply (simplify_iff cfg w _ _ N) in L. eapply simplify_no_bf; eauto.
Qed.

Theorem C97_difference_cancels : forall cfg w ctx a x t, optimize cfg = true -> fair_order w ->
  context_functions_return w ctx -> ~ has_double_bang a ->
  parse cfg w ctx a = Parse_ok x -> settles_to (nightly cfg) w (root x) t -> without_nan t -> ~ zero t ->
  parse cfg w ctx (joined_in_brackets Minus a a) = Parse_ok (mk_xprs (Number fzero) []).
Proof.
  intros cfg w ctx a x t Ho Hf Hc Ha Px St Hn Hz.
  assert (Hop : Minus <> Factorial) by discriminate.
  destruct (C97_settled cfg w ctx Minus a a x x t t Ho Hf Hc Ha Ha Hop Px Px St St) as [z [Pz B]].
  pose proof (equal_self t (settled_no_bf _ _ _ _ _ _ Hc Ha Px St) Hn) as E.
  assert (Ez : root z = Number fzero).
  { eapply becomes_det; [exact B|]. apply by_rule with (k := 3); [now apply minus_3|].
    intros k e Hk R. inversion R; subst; try lia; contradiction. }
  rewrite Pz. f_equal. exact (constant_answer _ _ _ _ _ _ Pz Ez).
Qed.

Theorem C97_quotient_cancels : forall cfg w ctx a x t, optimize cfg = true -> fair_order w ->
  context_functions_return w ctx -> ~ has_double_bang a ->
  parse cfg w ctx a = Parse_ok x -> settles_to (nightly cfg) w (root x) t -> without_nan t -> ~ zero t ->
  parse cfg w ctx (joined_in_brackets Divide a a) = Parse_ok (mk_xprs (Number fone) []).
Proof.
  intros cfg w ctx a x t Ho Hf Hc Ha Px St Hn Hz.
  assert (Hop : Divide <> Factorial) by discriminate.
  destruct (C97_settled cfg w ctx Divide a a x x t t Ho Hf Hc Ha Ha Hop Px Px St St) as [z [Pz B]].
  pose proof (equal_self t (settled_no_bf _ _ _ _ _ _ Hc Ha Px St) Hn) as E.
  assert (Ez : root z = Number fone).
  { destruct B as [k e R Hl|Hno]; [|elim (Hno _ _ (divide_5 _ _ _ _ E))].
    destruct (Nat.lt_trichotomy 5 k) as [K|[K|K]]; [elim (Hl _ _ K (divide_5 _ _ _ _ E))| |];
      inversion R; subst; try lia; try contradiction; auto. }
  rewrite Pz. f_equal. exact (constant_answer _ _ _ _ _ _ Pz Ez).
Qed.

Theorem C97_remainder_cancels : forall cfg w ctx a x t, optimize cfg = true -> fair_order w ->
  context_functions_return w ctx -> ~ has_double_bang a ->
  parse cfg w ctx a = Parse_ok x -> settles_to (nightly cfg) w (root x) t -> without_nan t -> ~ zero t ->
  parse cfg w ctx (joined_in_brackets Modulo a a) = Parse_ok (mk_xprs (Number fzero) []).
Proof.
  intros cfg w ctx a x t Ho Hf Hc Ha Px St Hn Hz.
  assert (Hop : Modulo <> Factorial) by discriminate.
  destruct (C97_settled cfg w ctx Modulo a a x x t t Ho Hf Hc Ha Ha Hop Px Px St St) as [z [Pz B]].
  pose proof (equal_self t (settled_no_bf _ _ _ _ _ _ Hc Ha Px St) Hn) as E.
  assert (Ez : root z = Number fzero).
  { destruct B as [k e R Hl|Hno]; [|elim (Hno _ _ (modulo_5 _ _ _ _ E))].
    destruct (Nat.lt_trichotomy 5 k) as [K|[K|K]]; [elim (Hl _ _ K (modulo_5 _ _ _ _ E))| |];
      inversion R; subst; try lia; try contradiction; auto. }
  rewrite Pz. f_equal. exact (constant_answer _ _ _ _ _ _ Pz Ez).
Qed.

(** A factor that simplifies to zero takes everything else with it, on either
    side and whatever the other factor is. *)
Theorem C97_zero_factor : forall cfg w ctx a b x y t, optimize cfg = true -> fair_order w ->
  context_functions_return w ctx -> ~ has_double_bang a -> ~ has_double_bang b ->
  parse cfg w ctx a = Parse_ok x -> parse cfg w ctx b = Parse_ok y ->
  simplest (nightly cfg) w (root x) t -> zero t ->
  parse cfg w ctx (joined_in_brackets Times a b) = Parse_ok (mk_xprs (Number fzero) []) /\
  parse cfg w ctx (joined_in_brackets Times b a) = Parse_ok (mk_xprs (Number fzero) []).
Proof.
  intros cfg w ctx a b x y t Ho Hf Hc Ha Hb Px Py L Z.
  assert (Hop : Times <> Factorial) by discriminate. split.
  - destruct (C97_in_brackets cfg w ctx Times a b x y Ho Hf Hc Ha Hb Hop Px Py) as [z [l1 [r1 [r2 [Pz [L1 [Ra [Rb B]]]]]]]].
    rewrite (simplest_det _ _ _ _ _ L1 L) in B.
    assert (Ez : root z = Number fzero).
    { eapply becomes_det; [exact B|]. apply by_rule with (k := 1); [now apply times_1|].
      intros k e Hk R. inversion R; subst; lia. }
    rewrite Pz. f_equal. exact (constant_answer _ _ _ _ _ _ Pz Ez).
  - destruct (C97_in_brackets cfg w ctx Times b a y x Ho Hf Hc Hb Ha Hop Py Px) as [z [l1 [r1 [r2 [Pz [L1 [Ra [Rb B]]]]]]]].
    rewrite (simplest_det _ _ _ _ _ Ra L) in Rb.
    assert (Er : r1 = t). { destruct Z as [-> | ->]; inversion Rb; reflexivity. } subst r1.
    assert (Ez : root z = Number fzero).
    { destruct B as [k e R Hl|Hno]; [|elim (Hno _ _ (times_2 _ _ _ _ Z))].
      destruct (Nat.lt_trichotomy 2 k) as [K|[K|K]]; [elim (Hl _ _ K (times_2 _ _ _ _ Z))| |];
        inversion R; subst; try lia; try contradiction; auto. }
    rewrite Pz. f_equal. exact (constant_answer _ _ _ _ _ _ Pz Ez).
Qed.

(** The documentation's example: a variable minus itself, times anything, is 0.
    The variable need not even be among the declared ones. *)
Theorem C97_documented_example : forall cfg w ctx s v b y, optimize cfg = true -> fair_order w ->
  context_functions_return w ctx -> ~ has_double_bang b ->
  is_name s -> stands_for ctx s = I_Variable v -> parse cfg w ctx b = Parse_ok y ->
  parse cfg w ctx ("(" ++ s ++ " - " ++ s ++ ") * (" ++ b ++ ")") = Parse_ok (mk_xprs (Number fzero) []).
Proof.
  intros cfg w ctx s v b y Ho Hf Hc Hb Hs Hv Py.
  assert (Hop : Minus <> Factorial) by discriminate.
  pose proof (joined_has_tokens Minus s s _ _ Hop (name_tokens s Hs) (name_tokens s Hs)) as T. cbn [app] in T.
  assert (Nb : ~ has_double_bang (joined Minus s s)).
  { intro D. destruct (double_bang_tokens _ _ T D) as [u [t1 [t2 [t [E [-> ->]]]]]].
    destruct u as [|u1 [|u2 [|u3 [|u4 u]]]]; cbn in E; discriminate E. }
  assert (P : exists x, parse cfg w ctx (joined Minus s s) = Parse_ok x /\ root x = Number fzero).
  { apply (C86_every_text cfg w ctx _ _ _ Ho Hf (joined_nonempty _ _ _) T). split; [|intros ? ? ? K; inversion K].
    assert (B : forall p, run (pejmdas cfg) ctx (fun raw t => simplify cfg w raw = Val t) p [TId s] (Var v) 4 false).
    { intro p. apply (B_operand _ _ _ p _ (Var v)). apply B_plain. now apply B_variable. }
    eexists. eexists. eexists. split.
    - eapply (B_operator _ _ _ 0 [TId s]); [apply B|apply op_byte_token|cbn; lia|cbn; lia|apply B|reflexivity].
    - cbn [simplify bind_out]. apply becomes_iff; [discriminate|exact I|exact I|].
      apply by_rule with (k := 3); [apply minus_3; constructor|].
      intros k e Hk R. inversion R; subst; try lia; match goal with Z : zero _ |- _ => destruct Z; discriminate end. }
  destruct P as [x [Px Ex]].
  destruct (C97_zero_factor cfg w ctx (joined Minus s s) b x y (Number fzero) Ho Hf Hc Nb Hb Px Py) as [E _];
    [rewrite Ex; constructor|now left|].
  rewrite <- E. unfold joined_in_brackets, joined. cbn [display_operator]. f_equal.
  cbn. f_equal. rewrite !sapp_assoc. reflexivity.
Qed.

(** With a stable compiler whatever is accepted settles at once, unless a minus
    sign before a number is left in it. *)
Theorem C97_accepted_is_settled : forall cfg w ctx a x, optimize cfg = true -> nightly cfg = false ->
  context_functions_return w ctx -> ~ has_double_bang a -> parse cfg w ctx a = Parse_ok x ->
  (forall n, ~ sub (UnOp Minus (Number n)) (root x)) -> settles_to (nightly cfg) w (root x) (root x).
Proof.
  intros cfg w ctx a x Ho Hg Hc Ha Px Hm. pose proof (accepted_safe cfg w ctx a x Hc Ha Px) as S.
  assert (E : simplify cfg w (root x) = Val (root x)).
  { apply fixed_when_irreducible; [exact S|]. intros s Hs R.
    destruct (C58_parsed_is_simplified cfg w ctx a x Ho Hg Px s Hs R) as [n ->]. exact (Hm n Hs). }
  apply (simplify_iff cfg w _ _ (safe_no_bf _ _ S)) in E. now split.
Qed.

(** The conditions are needed.  Of "0 - 0 - 3" the sign of 3 is left apart in
    one operand and not in the other; 0 - 0 keeps its sign; NaN equals nothing. *)
Theorem C97_conditions_needed :
  (exists x z, parse default_config w0 ctx_default "0 - 0 - 3" = Parse_ok x /\
    parse default_config w0 ctx_default (joined_in_brackets Minus "0 - 0 - 3" "0 - 0 - 3") = Parse_ok z /\
    root z = BinOp Minus (UnOp Minus (Number (lit "3"))) (Number (fneg (lit "3")))) /\
  (exists z, parse default_config w0 ctx_default (joined_in_brackets Minus "0" "0") = Parse_ok z /\
    root z = UnOp Minus (Number fzero)) /\
  (exists z, parse default_config w0 ctx_default (joined_in_brackets Divide "0" "0") = Parse_ok z /\
    root z = Number fnan) /\
  (exists z, parse default_config w0 ctx_default (joined_in_brackets Minus "0/0" "0/0") = Parse_ok z /\
    root z = Number fnan).
Proof.
  split; [|split; [|split]].
  - destruct (parses_ok (parse default_config w0 ctx_default "0 - 0 - 3")) as [x Px]; [vm_compute; reflexivity|].
    destruct (parses_to (parse default_config w0 ctx_default (joined_in_brackets Minus "0 - 0 - 3" "0 - 0 - 3"))
      (BinOp Minus (UnOp Minus (Number (lit "3"))) (Number (fneg (lit "3"))))) as [z Hz]; [vm_compute; reflexivity|].
    exists x, z. tauto.
  - apply parses_to. vm_compute. reflexivity.
  - apply parses_to. vm_compute. reflexivity.
  - apply parses_to. vm_compute. reflexivity.
Qed.

Definition cancel_tree (a b : f64) : element :=
  BinOp Plus (BinOp Times (Number a) (Var "x")) (BinOp Power (Call (builtin_function B_SIN) [Var "y"]) (Number b)).

Lemma cancel_tree_subs : forall a b t, sub t (cancel_tree a b) ->
  (forall n, t <> UnOp Minus (Number n)) /\ (forall n, t = Number n -> n = a \/ n = b).
Proof.
  intros a b t H. unfold cancel_tree in H.
  assert (Hs : sub t (Number a) \/ sub t (Number b) \/ t = Var "x" \/ t = Var "y" \/ (exists l r op, t = BinOp op l r) \/ exists f l, t = Call f l).
  { inversion H as [|? ? ? L|? ? ? R| |]; subst; [do 4 right; left; eauto| |].
    - inversion L as [|? ? ? L1|? ? ? R1| |]; subst; [do 4 right; left; eauto|auto|inversion R1; subst; auto].
    - inversion R as [|? ? ? L1|? ? ? R1| |]; subst; [do 4 right; left; eauto| |auto].
      inversion L1 as [| | | |? ? ? I1 S1]; subst; [do 5 right; eauto|].
      destruct I1 as [<-|[]]. inversion S1; subst; auto. }
  destruct Hs as [S|[S|[-> |[-> |[[l [r [op ->]]]|[f [l ->]]]]]]]; try (inversion S; subst);
    split; intros n E; try discriminate E; injection E as ->; auto.
Qed.

Example C97_witness :
  exists x y, parse default_config w0 ctx1 "2x + sin(y)^k" = Parse_ok x /\
    settles_to (nightly default_config) w0 (root x) (root x) /\ without_nan (root x) /\ ~ zero (root x) /\
    parse default_config w0 ctx1 (joined_in_brackets Minus "2x + sin(y)^k" "2x + sin(y)^k") = Parse_ok (mk_xprs (Number fzero) []) /\
    parse default_config w0 ctx1 "double(x) / y" = Parse_ok y /\
    is_name "t" /\ stands_for ctx1 "t" = I_Variable "t" /\
    parse default_config w0 ctx1 "(t - t) * (double(x) / y)" = Parse_ok (mk_xprs (Number fzero) []).
Proof.
  destruct (parses_to (parse default_config w0 ctx1 "2x + sin(y)^k")
    (cancel_tree (lit "2") (lit "2.5"))) as [x [Px Ex]]; [vm_compute; reflexivity|].
  destruct (parses_ok (parse default_config w0 ctx1 "double(x) / y")) as [y Py]; [vm_compute; reflexivity|].
  assert (Nb : ~ has_double_bang "2x + sin(y)^k") by (apply no_double_bang_check; reflexivity).
  assert (S : settles_to (nightly default_config) w0 (root x) (root x)).
  { apply (C97_accepted_is_settled default_config w0 ctx1 _ _ eq_refl eq_refl ctx1_returns Nb Px). rewrite Ex. intros n K.
    apply cancel_tree_subs in K. destruct K as [K _]. now elim (K n). }
  assert (W : without_nan (root x)).
  { rewrite Ex. intros n K. apply cancel_tree_subs in K. destruct K as [_ K].
    destruct (K n eq_refl) as [-> | ->]; vm_compute; reflexivity. }
  assert (Z : ~ zero (root x)) by (rewrite Ex; intros [K|K]; discriminate K).
  exists x, y. split; [exact Px|]. split; [exact S|]. split; [exact W|]. split; [exact Z|].
  split; [exact (C97_difference_cancels default_config w0 ctx1 _ _ _ eq_refl w0_fair ctx1_returns Nb Px S W Z)|].
  split; [exact Py|]. assert (T : is_name "t") by (apply is_name_check; reflexivity).
  split; [exact T|]. split; [reflexivity|].
  refine (C97_documented_example default_config w0 ctx1 "t" "t" "double(x) / y" y eq_refl w0_fair ctx1_returns _ T eq_refl Py).
  apply no_double_bang_check; reflexivity.
Qed.
