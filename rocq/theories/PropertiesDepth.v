(** * How deeply the calls nest (C78) *)
From Coq Require Import ZArith NArith List String Ascii Bool Lia Arith.
From Verif Require Import F64 Syntax Factorial Builtins Context Element Parser Xprs Depth.
From Verif Require Import SpecChars CharFacts ParserFacts SpecParse SpecTree TreeFacts SimplifyFacts PropertiesSize DepthFacts TestWorld.
From Verif Require Import SpecTokens SpecGrammar SpecRegular LexExec RegularFacts PropertiesParse PropertiesGrammar PropertiesDefault PropertiesOptimise PropertiesEval.
Import ListNotations.
Local Open Scope nat_scope.

(** The metered versions return what the plain ones return: whatever is said
    about the frames below is about runs of the modelled operations. *)
Theorem C78_metering_is_faithful : forall cfg w,
  (forall a b, fst (el_eq_d a b) = el_eq a b) /\
  (forall e, fst (simplify_d cfg w e) = simplify cfg w e) /\
  (forall x v e, fst (el_simplify_for_d cfg w x v e) = el_simplify_for cfg w x v e) /\
  (forall rho e, fst (eval_d w rho e) = eval_element w rho e) /\
  (forall rho e, fst (eval_unchecked_d w rho e) = eval_element_unchecked w rho e) /\
  (forall e, fst (find_variables_d e []) = find_variables e []) /\
  (forall ctx input, fst (parse_d cfg w ctx input) = parse cfg w ctx input).
Proof.
  intros. split; [exact el_eq_d_same|]. split; [apply simplify_d_same|]. split; [intros; apply simplify_for_d_same|].
  split; [intros; apply eval_d_same|]. split; [intros; apply eval_unchecked_d_same|].
  split; [intros; now rewrite find_variables_d_same|]. intros; apply parse_same.
Qed.

(** Evaluation nests no deeper than the expression is high, and exactly as deep
    if it returns a value. *)
Theorem C78_evaluation : forall w rho e,
  snd (eval_d w rho e) <= height e /\ snd (eval_unchecked_d w rho e) <= height e /\
  (forall v, fst (eval_d w rho e) = Val (Eval_ok v) -> snd (eval_d w rho e) = height e) /\
  (forall v, fst (eval_unchecked_d w rho e) = Val v -> snd (eval_unchecked_d w rho e) = height e).
Proof.
  intros. split; [apply eval_depth|]. split; [apply eval_unchecked_depth|]. split; [intros v; apply eval_full|intros v; apply eval_unchecked_full].
Qed.

(** Simplifying nests exactly as deep as the expression is high, although each
    level compares operands with one another; replacing a variable, although it
    simplifies again at each level, needs at most one frame more.  Neither makes
    an expression higher. *)
Theorem C78_simplification : forall cfg w e,
  snd (simplify_d cfg w e) <= height e /\
  (forall e', fst (simplify_d cfg w e) = Val e' -> snd (simplify_d cfg w e) = height e /\ height e' <= height e) /\
  (forall x v, snd (el_simplify_for_d cfg w x v e) <= height e + 1) /\
  (forall x v e', fst (el_simplify_for_d cfg w x v e) = Val e' ->
     height e <= snd (el_simplify_for_d cfg w x v e) /\ height e' <= height e).
Proof.
  intros cfg w e. split; [apply simplify_depth|]. split; [|split].
  - intros e' E. split; [eapply simplify_full; eauto|]. rewrite simplify_d_same in E. eapply simplify_height; eauto.
  - intros x v. pose proof (simplify_for_depth cfg w x v e). lia.
  - intros x v e' E. split; [eapply simplify_for_reaches; eauto|]. rewrite simplify_for_d_same in E. eapply el_simplify_for_height; eauto.
Qed.

(** Comparing nests no deeper than the lower of the two, and expressions that
    compare equal are equally high. *)
Theorem C78_comparison : forall a b,
  snd (el_eq_d a b) <= height a /\ snd (el_eq_d a b) <= height b /\
  (fst (el_eq_d a b) = Val true -> snd (el_eq_d a b) = height a /\ height a = height b).
Proof. intros a b. pose proof (eq_depth a b). split; [lia|]. split; [lia|apply eq_full]. Qed.

(** Parsing a text of [n] bytes, simplification included, nests at most [3 n + 3]
    calls, whether it succeeds, fails or panics. *)
Theorem C78_parsing : forall cfg w ctx input,
  snd (parse_d cfg w ctx input) <= 3 * String.length input + 3.
Proof. apply parse_d_bound. Qed.

(** What was parsed is no higher than its text is long: together with the above,
    a limit on the length of texts is a limit on the stack that parsing,
    evaluating, simplifying and comparing can take. *)
Theorem C78_parsed_height : forall cfg w ctx input x, fst (parse_d cfg w ctx input) = Parse_ok x ->
  height (root x) <= String.length input /\ height (root x) + 1 <= snd (parse_d cfg w ctx input).
Proof. intros cfg w ctx input x H. pose proof (parse_d_height _ _ _ _ _ H). lia. Qed.

(** ** The bounds are met *)
Definition opener (b : ascii) : Prop := b = "("%char \/ b = "+"%char \/ b = "-"%char.

Lemma opener_trim : forall input c b, nth_error (bytes input) c = Some b -> opener b -> next_trim input c = (Some b, c).
Proof.
  intros input c b Hb Ho.
  assert (E : skip_while input is_ws c = c).
  { unfold skip_while. destruct (skipn c (bytes input)) as [|x l] eqn:Es.
    - assert (nth_error (bytes input) c = None) by (rewrite <- (firstn_skipn c (bytes input)); rewrite Es, app_nil_r; apply nth_error_None; rewrite firstn_length; lia). congruence.
    - assert (nth_error (bytes input) c = Some x).
      { rewrite <- (firstn_skipn c (bytes input)), Es. rewrite nth_error_app2; rewrite firstn_length_le; [|apply Nat.lt_le_incl, nth_error_Some; congruence| |apply Nat.lt_le_incl, nth_error_Some; congruence]; [|lia].
        now rewrite Nat.sub_diag. }
      assert (x = b) by congruence. subst x. cbn [prefix_len]. destruct Ho as [-> | [-> | ->]]; cbn; lia. }
  unfold next_trim. rewrite E. cbv zeta. unfold current. now rewrite Hb.
Qed.

Lemma opener_nests : forall cfg w ctx input b p c t, nth_error (bytes input) c = Some t -> opener t ->
  exists q, 2 + snd (element_at_d cfg w ctx input b q (S c)) <= snd (element_at_d cfg w ctx input (S b) p c).
Proof.
  intros cfg w ctx input b p c t Ht Ho.
  assert (A : exists q, 1 + snd (element_at_d cfg w ctx input b q (S c)) <= snd (atom_d cfg ctx input (element_at_d cfg w ctx input b) b c)).
  { unfold atom_d. rewrite (opener_trim _ _ _ Ht Ho). generalize (element_at_d cfg w ctx input b). intro el.
    assert (Q : forall (q : nat) (k : element -> nat -> pdeep element) (x : pdeep element), x = pbind_d (el q (S c)) k ->
      exists q0, 1 + snd (el q0 (S c)) <= snd (pframe x)).
    { intros q k x ->. exists q. unfold pframe, pbind_d. destruct (fst (el q (S c))); cbn [snd]; lia. }
    destruct Ho as [-> | [-> | ->]]; eapply Q; reflexivity. }
  destruct A as [q A]. exists q. cbn [element_at_d]. unfold pframe. cbn [snd]. unfold pbind_d at 1.
  destruct (fst (atom_d cfg ctx input (element_at_d cfg w ctx input b) b c)); cbn [snd]; lia.
Qed.

Lemma openers_nest : forall cfg w ctx input n k b p c, (forall i, c <= i < c + n -> exists t, nth_error (bytes input) i = Some t /\ opener t) ->
  n + 1 + k = b -> 2 * n + 2 <= snd (element_at_d cfg w ctx input b p c).
Proof.
  intros cfg w ctx input. induction n as [|n IH]; intros k b p c H Hb.
  - destruct b as [|b]; [lia|]. cbn [element_at_d]. unfold pframe. cbn [snd]. unfold pbind_d at 1.
    assert (A : 1 <= snd (atom_d cfg ctx input (element_at_d cfg w ctx input b) b c)) by (unfold atom_d, pframe; cbn [snd]; lia).
    destruct (fst (atom_d _ _ _ _ _ _)); cbn [snd]; lia.
  - destruct b as [|b]; [lia|]. destruct (H c ltac:(lia)) as [t [Ht Ho]].
    destruct (opener_nests cfg w ctx input b p c t Ht Ho) as [q Q].
    assert (2 * n + 2 <= snd (element_at_d cfg w ctx input b q (S c))); [|lia].
    apply (IH k); [|lia]. intros i Hi. apply H. lia.
Qed.

(** A text that begins with [n] signs or opening parentheses nests more than
    [2 n] calls, even if it is then rejected: parsing needs a stack proportional
    to the text. *)
Theorem C78_openers : forall cfg w ctx input n,
  n <= String.length input ->
  (forall i, i < n -> exists b, String.get i input = Some b /\ (b = "("%char \/ b = "+"%char \/ b = "-"%char)) ->
  2 * n + 3 <= snd (parse_d cfg w ctx input).
Proof.
  intros cfg w ctx input n Hn H.
  assert (G : forall s i, nth_error (bytes s) i = String.get i s).
  { unfold bytes. induction s as [|a s IH]; intros [|i]; cbn; auto. }
  assert (E : 2 * n + 2 <= snd (element_at_d cfg w ctx input (parse_budget input) NO_PRECEDENCE 0)).
  { apply (openers_nest cfg w ctx input n (String.length input + 1 - n)); [|unfold parse_budget; lia].
    intros i Hi. destruct (H i ltac:(lia)) as [b [Hb Ho]]. exists b. rewrite G. split; [exact Hb|exact Ho]. }
  assert (I : 2 * n + 3 <= snd (parse_impl_d cfg w ctx input)).
  { unfold parse_impl_d, pframe. cbn [snd]. unfold pbind_d. destruct (fst (element_at_d cfg w ctx input (parse_budget input) NO_PRECEDENCE 0)); cbn [snd]; lia. }
  unfold parse_d. destruct (parse_impl_d cfg w ctx input) as [[[rt vars] c|e c|p|] m]; cbn [snd] in *; try lia.
  destruct (get_expected_vars ctx); [|cbn; lia]. destruct (set_diff _ _); cbn [snd]; lia.
Qed.

(** Nor is the height of what comes out bounded: [sin(sin(…x…))] of [5 n + 1]
    bytes is accepted and evaluating it nests [n + 1] calls. *)
Theorem C78_deep_evaluation : forall cfg w n v, fair_order w ->
  String.length (nested_text n) = 5 * n + 1 /\
  exists x u, parse cfg w ctx_default (nested_text n) = Parse_ok x /\
    eval_d w [("x"%string, v)] (root x) = (Val (Eval_ok u), n + 1).
Proof.
  intros cfg w n v Hf. split.
  { destruct (C64_nesting_unbounded cfg w n Hf) as [x [_ [_ Hl]]]. exact Hl. }
  assert (Sn : sentence (pejmdas cfg) ctx_default (nested_tokens n) (nested_tree n)).
  { apply U_term, T_factor, K_signed, S_power, W_postfix, F_prim, nested_sentence. }
  assert (D : declared ctx_default (nested_tree n)) by (intros l Hl; discriminate Hl).
  assert (E : exists x, parse cfg w ctx_default (nested_text n) = Parse_ok x /\ root x = nested_tree n).
  { destruct (optimize cfg) eqn:Ho.
    - destruct (C05_default_sentences_are_accepted cfg w ctx_default _ _ _ Ho Hf (default_context_returns w) (nested_lexes n) (nested_clear n) Sn D) as [x [Hx [Z _]]].
      exists x. split; [exact Hx|]. eapply nested_kept; eauto.
    - exact (C05_sentences_are_accepted cfg w ctx_default _ _ _ Ho Hf (nested_lexes n) Sn D). }
  destruct E as [x [Hx Ex]]. exists x. rewrite Ex. clear - Hx.
  assert (V : exists u, eval_d w [("x"%string, v)] (nested_tree n) = (Val (Eval_ok u), n + 1)).
  { clear. induction n as [|n [u IH]]; [exists v; reflexivity|]. cbn [nested_tree eval_d map_eval_d]. rewrite IH.
    eexists. unfold frame, ebind_d, dbind. cbn [fst snd]. unfold dret at 1. cbn [fst snd]. apply f_equal2; [reflexivity|cbn; lia]. }
  destruct V as [u V]. exists u. split; [exact Hx|exact V].
Qed.

(** *** Flat sums nest as well *)
Fixpoint flat_text (n : nat) : string :=
  match n with 0 => "x"%string | S n => ("x+" ++ flat_text n)%string end.
Fixpoint flat_tokens (n : nat) : list token :=
  match n with 0 => [TId "x"] | S n => TId "x" :: TSym "+" :: flat_tokens n end.
Fixpoint flat_tree (n : nat) : element :=
  match n with 0 => Var "x" | S n => BinOp Plus (flat_tree n) (Var "x") end.

Lemma flat_lexes : forall n, tokens_of (flat_text n) (flat_tokens n).
Proof.
  induction n as [|n IH]; [apply tokens_check; vm_compute; reflexivity|]. cbn [flat_text flat_tokens]. unfold tokens_of in *.
  change (list_ascii_of_string ("x+" ++ flat_text n)) with (list_ascii_of_string "x" ++ "+"%char :: list_ascii_of_string (flat_text n))%list.
  change (TId "x") with (TId (string_of_list_ascii (list_ascii_of_string "x"))) at 1.
  apply L_name; [|apply L_sym; [reflexivity|reflexivity|reflexivity|reflexivity|exact IH]].
  split; [reflexivity|]. split; [repeat constructor|]. cbn. discriminate.
Qed.

Lemma flat_snoc : forall n, flat_tokens (S n) = (flat_tokens n ++ [TSym "+"; TId "x"])%list.
Proof. induction n as [|n IH]; [reflexivity|]. change (flat_tokens (S (S n))) with (TId "x" :: TSym "+" :: flat_tokens (S n)). rewrite IH at 1. reflexivity. Qed.

Lemma flat_sentence : forall pj n, sentence pj ctx_default (flat_tokens n) (flat_tree n).
Proof.
  assert (V : forall pj, term pj ctx_default [TId "x"] (Var "x")) by (intro; apply T_factor, K_signed, S_power, W_postfix, F_prim; now apply P_variable).
  induction n as [|n IH]; [apply U_term, V|]. rewrite flat_snoc. cbn [flat_tree]. apply (U_add _ _ (flat_tokens n) (flat_tree n) "+"%char Plus [TId "x"]); [exact IH|left; split; reflexivity|apply V].
Qed.

Lemma flat_adjacent : forall n P, adjacent P (flat_tokens n) -> P (TId "x") (TSym "+") \/ P (TSym "+") (TId "x").
Proof.
  induction n as [|n IH]; intros P [u [a [b [v [E HP]]]]]; cbn [flat_tokens] in E.
  - destruct u as [|y [|z u]]; discriminate E.
  - destruct u as [|y u]; cbn in E; [injection E as <- <- E; auto|injection E as <- E].
    destruct u as [|y u]; cbn in E; injection E as <- E.
    + destruct n; cbn in E; injection E as <- E; auto.
    + apply (IH P). exists u, a, b, v. auto.
Qed.

Lemma flat_clear : forall n, clear_tokens ctx_default (flat_tokens n).
Proof.
  intro n. split; intro H; apply flat_adjacent in H; cbn in H.
  - intuition discriminate.
  - destruct H as [H|H]; destruct H as [_ [s H]]; discriminate H.
Qed.

Lemma flat_fixed : forall cfg w n, simplify cfg w (flat_tree n) = Val (flat_tree n).
Proof.
  intros cfg w. induction n as [|n IH]; [reflexivity|]. cbn [flat_tree simplify]. rewrite IH. cbn [bind_out].
  destruct n; cbn; destruct (nightly cfg); reflexivity.
Qed.

Lemma flat_kept : forall cfg w e t, simplified_from cfg w e t -> forall n, e = flat_tree n -> t = flat_tree n.
Proof.
  intros cfg w. apply (simplified_ind2 cfg w (fun e t _ => forall n, e = flat_tree n -> t = flat_tree n)
    (fun l l' _ => True)); auto.
  - intros op l r l' r' _ IHl _ IHr n E. destruct n as [|n]; [discriminate E|]. cbn in E. injection E as -> -> ->. cbn. rewrite (IHl n eq_refl). f_equal. exact (IHr 0 eq_refl).
  - intros op a a' _ _ n E. destruct n; discriminate E.
  - intros f args args' _ _ n E. destruct n; discriminate E.
  - intros a a1 a2 _ IH S1 n E. rewrite (IH n E) in S1. rewrite flat_fixed in S1. congruence.
Qed.

(** [x+x+…+x] of [2 n + 1] bytes has no parentheses, but sums group to the left:
    the expression is [n + 1] high, and so are evaluation and parsing. *)
Theorem C78_flat_sums : forall cfg w n, fair_order w ->
  String.length (flat_text n) = 2 * n + 1 /\
  exists x, parse cfg w ctx_default (flat_text n) = Parse_ok x /\ height (root x) = n + 1 /\
    n + 2 <= snd (parse_d cfg w ctx_default (flat_text n)) /\
    forall v, exists u, eval_d w [("x"%string, v)] (root x) = (Val (Eval_ok u), n + 1).
Proof.
  intros cfg w n Hf. split.
  { clear. induction n as [|n IH]; [reflexivity|]. cbn [flat_text String.append String.length]. rewrite IH. lia. }
  assert (D : declared ctx_default (flat_tree n)) by (intros l Hl; discriminate Hl).
  assert (E : exists x, parse cfg w ctx_default (flat_text n) = Parse_ok x /\ root x = flat_tree n).
  { destruct (optimize cfg) eqn:Ho.
    - destruct (C05_default_sentences_are_accepted cfg w ctx_default _ _ _ Ho Hf (default_context_returns w) (flat_lexes n) (flat_clear n) (flat_sentence _ n) D) as [x [Hx [Z _]]].
      exists x. split; [exact Hx|]. eapply flat_kept; eauto.
    - exact (C05_sentences_are_accepted cfg w ctx_default _ _ _ Ho Hf (flat_lexes n) (flat_sentence _ n) D). }
  destruct E as [x [Hx Ex]]. exists x. split; [exact Hx|].
  assert (H : height (root x) = n + 1).
  { rewrite Ex. clear. induction n as [|n IH]; [reflexivity|]. cbn [flat_tree height]. lia. }
  split; [exact H|]. split.
  - rewrite <- parse_same in Hx. pose proof (C78_parsed_height _ _ _ _ _ Hx). lia.
  - intros v. rewrite Ex. clear. induction n as [|n [u IH]]; [exists v; reflexivity|]. cbn [flat_tree eval_d]. rewrite IH.
    eexists. unfold frame, ebind_d, dbind. cbn [fst snd sget dret ok apply_binop]. cbn. apply f_equal2; [reflexivity|lia].
Qed.

(** ** Concrete runs *)
(** A text and what becomes of it: the parser nests fourteen calls (of at most 45),
    the tree is four high, and evaluating it nests four. *)
Example C78_witness :
  let r := parse_d (mk_config true false false true) w0 ctx_default "max(x, -(2+y))" in
  (snd r =? 14) = true /\
  match fst r with
  | Parse_ok x => (height (root x) =? 4) = true /\
      (snd (eval_d w0 [("x"%string, lit "1"); ("y"%string, lit "2")] (root x)) =? 4) = true /\
      (snd (eval_d w0 [("x"%string, lit "1")] (root x)) =? 4) = true /\
      (snd (eval_d w0 [("y"%string, lit "1")] (root x)) =? 2) = true
  | _ => False
  end.
Proof. vm_compute. repeat split. Qed.

(** Four opening parentheses alone are rejected at the end of the text, with
    eleven calls open. *)
Example C78_rejected_text_nests :
  let r := parse_d default_config w0 ctx_default "((((" in
  (snd r =? 11) = true /\ match fst r with Parse_err e => pe_kind e = UnexpectedEndOfExpression | _ => False end.
Proof. vm_compute. split; reflexivity. Qed.
