(** * C88: the same result on every machine *)
From Coq Require Import ZArith NArith List String Ascii Bool Lia Permutation.
From Flocq Require Import BinarySingleNaN.
From Verif Require Import F64 Syntax Factorial Builtins Context Element Parser Xprs.
From Verif Require Import SpecParse ParserInv SpecTree TreeFacts SpecApi ParserResults SpecTokens SpecGrammar SpecScan SpecPortable.
From Verif Require Import TokenFacts LexFacts LexExec TokenParser TokenSim TokenMono GrammarFacts ScanPrefix PortableFacts.
From Verif Require Import TestWorld PropertiesParse PropertiesGrammar PropertiesOptimise PropertiesSpecial.
Import ListNotations.
Local Open Scope string_scope.

(** ** Evaluation *)
Theorem C88_evaluation : forall prog w w' x rho,
  portable prog (root x) -> (prog = true -> same_program w w') ->
  eval w x rho = eval w' x rho /\
  eval_unchecked w x rho = eval_unchecked w' x rho /\
  eval_no_vars w x = eval_no_vars w' x.
Proof.
  intros prog w w' x rho Hp Hw. repeat split.
  - unfold eval. now apply portable_eval with prog.
  - unfold eval_unchecked. now apply portable_eval_unchecked with prog.
  - unfold eval_no_vars, eval. now apply portable_eval with prog.
Qed.

(** ** Partial evaluation, any number of times *)
Lemma for_multiple_portable : forall prog cfg w w' l o e vs, (prog = true -> same_program w w') -> portable prog e ->
  simplify_multiple_loop cfg w l o e vs = simplify_multiple_loop cfg w' l o e vs /\
  (forall t vs', simplify_multiple_loop cfg w l o e vs = Returned (mk_cell (Owned t) vs') -> portable prog t) /\
  (forall t vs', simplify_multiple_loop cfg w l o e vs <> Returned (mk_cell (MovedOut t) vs')).
Proof.
  intros prog cfg w w' l o. induction l as [|[x v] l IH]; intros e vs Hw Hp; cbn [simplify_multiple_loop fst snd].
  - repeat split; [|discriminate]. intros t vs' E. now injection E as <- _.
  - destruct (portable_simplify_for w w' prog Hw cfg x v e Hp) as [E G]. rewrite <- E.
    destruct (el_simplify_for cfg w x v e) as [t|p]; [apply IH; auto|]. repeat split; discriminate.
Qed.

Theorem C88_partial_evaluation : forall prog cfg w w' x l,
  portable prog (root x) -> (prog = true -> same_program w w') ->
  simplify_for_multiple cfg w x l = simplify_for_multiple cfg w' x l /\
  (forall y, simplify_for_multiple cfg w x l = Val y -> portable prog (root y)) /\
  forall var, simplify_for cfg w x var = simplify_for cfg w' x var.
Proof.
  intros prog cfg w w' x l Hp Hw. unfold simplify_for_multiple, simplify_for_multiple_in_place.
  destruct (for_multiple_portable prog cfg w w' l (root x) (root x) (vars x) Hw Hp) as [E [G N]]. rewrite <- E. split; [reflexivity|]. split.
  - intros y Hy. destruct (simplify_multiple_loop cfg w l (root x) (root x) (vars x)) as [[[t|t] vs]|p c].
    + cbn in Hy. injection Hy as <-. eapply G. reflexivity.
    + exfalso. eapply N. reflexivity.
    + discriminate Hy.
  - intros [y v]. unfold simplify_for, simplify_for_in_place. cbn [fst snd].
    now rewrite (proj1 (portable_simplify_for w w' prog Hw cfg y v (root x) Hp)).
Qed.

(** ** Parsing *)
Lemma same_tokens_same_reply : forall cfg w w' ctx input ts,
  fair_order w -> fair_order w' -> input <> "" -> tokens_of input ts ->
  t_parse cfg w ctx (parse_budget input) ts = t_parse cfg w' ctx (parse_budget input) ts ->
  same_reply (parse cfg w ctx input) (parse cfg w' ctx input) /\
  (get_expected_vars ctx = None -> parse cfg w ctx input = parse cfg w' ctx input).
Proof.
  intros cfg w w' ctx input ts Hf Hf' Hne Hts E.
  pose proof (sim_parse cfg w ctx input (nonempty_bytes _ Hne) ts Hts) as H.
  pose proof (sim_parse cfg w' ctx input (nonempty_bytes _ Hne) ts Hts) as H'. rewrite <- E in H'. unfold parse.
  destruct (parse_impl cfg w ctx input) as [[r vs] c|e c|p|], (t_parse cfg w ctx _ _) as [t rest|k f u|q|]; try contradiction;
    destruct (parse_impl cfg w' ctx input) as [[r' vs'] c'|e' c'|p'|]; try contradiction.
  - destruct H as [-> ->], H' as [-> ->]. destruct (get_expected_vars ctx) as [expected|]; [|split; [now left|auto]].
    split; [|intro; discriminate].
    destruct (set_diff (hash_order w (find_variables t [])) expected) as [|v l] eqn:D;
    destruct (set_diff (hash_order w' (find_variables t [])) expected) as [|v' l'] eqn:D'.
    + now left.
    + exfalso. assert (Hin : In v' (v' :: l')) by now left. rewrite <- D' in Hin. apply set_diff_In in Hin. destruct Hin as [Hi Hn].
      assert (Hin : In v' []); [|contradiction]. rewrite <- D. apply set_diff_In. split; auto.
      eapply Permutation_in; [apply Hf|]. eapply Permutation_in; [apply Permutation_sym, Hf'|]. exact Hi.
    + exfalso. assert (Hin : In v (v :: l)) by now left. rewrite <- D in Hin. apply set_diff_In in Hin. destruct Hin as [Hi Hn].
      assert (Hin : In v []); [|contradiction]. rewrite <- D'. apply set_diff_In. split; auto.
      eapply Permutation_in; [apply Hf'|]. eapply Permutation_in; [apply Permutation_sym, Hf|]. exact Hi.
    + right. exists v, v', (hash_order w expected), (hash_order w' expected), (N.of_nat (String.length input)), input.
      split; [|auto]. eapply perm_trans; [apply Permutation_sym, Hf|apply Hf'].
  - rewrite (matching_errors _ _ _ _ _ _ H H'). split; [now left|auto].
  - subst. split; [now left|auto].
  - split; [now left|auto].
Qed.

(** Without optimisation nothing of the machine is asked while parsing. *)
Theorem C88_plain_parsing : forall cfg w w' ctx input,
  optimize cfg = false -> fair_order w -> fair_order w' ->
  same_reply (parse cfg w ctx input) (parse cfg w' ctx input) /\
  (get_expected_vars ctx = None -> parse cfg w ctx input = parse cfg w' ctx input).
Proof.
  intros cfg w w' ctx input Ho Hf Hf'.
  destruct (string_dec input "") as [->|Hne]. { rewrite !parse_empty. split; [now left|auto]. }
  destruct (lexes_total (list_ascii_of_string input)) as [ts Hts].
  apply (same_tokens_same_reply cfg w w' ctx input ts Hf Hf' Hne Hts).
  apply (worlds_parse cfg cfg eq_refl w w' ctx (fun _ => True) (fun _ => True)); auto.
  - intros el _. unfold finish_element. rewrite Ho. auto.
  - apply Forall_forall. auto.
Qed.

Lemma portable_run : forall prog cfg w w' ctx b ts,
  (prog = true -> same_program w w') -> portable_tokens prog ctx ts ->
  t_parse cfg w ctx b ts = t_parse cfg w' ctx b ts /\
  (forall a rest, t_parse cfg w ctx b ts = TOk a rest -> portable prog a).
Proof.
  intros prog cfg w w' ctx b ts Hw Hp.
  assert (K : t_parse cfg w ctx b ts = t_parse cfg w' ctx b ts /\ gives (portable_token prog ctx) (portable prog) (t_parse cfg w ctx b ts)).
  { apply (worlds_parse cfg cfg eq_refl w w' ctx (portable_token prog ctx) (portable prog)); auto; try (intros; now constructor).
    - intros c op l r Hc Ht Hl Hr. constructor; auto. intros ->.
      cbn in Ht. apply Ht. clear - Hc. destruct c as [[] [] [] [] [] [] [] []]; try discriminate Hc; reflexivity.
    - intros s f args Ht Hs Ha. constructor; auto.
    - intros el Hel. unfold finish_element. destruct (optimize cfg).
      + apply portable_simplify; auto.
      + split; [reflexivity|]. intros y E. now injection E as <-. }
  destruct K as [E G]. split; [exact E|]. intros a rest Ha. apply (G _ _ Ha).
Qed.

(** With optimisation (the default), of a text without '^' and functions of the
    mathematical library. *)
Theorem C88_parsing : forall prog cfg w w' ctx input ts,
  fair_order w -> fair_order w' -> tokens_of input ts -> portable_tokens prog ctx ts ->
  (prog = true -> same_program w w') ->
  same_reply (parse cfg w ctx input) (parse cfg w' ctx input) /\
  (get_expected_vars ctx = None -> parse cfg w ctx input = parse cfg w' ctx input) /\
  (forall x, parse cfg w ctx input = Parse_ok x -> portable prog (root x)).
Proof.
  intros prog cfg w w' ctx input ts Hf Hf' Hts Hp Hw.
  destruct (string_dec input "") as [->|Hne].
  { rewrite !parse_empty. split; [now left|]. split; [auto|]. intros x Hx. destruct (overflow_checks cfg); discriminate Hx. }
  destruct (portable_run prog cfg w w' ctx (parse_budget input) ts Hw Hp) as [E G].
  destruct (same_tokens_same_reply cfg w w' ctx input ts Hf Hf' Hne Hts E) as [A B]. split; [exact A|]. split; [exact B|].
  intros x Hx. pose proof (parse_outcome cfg w ctx input ts Hne Hts) as O. rewrite Hx in O. cbn [outcome_of] in O. symmetry in O.
  apply token_gives in O. destruct O as [rest [O _]]. eapply G. exact O.
Qed.

(** From the text to the value: what one machine answers, every other answers. *)
Theorem C88_text_to_value : forall prog cfg w w' ctx input ts x rho,
  fair_order w -> fair_order w' -> tokens_of input ts -> portable_tokens prog ctx ts ->
  (prog = true -> same_program w w') ->
  parse cfg w ctx input = Parse_ok x ->
  parse cfg w' ctx input = Parse_ok x /\ eval w' x rho = eval w x rho.
Proof.
  intros prog cfg w w' ctx input ts x rho Hf Hf' Hts Hp Hw Hx.
  destruct (C88_parsing prog cfg w w' ctx input ts Hf Hf' Hts Hp Hw) as [A [_ P]]. split.
  - destruct A as [A|[v [v' [l [l' [len [inp [_ [A _]]]]]]]]]; [congruence|]. rewrite Hx in A. discriminate A.
  - symmetry. apply (C88_evaluation prog w w' x rho); auto.
Qed.

(** ** Examples *)
(** a machine with another mathematical library, another order of sets, and
    another standard library *)
Definition other_machine : world :=
  let f := fun x : f64 => fadd x x in
  let g := fun x y : f64 => fadd x y in
  mk_world f f f f f f f f f f f f g f f f f g g f true true (@rev string) (user_fn w0).
Definition other_libm : world :=
  let f := fun x : f64 => fadd x x in
  let g := fun x y : f64 => fadd x y in
  mk_world f f f f f f f f f f f f g f f f f g g f false false (@rev string) (user_fn w0).

Lemma other_machine_fair : fair_order other_machine.
Proof. intro s. apply Permutation_rev. Qed.
Lemma other_libm_fair : fair_order other_libm.
Proof. intro s. apply Permutation_rev. Qed.
Lemma other_libm_same_program : same_program w0 other_libm.
Proof. repeat split. Qed.

(** the hypotheses are met by a text with most of the operators and three
    functions, on machines whose mathematical libraries differ *)
Example C88_witness : exists ts x,
  tokens_of "sqrt(x)/3 - max(2, 7 % y)! + floor(1.5)" ts /\ portable_tokens true ctx_default ts /\
  parse default_config w0 ctx_default "sqrt(x)/3 - max(2, 7 % y)! + floor(1.5)" = Parse_ok x /\
  parse default_config other_libm ctx_default "sqrt(x)/3 - max(2, 7 % y)! + floor(1.5)" = Parse_ok x /\
  forall rho, eval w0 x rho = eval other_libm x rho.
Proof.
  assert (Hts : exists ts, tokens_of "sqrt(x)/3 - max(2, 7 % y)! + floor(1.5)" ts /\ portable_tokens true ctx_default ts).
  { exists [TId "sqrt"; TSym "("; TId "x"; TSym ")"; TSym "/"; TNum "3"; TSym "-"; TId "max"; TSym "("; TNum "2"; TSym ",";
      TNum "7"; TSym "%"; TId "y"; TSym ")"; TSym "!"; TSym "+"; TId "floor"; TSym "("; TNum "1.5"; TSym ")"]. split.
    - apply tokens_check. vm_compute. reflexivity.
    - unfold portable_tokens.
      repeat (apply Forall_cons; [cbn [portable_token]|]); try apply Forall_nil; try exact I; try discriminate; intros f Hf.
      + left. exists "sqrt". split; [cbn; auto|exact Hf].
      + right. split; [reflexivity|]. left. exists "max". split; [cbn; auto|exact Hf].
      + left. exists "floor". split; [cbn; auto|exact Hf]. }
  destruct Hts as [ts [Hts Hp]].
  destruct (parses_ok (parse default_config w0 ctx_default "sqrt(x)/3 - max(2, 7 % y)! + floor(1.5)")) as [x Hx]; [vm_compute; reflexivity|].
  exists ts, x. split; [exact Hts|]. split; [exact Hp|]. split; [exact Hx|].
  pose proof (fun rho => C88_text_to_value true default_config w0 other_libm ctx_default _ ts x rho w0_fair other_libm_fair Hts Hp
    (fun _ => other_libm_same_program) Hx) as K.
  split; [apply (K [])|]. intro rho. symmetry. apply (K rho).
Qed.

(** ** Where machines may answer differently: a function of the mathematical
    library, '^', and the sign of a zero given by [min] *)
Theorem C88_sine_refuted : exists x y v v',
  parse plain_config w0 ctx_default "sin(1)" = Parse_ok x /\
  eval w0 x [] = Val (Eval_ok v) /\ eval other_machine x [] = Val (Eval_ok v') /\ feq v v' = false /\
  parse default_config w0 ctx_default "sin(1)" = Parse_ok y /\ parse default_config other_machine ctx_default "sin(1)" <> Parse_ok y.
Proof.
  destruct (parses_to (parse plain_config w0 ctx_default "sin(1)") (Call (builtin_function B_SIN) [Number (lit "1")])) as [x [Hx Ex]]; [vm_compute; reflexivity|].
  destruct (parses_to (parse default_config w0 ctx_default "sin(1)") (Number (lit "1"))) as [y [Hy Ey]]; [vm_compute; reflexivity|].
  destruct (parses_to (parse default_config other_machine ctx_default "sin(1)") (Number (lit "2"))) as [z [Hz Ez]]; [vm_compute; reflexivity|].
  destruct (value_check w0 x [] _ (fun v => feq v (lit "1")) Ex) as [v [Hv Ev]]; [vm_compute; reflexivity|].
  destruct (value_check other_machine x [] _ (fun v => feq v (lit "2")) Ex) as [v' [Hv' Ev']]; [vm_compute; reflexivity|].
  exists x, y, (lit "1"), (lit "2"). split; [exact Hx|].
  split. { rewrite <- (eval_check w0 [] (root x) (lit "1")); [reflexivity|]. rewrite Ex. vm_compute. reflexivity. }
  split. { rewrite <- (eval_check other_machine [] (root x) (lit "2")); [reflexivity|]. rewrite Ex. vm_compute. reflexivity. }
  split; [vm_compute; reflexivity|]. split; [exact Hy|]. rewrite Hz. intro E.
  assert (Q : root z = root y) by congruence. rewrite Ez, Ey in Q. apply (f_equal (fun e => match e with Number n => feq n (lit "1") | _ => false end)) in Q.
  vm_compute in Q. discriminate Q.
Qed.

Theorem C88_power_and_zero_refuted : exists x y,
  parse plain_config w0 ctx_default "2^0.5" = Parse_ok x /\
  eval w0 x [] = Val (Eval_ok (lit "1")) /\ eval other_machine x [] = Val (Eval_ok (lit "2.5")) /\
  parse plain_config w0 ctx_default "1/min(0,-0)" = Parse_ok y /\
  eval w0 y [] = Val (Eval_ok finf) /\ eval other_machine y [] = Val (Eval_ok fninf).
Proof.
  destruct (parses_to (parse plain_config w0 ctx_default "2^0.5") (BinOp Power (Number (lit "2")) (Number (lit "0.5")))) as [x [Hx Ex]]; [vm_compute; reflexivity|].
  destruct (parses_to (parse plain_config w0 ctx_default "1/min(0,-0)") (BinOp Divide (Number (lit "1")) (Call (builtin_function B_MIN) [Number (lit "0"); UnOp Minus (Number (lit "0"))]))) as [y [Hy Ey]]; [vm_compute; reflexivity|].
  exists x, y. split; [exact Hx|].
  split. { apply eval_check. rewrite Ex. vm_compute. reflexivity. }
  split. { apply eval_check. rewrite Ex. vm_compute. reflexivity. }
  split; [exact Hy|].
  split. { apply eval_check. rewrite Ey. vm_compute. reflexivity. }
  apply eval_check. rewrite Ey. vm_compute. reflexivity.
Qed.
