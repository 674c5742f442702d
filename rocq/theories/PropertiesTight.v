(** * C106: the bounds are reached if every variable occurs once *)
From Coq Require Import ZArith NArith List String Ascii Bool Lia Reals Lra.
From Flocq Require Import Core BinarySingleNaN.
From Verif Require Import F64 Syntax Factorial Builtins Context Element Parser Xprs.
From Verif Require Import SpecParse SpecTree SpecApi SpecMonotone SpecBounds SpecTight SpecPolynomial FloatFacts TreeFacts SpecRegular SpecTokens SpecGrammar SpecialFacts.
From Verif Require Import RegularFacts LexExec GrammarFacts PropertiesEval PropertiesEq PropertiesArith PropertiesNumeric PropertiesOptimise PropertiesDefault MonotoneFacts LawsFacts TestWorld PropertiesParse PropertiesOrder PropertiesPolynomial PropertiesMonotone PropertiesBounds.
Import ListNotations.

Lemma tight_bounded : forall w box box' e lo hi, tight box e lo hi -> (forall n, occurs n e -> box' n = box n) -> bounded w box' e lo hi.
Proof.
  intros w box box'. induction 1 as [v F|x a b Hx Fa Fb L
    |l r a b c d H1 IH1 H2 IH2 A F1 F2|l r a b c d H1 IH1 H2 IH2 A F1 F2|l r a b c d lo hi H1 IH1 H2 IH2 A K|l r a b c d lo hi H1 IH1 H2 IH2 A Z K
    |e a b H IH|e a b H IH|f g e a b H IH Hf|e a b H IH S]; intro B.
  - now apply BD_number.
  - apply BD_var; auto. rewrite B; [exact Hx|constructor].
  - apply BD_plus; auto; [apply IH1|apply IH2]; intros n O; apply B; [now apply occ_binl|now apply occ_binr].
  - apply BD_minus; auto; [apply IH1|apply IH2]; intros n O; apply B; [now apply occ_binl|now apply occ_binr].
  - destruct K as [_ [_ K]]. eapply BD_times; [apply IH1|apply IH2|exact K]; intros n O; apply B; [now apply occ_binl|now apply occ_binr].
  - destruct K as [_ [_ K]]. eapply BD_divide; [apply IH1|apply IH2|exact Z|exact K]; intros n O; apply B; [now apply occ_binl|now apply occ_binr].
  - apply BD_plus_sign, IH. intros n O. apply B. now constructor.
  - apply BD_minus_sign, IH. intros n O. apply B. now constructor.
  - apply BD_rounding; auto. apply IH. intros n O. apply B. apply occ_arg with (a := e); [now left|exact O].
  - apply BD_sqrt; auto. apply IH. intros n O. apply B. apply occ_arg with (a := e); [now left|exact O].
Qed.

Scheme means_mut := Minimality for means Sort Prop with means_all_mut := Minimality for means_all Sort Prop.
Combined Scheme means_both from means_mut, means_all_mut.
Lemma means_extend : forall w rho rho', (forall n v, rho n = Some v -> rho' n = Some v) ->
  forall e v, means w rho e v -> means w rho' e v.
Proof.
  intros w rho rho' H. enough (G : (forall e v, means w rho e v -> means w rho' e v) /\ (forall l vs, means_all w rho l vs -> means_all w rho' l vs)) by exact (proj1 G).
  apply means_both; intros; econstructor; eauto.
Qed.

Lemma means_defined : forall w rho e v, means w rho e v -> forall n, occurs n e -> rho n <> None.
Proof.
  intros w rho. enough (G : (forall e v, means w rho e v -> forall n, occurs n e -> rho n <> None) /\
    (forall l vs, means_all w rho l vs -> forall a n, In a l -> occurs n a -> rho n <> None)) by exact (proj1 G).
  apply means_both.
  - intros u n O. inversion O.
  - intros x v E n O. inversion O; subst. now rewrite E.
  - intros l r a b _ H1 _ H2 n O. inversion O; subst; eauto.
  - intros l r a b _ H1 _ H2 n O. inversion O; subst; eauto.
  - intros l r a b _ H1 _ H2 n O. inversion O; subst; eauto.
  - intros l r a b _ H1 _ H2 n O. inversion O; subst; eauto.
  - intros l r a b _ H1 _ H2 n O. inversion O; subst; eauto.
  - intros l r a b _ H1 _ H2 n O. inversion O; subst; eauto.
  - intros e a _ H n O. inversion O; subst; eauto.
  - intros e a _ H n O. inversion O; subst; eauto.
  - intros e a _ H n O. inversion O; subst; eauto.
  - intros f args vs v _ H _ n O. inversion O; subst; eauto.
  - intros a n [].
  - intros a args v vs _ H1 _ H2 b n [->|I] O; eauto.
Qed.

(** the variables of [e], at ends of their intervals, for which [e] has the value [v] *)
Definition reached (w : world) (box : string -> option (f64 * f64)) (e : element) (v : f64) : Prop :=
  exists rho, at_ends box rho /\ (forall n u, lookup rho n = Some u -> occurs n e) /\ means w (lookup rho) e v.

Lemma reached_both : forall w box op l r u v z, apart l r -> reached w box l u -> reached w box r v ->
  (forall rho, means w rho l u -> means w rho r v -> means w rho (BinOp op l r) z) -> reached w box (BinOp op l r) z.
Proof.
  intros w box op l r u v z A [rho [E1 [D1 M1]]] [rho' [E2 [D2 M2]]] H.
  assert (L : forall n, lookup (rho ++ rho')%list n = match lookup rho n with Some a => Some a | None => lookup rho' n end).
  { intro n. unfold lookup. clear. induction rho as [|[m c] rho IH]; cbn [app sget]; [reflexivity|]. destruct (String.eqb n m); auto. }
  exists (rho ++ rho')%list. split; [|split].
  - intros n a. rewrite L. destruct (lookup rho n) eqn:E; [intros [= <-]; now apply E1|apply E2].
  - intros n a. rewrite L. destruct (lookup rho n) eqn:E; [intros _; apply occ_binl; eauto|intro; apply occ_binr; eauto].
  - apply H.
    + eapply means_extend; [|exact M1]. intros n a E. now rewrite L, E.
    + eapply means_extend; [|exact M2]. intros n a E. rewrite L. destruct (lookup rho n) eqn:E'; [|exact E].
      exfalso. apply (A n); eauto.
Qed.
Lemma reached_one : forall w box e u c z, reached w box e u -> (forall n, occurs n e -> occurs n c) ->
  (forall rho, means w rho e u -> means w rho c z) -> reached w box c z.
Proof. intros w box e u c z [rho [E [D M]]] O H. exists rho. split; [exact E|]. split; eauto. Qed.

Lemma tight_reached : forall w box e lo hi, tight box e lo hi -> reached w box e lo /\ reached w box e hi.
Proof.
  intros w box. induction 1 as [v F|x a b Hx Fa Fb L
    |l r a b c d H1 [A1 B1] H2 [A2 B2] A F1 F2|l r a b c d H1 [A1 B1] H2 [A2 B2] A F1 F2
    |l r a b c d lo hi H1 [A1 B1] H2 [A2 B2] A [K1 [K2 _]]|l r a b c d lo hi H1 [A1 B1] H2 [A2 B2] A Z [K1 [K2 _]]
    |e a b H [A1 B1]|e a b H [A1 B1]|f g e a b H [A1 B1] Hf|e a b H [A1 B1] S].
  - split; exists []; (split; [intros n u; discriminate|]; split; [intros n u; discriminate|constructor]).
  - assert (G : forall v, v = a \/ v = b -> reached w box (Var x) v).
    { intros v Hv. exists [(x, v)]. unfold lookup. split; [|split].
      - intros n u. unfold lookup. cbn [sget]. destruct (String.eqb n x) eqn:E; [|discriminate]. apply String.eqb_eq in E as ->.
        intros [= <-]. exists a, b. auto.
      - intros n u. cbn [sget]. destruct (String.eqb n x) eqn:E; [|discriminate]. apply String.eqb_eq in E as ->. constructor.
      - constructor. cbn [sget]. now rewrite String.eqb_refl. }
    split; apply G; auto.
  - split; [apply (reached_both w box Plus l r a c)|apply (reached_both w box Plus l r b d)]; auto; intros; now constructor.
  - split; [apply (reached_both w box Minus l r a d)|apply (reached_both w box Minus l r b c)]; auto; intros; now constructor.
  - assert (G : forall v, In v [fmul a c; fmul a d; fmul b c; fmul b d] -> reached w box (BinOp Times l r) v).
    { intros v [<-|[<-|[<-|[<-|[]]]]]; (eapply reached_both; [exact A| | |intros rho M N; exact (M_times w rho l r _ _ M N)]); assumption. }
    split; apply G; assumption.
  - assert (G : forall v, In v [fdiv a c; fdiv a d; fdiv b c; fdiv b d] -> reached w box (BinOp Divide l r) v).
    { intros v [<-|[<-|[<-|[<-|[]]]]]; (eapply reached_both; [exact A| | |intros rho M N; exact (M_divide w rho l r _ _ M N)]); assumption. }
    split; apply G; assumption.
  - split; [apply (reached_one w box e a)|apply (reached_one w box e b)]; auto; intros; now constructor.
  - split; [apply (reached_one w box e b)|apply (reached_one w box e a)]; auto; intros; now constructor.
  - assert (C : forall x, call_function w (builtin_function f) [x] = Val (g x)).
    { cbn in Hf. destruct Hf as [Hf|[Hf|[Hf|[Hf|[]]]]]; injection Hf as <- <-; reflexivity. }
    split; [apply (reached_one w box e a)|apply (reached_one w box e b)]; auto; try (intros n O; apply occ_arg with (a := e); [now left|exact O]);
      intros rho M; (eapply M_call; [apply M_cons; [exact M|apply M_nil]|apply C]).
  - split; [apply (reached_one w box e a)|apply (reached_one w box e b)]; auto; try (intros n O; apply occ_arg with (a := e); [now left|exact O]);
      intros rho M; (eapply M_call; [apply M_cons; [exact M|apply M_nil]|reflexivity]).
Qed.

(** Both bounds are results of eval, with every variable at an end of its interval. *)
Theorem C106_reached : forall w box x lo hi, tight box (root x) lo hi ->
  bounded w box (root x) lo hi /\
  (exists rho, at_ends box rho /\ eval w x rho = Val (Eval_ok lo)) /\
  (exists rho, at_ends box rho /\ eval w x rho = Val (Eval_ok hi)).
Proof.
  intros w box x lo hi T. split; [now apply (tight_bounded w box)|].
  destruct (tight_reached w box _ _ _ T) as [[r1 [E1 [_ M1]]] [r2 [E2 [_ M2]]]].
  split; [exists r1|exists r2]; (split; [assumption|now apply C21_eval_is_meaning]).
Qed.

(** In the default build they are, too, up to the sign of a zero. *)
Theorem C106_reached_default : forall cfg cfg' w ctx input ts x box lo hi,
  optimize cfg = true -> optimize cfg' = false -> pejmdas cfg = pejmdas cfg' ->
  fair_order w -> context_functions_return w ctx ->
  tokens_of input ts -> ~ has_double_bang input -> no_number_after_parenthesis ts ->
  parse cfg' w ctx input = Parse_ok x -> tight box (root x) lo hi ->
  exists y, parse cfg w ctx input = Parse_ok y /\
  (exists rho v, at_ends box rho /\ eval w y rho = Val (Eval_ok v) /\ feq lo v = true) /\
  (exists rho v, at_ends box rho /\ eval w y rho = Val (Eval_ok v) /\ feq hi v = true).
Proof.
  intros cfg cfg' w ctx input ts x box lo hi Ho Ho' Hp Hf Hc Ht D Hn Hx T.
  destruct (C18_plain_accepted cfg cfg' w ctx input ts x Ho Ho' Hp Hf Hc D Ht Hn Hx) as [y [Hy S]].
  exists y. split; [exact Hy|].
  assert (G : forall u, u = lo \/ u = hi -> reached w box (root x) u ->
    exists rho v, at_ends box rho /\ eval w y rho = Val (Eval_ok v) /\ feq u v = true).
  { intros u Hu [rho [E [_ M]]]. exists rho.
    set (box' := fun n => match lookup rho n with Some _ => box n | None => None end).
    assert (B : bounded w box' (root x) lo hi).
    { apply (tight_bounded w box); [exact T|]. intros n O. unfold box'. destruct (lookup rho n) eqn:K; [reflexivity|].
      exfalso. exact (means_defined w (lookup rho) _ _ M n O K). }
    assert (V : values_in box' (lookup rho)).
    { intros n a b Hb. unfold box' in Hb. destruct (lookup rho n) as [c|] eqn:K; [|discriminate]. exists c. split; [reflexivity|].
      destruct (E n c K) as [a' [b' [Hb' [L Hc']]]]. rewrite Hb in Hb'. injection Hb' as <- <-.
      apply at_most_toR in L. destruct L as [Na [Nb L]]. destruct Hc' as [-> | ->]; split; apply at_most_toR; repeat split; auto; lra. }
    destruct (bounded_value w box' (lookup rho) V _ _ _ B) as [Fl [Fh [u' [R _]]]].
    assert (Fu : is_finite u = true) by (destruct Hu as [-> | ->]; assumption).
    pose proof (means_det _ _ _ _ _ (regular_means _ _ _ _ R) M) as ->.
    destruct (proj1 (simplified_from_preserves w (lookup rho) cfg) _ _ S u R) as [v [R' V']].
    exists v. split; [exact E|]. split; [apply C21_eval_is_meaning, regular_means, R'|].
    destruct V' as [V'|[N _]]; [exact V'|]. rewrite (fin_nan u Fu) in N. discriminate N. }
  destruct (tight_reached w box _ _ _ T) as [R1 R2].
  split; apply G; auto.
Qed.

(** A variable that occurs twice: x - x has the bounds -1 and 1 for x between 0
    and 1, but is never -1. *)
Theorem C106_reached_twice_refuted : exists x,
  let box := fun n => if String.eqb n "x" then Some (lit "0", lit "1") else None in
  parse plain_config w0 ctx_default "x - x" = Parse_ok x /\ bounded w0 box (root x) (fneg fone) fone /\
  forall rho, at_ends box rho -> eval w0 x rho <> Val (Eval_ok (fneg fone)).
Proof.
  destruct (parses_to (parse plain_config w0 ctx_default "x - x") (BinOp Minus (Var "x") (Var "x"))) as [x [Hx Ex]]; [vm_compute; reflexivity|].
  exists x. cbv zeta. split; [exact Hx|]. rewrite Ex. split.
  - eapply BD_wider; [apply BD_minus; [apply BD_var; [reflexivity|vm_compute; reflexivity|vm_compute; reflexivity]|apply BD_var; [reflexivity|vm_compute; reflexivity|vm_compute; reflexivity]|vm_compute; reflexivity|vm_compute; reflexivity]|between].
  - intros rho E V. apply C21_eval_is_meaning in V. rewrite Ex in V. remember (fneg fone) as k eqn:Q.
    assert (M : exists p q, means w0 (lookup rho) (Var "x") p /\ means w0 (lookup rho) (Var "x") q /\ k = fsub p q) by (inversion V; subst; eauto).
    clear V. destruct M as [p [q [M [N K]]]]. apply means_var in M. apply means_var in N. rewrite M in N. injection N as <-.
    destruct (E _ _ M) as [a [b [Hb [_ Hv]]]]. cbn in Hb. injection Hb as <- <-. rewrite K in Q.
    apply (f_equal (fun z => feq z fzero)) in Q. destruct Hv as [-> | ->]; vm_compute in Q; discriminate Q.
Qed.

(** ** the conditions are met *)
Local Open Scope string_scope.
Definition ends_box : string -> option (f64 * f64) :=
  fun n => if String.eqb n "x" then Some (lit "0", lit "1") else if String.eqb n "y" then Some (fneg (lit "1"), lit "3")
           else if String.eqb n "z" then Some (lit "1", lit "9") else None.
Ltac no_common := let n := fresh in let O := fresh in let P := fresh in intros n O P;
  repeat match goal with
  | H : occurs _ (Number _) |- _ => inversion H
  | H : occurs _ (BinOp _ _ _) |- _ => inversion H; clear H; subst
  | H : occurs _ (Call _ _) |- _ => inversion H; clear H; subst
  | H : In _ [_] |- _ => destruct H as [<-|[]]
  | H : occurs ?n (Var ?m) |- _ => assert (n = m) by (inversion H; reflexivity); clear H; subst
  end; try discriminate.
Ltac corners := split; [cbn [In]|split; [cbn [In]|between]].
Example C106_reached_witness : exists ts x y,
  let input := "(x - 2) * y + floor(z / 4)" in
  tokens_of input ts /\ ~ has_double_bang input /\ no_number_after_parenthesis ts /\
  parse plain_config w0 ctx_default input = Parse_ok x /\
  (exists lo hi, tight ends_box (root x) lo hi /\ feq lo (fneg (lit "6")) = true /\ feq hi (lit "4") = true) /\
  parse default_config w0 ctx_default input = Parse_ok y.
Proof.
  set (input := "(x - 2) * y + floor(z / 4)"%string).
  set (ts := [TSym "("; TId "x"; TSym "-"; TNum "2"; TSym ")"; TSym "*"; TId "y"; TSym "+"; TId "floor"; TSym "("; TId "z"; TSym "/"; TNum "4"; TSym ")"]).
  assert (Ht : tokens_of input ts) by (apply tokens_check; vm_compute; reflexivity).
  assert (D : ~ has_double_bang input) by (apply no_double_bang_check; vm_compute; reflexivity).
  assert (Hn : no_number_after_parenthesis ts).
  { apply (adjacent_check (fun a b => match a, b with TSym c, TNum _ => Ascii.eqb c ")" | _, _ => false end)); [|vm_compute; reflexivity].
    intros a b [-> [s ->]]. reflexivity. }
  destruct (parses_to (parse plain_config w0 ctx_default input)
    (BinOp Plus (BinOp Times (BinOp Minus (Var "x") (Number (lit "2"))) (Var "y")) (Call (builtin_function B_FLOOR) [BinOp Divide (Var "z") (Number (lit "4"))]))) as [x [Hx Ex]]; [vm_compute; reflexivity|].
  assert (T : exists lo hi, tight ends_box (root x) lo hi /\ feq lo (fneg (lit "6")) = true /\ feq hi (lit "4") = true).
  { rewrite Ex. do 2 eexists. split; [|split].
    - apply TI_plus.
      + apply (TI_times _ _ _ (fsub (lit "0") (lit "2")) (fsub (lit "1") (lit "2")) (fneg (lit "1")) (lit "3") (fmul (fsub (lit "0") (lit "2")) (lit "3")) (fmul (fsub (lit "0") (lit "2")) (fneg (lit "1")))).
        * apply TI_minus; [apply TI_var; [reflexivity|vm_compute; reflexivity|vm_compute; reflexivity|vm_compute; reflexivity]|apply TI_number; vm_compute; reflexivity|no_common|vm_compute; reflexivity|vm_compute; reflexivity].
        * apply TI_var; [reflexivity|vm_compute; reflexivity|vm_compute; reflexivity|vm_compute; reflexivity].
        * no_common.
        * corners; auto.
      + apply (TI_rounding _ B_FLOOR ffloor _ (fdiv (lit "1") (lit "4")) (fdiv (lit "9") (lit "4"))); [|cbn; tauto].
        apply (TI_divide _ _ _ (lit "1") (lit "9") (lit "4") (lit "4")).
        * apply TI_var; [reflexivity|vm_compute; reflexivity|vm_compute; reflexivity|vm_compute; reflexivity].
        * apply TI_number; vm_compute; reflexivity.
        * no_common.
        * left; vm_compute; reflexivity.
        * corners; auto.
      + no_common.
      + vm_compute; reflexivity.
      + vm_compute; reflexivity.
    - vm_compute; reflexivity.
    - vm_compute; reflexivity. }
  destruct T as [lo [hi [T F]]].
  destruct (C106_reached_default default_config plain_config w0 ctx_default input ts x ends_box lo hi eq_refl eq_refl eq_refl w0_fair (default_context_returns w0) Ht D Hn Hx T) as [y [Hy _]].
  exists ts, x, y. cbv zeta. repeat (split; [assumption|]). split; [exists lo, hi; split; assumption|exact Hy].
Qed.
