(** * C101: functions made from expressions, in the default build *)
From Coq Require Import ZArith NArith List String Ascii Bool Lia.
From Flocq Require Import BinarySingleNaN.
From Verif Require Import SpecChars CharFacts.
From Verif Require Import F64 Syntax Factorial Builtins Context Element Parser Xprs.
From Verif Require Import FloatFacts ParserFacts SpecParse ParserInv SpecTree TreeFacts SpecApi ParserResults SpecTokens SpecGrammar SpecInline SpecRegular SpecPolynomial.
From Verif Require Import BindFacts RegularFacts TokenFacts LexFacts LexExec GrammarFacts GrammarEquiv SubstFacts.
From Verif Require Import TestWorld PropertiesParse PropertiesGrammar PropertiesEval PropertiesEq PropertiesBind PropertiesSimplify PropertiesOptimise PropertiesOrder PropertiesDefault PropertiesInline PropertiesPolynomial.
Import ListNotations.
Local Open Scope string_scope.

(** ** how such an expression depends on its variables *)
Definition close (rho rho' : string -> option f64) : Prop :=
  forall y a, rho y = Some a -> exists a', rho' y = Some a' /\ same_value a a'.

Lemma polynomial_same : forall w rho rho', close rho rho' -> forall e, polynomial w e ->
  forall v, means w rho e v -> exists v', means w rho' e v' /\ same_value v v'.
Proof.
  intros w rho rho' R e. induction e as [n|op l r IHl IHr|op e IHe|f args Hargs|y] using element_ind'; intros P v M.
  - inversion M; subst. exists v. split; [constructor|apply same_value_refl].
  - assert (exists a b, means w rho l a /\ means w rho r b) as [a [b [Ma Mb]]] by (inversion M; subst; eauto).
    assert (polynomial w l /\ polynomial w r) as [Pl Pr] by (inversion P; subst; auto using PO_number).
    destruct (IHl Pl _ Ma) as [a' [Ma' Sa]]. destruct (IHr Pr _ Mb) as [b' [Mb' Sb]].
    inversion P as [| |l0 r0 _ _|l0 r0 _ _|l0 r0 _ _|l0 c _ C Z|l0 c Hw _ C Q| | |]; subst; inversion M as [| |? ? x y Mx My|? ? x y Mx My|? ? x y Mx My|? ? x y Mx My|? ? x y Mx My| | | | |]; subst;
      rewrite (means_det _ _ _ _ _ Mx Ma), (means_det _ _ _ _ _ My Mb).
    + eexists. split; [constructor; eauto|now apply fadd_same].
    + eexists. split; [constructor; eauto|now apply fsub_same].
    + eexists. split; [constructor; eauto|now apply fmul_same].
    + exists (fdiv a' b). assert (b = c) as -> by (inversion Mb; reflexivity). split; [apply M_divide; [exact Ma'|constructor]|]. now apply fdiv_same.
    + assert (b = c) as -> by (inversion Mb; reflexivity). exists (l_powf w a' c). split; [apply M_power; [exact Ma'|constructor]|].
      apply same_value_iff in Sa. destruct Sa as [<-|[Z Z']]; [apply same_value_refl|]. apply same_value_iff. right.
      split; [now apply (Hw a c C Q)|now apply (Hw a' c C Q)].
  - inversion P as [| | | | | | | |op0 e0 Hop Pe|e0 Pe]; subst.
    + destruct Hop as [-> | ->]; inversion M as [| | | | | | | |? a Ma|? a Ma| |]; subst; destruct (IHe Pe _ Ma) as [a' [Ma' Sa]]; eexists;
        (split; [constructor; eauto|]); auto using fneg_same.
    + inversion M as [| | | | | | | | | |? a Ma|]; subst. destruct (IHe Pe _ Ma) as [a' [Ma' Sa]]. eexists. split; [constructor; eauto|now apply factorial_same].
  - inversion P as [| | | | | | |f0 args0 Hf Ha Hp| |]; subst. inversion M as [| | | | | | | | | | |f1 args1 vs v1 Hm Hc]; subst.
    assert (Len : List.length vs = List.length args) by (clear - Hm; induction Hm; cbn; auto).
    destruct (Hf vs v) as [Hz _]; [revert Ha; unfold SpecGrammar.arity_ok; destruct (fn_nb_args f); [intros; congruence|auto]|exact Hc|].
    assert (exists vs', means_all w rho' args vs' /\ Forall2 same_value vs vs') as [vs' [Hm' Hs]].
    { clear - Hargs Hp Hm. induction Hm as [|a args v vs Ha Hm IH]; [exists []; split; constructor|].
      inversion Hargs as [|? ? H1 H2]; subst. inversion Hp as [|? ? H3 H4]; subst. destruct (H1 H3 _ Ha) as [v' [A B]]. destruct (IH H2 H4) as [vs' [A' B']].
      exists (v' :: vs'). split; constructor; auto. }
    destruct (Hz vs' v) as [v' [Hc' Hs']]; [now apply equal_or_zeros_all|exact Hc|]. exists v'. split; [econstructor; eauto|now apply same_value_iff].
  - inversion M as [|? a Ha| | | | | | | | | |]; subst. destruct (R _ _ Ha) as [a' [Ha' Sa]]. exists a'. split; [now constructor|exact Sa].
Qed.

(** a finite value comes from finite variables *)
Lemma polynomial_finite : forall w rho e, polynomial w e -> forall v, means w rho e v -> is_finite v = true ->
  forall y a, free y e -> rho y = Some a -> is_finite a = true.
Proof.
  intros w rho e. induction e as [n|op l r IHl IHr|op e IHe|f args Hargs|x] using element_ind'; intros P v M F y a Fy Ry.
  - destruct Fy.
  - cbn [free] in Fy.
    inversion P as [| |l0 r0 Pl Pr|l0 r0 Pl Pr|l0 r0 Pl Pr|l0 c Pl C Z|l0 c Hw Pl C Q| | |]; subst; inversion M as [| |? ? p q Mp Mq|? ? p q Mp Mq|? ? p q Mp Mq|? ? p q Mp Mq|? ? p q Mp Mq| | | | |]; subst.
    + destruct (add_finite _ _ F). destruct Fy; eauto.
    + destruct (sub_finite _ _ F). destruct Fy; eauto.
    + destruct (mul_finite _ _ F). destruct Fy; eauto.
    + destruct Fy as [Fy|[]]. apply div_finite_l in F. eauto.
    + destruct Fy as [Fy|[]]. assert (q = c) as -> by (inversion Mq; reflexivity). apply (Hw p c C Q) in F. eauto.
  - cbn [free] in Fy. inversion P as [| | | | | | | |op0 e0 Hop Pe|e0 Pe]; subst.
    + destruct Hop as [-> | ->]; inversion M; subst; eauto using neg_finite.
    + inversion M; subst. eauto using factorial_finite.
  - inversion P as [| | | | | | |f0 args0 Hf Ha Hp| |]; subst. inversion M as [| | | | | | | | | | |f1 args1 vs v1 Hm Hc]; subst.
    assert (Len : List.length vs = List.length args) by (clear - Hm; induction Hm; cbn; auto).
    destruct (Hf vs v) as [_ Hfin]; [revert Ha; unfold SpecGrammar.arity_ok; destruct (fn_nb_args f); [intros; congruence|auto]|exact Hc|]. specialize (Hfin F).
    apply free_call in Fy. clear - Hargs Hp Hm Hfin Fy Ry.
    induction Hm as [|b args u vs Hb Hm IH]; inversion Fy; subst; inversion Hargs; subst; inversion Hp; subst; inversion Hfin; subst; eauto.
  - cbn in Fy. subst x. inversion M; subst. congruence.
Qed.

Lemma assign_close : forall names vs vs', Forall2 same_value vs vs' -> close (assign names vs) (assign names vs').
Proof.
  induction names as [|n names IH]; intros vs vs' H y a E; [destruct vs; discriminate E|].
  destruct H as [|v v' vs vs' S H]; [discriminate E|]. cbn [assign] in *. specialize (IH vs vs' H y).
  destruct (assign names vs y) as [b|] eqn:Eb.
  - injection E as <-. destruct (IH b eq_refl) as [a' [-> S']]. eauto.
  - destruct (assign names vs' y) as [b'|] eqn:Eb'.
    + exfalso. clear - H Eb Eb'. revert vs vs' H Eb Eb'. induction names as [|m names IH]; intros vs vs' H E E'; [destruct vs'; discriminate E'|].
      destruct H as [|u u' vs vs' _ H]; [discriminate E'|]. cbn [assign] in *. destruct (assign names vs y) eqn:X; [discriminate E|].
      destruct (String.eqb y m); [discriminate E|]. destruct (assign names vs' y) eqn:X'; [injection E' as ->; exact (IH _ _ H X X')|discriminate E'].
    + destruct (String.eqb y n); [injection E as <-; eauto|discriminate E].
Qed.

Lemma assign_none : forall names vs y, ~ In y names -> assign names vs y = None.
Proof.
  induction names as [|n names IH]; intros [|v vs] y H; try reflexivity. cbn [assign]. rewrite IH by (intro; apply H; now right).
  destruct (String.eqb_spec y n); [|reflexivity]. exfalso. apply H. now left.
Qed.
Lemma assign_all : forall (P : f64 -> Prop) names vs, NoDup names -> List.length vs = List.length names ->
  (forall y a, In y names -> assign names vs y = Some a -> P a) -> Forall P vs.
Proof.
  intros P. induction names as [|n names IH]; intros [|v vs] N L H; try discriminate L; [constructor|]. inversion N; subst. constructor.
  - apply (H n v); [now left|]. cbn [assign]. rewrite assign_none by assumption. now rewrite String.eqb_refl.
  - apply IH; [assumption|cbn in L; lia|]. intros y a Hy E. apply (H y a); [now right|]. cbn [assign]. now rewrite E.
Qed.

(** ** a function of a text *)
(** what calling it does: evaluating the expression *)
Definition computes (w w' : world) (hof : function) (names : list string) (e : element) : Prop :=
  forall vs v, List.length vs = List.length names -> (call_function w' hof vs = Val v <-> means w (assign names vs) e v).

Lemma defined_tame : forall w w' hof names e, fn_nb_args hof = Some (List.length names) -> computes w w' hof names e ->
  polynomial w e -> NoDup names -> (forall n, In n names -> free n e) -> tame w' hof.
Proof.
  intros w w' hof names e Na C P N U vs v L E. rewrite Na in L. split.
  - intros vs' u Z E'. assert (u = v) as -> by congruence. apply (C _ _ L) in E. apply equal_or_zeros_all in Z.
    assert (L' : List.length vs' = List.length names) by (rewrite <- L; clear - Z; induction Z; cbn; congruence).
    destruct (polynomial_same w _ _ (assign_close names _ _ Z) e P _ E) as [v' [M S]]. exists v'. split; [now apply (C _ _ L')|now apply same_value_iff].
  - intro F. apply (C _ _ L) in E. apply (assign_all _ names); auto. intros y a Hy A. exact (polynomial_finite w _ e P v E F y a (U y Hy) A).
Qed.

Section Transfer.
  Variables (w : world) (id : nat) (F1 F2 : list f64 -> option f64) (hof : function) (names : list string) (eb eb2 : element).
  Let w1 := with_user_fn w id F1.
  Let w2 := with_user_fn w id F2.
  Hypothesis Hn1 : fn_nb_args hof = Some (List.length names).
  Hypothesis Hc1 : computes w w1 hof names eb.
  Hypothesis Hc2 : computes w w2 hof names eb2.
  Hypothesis Ht : tame w1 hof.
  Hypothesis Hp : polynomial w eb.
  Hypothesis Hs : forall rho v, regular w rho eb v -> exists v', means w rho eb2 v' /\ same_value v v'.

  Lemma other_call : forall g vs, fn_ptr g <> Static_user id -> fn_ptr g <> Dyn_user id -> call_function w2 g vs = call_function w1 g vs.
  Proof. intros g vs A B. unfold w1, w2. now rewrite !call_other. Qed.

  (** where the plain function is finite, the simplified one agrees *)
  Lemma defined_agrees : forall vs v, List.length vs = List.length names -> call_function w1 hof vs = Val v -> is_finite v = true ->
    exists v', call_function w2 hof vs = Val v' /\ same_value v v'.
  Proof.
    intros vs v L E F. apply (Hc1 _ _ L) in E. pose proof (polynomial_regular _ _ _ Hp _ E F) as R.
    destruct (Hs _ _ R) as [v' [M S]]. exists v'. split; [now apply (Hc2 _ _ L)|exact S].
  Qed.

  Lemma finite_same_value : forall a b : f64, same_value a b -> is_finite a = true -> is_finite b = true.
  Proof. exact same_finite. Qed.

  Lemma transfer : forall rho,
    (forall t t', inlined id hof names eb t t' -> polynomial w1 t -> forall v, means w1 rho t v -> is_finite v = true ->
       exists v', regular w2 rho t v' /\ same_value v v') /\
    (forall l l', all_inlined id hof names eb l l' -> Forall (polynomial w1) l -> forall vs, means_all w1 rho l vs -> Forall (fun a => is_finite a = true) vs ->
       exists vs', regular_all w2 rho l vs' /\ Forall2 same_value vs vs').
  Proof.
    intro rho. apply inlined_mutind.
    - intros n _ v M _. inversion M; subst. exists v. split; [constructor|apply same_value_refl].
    - intros x _ v M _. inversion M; subst. exists v. split; [now constructor|apply same_value_refl].
    - intros op l l' r r' _ IHl _ IHr P v M F. pose proof (polynomial_regular _ _ _ P _ M F) as R.
      inversion R as [| |op' l0 r0 a b Ra Rb Hop| | | |]; subst. apply regular_means in Ra, Rb.
      assert (polynomial w1 l /\ polynomial w1 r) as [Pl Pr] by (inversion P; subst; auto using PO_number).
      assert (is_finite a = true /\ is_finite b = true) as [Fa Fb].
      { inversion P as [| |l0 r0 _ _|l0 r0 _ _|l0 r0 _ _|l0 c _ C Z|l0 c Hw _ C Q| | |]; subst; cbn [operation] in F.
        - exact (add_finite _ _ F).
        - exact (sub_finite _ _ F).
        - exact (mul_finite _ _ F).
        - split; [exact (div_finite_l _ _ F)|]. inversion Rb; subst; exact C.
        - assert (b = c) as -> by (inversion Rb; reflexivity). split; [now apply (Hw a c C Q) in F|exact C]. }
      destruct (IHl Pl _ Ra Fa) as [a' [Ra' Sa]]. destruct (IHr Pr _ Rb Fb) as [b' [Rb' Sb]].
      assert (Hop2 : regular_operands w2 op a b) by exact Hop.
      destruct (regular_operands_same _ _ _ _ _ _ Hop2 Sa Sb) as [Hop' So].
      exists (operation w2 op a' b'). split; [now constructor|exact So].
    - intros op a a' _ IH P v M F. inversion P as [| | | | | | | |op0 e0 Hop Pe|e0 Pe]; subst.
      + destruct Hop as [-> | ->]; inversion M as [| | | | | | | |? u Mu|? u Mu| |]; subst.
        * destruct (IH Pe _ Mu F) as [u' [Ru Su]]. exists u'. split; [now constructor|exact Su].
        * destruct (IH Pe _ Mu (neg_finite _ F)) as [u' [Ru Su]]. exists (fneg u'). split; [now constructor|now apply fneg_same].
      + inversion M as [| | | | | | | | | |? u Mu|]; subst. destruct (IH Pe _ Mu (factorial_finite _ F)) as [u' [Ru Su]].
        exists (factorial u'). split; [now constructor|now apply factorial_same].
    - intros g l l' N1 N2 _ IH P v M F. inversion P as [| | | | | | |g0 l0 Hg Ha Hpl| |]; subst. inversion M as [| | | | | | | | | | |f1 args1 vs v1 Hm Hc]; subst.
      assert (Len : List.length vs = List.length l) by (clear - Hm; induction Hm; cbn; auto).
      destruct (Hg vs v) as [Hz Hfin]; [revert Ha; unfold SpecGrammar.arity_ok; destruct (fn_nb_args g); [intros; congruence|auto]|exact Hc|].
      destruct (IH Hpl _ Hm (Hfin F)) as [vs' [Rs Ss]].
      destruct (call_same w1 g vs v vs' Ss (fun _ => Hz) Hc) as [Z' [v' [C' S']]].
      exists v'. split; [|exact S']. apply RG_call with vs'; [exact Rs| |now rewrite other_call].
      intros E us u Su Cu. rewrite other_call in Cu by assumption. rewrite other_call by assumption. exact (Z' E us u Su Cu).
    - intros l l' Hl _ IH P v M F. inversion P as [| | | | | | |g0 l0 _ Ha Hpl| |]; subst. inversion M as [| | | | | | | | | | |f1 args1 vs v1 Hm Hc]; subst.
      assert (Len : List.length vs = List.length names) by (rewrite <- Hl; clear - Hm; induction Hm; cbn; auto).
      assert (Len0 : match fn_nb_args hof with None => True | Some n => List.length vs = n end) by (rewrite Hn1; exact Len).
      destruct (Ht vs v Len0 Hc) as [Hz Hfin].
      destruct (IH Hpl _ Hm (Hfin F)) as [vs' [Rs Ss]].
      assert (G : forall us, Forall2 same_value vs us -> exists u u', call_function w1 hof us = Val u /\ call_function w2 hof us = Val u' /\ same_value v u /\ same_value v u').
      { intros us Su. destruct (Hz us v) as [u [Cu Eu]]; [now apply equal_or_zeros_all|exact Hc|]. apply same_value_iff in Eu.
        assert (Lu : List.length us = List.length names) by (rewrite <- Len; clear - Su; induction Su; cbn; congruence).
        destruct (defined_agrees us u Lu Cu (same_finite _ _ Eu F)) as [u' [Cu' Eu']]. exists u, u'. repeat split; auto. eapply same_trans; eauto. }
      destruct (G vs' Ss) as [u [u' [Cu [Cu' [Su Su']]]]]. exists u'. split; [|exact Su'].
      apply RG_call with vs'; [exact Rs| |exact Cu'].
      intros _ us q Sq Cq. assert (q = u') as -> by congruence. apply equal_or_zeros_all in Sq.
      destruct (G us (same_all_trans _ _ Ss _ Sq)) as [p [p' [_ [Cp' [_ Sp']]]]]. exists p'. split; [exact Cp'|].
      apply same_value_iff. eapply same_trans; [apply same_sym; exact Su'|exact Sp'].
    - intros _ vs M _. inversion M; subst. exists []. split; constructor.
    - intros a a' l l' _ IHa _ IHl P vs M F. inversion P; subst. inversion M as [|? ? v ? Ma Ml]; subst. inversion F; subst.
      destruct (IHa ltac:(assumption) _ Ma ltac:(assumption)) as [v' [Rv Sv]]. destruct (IHl ltac:(assumption) _ Ml ltac:(assumption)) as [vs' [Rs Ss]].
      exists (v' :: vs'). split; constructor; auto.
  Qed.

  (** written out, it is still built in the same way *)
  Lemma polynomial_substitute : forall sigma, (forall y t, sigma y = Some t -> polynomial w t) -> forall e, polynomial w e -> polynomial w (substitute sigma e).
  Proof.
    intros sigma S. induction e as [n|op l r IHl IHr|op e IHe|f args Hargs|y] using element_ind'; intro P; cbn [substitute].
    - constructor.
    - inversion P; subst; cbn [substitute]; [apply PO_plus|apply PO_minus|apply PO_times|apply PO_divide|apply PO_power]; auto.
    - inversion P; subst; [apply PO_sign|apply PO_factorial]; auto.
    - inversion P as [| | | | | | |f0 args0 Hf Ha Hpl| |]; subst. apply PO_call; [exact Hf|unfold SpecGrammar.arity_ok in *; now rewrite map_length|].
      clear - Hargs Hpl. induction Hargs; inversion Hpl; subst; constructor; auto.
    - destruct (sigma y) as [t|] eqn:E; [eauto|constructor].
  Qed.
  Lemma tame_other : forall g, fn_ptr g <> Static_user id -> fn_ptr g <> Dyn_user id -> tame w1 g -> tame w g.
  Proof.
    intros g A B T vs v L E. destruct (T vs v L) as [Z Fin]; [unfold w1; now rewrite call_other|]. split; [|exact Fin].
    intros us u Su Cu. destruct (Z us u Su) as [u' [C' S']]; [unfold w1; now rewrite call_other|]. exists u'. split; [|exact S'].
    unfold w1 in C'. rewrite call_other in C' by assumption. exact C'.
  Qed.
  Lemma polynomial_inlined :
    (forall t t', inlined id hof names eb t t' -> polynomial w1 t -> polynomial w t') /\
    (forall l l', all_inlined id hof names eb l l' -> Forall (polynomial w1) l -> Forall (polynomial w) l').
  Proof.
    apply inlined_mutind.
    - constructor.
    - constructor.
    - intros op l l' r r' _ IHl Ir IHr P. inversion P; subst.
      + apply PO_plus; auto.
      + apply PO_minus; auto.
      + apply PO_times; auto.
      + inversion Ir; subst. apply PO_divide; auto.
      + inversion Ir; subst. apply PO_power; auto.
    - intros op a a' _ IH P. inversion P; subst; [apply PO_sign|apply PO_factorial]; auto.
    - intros g l l' N1 N2 I IH P. inversion P as [| | | | | | |g0 l0 Hg Ha Hpl| |]; subst. apply PO_call; [now apply tame_other| |auto].
      unfold SpecGrammar.arity_ok in *. assert (List.length l' = List.length l) as ->; [|exact Ha]. clear - I. induction I; cbn; congruence.
    - intros l l' _ _ IH P. inversion P as [| | | | | | |g0 l0 _ _ Hpl| |]; subst. specialize (IH Hpl). apply polynomial_substitute; [|exact Hp].
      intros y t E. rewrite Forall_forall in IH. apply IH. eapply assoc_In; eauto.
    - constructor.
    - intros a a' l l' _ IHa _ IHl P. inversion P; subst. constructor; auto.
  Qed.
End Transfer.

(** ** C101 *)
Definition defined_function (name : string) (id : nat) (names : list string) : function :=
  mk_function name (Dyn_user id) (Some (List.length names)).

Lemma bound_computes : forall cfg w inner names f id name, fair_order w -> obtained cfg w inner -> few_missing inner names ->
  bind_n cfg w inner names = Val (Bound f) ->
  computes w (with_user_fn w id (closure_fn f)) (defined_function name id names) names (root inner).
Proof.
  intros cfg w inner names f id name Hf Ho Hm Hb vs v L.
  destruct (C27_bound_functions_compute_meaning cfg w inner Hf Ho) as [_ [_ [_ [_ [_ [_ [_ [_ [_ HN]]]]]]]]].
  destruct (HN names f Hm Hb vs L) as [u [Hu Hmean]].
  assert (C : call_function (with_user_fn w id (closure_fn f)) (defined_function name id names) vs = Val u).
  { unfold call_function, call_ptr. cbn [fn_ptr defined_function with_user_fn user_fn]. rewrite Nat.eqb_refl. unfold closure_fn. now rewrite Hu. }
  rewrite C. split; intro H.
  - injection H as <-. exact Hmean.
  - now rewrite (means_det _ _ _ _ _ H Hmean).
Qed.

Lemma all_listed_few : forall inner names, (forall x, In x (vars inner) -> In x names) -> few_missing inner names.
Proof. intros inner names Hv m [_ Hm]. destruct m as [|v m]; [cbn; lia|]. exfalso. destruct (proj1 (Hm v) (or_introl eq_refl)) as [H1 H2]. auto. Qed.

Lemma tree_written_out : forall cfg w ctx0 inner names body bs id name,
  optimize cfg = false -> fair_order w -> defines cfg w ctx0 inner names body bs -> unused_id ctx0 id ->
  let ctx := with_fn ctx0 (defined_function name id names) in
  forall w' input ts x, fair_order w' -> tokens_of input ts -> clear_tokens ctx ts -> parse cfg w' ctx input = Parse_ok x ->
  exists ts' t', expands name names bs ts ts' /\ inlined id (defined_function name id names) names (root inner) (root x) t' /\
  (forall input', tokens_of input' ts' -> exists y, parse cfg w ctx0 input' = Parse_ok y /\ root y = t').
Proof.
  intros cfg w ctx0 inner names body bs id name Hopt Hf [Tb [Cb [Nb [Pb [Hn [Hnames Hv]]]]]] Hid ctx w' input ts x Hf' Ht Hc Hp.
  assert (Hinner := C17_vars_exact _ _ _ _ _ Pb).
  assert (Hfree : forall v, free v (root inner) -> In v names).
  { intros v H. apply Hv. apply (proj2 Hinner). now apply free_iff. }
  destruct (proj1 (C05_parser_decides_grammar cfg w ctx0 body bs (root inner) Hopt Hf Tb Cb) (ex_intro _ inner (conj Pb eq_refl))) as [Sb _].
  destruct (proj1 (C05_parser_decides_grammar cfg w' ctx input ts (root x) Hopt Hf' Ht Hc) (ex_intro _ x (conj Hp eq_refl))) as [Sx Dx].
  set (hof := defined_function name id names) in *.
  assert (Hsame : forall s, s <> name -> stands_for ctx s = stands_for ctx0 s).
  { intros s H. unfold stands_for, ctx, with_fn. cbn [ctx_symbols]. rewrite sget_sinsert. destruct (String.eqb_spec s (fn_name hof)); [contradiction|reflexivity]. }
  assert (Hname : stands_for ctx name = I_Function hof).
  { unfold stands_for, ctx, with_fn. cbn [ctx_symbols]. rewrite sget_sinsert. cbn [fn_name hof defined_function]. now rewrite String.eqb_refl. }
  assert (Hnew : forall s g, stands_for ctx0 s = I_Function g -> fn_ptr g <> Static_user id /\ fn_ptr g <> Dyn_user id).
  { intros s g H. unfold stands_for in H. destruct (sget s (ctx_symbols ctx0)) as [[v|h]|] eqn:E; [discriminate| |].
    - injection H as <-. exact (Hid _ _ E).
    - destruct (identifier_from_str_function _ _ H) as [b ->]. split; discriminate. }
  destruct (proj2 (proj2 (proj2 (proj2 (proj2 (proj2 (proj2
    (written_sentences (pejmdas cfg) ctx ctx0 id name hof names bs (root inner) Hsame Hname eq_refl Hnew Hnames Sb Cb Nb))))))) ts (root x) Sx) as [_ W].
  destruct (W Hc) as [ts' [t' [E [S' [I _]]]]].
  exists ts', t'. split; [exact E|]. split; [exact I|].
  assert (Hsub : forall v, occurs v t' -> occurs v (root x)).
  { intros v H. apply free_iff in H. apply free_iff. exact (proj1 (inlined_free id hof names (root inner) Hfree v) _ _ I H). }
  intros input' T'. apply (C05_sentences_are_accepted cfg w ctx0 input' ts' t' Hopt Hf T' S').
  intros s Hs v Ho. apply (Dx s); [exact Hs|]. now apply Hsub.
Qed.

(** The text of a function, read with the default build, is bound and registered
    under a name. A text that calls it, read with the default build, has the
    value that reading both without optimisation gives, if that is finite; and so
    has the text with the calls written out. *)
Theorem C101_modules : forall cfg cfg' w ctx0 inner names body bs id name,
  optimize cfg = true -> optimize cfg' = false -> pejmdas cfg = pejmdas cfg' ->
  fair_order w -> context_functions_return w ctx0 ->
  defines cfg' w ctx0 inner names body bs -> no_number_after_parenthesis bs -> unused_id ctx0 id ->
  polynomial w (root inner) -> (forall n, In n names -> In n (vars inner)) ->
  let h := defined_function name id names in
  let ctx := with_fn ctx0 h in
  exists f inner2 g,
  bind_n cfg' w inner names = Val (Bound f) /\
  parse cfg w ctx0 body = Parse_ok inner2 /\ bind_n cfg w inner2 names = Val (Bound g) /\
  let w1 := with_user_fn w id (closure_fn f) in
  let w2 := with_user_fn w id (closure_fn g) in
  tame w1 h /\
  forall input ts x, tokens_of input ts -> clear_tokens ctx ts -> no_number_after_parenthesis ts ->
  parse cfg' w1 ctx input = Parse_ok x -> polynomial w1 (root x) ->
  (exists y, parse cfg w2 ctx input = Parse_ok y /\
   forall rho v, eval w1 x rho = Val (Eval_ok v) -> is_finite v = true ->
     exists v', eval w2 y rho = Val (Eval_ok v') /\ feq v v' = true) /\
  exists ts', expands name names bs ts ts' /\
  forall input', tokens_of input' ts' -> clear_tokens ctx0 ts' -> no_number_after_parenthesis ts' ->
  exists z, parse cfg w ctx0 input' = Parse_ok z /\
   forall rho v, eval w1 x rho = Val (Eval_ok v) -> is_finite v = true ->
     exists v', eval w z rho = Val (Eval_ok v') /\ feq v v' = true.
Proof.
  intros cfg cfg' w ctx0 inner names body bs id name Ho Ho' Hpj Hf Hret D Hnb Hid P U h ctx.
  pose proof D as [Tb [Cb [Nb [Pb [Hn [Hnames Hv]]]]]].
  assert (Hinner := C17_vars_exact _ _ _ _ _ Pb).
  assert (Db : ~ has_double_bang body) by (intro K; apply (proj1 Cb); exact (double_bang_tokens _ _ Tb K)).
  destruct (C18_plain_accepted cfg cfg' w ctx0 body bs inner Ho Ho' Hpj Hf Hret Db Tb Hnb Pb) as [inner2 [Pb2 Sb2]].
  assert (Hinner2 := C17_vars_exact _ _ _ _ _ Pb2).
  assert (Hv2 : forall v, In v (vars inner2) -> In v names).
  { intros v H. apply Hv. apply (proj2 Hinner). apply (proj1 (simplified_occurs cfg w) _ _ Sb2). now apply (proj2 Hinner2). }
  pose proof (ob_parse cfg' w ctx0 body inner Hret Db Pb) as Ob. pose proof (ob_parse cfg w ctx0 body inner2 Hret Db Pb2) as Ob2.
  pose proof (all_listed_few _ _ Hv) as Few. pose proof (all_listed_few _ _ Hv2) as Few2.
  destruct (binds cfg' w ctx0 body inner names Hf Pb) as [f Hbf]; [intros v H; apply Hv; now apply (proj2 Hinner)|].
  destruct (binds cfg w ctx0 body inner2 names Hf Pb2) as [g Hbg]; [intros v H; apply Hv2; now apply (proj2 Hinner2)|].
  exists f, inner2, g. split; [exact Hbf|]. split; [exact Pb2|]. split; [exact Hbg|]. intros w1 w2.
  pose proof (bound_computes cfg' w inner names f id name Hf Ob Few Hbf) as C1. fold h w1 in C1.
  pose proof (bound_computes cfg w inner2 names g id name Hf Ob2 Few2 Hbg) as C2. fold h w2 in C2.
  assert (T1 : tame w1 h).
  { apply (defined_tame w w1 h names (root inner)); auto. intros n Hin. apply free_iff, (proj2 Hinner), U, Hin. }
  split; [exact T1|]. intros input ts x Ht Hc Hnn Px Pol.
  assert (Hsim : forall rho v, regular w rho (root inner) v -> exists v', means w rho (root inner2) v' /\ same_value v v').
  { intros rho v R. destruct (proj1 (simplified_from_preserves w rho cfg) _ _ Sb2 v R) as [v' [R' S']]. exists v'. split; [now apply regular_means|exact S']. }
  assert (Hf1 : fair_order w1) by exact Hf. assert (Hf2 : fair_order w2) by exact Hf.
  destruct (tree_written_out cfg' w ctx0 inner names body bs id name Ho' Hf D Hid w1 input ts x Hf1 Ht Hc Px) as [ts' [t' [E [I Acc]]]].
  fold h in I.
  assert (Dx : ~ has_double_bang input) by (intro K; apply (proj1 Hc); exact (double_bang_tokens _ _ Ht K)).
  split.
  - assert (Hret2 : context_functions_return w2 ctx).
    { intros s q Hq vs Hne Hlen. unfold ctx, with_fn in Hq. cbn [ctx_symbols] in Hq. rewrite sget_sinsert in Hq.
      destruct (String.eqb s (fn_name h)).
      - injection Hq as <-. assert (L : List.length vs = List.length names) by (apply Hlen; reflexivity).
        destruct (C27_bound_functions_compute_meaning cfg w inner2 Hf Ob2) as [_ [_ [_ [_ [_ [_ [_ [_ [_ HN]]]]]]]]].
        destruct (HN names g Few2 Hbg vs L) as [u [_ Hmean]]. exists u. now apply (C2 vs u L).
      - destruct (Hid _ _ Hq) as [N1 N2]. destruct (Hret _ _ Hq vs Hne Hlen) as [u Hu]. exists u. unfold w2. now rewrite call_other. }
    destruct (proj2 (C05_parser_decides_grammar cfg' w2 ctx input ts (root x) Ho' Hf2 Ht Hc)) as [x2 [Px2 Rx2]].
    { apply (proj1 (C05_parser_decides_grammar cfg' w1 ctx input ts (root x) Ho' Hf1 Ht Hc)). exists x. now split. }
    destruct (C18_plain_accepted cfg cfg' w2 ctx input ts x2 Ho Ho' Hpj Hf2 Hret2 Dx Ht Hnn Px2) as [y [Py Sy]].
    exists y. split; [exact Py|]. intros rho v Ev Fv. apply C21_eval_is_meaning in Ev.
    destruct (proj1 (transfer w id (closure_fn f) (closure_fn g) h names (root inner) (root inner2) eq_refl C1 C2 T1 P Hsim (lookup rho)) _ _ I Pol v Ev Fv) as [v1 [R1 S1]].
    rewrite Rx2 in Sy. destruct (proj1 (simplified_from_preserves w2 (lookup rho) cfg) _ _ Sy v1 R1) as [v2 [R2 S2]].
    exists v2. split; [apply C21_eval_is_meaning, regular_means, R2|]. apply finite_same; [exact Fv|]. eapply same_trans; eauto.
  - exists ts'. split; [exact E|]. intros input' T' C' N'. destruct (Acc input' T') as [y [Py Ry]].
    pose proof (proj1 (polynomial_inlined w id (closure_fn f) h names (root inner) P) _ _ I Pol) as Poly.
    destruct (C100_default_build cfg cfg' w ctx0 input' ts' y Ho Ho' Hpj Hf Hret T' C' N' Py) as [z [Pz [Vz _]]]; [now rewrite Ry|].
    exists z. split; [exact Pz|]. intros rho v Ev Fv. apply Vz; [|exact Fv]. apply C21_eval_is_meaning. rewrite Ry.
    apply (proj1 (inlined_means cfg' w inner names f id h Hf Ob Few Hbf eq_refl Hn (lookup rho)) _ _ I). now apply C21_eval_is_meaning.
Qed.

(** ** the conditions are met, and needed *)
Definition h_body : list token := [TId "a"; TSym "*"; TId "a"; TSym "+"; TNum "0"; TSym "*"; TId "b"; TSym "-"; TId "b"].
Definition h_tree : element :=
  BinOp Minus (BinOp Plus (BinOp Times (Var "a") (Var "a")) (BinOp Times (Number (lit "0")) (Var "b"))) (Var "b").

Example C101_witness : exists inner f inner2 g x y z,
  defines plain_config w0 ctx_default inner ["a"; "b"] "a*a + 0*b - b" h_body /\
  bind_n plain_config w0 inner ["a"; "b"] = Val (Bound f) /\
  parse default_config w0 ctx_default "a*a + 0*b - b" = Parse_ok inner2 /\ root inner2 <> root inner /\
  bind_n default_config w0 inner2 ["a"; "b"] = Val (Bound g) /\
  let ctx := with_fn ctx_default (defined_function "h" 7 ["a"; "b"]) in
  let w1 := with_user_fn w0 7 (closure_fn f) in
  let w2 := with_user_fn w0 7 (closure_fn g) in
  parse plain_config w1 ctx "h(x, h(1, y)) + 0*x" = Parse_ok x /\ polynomial w1 (root x) /\
  eval w1 x [("x", lit "3"); ("y", lit "4")] = Val (Eval_ok (lit "12")) /\
  parse default_config w2 ctx "h(x, h(1, y)) + 0*x" = Parse_ok y /\
  parse default_config w0 ctx_default "((x)*(x)+0*(((1)*(1)+0*(y)-(y)))-(((1)*(1)+0*(y)-(y))))+0*x" = Parse_ok z /\
  (exists v', eval w2 y [("x", lit "3"); ("y", lit "4")] = Val (Eval_ok v') /\ feq (lit "12") v' = true) /\
  (exists v', eval w0 z [("x", lit "3"); ("y", lit "4")] = Val (Eval_ok v') /\ feq (lit "12") v' = true).
Proof.
  set (ctx := with_fn ctx_default (defined_function "h" 7 ["a"; "b"])).
  set (rho := [("x", lit "3"); ("y", lit "4")]).
  destruct (parses_to (parse plain_config w0 ctx_default "a*a + 0*b - b") h_tree) as [inner [Hp Hr]]; [vm_compute; reflexivity|].
  assert (Hvars : forall v, In v (vars inner) <-> In v ["a"; "b"]).
  { intro v. rewrite (proj2 (C17_vars_exact _ _ _ _ _ Hp)), Hr, <- free_iff. cbn. intuition. }
  assert (D : defines plain_config w0 ctx_default inner ["a"; "b"] "a*a + 0*b - b" h_body).
  { split; [apply tokens_check; vm_compute; reflexivity|]. split; [apply clear_check; vm_compute; reflexivity|].
    split; [apply numbers_apart_check; reflexivity|]. split; [exact Hp|].
    split; [constructor; [cbn; intuition discriminate|constructor; [cbn; tauto|constructor]]|].
    split; [intros n [<-|[<-|[]]]; reflexivity|]. intros v H. now apply Hvars. }
  assert (U : unused_id ctx_default 7) by (intros s g H; discriminate H).
  assert (Nn : forall ts, adjacent_b (fun a b => match a, b with TSym c, TNum _ => Ascii.eqb c ")" | _, _ => false end) ts = false -> no_number_after_parenthesis ts).
  { intros ts H. eapply adjacent_check; [|exact H]. intros a b [-> [s ->]]. reflexivity. }
  assert (P : polynomial w0 (root inner)) by (rewrite Hr; unfold h_tree; repeat constructor).
  destruct (C101_modules default_config plain_config w0 ctx_default inner ["a"; "b"] _ _ 7 "h" eq_refl eq_refl eq_refl w0_fair (default_context_returns w0) D
    (Nn h_body eq_refl) U P (fun n Hn => proj2 (Hvars n) Hn)) as [f [inner2 [g [Hbf [Hp2 [Hbg [T1 W]]]]]]].
  fold ctx in W.
  set (w1 := with_user_fn w0 7 (closure_fn f)) in *. set (w2 := with_user_fn w0 7 (closure_fn g)) in *.
  set (h := defined_function "h" 7 ["a"; "b"]) in *.
  destruct (parses_to (parse plain_config w1 ctx "h(x, h(1, y)) + 0*x")
    (BinOp Plus (Call h [Var "x"; Call h [Number (lit "1"); Var "y"]]) (BinOp Times (Number (lit "0")) (Var "x")))) as [x [Hx Rx]]; [vm_compute; reflexivity|].
  assert (Pol : polynomial w1 (root x)).
  { rewrite Rx. apply PO_plus; [|repeat constructor]. apply PO_call; [exact T1|reflexivity|]. repeat (apply Forall_cons || apply Forall_nil); [constructor|].
    apply PO_call; [exact T1|reflexivity|]. repeat constructor. }
  set (ts := [TId "h"; TSym "("; TId "x"; TSym ","; TId "h"; TSym "("; TNum "1"; TSym ","; TId "y"; TSym ")"; TSym ")"; TSym "+"; TNum "0"; TSym "*"; TId "x"]).
  set (call := [TSym "("; TSym "("; TNum "1"; TSym ")"; TSym "*"; TSym "("; TNum "1"; TSym ")"; TSym "+"; TNum "0"; TSym "*"; TSym "("; TId "y"; TSym ")"; TSym "-"; TSym "("; TId "y"; TSym ")"; TSym ")"]).
  set (us := (TSym "(" :: written_out ["a"; "b"] [[TId "x"]; call] h_body ++ TSym ")" :: [TSym "+"; TNum "0"; TSym "*"; TId "x"])%list).
  assert (E : expands "h" ["a"; "b"] h_body ts us).
  { apply (expands_here _ _ _ [[TId "x"]; [TId "h"; TSym "("; TNum "1"; TSym ","; TId "y"; TSym ")"]]
      [[TId "x"]; call] [TSym "+"; TNum "0"; TSym "*"; TId "x"] [TSym "+"; TNum "0"; TSym "*"; TId "x"]); [| |reflexivity|reflexivity|reflexivity].
    - apply EX_more; [apply EX_keep; [discriminate|constructor]|]. apply EX_more; [|constructor].
      apply (expands_here _ _ _ [[TNum "1"]; [TId "y"]] [[TNum "1"]; [TId "y"]] [] []); [| |reflexivity|reflexivity|reflexivity]; [|constructor].
      apply EX_more; [apply EX_keep; [discriminate|constructor]|]. apply EX_more; [apply EX_keep; [discriminate|constructor]|constructor].
    - repeat (apply EX_keep; [discriminate|]). constructor. }
  assert (Ht : tokens_of "h(x, h(1, y)) + 0*x" ts) by (apply tokens_check; vm_compute; reflexivity).
  assert (Hc : clear_tokens ctx ts) by (apply clear_check; vm_compute; reflexivity).
  assert (Tu : tokens_of "((x)*(x)+0*(((1)*(1)+0*(y)-(y)))-(((1)*(1)+0*(y)-(y))))+0*x" us) by (apply tokens_check; vm_compute; reflexivity).
  assert (Ev : eval w1 x rho = Val (Eval_ok (lit "12"))).
  { destruct (C99_written_out plain_config w0 ctx_default inner ["a"; "b"] _ _ 7 "h" eq_refl w0_fair (default_context_returns w0) D U) as [f' [Hbf' W']].
    assert (f' = f) as -> by congruence. fold w1 in W'. destruct (W' _ ts x Ht Hc Hx) as [ts' [_ [Eu V]]]. rewrite <- (Eu _ E) in V.
    destruct (V _ Tu) as [y [Py [_ [_ Ey]]]]. apply Ey; [intros n Hn; now apply Hvars|]. apply eval_check.
    assert (K : ok_and (parse plain_config w0 ctx_default "((x)*(x)+0*(((1)*(1)+0*(y)-(y)))-(((1)*(1)+0*(y)-(y))))+0*x") (fun y => is_val (eval_element_unchecked w0 rho (root y)) (lit "12")) = true) by (vm_compute; reflexivity).
    rewrite Py in K. exact K. }
  destruct (W _ ts x Ht Hc (Nn ts eq_refl) Hx Pol) as [[y [Py Vy]] [ts' [E' Z]]].
  rewrite (proj1 (expands_unique "h" ["a"; "b"] h_body) _ _ E' _ E) in Z.
  destruct (Z _ Tu) as [z [Pz Vz]]; [apply clear_check; vm_compute; reflexivity|apply Nn; reflexivity|].
  assert (F : is_finite (lit "12") = true) by (vm_compute; reflexivity).
  exists inner, f, inner2, g, x, y, z. split; [exact D|]. split; [exact Hbf|]. split; [exact Hp2|]. split.
  { intro K. assert (B : ok_and (parse default_config w0 ctx_default "a*a + 0*b - b") (fun y => negb (Nat.eqb (SimplifyFacts.size (root y)) (SimplifyFacts.size h_tree))) = true) by (vm_compute; reflexivity).
    rewrite Hp2 in B. cbn [ok_and] in B. rewrite K, Hr, Nat.eqb_refl in B. discriminate B. }
  split; [exact Hbg|]. split; [exact Hx|]. split; [exact Pol|]. split; [exact Ev|]. split; [exact Py|]. split; [exact Pz|].
  split; [exact (Vy rho _ Ev F)|exact (Vz rho _ Ev F)].
Qed.

(** With a remainder in the body the two builds differ. *)
Theorem C101_remainder_refuted : exists inner f inner2 g x y,
  defines plain_config w0 ctx_default inner ["a"] "a%1" [TId "a"; TSym "%"; TNum "1"] /\
  bind_n plain_config w0 inner ["a"] = Val (Bound f) /\
  parse default_config w0 ctx_default "a%1" = Parse_ok inner2 /\ bind_n default_config w0 inner2 ["a"] = Val (Bound g) /\
  let ctx := with_fn ctx_default (defined_function "h" 7 ["a"]) in
  parse plain_config (with_user_fn w0 7 (closure_fn f)) ctx "h(x)" = Parse_ok x /\
  eval (with_user_fn w0 7 (closure_fn f)) x [("x", lit "2.5")] = Val (Eval_ok (lit "0.5")) /\
  parse default_config (with_user_fn w0 7 (closure_fn g)) ctx "h(x)" = Parse_ok y /\
  eval (with_user_fn w0 7 (closure_fn g)) y [("x", lit "2.5")] = Val (Eval_ok fzero).
Proof.
  set (h := defined_function "h" 7 ["a"]).
  destruct (parses_to (parse plain_config w0 ctx_default "a%1") (BinOp Modulo (Var "a") (Number (lit "1")))) as [inner [Hp Hr]]; [vm_compute; reflexivity|].
  destruct (parses_to (parse default_config w0 ctx_default "a%1") (Number fzero)) as [inner2 [Hp2 Hr2]]; [vm_compute; reflexivity|].
  assert (Hv : forall v, In v (vars inner) -> In v ["a"]).
  { intro v. rewrite (proj2 (C17_vars_exact _ _ _ _ _ Hp)), Hr, <- free_iff. cbn. intuition. }
  assert (Hv2 : forall v, In v (vars inner2) -> In v ["a"]).
  { intro v. rewrite (proj2 (C17_vars_exact _ _ _ _ _ Hp2)), Hr2, <- free_iff. cbn. intuition. }
  destruct (binds plain_config w0 ctx_default "a%1" inner ["a"] w0_fair Hp) as [f Hbf]; [intros v H; now apply Hv, (proj2 (C17_vars_exact _ _ _ _ _ Hp))|].
  destruct (binds default_config w0 ctx_default "a%1" inner2 ["a"] w0_fair Hp2) as [g Hbg]; [intros v H; now apply Hv2, (proj2 (C17_vars_exact _ _ _ _ _ Hp2))|].
  assert (Db : ~ has_double_bang "a%1") by (apply no_double_bang_check; vm_compute; reflexivity).
  pose proof (bound_computes plain_config w0 inner ["a"] f 7 "h" w0_fair (ob_parse _ _ _ _ _ (default_context_returns w0) Db Hp) (all_listed_few _ _ Hv) Hbf) as C1.
  pose proof (bound_computes default_config w0 inner2 ["a"] g 7 "h" w0_fair (ob_parse _ _ _ _ _ (default_context_returns w0) Db Hp2) (all_listed_few _ _ Hv2) Hbg) as C2.
  fold h in C1, C2.
  destruct (parses_to (parse plain_config (with_user_fn w0 7 (closure_fn f)) (with_fn ctx_default h) "h(x)") (Call h [Var "x"])) as [x [Hx Rx]]; [vm_compute; reflexivity|].
  destruct (parses_to (parse default_config (with_user_fn w0 7 (closure_fn g)) (with_fn ctx_default h) "h(x)") (Call h [Var "x"])) as [y [Hy Ry]]; [vm_compute; reflexivity|].
  exists inner, f, inner2, g, x, y. split.
  - split; [apply tokens_check; vm_compute; reflexivity|]. split; [apply clear_check; vm_compute; reflexivity|].
    split; [apply numbers_apart_check; reflexivity|]. split; [exact Hp|]. split; [constructor; [cbn; tauto|constructor]|].
    split; [intros n [<-|[]]; reflexivity|exact Hv].
  - split; [exact Hbf|]. split; [exact Hp2|]. split; [exact Hbg|]. split; [exact Hx|]. split; [|split; [exact Hy|]].
    + apply C21_eval_is_meaning. rewrite Rx. apply M_call with [lit "2.5"]; [repeat constructor|]. apply (C1 [lit "2.5"]); [reflexivity|]. rewrite Hr.
      replace (lit "0.5") with (frem (lit "2.5") (lit "1")); [constructor; constructor; reflexivity|]. apply same_f64_eq. vm_compute. reflexivity.
    + apply C21_eval_is_meaning. rewrite Ry. apply M_call with [lit "2.5"]; [repeat constructor|]. apply (C2 [lit "2.5"]); [reflexivity|]. rewrite Hr2. constructor.
Qed.
