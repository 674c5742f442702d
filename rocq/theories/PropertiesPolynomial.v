(** * C100: sums and products keep their values *)
From Coq Require Import ZArith NArith List String Ascii Bool Lia Permutation.
From Flocq Require Import BinarySingleNaN.
From Verif Require Import SpecChars CharFacts.
From Verif Require Import F64 Syntax Factorial Builtins Context Element Parser Xprs.
From Verif Require Import FloatFacts ParserFacts SpecParse ParserInv SpecTree TreeFacts SpecApi ParserResults SpecTokens SpecGrammar SpecRegular SpecPolynomial.
From Verif Require LawsFacts.
From Verif Require Import RegularFacts TokenFacts LexFacts LexExec GrammarFacts GrammarEquiv.
From Verif Require Import TestWorld PropertiesParse PropertiesGrammar PropertiesEval PropertiesEq PropertiesSimplify PropertiesOptimise PropertiesOrder PropertiesDefault.
Import ListNotations.
Local Open Scope string_scope.

Lemma add_finite : forall a b : f64, is_finite (fadd a b) = true -> is_finite a = true /\ is_finite b = true.
Proof. intros a b H. destruct a as [s|s| |s m e B], b as [s'|s'| |s' m' e' B']; try discriminate H; try (split; reflexivity). destruct s, s'; discriminate H. Qed.
Lemma sub_finite : forall a b : f64, is_finite (fsub a b) = true -> is_finite a = true /\ is_finite b = true.
Proof. intros a b H. destruct a as [s|s| |s m e B], b as [s'|s'| |s' m' e' B']; try discriminate H; try (split; reflexivity). destruct s, s'; discriminate H. Qed.
Lemma mul_finite : forall a b : f64, is_finite (fmul a b) = true -> is_finite a = true /\ is_finite b = true.
Proof. intros a b H. destruct a as [s|s| |s m e B], b as [s'|s'| |s' m' e' B']; try discriminate H; split; reflexivity. Qed.
Lemma div_finite : forall a c : f64, is_finite c = true -> feq c fzero = false -> is_finite (fdiv a c) = true -> is_finite a = true.
Proof. intros a c C Z H. destruct a as [s|s| |s m e B], c as [s'|s'| |s' m' e' B']; try discriminate; reflexivity. Qed.
Lemma neg_finite : forall a : f64, is_finite (fneg a) = true -> is_finite a = true.
Proof. intros [s|s| |s m e B] H; try discriminate H; reflexivity. Qed.
Lemma factorial_finite : forall a : f64, is_finite (factorial a) = true -> is_finite a = true.
Proof. intros [s|s| |s m e B] H; try reflexivity; exfalso; [destruct s|]; vm_compute in H; discriminate H. Qed.

(** all that a finite value is computed from is finite *)
Lemma polynomial_regular : forall w rho e, polynomial w e -> forall v, means w rho e v -> is_finite v = true -> regular w rho e v.
Proof.
  intros w rho e. induction e as [n|op l r IHl IHr|op e IHe|f args Hargs|y] using element_ind'; intros H v M F.
  - inversion M; subst. constructor.
  - inversion H as [| |l0 r0 Hl Hr|l0 r0 Hl Hr|l0 r0 Hl Hr|l0 c Hl C Z|l0 c Hw Hl C P| | |]; subst; inversion M; subst.
    + destruct (add_finite _ _ F) as [A B]. apply (RG_bin w rho Plus); [now apply IHl|now apply IHr|now split].
    + destruct (sub_finite _ _ F) as [A B]. apply (RG_bin w rho Minus); [now apply IHl|now apply IHr|now split].
    + destruct (mul_finite _ _ F) as [A B]. apply (RG_bin w rho Times); [now apply IHl|now apply IHr|now split].
    + match goal with K : means _ _ (Number c) _ |- _ => inversion K; subst end. pose proof (div_finite _ _ C Z F) as A.
      apply (RG_bin w rho Divide); [now apply IHl|constructor|]. split; [exact A|]. split; [exact C|]. intros [s ->]. destruct s; discriminate Z.
    + match goal with K : means _ _ (Number c) _ |- _ => inversion K; subst end. destruct (Hw a b C P) as [_ [A _]].
      apply (RG_bin w rho Power); [now apply IHl, A|constructor|]. cbn. split; [|split].
      * intros [s ->]. destruct s; discriminate P.
      * intros _ z Hz. now apply (Hw z b C P).
      * intros _ _. now apply (Hw a b C P).
  - inversion H as [| | | | | | | |op0 e0 Hop He|e0 He]; subst.
    + destruct Hop as [-> | ->]; inversion M; subst; constructor; apply IHe; auto using neg_finite.
    + inversion M; subst. constructor. apply IHe; auto using factorial_finite.
  - inversion H as [| | | | | | |f0 args0 Hf Ha Hp| |]; subst. inversion M as [| | | | | | | | | | |f1 args1 vs v1 Hm Hc]; subst.
    assert (Len : List.length vs = List.length args) by (clear - Hm; induction Hm; cbn; auto).
    destruct (Hf vs v) as [Hz Hfin]; [revert Ha; unfold SpecGrammar.arity_ok; destruct (fn_nb_args f); [intros; congruence|auto]|exact Hc|]. specialize (Hfin F).
    apply RG_call with vs; [|intros _; exact Hz|exact Hc]. clear - Hargs Hp Hm Hfin.
    induction Hm as [|a args v vs Ha Hm IH]; [constructor|]. inversion Hargs; subst. inversion Hp; subst. inversion Hfin; subst. constructor; auto.
  - inversion M; subst. now constructor.
Qed.

(** ** texts of sums and products *)
Lemma plain_split : forall w ctx ts, Forall (plain_token w ctx) ts -> forall u t v, ts = (u ++ t :: v)%list -> plain_token w ctx t.
Proof. intros w ctx ts H u t v ->. rewrite Forall_forall in H. apply H, in_elt. Qed.

Definition reads (w : world) (ctx : context) (ts : list token) (t : element) : Prop :=
  forall whole pre post, plain_text w ctx whole -> whole = (pre ++ ts ++ post)%list -> polynomial w t.

Definition reads_all (w : world) (ctx : context) (ts : list token) (l : list element) : Prop :=
  forall whole pre post, plain_text w ctx whole -> whole = (pre ++ ts ++ post)%list -> Forall (polynomial w) l.

Ltac place := repeat rewrite <- app_assoc; cbn [app]; repeat rewrite <- app_assoc; reflexivity.
Ltac not_plain P := cbn in P; repeat (destruct P as [P|P]; [discriminate P|]); exact P.

(** a factor that starts with a number is that number, or goes on with something else than an end *)
Definition leads (ts : list token) (t : element) : Prop :=
  ts <> [] /\ forall s r, ts = TNum s :: r ->
    (r = [] /\ exists c, literal_value s = Some c /\ t = Number c) \/ exists t0 r', r = t0 :: r' /\ ~ ends_factor (t0 :: r').

Lemma leads_more : forall ts t ts' t', leads ts t -> ts' <> [] -> ~ ends_factor ts' -> leads (ts ++ ts')%list t'.
Proof.
  intros ts t ts' t' [N L] N' E'. split; [now destruct ts|]. intros s r E. destruct ts as [|a ts]; [congruence|]. cbn in E. injection E as -> <-.
  right. destruct (L s ts eq_refl) as [[-> _]|[t0 [r' [-> H]]]].
  - destruct ts' as [|t0 r']; [congruence|]. eexists _, _. split; [reflexivity|exact E'].
  - eexists _, _. split; [reflexivity|exact H].
Qed.

Ltac no_end := cbn; intuition discriminate.

Lemma follows_no_end : forall l ts, may_follow l ts -> ~ ends_factor ts.
Proof. intros l [|[s|s|c] ts] H; [destruct H| | |]; cbn in *; try (intuition discriminate). subst c. intuition discriminate. Qed.

Lemma leading_number : forall pj ctx,
  (forall ts t, prim pj ctx ts t -> leads ts t) /\
  (forall ts l, args_of pj ctx ts l -> True) /\
  (forall ts t, postfix pj ctx ts t -> leads ts t) /\
  (forall ts t, power pj ctx ts t -> leads ts t) /\
  (forall ts t, signed pj ctx ts t -> leads ts t) /\
  (forall ts t, factor pj ctx ts t -> leads ts t) /\
  (forall ts t, term pj ctx ts t -> True) /\
  (forall ts t, sum pj ctx ts t -> True).
Proof.
  intros pj ctx. apply sentence_mutind; try (intros; exact I); auto.
  - intros s v L. split; [discriminate|]. intros s' r E. injection E as <- <-. left. eauto.
  - split; [discriminate|]. intros s' r E. discriminate E.
  - split; [discriminate|]. intros s' r E. discriminate E.
  - split; [discriminate|]. intros s' r E. discriminate E.
  - split; [discriminate|]. intros s' r E. discriminate E.
  - intros ts t _ H. eapply leads_more; [exact H|discriminate|no_end].
  - intros ts l ts' r _ H _ _. eapply leads_more; [exact H|discriminate|no_end].
  - split; [discriminate|]. intros s' r E. discriminate E.
  - intros ts l c op ts' t _ H _ _ _. eapply leads_more; [exact H|discriminate|no_end].
  - intros ts l ts' r _ _ H _ [N _] M. eapply leads_more; [exact H|exact N|exact (follows_no_end _ _ M)].
Qed.

Lemma plain_sentences : forall w pj ctx,
  (forall ts t, prim pj ctx ts t -> reads w ctx ts t) /\
  (forall ts l, args_of pj ctx ts l -> reads_all w ctx ts l) /\
  (forall ts t, postfix pj ctx ts t -> reads w ctx ts t) /\
  (forall ts t, power pj ctx ts t -> reads w ctx ts t) /\
  (forall ts t, signed pj ctx ts t -> reads w ctx ts t) /\
  (forall ts t, factor pj ctx ts t -> reads w ctx ts t) /\
  (forall ts t, term pj ctx ts t -> reads w ctx ts t) /\
  (forall ts t, sum pj ctx ts t -> reads w ctx ts t).
Proof.
  intros w pj ctx. apply sentence_mutind; unfold reads, reads_all.
  - intros. constructor.
  - intros. constructor.
  - intros. constructor.
  - intros s f ts args E _ IH A whole pre post H W. apply PO_call; [|exact A|].
    + apply (plain_split _ _ _ (proj1 H) pre (TId s) ((TSym "(" :: ts ++ [TSym ")"]) ++ post)%list W f E).
    + apply (IH _ (pre ++ [TId s; TSym "("])%list (TSym ")" :: post) H). rewrite W. place.
  - intros ts t _ IH whole pre post H ->. apply (IH _ (pre ++ [TSym "("])%list (TSym ")" :: post) H). place.
  - intros ts t _ IH whole pre post H W. constructor; [|constructor]. now apply (IH _ pre post H).
  - intros ts t ts' l _ IH _ IHl whole pre post H ->. constructor; [apply (IH _ pre (TSym "," :: ts' ++ post) H)|apply (IHl _ (pre ++ ts ++ [TSym ","])%list post H)]; place.
  - auto.
  - intros ts t _ IH whole pre post H ->. apply PO_factorial. apply (IH _ pre (TSym "!" :: post) H). place.
  - auto.
  - intros ts l ts' r _ IHl Hr _ whole pre post H W.
    destruct (proj2 (proj2 H) (pre ++ ts)%list (ts' ++ post)%list) as [Hw [s [c [r0 [E [L [F [P N]]]]]]]]; [rewrite W; place|].
    assert (r = Number c) as ->.
    { inversion Hr as [ts0 t0 Hp|ts0 t0 Hp]; subst; inversion Hp; subst; cbn in E; try discriminate E; injection E as -> E.
      - congruence.
      - exfalso. apply (N post). now symmetry. }
    apply PO_power; auto. apply (IHl _ pre (TSym "^" :: ts' ++ post) H). rewrite W. place.
  - auto.
  - intros c op ts t O _ IH whole pre post H ->. apply PO_sign; [destruct O as [[_ ->]|[_ ->]]; auto|].
    apply (IH _ (pre ++ [TSym c])%list post H). place.
  - intros ts l c op ts' t _ _ _ _ _ whole pre post H W. exfalso.
    destruct (proj2 (proj2 H) (pre ++ ts)%list (TSym c :: ts' ++ post)%list) as [_ [s [c0 [r0 [E _]]]]]; [rewrite W; place|discriminate E].
  - auto.
  - intros ts l ts' r _ _ IHl _ IHr _ whole pre post H ->. apply PO_times; [apply (IHl _ pre (ts' ++ post)%list H)|apply (IHr _ (pre ++ ts)%list post H)]; place.
  - auto.
  - intros ts l c op ts' r _ IHl O Hr IHr whole pre post H W.
    assert (P : plain_token w ctx (TSym c)) by (apply (plain_split _ _ _ (proj1 H) (pre ++ ts)%list (TSym c) (ts' ++ post)%list); rewrite W; place).
    destruct O as [[_ ->]|[[-> ->]|[-> _]]]; [| |exfalso; not_plain P].
    2:{ destruct (proj1 (proj2 H) (pre ++ ts)%list (ts' ++ post)%list) as [s [c [r0 [E [L [F [Z N]]]]]]]; [rewrite W; place|].
        assert (r = Number c) as ->.
        { destruct (proj1 (proj2 (proj2 (proj2 (proj2 (proj2 (leading_number pj ctx)))))) _ _ Hr) as [Ne Le].
          destruct ts' as [|a ts']; [congruence|]. cbn in E. injection E as -> <-.
          destruct (Le s ts' eq_refl) as [[_ [c' [L' ->]]]|[t0 [r' [-> K]]]]; [congruence|]. exfalso. apply K. exact N. }
        apply PO_divide; auto. apply (IHl _ pre (TSym "/" :: ts' ++ post)%list H). rewrite W. place. }
    apply PO_times; [apply (IHl _ pre (TSym c :: ts' ++ post)%list H)|apply (IHr _ (pre ++ ts ++ [TSym c])%list post H)]; rewrite W; place.
  - intros ts l ts' r _ _ IHl _ IHr _ whole pre post H ->. apply PO_times; [apply (IHl _ pre (ts' ++ post)%list H)|apply (IHr _ (pre ++ ts)%list post H)]; place.
  - auto.
  - intros ts l c op ts' r _ IHl O _ IHr whole pre post H W.
    destruct O as [[_ ->]|[_ ->]]; [apply PO_plus|apply PO_minus];
      first [apply (IHl _ pre (TSym c :: ts' ++ post)%list H); rewrite W; place|apply (IHr _ (pre ++ ts ++ [TSym c])%list post H); rewrite W; place].
Qed.

(** Such a text is read as such an expression. *)
Theorem C100_text : forall cfg w ctx input ts x,
  optimize cfg = false -> tokens_of input ts -> clear_tokens ctx ts -> plain_text w ctx ts ->
  parse cfg w ctx input = Parse_ok x -> polynomial w (root x).
Proof.
  intros cfg w ctx input ts x Ho Ht Hc Hp Hx. pose proof (C04_accepted_texts_are_sentences cfg w ctx input ts x Ho Ht Hc Hx) as S.
  apply (proj2 (proj2 (proj2 (proj2 (proj2 (proj2 (proj2 (plain_sentences w (pejmdas cfg) ctx))))))) _ _ S ts [] []%list Hp). cbn. now rewrite app_nil_r.
Qed.


(** ** Tame functions *)
Lemma wrap1_tame : forall w b (g : f64 -> f64), fn_nb_args (builtin_function b) = Some 1 ->
  (forall vs, call_builtin w b vs = wrap1 g vs) ->
  (forall a a', same_value a a' -> same_value (g a) (g a')) -> (forall a, is_finite (g a) = true -> is_finite a = true) ->
  tame w (builtin_function b).
Proof.
  intros w b g N E S F vs v L C. rewrite N in L. destruct vs as [|a [|]]; try discriminate L.
  change (call_builtin w b [a] = Val v) in C. rewrite E in C. cbn in C. injection C as <-. split.
  - intros vs' v Z C. change (call_builtin w b [a] = Val v) in C. rewrite E in C. cbn in C. injection C as <-.
    inversion Z as [|? a' ? r H Hr]; subst. inversion Hr; subst. exists (g a'). split; [change (call_builtin w b [a'] = Val (g a')); now rewrite E|].
    apply same_value_iff, S, same_value_iff, H.
  - intro H. repeat constructor. now apply F.
Qed.

Lemma zero_same : forall g : f64 -> f64, (forall s, is_zero (g (B754_zero s))) -> forall a a', same_value a a' -> same_value (g a) (g a').
Proof. intros g Z a a' H. apply same_value_iff in H. destruct H as [->|[[s ->] [s' ->]]]; [apply same_value_refl|]. apply same_value_iff. right. auto. Qed.

Lemma fold_fadd_finite : forall l a, is_finite (fold_left fadd l a) = true -> is_finite a = true /\ Forall (fun a => is_finite a = true) l.
Proof.
  induction l as [|b l IH]; intros a H; [now split|]. cbn in H. destruct (IH _ H) as [A B]. destruct (add_finite _ _ A). split; [|constructor]; auto.
Qed.
Lemma sum_same : forall w vs vs', Forall2 equal_or_zeros vs vs' -> same_value (sum_f64 w vs) (sum_f64 w vs').
Proof. intros w vs vs' H. apply LawsFacts.sum_fold_same; [now apply equal_or_zeros_all|apply same_value_refl]. Qed.
Lemma nearby_finite : forall m (a : f64), is_finite (Bnearbyint (prec := prec64) (emax := emax64) m a) = true -> is_finite a = true.
Proof. intros m [s|s| |s k e B] H; try reflexivity; discriminate H. Qed.
Lemma div_finite_l : forall a c : f64, is_finite (fdiv a c) = true -> is_finite a = true.
Proof. intros a c H. destruct a as [s|s| |s m e B], c as [s'|s'| |s' m' e' B']; try discriminate; reflexivity. Qed.

(** These built-in functions are tame whatever libm does. *)
Theorem C100_tame_functions : forall w b,
  In b [B_SQRT; B_ABS; B_FLOOR; B_CEIL; B_ROUND; B_TRUNC; B_FRACT; B_FACTORIAL; B_SUM; B_MEAN] -> tame w (builtin_function b).
Proof.
  intros w b H. repeat destruct H as [<-|H]; [..|destruct H].
  - apply (wrap1_tame w B_SQRT fsqrt); auto; [apply zero_same; intros s; eexists; reflexivity|].
    intros [s|s| |s m e B] H; try reflexivity; first [discriminate H|destruct s; discriminate H].
  - apply (wrap1_tame w B_ABS fabs); auto; [apply zero_same; intros s; eexists; reflexivity|].
    intros [s|s| |s m e B] H; try reflexivity; discriminate H.
  - apply (wrap1_tame w B_FLOOR ffloor); auto; [apply zero_same; intros s; eexists; reflexivity|intros a; apply nearby_finite].
  - apply (wrap1_tame w B_CEIL fceil); auto; [apply zero_same; intros s; eexists; reflexivity|intros a; apply nearby_finite].
  - apply (wrap1_tame w B_ROUND fround); auto; [apply zero_same; intros s; eexists; reflexivity|intros a; apply nearby_finite].
  - apply (wrap1_tame w B_TRUNC ftrunc); auto; [apply zero_same; intros s; eexists; reflexivity|intros a; apply nearby_finite].
  - apply (wrap1_tame w B_FRACT ffract); auto.
    + apply zero_same; intros [|]; eexists; reflexivity.
    + intros a H. now destruct (sub_finite _ _ H).
  - apply (wrap1_tame w B_FACTORIAL factorial); auto using factorial_same, factorial_finite.
  - intros vs v _ C. injection C as <-. split.
    + intros vs' v Z C. injection C as <-. eexists. split; [reflexivity|]. apply same_value_iff, sum_same, Z.
    + intro H. now apply fold_fadd_finite in H.
  - intros vs v _ C. injection C as <-. split.
    + intros vs' v Z C. injection C as <-. eexists. split; [reflexivity|]. apply same_value_iff.
      apply fdiv_same; [apply sum_same, Z|f_equal; f_equal; clear - Z; induction Z; cbn; congruence].
    + intro H. assert (K : is_finite (sum_f64 w vs) = true); [|now apply fold_fadd_finite in K].
      exact (div_finite_l _ _ H).
Qed.

(** ** values *)
Lemma finite_same : forall a b : f64, is_finite a = true -> same_value a b -> feq a b = true.
Proof. intros a b F [H|[H _]]; [exact H|]. destruct a; discriminate. Qed.

Lemma stages_total : forall cfg w l x, obtained cfg w x -> exists z, simplify_for_multiple cfg w x l = Val z.
Proof.
  assert (H : forall cfg w l x, obtained cfg w x -> exists z, steps cfg w x l z).
  { intros cfg w l. induction l as [|[n v] l IH]; intros x O; [eexists; constructor|].
    destruct (C31_simplify_for_total cfg w x n v O) as [x1 [E [O1 _]]]. destruct (IH x1 O1) as [z Z]. exists z. econstructor; eauto. }
  intros cfg w l x O. destruct (H cfg w l x O) as [z Z]. exists z. now apply C32_multiple_is_iteration.
Qed.

(** Replacing variables by numbers early does not change a finite value. *)
Theorem C100_stages : forall cfg w x l z rho v, polynomial w (root x) ->
  simplify_for_multiple cfg w x l = Val z ->
  eval w x (l ++ rho)%list = Val (Eval_ok v) -> is_finite v = true ->
  exists v', eval w z rho = Val (Eval_ok v') /\ feq v v' = true.
Proof.
  intros cfg w x l z rho v P Z E F. apply C21_eval_is_meaning in E. pose proof (polynomial_regular _ _ _ P _ E F) as R.
  destruct (C30_simplify_for_multiple_value cfg w x l z rho (l ++ rho)%list v (lookup_app l rho) Z R) as [_ [v' [E' S]]].
  exists v'. split; [exact E'|now apply finite_same].
Qed.

(** Nor does reading the text with the default build, nor both. *)
Theorem C100_default_build : forall cfg cfg' w ctx input ts x,
  optimize cfg = true -> optimize cfg' = false -> pejmdas cfg = pejmdas cfg' ->
  fair_order w -> context_functions_return w ctx ->
  tokens_of input ts -> clear_tokens ctx ts -> no_number_after_parenthesis ts ->
  parse cfg' w ctx input = Parse_ok x -> polynomial w (root x) ->
  exists y, parse cfg w ctx input = Parse_ok y /\
  (forall rho v, eval w x rho = Val (Eval_ok v) -> is_finite v = true ->
     exists v', eval w y rho = Val (Eval_ok v') /\ feq v v' = true) /\
  forall l, exists z, simplify_for_multiple cfg w y l = Val z /\
  forall rho v, eval w x (l ++ rho)%list = Val (Eval_ok v) -> is_finite v = true ->
     exists v', eval w z rho = Val (Eval_ok v') /\ feq v v' = true.
Proof.
  intros cfg cfg' w ctx input ts x Ho Ho' Hp Hf Hc Ht Hcl Hn Hx P.
  assert (D : ~ has_double_bang input) by (intro D; apply (proj1 Hcl); exact (double_bang_tokens _ _ Ht D)).
  destruct (C18_plain_accepted cfg cfg' w ctx input ts x Ho Ho' Hp Hf Hc D Ht Hn Hx) as [y [Hy S]].
  assert (Go : forall rho v, means w rho (root x) v -> is_finite v = true -> exists v', regular w rho (root y) v' /\ same_value v v').
  { intros rho v E F. exact (proj1 (simplified_from_preserves w rho cfg) _ _ S v (polynomial_regular _ _ _ P _ E F)). }
  exists y. split; [exact Hy|]. split.
  - intros rho v E F. apply C21_eval_is_meaning in E. destruct (Go _ _ E F) as [v' [R V]]. exists v'.
    split; [apply C21_eval_is_meaning, regular_means, R|now apply finite_same].
  - intro l. destruct (stages_total cfg w l y) as [z Z]; [exact (ob_parse cfg w ctx input y Hc D Hy)|]. exists z. split; [exact Z|].
    intros rho v E F. apply C21_eval_is_meaning in E. destruct (Go _ _ E F) as [v1 [R V]].
    destruct (C30_simplify_for_multiple_value cfg w y l z rho (l ++ rho)%list v1 (lookup_app l rho) Z R) as [_ [v' [E' S']]].
    exists v'. split; [exact E'|]. apply finite_same; [exact F|]. eapply same_trans; eauto.
Qed.

(** ** the conditions are met, and needed *)
(** a world with a power function: squares are squares *)
Definition w_square : world :=
  let f := fun x : f64 => x in
  let g := fun x y : f64 => if feq y (fadd fone fone) then fmul x x else x in
  mk_world f f f f f f f f f f f f g f f f f g g f false false (fun s => s) (fun id args => None).
Lemma w_square_fair : fair_order w_square.
Proof. intro s. apply Permutation_refl. Qed.
Lemma w_square_powers : powers_as_usual w_square.
Proof.
  intros a c _ _. change (l_powf w_square a c) with (if feq c (fadd fone fone) then fmul a a else a).
  change (l_powf w_square a fone) with (if feq fone (fadd fone fone) then fmul a a else a).
  replace (feq fone (fadd fone fone)) with false by (vm_compute; reflexivity).
  destruct (feq c (fadd fone fone)); [|auto].
  split; [|split; [|reflexivity]].
  - intros [s ->]. destruct s; eexists; reflexivity.
  - intro F. now destruct (mul_finite _ _ F).
Qed.
Lemma literal_lit : forall t, (if literal_value t then true else false) = true -> literal_value t = Some (lit t).
Proof. intros t H. unfold lit. fold (literal_value t). destruct (literal_value t); [reflexivity|discriminate H]. Qed.

Ltac find_in E u fin :=
  repeat (destruct u as [|? u]; [cbn [app] in E; injection E; intros; subst; first [discriminate|eexists; split; [reflexivity|fin]]|cbn [app] in E; injection E as _ E]);
  destruct u; discriminate E.

Example C100_witness : exists ts x y z,
  tokens_of "x^2/4 - 2x + 0*y - (y - 3)! + abs(x*0 - 1)" ts /\ clear_tokens ctx_default ts /\ no_number_after_parenthesis ts /\
  plain_text w_square ctx_default ts /\
  parse plain_config w_square ctx_default "x^2/4 - 2x + 0*y - (y - 3)! + abs(x*0 - 1)" = Parse_ok x /\ polynomial w_square (root x) /\
  eval w_square x [("y", lit "6"); ("x", lit "12")] = Val (Eval_ok (lit "7")) /\
  parse default_config w_square ctx_default "x^2/4 - 2x + 0*y - (y - 3)! + abs(x*0 - 1)" = Parse_ok y /\ root y <> root x /\
  simplify_for_multiple default_config w_square y [("y", lit "6")] = Val z /\
  exists v', eval w_square z [("x", lit "12")] = Val (Eval_ok v') /\ feq (lit "7") v' = true.
Proof.
  set (input := "x^2/4 - 2x + 0*y - (y - 3)! + abs(x*0 - 1)").
  set (ts := [TId "x"; TSym "^"; TNum "2"; TSym "/"; TNum "4"; TSym "-"; TNum "2"; TId "x"; TSym "+"; TNum "0"; TSym "*"; TId "y"; TSym "-"; TSym "("; TId "y"; TSym "-"; TNum "3"; TSym ")"; TSym "!"; TSym "+"; TId "abs"; TSym "("; TId "x"; TSym "*"; TNum "0"; TSym "-"; TNum "1"; TSym ")"]).
  assert (Ht : tokens_of input ts) by (apply tokens_check; vm_compute; reflexivity).
  assert (Hc : clear_tokens ctx_default ts) by (apply clear_check; vm_compute; reflexivity).
  assert (Hn : no_number_after_parenthesis ts).
  { apply (adjacent_check (fun a b => match a, b with TSym c, TNum _ => Ascii.eqb c ")" | _, _ => false end)); [|vm_compute; reflexivity].
    intros a b [-> [s ->]]. reflexivity. }
  assert (Hp : plain_text w_square ctx_default ts).
  { split.
    - unfold ts. repeat (apply Forall_cons; [cbn; first [exact I|tauto|intros f K; vm_compute in K; first [discriminate K|injection K as <-; apply (C100_tame_functions w_square B_ABS); cbn; tauto]]|]). constructor.
    - split; intros u v E.
      + assert (V : exists r, v = TNum "4" :: r /\ ends_factor r).
        { unfold ts in E. find_in E u ltac:(cbn; tauto). }
        destruct V as [r [-> N]]. exists "4", (lit "4"), r. split; [reflexivity|]. split; [|split; [vm_compute; reflexivity|split; [vm_compute; reflexivity|exact N]]].
        apply literal_lit. vm_compute. reflexivity.
      + split; [exact w_square_powers|].
        assert (V : exists r, v = TNum "2" :: r /\ forall r', r <> TSym "!" :: r').
        { unfold ts in E. find_in E u ltac:(discriminate). }
        destruct V as [r [-> N]]. exists "2", (lit "2"), r. split; [reflexivity|]. split; [|split; [vm_compute; reflexivity|split; [vm_compute; reflexivity|exact N]]].
        apply literal_lit. vm_compute. reflexivity. }
  destruct (parses_ok (parse plain_config w_square ctx_default input)) as [x Hx]; [vm_compute; reflexivity|].
  pose proof (C100_text plain_config w_square ctx_default input ts x eq_refl Ht Hc Hp Hx) as P.
  destruct (C100_default_build default_config plain_config w_square ctx_default input ts x eq_refl eq_refl eq_refl w_square_fair (default_context_returns w_square) Ht Hc Hn Hx P)
    as [y [Hy [_ St]]]. destruct (St [("y", lit "6")]) as [z [Hz Ev]]. clear St.
  assert (E : eval w_square x [("y", lit "6"); ("x", lit "12")] = Val (Eval_ok (lit "7"))).
  { apply eval_check.
    assert (K : ok_and (parse plain_config w_square ctx_default input) (fun x => is_val (eval_element_unchecked w_square [("y", lit "6"); ("x", lit "12")] (root x)) (lit "7")) = true) by (vm_compute; reflexivity).
    rewrite Hx in K. exact K. }
  exists ts, x, y, z. split; [exact Ht|]. split; [exact Hc|]. split; [exact Hn|]. split; [exact Hp|]. split; [exact Hx|]. split; [exact P|].
  split; [exact E|]. split; [exact Hy|]. split.
  { intro K. assert (B : ok_and (parse default_config w_square ctx_default input) (fun y => ok_and (parse plain_config w_square ctx_default input) (fun x => negb (Nat.eqb (SimplifyFacts.size (root y)) (SimplifyFacts.size (root x))))) = true) by (vm_compute; reflexivity).
    rewrite Hx, Hy in B. cbn [ok_and] in B. rewrite K, Nat.eqb_refl in B. discriminate B. }
  split; [exact Hz|]. apply (Ev [("x", lit "12")] (lit "7") E). vm_compute. reflexivity.
Qed.

(** A value that is not finite can change, and so can a finite one if the text
    takes remainders or a minimum; the sign of a zero can change too. *)
Theorem C100_conditions_needed :
  values_differ w0 "0*x" [("x", finf)] fnan fzero /\
  values_differ w0 "x%1" [("x", lit "2.5")] (lit "0.5") fzero /\
  values_differ w0 "min(1, 0*x)" [("x", finf)] fone fzero /\
  (exists x y, parse plain_config w0 ctx_default "0 + x" = Parse_ok x /\ parse default_config w0 ctx_default "0 + x" = Parse_ok y /\
     polynomial w0 (root x) /\ eval w0 x [("x", fneg fzero)] = Val (Eval_ok fzero) /\ eval w0 y [("x", fneg fzero)] = Val (Eval_ok (fneg fzero)) /\ fzero <> fneg fzero).
Proof.
  split; [apply differ_check; vm_compute; reflexivity|]. split; [apply differ_check; vm_compute; reflexivity|]. split; [apply differ_check; vm_compute; reflexivity|].
  destruct (parses_to (parse plain_config w0 ctx_default "0 + x") (BinOp Plus (Number fzero) (Var "x"))) as [x [Hx Ex]]; [vm_compute; reflexivity|].
  destruct (parses_to (parse default_config w0 ctx_default "0 + x") (Var "x")) as [y [Hy Ey]]; [vm_compute; reflexivity|].
  exists x, y. split; [exact Hx|]. split; [exact Hy|]. unfold eval. rewrite Ex, Ey. split; [repeat constructor|].
  split; [apply eval_check; vm_compute; reflexivity|]. split; [apply eval_check; vm_compute; reflexivity|discriminate].
Qed.
