(** * C106: bounds in, bounds out *)
From Coq Require Import ZArith NArith List String Ascii Bool Lia Reals Lra.
From Flocq Require Import Core BinarySingleNaN.
From Verif Require Import F64 Syntax Factorial Builtins Context Element Parser Xprs.
From Verif Require Import SpecParse SpecTree SpecApi SpecMonotone SpecBounds SpecPolynomial FloatFacts TreeFacts SpecRegular SpecTokens SpecGrammar SpecialFacts.
From Verif Require Import RegularFacts LexExec GrammarFacts PropertiesEval PropertiesEq PropertiesArith PropertiesNumeric PropertiesOptimise PropertiesDefault MonotoneFacts LawsFacts TestWorld PropertiesParse PropertiesOrder PropertiesPolynomial.
Import ListNotations.
Local Open Scope R_scope.

(** ** Numbers between two finite ones *)
Definition inside (lo hi v : f64) : Prop := is_finite v = true /\ toR lo <= toR v <= toR hi.
Lemma fin_nan : forall v : f64, is_finite v = true -> is_nan v = false.
Proof. intros [s|s| |s m e H] F; try discriminate; reflexivity. Qed.
Lemma inside_at_most : forall lo hi v, is_finite lo = true -> is_finite hi = true -> inside lo hi v <-> is_finite v = true /\ at_most lo v /\ at_most v hi.
Proof.
  intros lo hi v F G. unfold inside. rewrite !at_most_toR. split.
  - intros [Fv [A B]]. repeat split; auto using fin_nan.
  - intros [Fv [[_ [_ A]] [_ [_ B]]]]. auto.
Qed.
Lemma at_most_inside : forall lo hi v, is_finite lo = true -> is_finite hi = true -> at_most lo v -> at_most v hi -> inside lo hi v.
Proof.
  intros lo hi v F G A B. apply at_most_toR in A, B. destruct A as [_ [N A]], B as [_ [_ B]]. split; [|auto].
  pose proof (finite_range lo F). pose proof (finite_range hi G). destruct (finite_or_inf _ N) as [|[s ->]]; [auto|exfalso].
  destruct s; [change (toR (B754_infinity true)) with (- big) in *|change (toR (B754_infinity false)) with big in *]; lra.
Qed.
Lemma squeeze : forall lo hi v, is_finite lo = true -> is_finite hi = true -> is_nan v = false -> toR lo <= toR v <= toR hi -> inside lo hi v.
Proof.
  intros lo hi v F G N [A B]. apply at_most_inside; auto; apply at_most_toR; auto using fin_nan.
Qed.

Lemma corners : forall a b c d x y : R, a <= x <= b -> c <= y <= d ->
  (exists p, In p [a * c; a * d; b * c; b * d] /\ p <= x * y) /\ (exists q, In q [a * c; a * d; b * c; b * d] /\ x * y <= q).
Proof.
  intros a b c d x y [Ha Hb] [Hc Hd]. split.
  - destruct (Rle_or_lt 0 y) as [Y|Y].
    + destruct (Rle_or_lt 0 a) as [A|A]; [exists (a * c)|exists (a * d)]; (split; [cbn; tauto|]); nra.
    + destruct (Rle_or_lt 0 b) as [B|B]; [exists (b * c)|exists (b * d)]; (split; [cbn; tauto|]); nra.
  - destruct (Rle_or_lt 0 y) as [Y|Y].
    + destruct (Rle_or_lt 0 b) as [B|B]; [exists (b * d)|exists (b * c)]; (split; [cbn; tauto|]); nra.
    + destruct (Rle_or_lt 0 a) as [A|A]; [exists (a * d)|exists (a * c)]; (split; [cbn; tauto|]); nra.
Qed.
Lemma times_inside : forall a b c d lo hi x y, is_finite a = true -> is_finite b = true -> is_finite c = true -> is_finite d = true ->
  all_between lo hi [fmul a c; fmul a d; fmul b c; fmul b d] -> inside a b x -> inside c d y -> inside lo hi (fmul x y).
Proof.
  intros a b c d lo hi x y Fa Fb Fc Fd [Fl [Fh C]] [Fx Hx] [Fy Hy]. apply squeeze; auto; [now apply finite_mul_nan|].
  rewrite !toR_finite in Hx, Hy by auto. rewrite toR_mul by auto.
  destruct (corners _ _ _ _ _ _ Hx Hy) as [[p [Ip Lp]] [q [Iq Lq]]]. apply rnd64_le, clamp_le in Lp. apply rnd64_le, clamp_le in Lq.
  assert (K : forall u v r, is_finite u = true -> is_finite v = true -> In (fmul u v) [fmul a c; fmul a d; fmul b c; fmul b d] -> r = B2R u * B2R v ->
    toR lo <= clamp (rnd64 r) <= toR hi).
  { intros u v r Fu Fv I ->. rewrite <- toR_mul by auto. destruct (C _ I) as [A B]. apply at_most_toR in A, B. tauto. }
  assert (P : forall r, In r [B2R a * B2R c; B2R a * B2R d; B2R b * B2R c; B2R b * B2R d] -> toR lo <= clamp (rnd64 r) <= toR hi).
  { intros r [E|[E|[E|[E|[]]]]]; [apply (K a c)|apply (K a d)|apply (K b c)|apply (K b d)]; auto; cbn; tauto. }
  pose proof (P p Ip). pose proof (P q Iq). lra.
Qed.
Lemma divide_inside : forall a b c d lo hi x y, is_finite a = true -> is_finite b = true -> is_finite c = true -> is_finite d = true ->
  below fzero c \/ below d fzero ->
  all_between lo hi [fdiv a c; fdiv a d; fdiv b c; fdiv b d] -> inside a b x -> inside c d y -> inside lo hi (fdiv x y) /\ ~ is_zero y.
Proof.
  intros a b c d lo hi x y Fa Fb Fc Fd Z [Fl [Fh C]] [Fx Hx] [Fy Hy].
  rewrite !toR_finite in Hx, Hy by auto.
  assert (Z' : 0 < B2R c \/ B2R d < 0).
  { destruct Z as [Z|Z]; apply below_toR in Z; destruct Z as [_ [_ Z]]; rewrite toR_finite in Z by auto; [left|right]; rewrite toR_finite in Z by auto; exact Z. }
  assert (Ny : B2R y <> 0) by (destruct Z'; lra).
  split; [|intros [s ->]; now apply Ny].
  assert (Hi : / B2R d <= / B2R y <= / B2R c).
  { destruct Z' as [Z'|Z'].
    - split; apply Rinv_le_contravar; lra.
    - assert (Q : forall u v, u <= v -> v < 0 -> / v <= / u).
      { intros u v L N. apply Ropp_le_cancel. rewrite !Ropp_inv_permute by lra. apply Rinv_le_contravar; lra. }
      split; apply Q; lra. }
  apply squeeze; auto; [now apply div_nan_finite|]. rewrite toR_div by auto. unfold Rdiv.
  destruct (corners _ _ _ _ _ _ Hx Hi) as [[p [Ip Lp]] [q [Iq Lq]]]. apply rnd64_le, clamp_le in Lp. apply rnd64_le, clamp_le in Lq.
  assert (K : forall u v r, is_finite u = true -> is_finite v = true -> B2R v <> 0 -> In (fdiv u v) [fdiv a c; fdiv a d; fdiv b c; fdiv b d] -> r = B2R u * / B2R v ->
    toR lo <= clamp (rnd64 r) <= toR hi).
  { intros u v r Fu Fv Nv I ->. change (B2R u * / B2R v) with (B2R u / B2R v). rewrite <- toR_div by auto. destruct (C _ I) as [A B]. apply at_most_toR in A, B. tauto. }
  assert (Nc : B2R c <> 0) by (destruct Z'; lra). assert (Nd : B2R d <> 0) by (destruct Z'; lra).
  assert (P : forall r, In r [B2R a * / B2R d; B2R a * / B2R c; B2R b * / B2R d; B2R b * / B2R c] -> toR lo <= clamp (rnd64 r) <= toR hi).
  { intros r [E|[E|[E|[E|[]]]]]; [apply (K a d)|apply (K a c)|apply (K b d)|apply (K b c)]; auto; cbn; tauto. }
  pose proof (P p Ip). pose proof (P q Iq). lra.
Qed.

(** ** min and max do not tell +0 from -0 *)
Lemma same_toR : forall a b, equal_or_zeros a b -> toR a = toR b /\ is_nan a = is_nan b.
Proof. intros a b [->|[[s ->] [t ->]]]; [auto|]. split; reflexivity. Qed.
Lemma zeros_back : forall l l', Forall2 equal_or_zeros l l' -> forall v, In v l -> exists v', In v' l' /\ equal_or_zeros v v'.
Proof. induction 1 as [|a b l l' H Hl IH]; intros v []; [subst; exists b; cbn; auto|]. destruct (IH v H0) as [v' [I E]]. exists v'. cbn; auto. Qed.
Lemma zeros_forth : forall l l', Forall2 equal_or_zeros l l' -> forall v', In v' l' -> exists v, In v l /\ equal_or_zeros v v'.
Proof. induction 1 as [|a b l l' H Hl IH]; intros v []; [subst; exists a; cbn; auto|]. destruct (IH v H0) as [v' [I E]]. exists v'. cbn; auto. Qed.
Lemma min_value : forall w vs, vs <> [] -> (forall u, In u vs -> is_nan u = false) ->
  exists m, call_function w (builtin_function B_MIN) vs = Val m /\ In m vs /\ forall u, In u vs -> toR m <= toR u.
Proof.
  intros w vs N A. destruct (C46_min w vs) as [m [E [I [Nm L]]]].
  { destruct vs as [|u vs]; [now elim N|]. exists u. split; [now left|apply A; now left]. }
  exists m. split; [exact E|]. split; [exact I|]. intros u Iu. specialize (L u Iu).
  destruct (Rle_or_lt (toR m) (toR u)) as [|G]; [auto|]. apply flt_toR in G; [congruence|apply A, Iu|exact Nm].
Qed.
Lemma max_value : forall w vs, vs <> [] -> (forall u, In u vs -> is_nan u = false) ->
  exists m, call_function w (builtin_function B_MAX) vs = Val m /\ In m vs /\ forall u, In u vs -> toR u <= toR m.
Proof.
  intros w vs N A. destruct (C46_max w vs) as [m [E [I [Nm L]]]].
  { destruct vs as [|u vs]; [now elim N|]. exists u. split; [now left|apply A; now left]. }
  exists m. split; [exact E|]. split; [exact I|]. intros u Iu. specialize (L u Iu).
  destruct (Rle_or_lt (toR u) (toR m)) as [|G]; [auto|]. apply flt_toR in G; [congruence|exact Nm|apply A, Iu].
Qed.
Lemma extremes_same : forall w f vs, f = B_MIN \/ f = B_MAX -> vs <> [] -> (forall u, In u vs -> is_nan u = false) -> same_for_both_zeros w (builtin_function f) vs.
Proof.
  intros w f vs Hf N A vs' v Z E.
  assert (N' : vs' <> []) by (destruct Z; [now elim N|discriminate]).
  assert (A' : forall u, In u vs' -> is_nan u = false).
  { intros u Iu. destruct (zeros_forth _ _ Z u Iu) as [x [Ix Ex]]. rewrite <- (proj2 (same_toR _ _ Ex)). auto. }
  destruct Hf as [-> | ->].
  - destruct (min_value w vs N A) as [m [E1 [I1 L1]]], (min_value w vs' N' A') as [m' [E2 [I2 L2]]]. rewrite E1 in E. injection E as <-.
    exists m'. split; [exact E2|]. apply same_value_iff. apply toR_same; auto.
    destruct (zeros_back _ _ Z m I1) as [x [Ix Ex]], (zeros_forth _ _ Z m' I2) as [y [Iy Ey]].
    pose proof (L2 x Ix). pose proof (L1 y Iy). pose proof (proj1 (same_toR _ _ Ex)). pose proof (proj1 (same_toR _ _ Ey)). lra.
  - destruct (max_value w vs N A) as [m [E1 [I1 L1]]], (max_value w vs' N' A') as [m' [E2 [I2 L2]]]. rewrite E1 in E. injection E as <-.
    exists m'. split; [exact E2|]. apply same_value_iff. apply toR_same; auto.
    destruct (zeros_back _ _ Z m I1) as [x [Ix Ex]], (zeros_forth _ _ Z m' I2) as [y [Iy Ey]].
    pose proof (L2 x Ix). pose proof (L1 y Iy). pose proof (proj1 (same_toR _ _ Ex)). pose proof (proj1 (same_toR _ _ Ey)). lra.
Qed.

(** ** The calculus *)
Section Bounds.
  Variables (w : world) (box : string -> option (f64 * f64)) (rho : string -> option f64).
  Hypothesis B : values_in box rho.

  Lemma collect : forall (P : element -> f64 -> Prop) args, (forall a, In a args -> exists v, regular w rho a v /\ P a v) ->
    exists vs, regular_all w rho args vs /\ Forall2 P args vs.
  Proof.
    intros P. induction args as [|a args IH]; intro H; [exists []; split; constructor|].
    destruct (H a (or_introl eq_refl)) as [v [R Q]]. destruct IH as [vs [Rs Qs]]; [intros b Hb; apply H; now right|].
    exists (v :: vs). split; now constructor.
  Qed.
  Lemma call1 : forall b g e u, fn_nb_args (builtin_function b) = Some 1%nat -> tame w (builtin_function b) ->
    (forall x, call_function w (builtin_function b) [x] = Val (g x)) -> regular w rho e u -> regular w rho (Call (builtin_function b) [e]) (g u).
  Proof.
    intros b g e u N T E R. apply RG_call with (vs := [u]); [constructor; [exact R|constructor]| |apply E].
    intros _. apply (proj1 (T [u] (g u) ltac:(now rewrite N) (E u))).
  Qed.
  Lemma forall2_in : forall A C (P : A -> C -> Prop) l m, Forall2 P l m -> forall c, In c m -> exists a, In a l /\ P a c.
  Proof. induction 1 as [|a c l m H Hl IH]; intros x []; [subst; exists a; cbn; auto|]. destruct (IH x H0) as [y [I E]]. exists y. cbn; auto. Qed.
  Lemma forall2_in_l : forall A C (P : A -> C -> Prop) l m, Forall2 P l m -> forall a, In a l -> exists c, In c m /\ P a c.
  Proof. induction 1 as [|a c l m H Hl IH]; intros x []; [subst; exists c; cbn; auto|]. destruct (IH x H0) as [y [I E]]. exists y. cbn; auto. Qed.

  Lemma sum_nan : forall l a, is_finite a = true -> (forall u, In u l -> is_finite u = true) -> 
    forall lo hi, is_finite (fold_left fadd lo a) = true -> is_finite (fold_left fadd hi a) = true ->
    all2 go2 lo l -> all2 go2 l hi -> forall z, is_finite z = true -> toR z = toR a ->
    is_finite (fold_left fadd l z) = true /\ toR (fold_left fadd lo a) <= toR (fold_left fadd l z) <= toR (fold_left fadd hi a).
  Proof.
    intros l a Fa Fl lo hi Flo Fhi Hlo Hhi z Fz Ez.
    assert (G : forall l al ah z lo hi, (forall u, In u l -> is_finite u = true) -> is_finite (fold_left fadd lo al) = true -> is_finite (fold_left fadd hi ah) = true ->
      all2 go2 lo l -> all2 go2 l hi -> is_finite z = true -> toR al <= toR z <= toR ah ->
      is_finite (fold_left fadd l z) = true /\ toR (fold_left fadd lo al) <= toR (fold_left fadd l z) <= toR (fold_left fadd hi ah)).
    { clear. induction l as [|u l IH]; intros al ah z lo hi Fl Flo Fhi Hlo Hhi Fz Ez; inversion Hlo as [|p ? lo' ? [Np [Nu Lp]] Hlo']; inversion Hhi as [|? q ? hi' [_ [Nq Lq]] Hhi']; subst; cbn [fold_left] in *; [auto|].
      assert (Fu : is_finite u = true) by (apply Fl; now left).
      destruct (fold_fadd_finite _ _ Flo) as [F1 _]. destruct (fold_fadd_finite _ _ Fhi) as [F2 _].
      apply IH; auto; [intros x Hx; apply Fl; now right| |].
      - apply (at_most_inside (fadd al p) (fadd ah q)); auto; apply at_most_toR; (split; [auto using fin_nan, finite_add_nan|split; [auto using fin_nan, finite_add_nan|]]);
          apply add_le; auto using fin_nan, finite_add_nan; lra.
      - split; apply add_le; auto using fin_nan, finite_add_nan; lra. }
    apply G; auto. lra.
  Qed.

  Lemma bounded_value : forall e lo hi, bounded w box e lo hi ->
    is_finite lo = true /\ is_finite hi = true /\ exists v, regular w rho e v /\ inside lo hi v.
  Proof.
    induction 1 as [v F|x a b Hx Fa Fb|e a b lo hi H [F1 [F2 [u [R I]]]] [Fl [Fh C]]
      |l r a b c d H1 [Fa [Fb [u [Ru [Fu Lu]]]]] H2 [Fc [Fd [v [Rv [Fv Lv]]]]] F1 F2
      |l r a b c d H1 [Fa [Fb [u [Ru [Fu Lu]]]]] H2 [Fc [Fd [v [Rv [Fv Lv]]]]] F1 F2
      |l r a b c d lo hi H1 [Fa [Fb [u [Ru Iu]]]] H2 [Fc [Fd [v [Rv Iv]]]] K
      |l r a b c d lo hi H1 [Fa [Fb [u [Ru Iu]]]] H2 [Fc [Fd [v [Rv Iv]]]] Z K
      |e a b H [Fa [Fb [u [Ru [Fu Lu]]]]]|e a b H [Fa [Fb [u [Ru [Fu Lu]]]]]|f g e a b H [Fa [Fb [u [Ru [Fu Lu]]]]] Hf
      |e a b H [Fa [Fb [u [Ru [Fu Lu]]]]] S|e a b hi H [Fa [Fb [u [Ru [Fu Lu]]]]] [Fl [Fh C]]|e a b H [Fa [Fb [u [Ru [Fu Lu]]]]] S
      |args one lo hi up Io H1 [Fl [Fh [u [Ru Iu]]]] H IH|args one lo hi low Io H1 [Fl [Fh [u [Ru Iu]]]] H IH|args low up H IH F1 F2|f args low up lo hi H IH F1 F2 K].
    - repeat split; auto. exists v. split; [constructor|]. split; [exact F|lra].
    - repeat split; auto. destruct (B x a b Hx) as [v [E [L1 L2]]]. exists v. split; [now constructor|]. now apply at_most_inside.
    - repeat split; auto. exists u. split; [exact R|]. destruct I as [Fu Lu]. split; [exact Fu|].
      destruct (C a ltac:(cbn; auto)) as [A _], (C b ltac:(cbn; auto)) as [_ A']. apply at_most_toR in A, A'. lra.
    - repeat split; auto. exists (fadd u v). split; [apply (RG_bin _ _ Plus); auto; now split|].
      apply squeeze; auto using finite_add_nan. split; apply add_le; auto using fin_nan, finite_add_nan; lra.
    - repeat split; auto. exists (fsub u v). split; [apply (RG_bin _ _ Minus); auto; now split|].
      apply squeeze; auto using finite_sub_nan. rewrite !fsub_fneg in *.
      assert (NN : forall p, is_finite p = true -> is_finite (fneg p) = true) by (intros p Hp; now rewrite fin_fneg).
      split; apply add_le; auto using fin_nan, finite_add_nan; rewrite ?toR_fneg; lra.
    - destruct (K) as [Fl [Fh _]]. repeat split; auto. exists (fmul u v). split; [apply (RG_bin _ _ Times); auto; destruct Iu, Iv; now split|].
      exact (times_inside a b c d lo hi u v Fa Fb Fc Fd K Iu Iv).
    - destruct (K) as [Fl [Fh _]]. repeat split; auto. exists (fdiv u v).
      destruct (divide_inside a b c d lo hi u v Fa Fb Fc Fd Z K Iu Iv) as [I NZ].
      split; [apply (RG_bin _ _ Divide); auto; destruct Iu, Iv; now repeat split|exact I].
    - repeat split; auto. exists u. split; [now constructor|now split].
    - rewrite !fin_fneg. repeat split; auto. exists (fneg u). split; [now constructor|]. split; [now rewrite fin_fneg|]. rewrite !toR_fneg. lra.
    - assert (E : exists md, g = (fun x => Bnearbyint md x) /\ (forall x, call_function w (builtin_function f) [x] = Val (g x)) /\
        fn_nb_args (builtin_function f) = Some 1%nat /\ tame w (builtin_function f)).
      { cbn in Hf. destruct Hf as [Hf|[Hf|[Hf|[Hf|[]]]]]; injection Hf as <- <-;
          [exists mode_DN|exists mode_UP|exists mode_NA|exists mode_ZR]; (split; [reflexivity|]; split; [reflexivity|]; split; [reflexivity|]); apply C100_tame_functions; cbn; tauto. }
      destruct E as [md [Eg [Ec [En Et]]]].
      assert (FF : forall x, is_finite x = true -> is_finite (g x) = true) by (intros x Fx; rewrite Eg; now apply nearbyint_finite).
      assert (RR : rises g) by (rewrite Eg; apply rises_nearbyint).
      repeat split; auto. exists (g u). split; [now apply call1|]. split; [auto|]. split; apply RR; auto using fin_nan; lra.
    - assert (FF : forall x, is_finite x = true -> 0 <= toR x -> is_finite (fsqrt x) = true).
      { intros [s|s| |[] m e0 B0] Fx Lx; try discriminate; auto.
        - exfalso. assert (N : B2R (B754_finite true m e0 B0 : f64) < 0) by (apply F2R_lt_0; reflexivity). cbn [toR] in Lx. lra.
        - destruct (Bsqrt_correct prec64 emax64 Hprec64 Hmax64 mode_NE (B754_finite false m e0 B0)) as [_ [G _]]. exact G. }
      apply at_most_toR in S. destruct S as [_ [_ S]]. change (toR fzero) with 0 in S.
      repeat split; [apply FF; auto|apply FF; auto; lra|]. exists (fsqrt u).
      split; [apply call1; auto; apply C100_tame_functions; cbn; tauto|]. split; [apply FF; auto; lra|].
      split; apply rises_sqrt; try lra; apply fin_nan; try assumption; (apply FF; [assumption|lra]).
    - repeat split; auto. exists (fabs u). split; [apply call1; auto; apply C100_tame_functions; cbn; tauto|].
      assert (Fabs : is_finite (fabs u) = true) by (now destruct u).
      split; [exact Fabs|]. destruct (C (fabs a) ltac:(cbn; auto)) as [_ A], (C (fabs b) ltac:(cbn; auto)) as [_ A']. apply at_most_toR in A, A'.
      destruct A as [_ [_ A]], A' as [_ [_ A']]. rewrite toR_fabs in *. change (toR fzero) with 0. split; [apply Rabs_pos|].
      destruct Lu as [Lu1 Lu2]. unfold Rabs in *. destruct (Rcase_abs (toR u)), (Rcase_abs (toR a)), (Rcase_abs (toR b)); lra.
    - repeat split; auto. exists (fabs u). split; [apply call1; auto; apply C100_tame_functions; cbn; tauto|].
      assert (Fabs : is_finite (fabs u) = true) by (now destruct u). split; [exact Fabs|]. apply at_most_toR in S. destruct S as [_ [_ S]].
      change (toR fzero) with 0 in S. rewrite toR_fabs, Rabs_pos_eq by lra. exact Lu.
    - repeat split; auto. destruct (collect (fun a v => regular w rho a v /\ inside lo (up a) v) args) as [vs [Rs Qs]].
      { intros a Ia. destruct (IH a Ia) as [_ [_ [v [X Y]]]]. exists v. auto. }
      assert (A : forall x, In x vs -> is_finite x = true /\ toR lo <= toR x).
      { intros x Ix. destruct (forall2_in _ _ _ _ _ Qs x Ix) as [a [_ [_ [Fx [L _]]]]]. auto. }
      assert (N : vs <> []) by (destruct Qs; [destruct Io|discriminate]).
      destruct (min_value w vs N) as [m [E [Im Lm]]]; [intros x Ix; apply fin_nan; now apply A|].
      exists m. split.
      + apply RG_call with (vs := vs); [exact Rs| |exact E]. intros _. apply extremes_same; auto. intros x Ix. apply fin_nan. now apply A.
      + destruct (A m Im) as [Fm Lo]. split; [exact Fm|]. split; [exact Lo|].
        destruct (forall2_in_l _ _ _ _ _ Qs one Io) as [x [Ix [Rx _]]]. rewrite (regular_det _ _ _ _ _ Rx Ru) in Ix.
        destruct Iu as [_ [_ Lu]]. pose proof (Lm u Ix). lra.
    - repeat split; auto. destruct (collect (fun a v => regular w rho a v /\ inside (low a) hi v) args) as [vs [Rs Qs]].
      { intros a Ia. destruct (IH a Ia) as [_ [_ [v [X Y]]]]. exists v. auto. }
      assert (A : forall x, In x vs -> is_finite x = true /\ toR x <= toR hi).
      { intros x Ix. destruct (forall2_in _ _ _ _ _ Qs x Ix) as [a [_ [_ [Fx [_ L]]]]]. auto. }
      assert (N : vs <> []) by (destruct Qs; [destruct Io|discriminate]).
      destruct (max_value w vs N) as [m [E [Im Lm]]]; [intros x Ix; apply fin_nan; now apply A|].
      exists m. split.
      + apply RG_call with (vs := vs); [exact Rs| |exact E]. intros _. apply extremes_same; auto. intros x Ix. apply fin_nan. now apply A.
      + destruct (A m Im) as [Fm Hi]. split; [exact Fm|]. split; [|exact Hi].
        destruct (forall2_in_l _ _ _ _ _ Qs one Io) as [x [Ix [Rx _]]]. rewrite (regular_det _ _ _ _ _ Rx Ru) in Ix.
        destruct Iu as [_ [Lu _]]. pose proof (Lm u Ix). lra.
    - repeat split; auto. destruct (collect (fun a v => go2 (low a) v /\ go2 v (up a) /\ is_finite v = true) args) as [vs [Rs Qs]].
      { intros a Ia. destruct (IH a Ia) as [G1 [G2 [v [X [Fv [Y1 Y2]]]]]]. exists v. unfold go2. auto 10 using fin_nan. }
      exists (sum_f64 w vs). split.
      + apply RG_call with (vs := vs); [exact Rs| |reflexivity]. intros _. refine (proj1 (C100_tame_functions w B_SUM _ vs _ _ eq_refl)); [cbn; tauto|exact I].
      + unfold sum_f64. apply sum_nan; auto.
        * intros x Ix. destruct (forall2_in _ _ _ _ _ Qs x Ix) as [a [_ [_ [_ Fx]]]]. exact Fx.
        * clear - Qs; induction Qs as [|? ? ? ? [? [? ?]]]; constructor; auto.
        * clear - Qs; induction Qs as [|? ? ? ? [? [? ?]]]; constructor; auto.
        * now destruct (sum_neg_zero w).
        * now destruct (sum_neg_zero w).
    - repeat split; auto. destruct (collect (fun a v => is_finite v = true /\ at_most (low a) v /\ at_most v (up a)) args) as [vs [Rs Qs]].
      { intros a Ia. destruct (IH a Ia) as [G1 [G2 [v [X Y]]]]. exists v. split; [exact X|]. now apply inside_at_most. }
      destruct (K vs) as [Z [v [C [L1 L2]]]]; [clear - Qs; induction Qs; constructor; auto|].
      exists v. split; [apply RG_call with (vs := vs); auto|]. now apply at_most_inside.
  Qed.
End Bounds.

(** ** The theorems *)
(** With each variable between its bounds, evaluation succeeds; the value is
    finite and between the bounds of the expression. *)
Theorem C106_bounds : forall w box x rho lo hi,
  bounded w box (root x) lo hi -> values_in box (lookup rho) ->
  exists v, eval w x rho = Val (Eval_ok v) /\ is_finite v = true /\ at_most lo v /\ at_most v hi.
Proof.
  intros w box x rho lo hi H V. destruct (bounded_value w box (lookup rho) V _ _ _ H) as [Fl [Fh [v [R I]]]].
  exists v. split; [apply C21_eval_is_meaning, regular_means, R|]. now apply inside_at_most.
Qed.
Lemma inside_same : forall lo hi v v', is_finite lo = true -> is_finite hi = true -> inside lo hi v -> same_value v v' ->
  is_finite v' = true /\ at_most lo v' /\ at_most v' hi.
Proof.
  intros lo hi v v' Fl Fh [Fv L] S. apply same_value_iff in S. apply inside_at_most; auto. destruct (same_toR _ _ S) as [E _].
  split; [|lra]. destruct S as [<-|[_ [s ->]]]; [exact Fv|reflexivity].
Qed.
(** Fixing some of the variables first does not change that. *)
Theorem C106_stages : forall cfg w box x l z rho lo hi,
  bounded w box (root x) lo hi -> values_in box (lookup (l ++ rho)%list) ->
  simplify_for_multiple cfg w x l = Val z ->
  exists v, eval w z rho = Val (Eval_ok v) /\ is_finite v = true /\ at_most lo v /\ at_most v hi.
Proof.
  intros cfg w box x l z rho lo hi H V Z. destruct (bounded_value w box _ V _ _ _ H) as [Fl [Fh [v [R I]]]].
  destruct (C30_simplify_for_multiple_value cfg w x l z rho (l ++ rho)%list v (lookup_app l rho) Z R) as [_ [v' [E' S]]].
  exists v'. split; [exact E'|]. now apply (inside_same lo hi v).
Qed.
(** Nor does reading the text with the default build, nor both.  The bounds are
    those of the expression as written. *)
Theorem C106_default_build : forall cfg cfg' w ctx input ts x box lo hi,
  optimize cfg = true -> optimize cfg' = false -> pejmdas cfg = pejmdas cfg' ->
  fair_order w -> context_functions_return w ctx ->
  tokens_of input ts -> ~ has_double_bang input -> no_number_after_parenthesis ts ->
  parse cfg' w ctx input = Parse_ok x -> bounded w box (root x) lo hi ->
  exists y, parse cfg w ctx input = Parse_ok y /\
  (forall rho, values_in box (lookup rho) ->
     exists v, eval w y rho = Val (Eval_ok v) /\ is_finite v = true /\ at_most lo v /\ at_most v hi) /\
  forall l, exists z, simplify_for_multiple cfg w y l = Val z /\
  forall rho, values_in box (lookup (l ++ rho)%list) ->
     exists v, eval w z rho = Val (Eval_ok v) /\ is_finite v = true /\ at_most lo v /\ at_most v hi.
Proof.
  intros cfg cfg' w ctx input ts x box lo hi Ho Ho' Hp Hf Hc Ht D Hn Hx P.
  destruct (C18_plain_accepted cfg cfg' w ctx input ts x Ho Ho' Hp Hf Hc D Ht Hn Hx) as [y [Hy S]].
  assert (Go : forall rho, values_in box rho -> is_finite lo = true /\ is_finite hi = true /\ exists v, regular w rho (root y) v /\ inside lo hi v).
  { intros rho V. destruct (bounded_value w box rho V _ _ _ P) as [Fl [Fh [v [R I]]]]. split; [exact Fl|]. split; [exact Fh|].
    destruct (proj1 (simplified_from_preserves w rho cfg) _ _ S v R) as [v' [R' V']]. exists v'. split; [exact R'|].
    apply inside_at_most; auto. now apply (inside_same lo hi v). }
  exists y. split; [exact Hy|]. split.
  - intros rho V. destruct (Go _ V) as [Fl [Fh [v [R I]]]]. exists v.
    split; [apply C21_eval_is_meaning, regular_means, R|now apply inside_at_most].
  - intro l. destruct (stages_total cfg w l y) as [z Z]; [exact (ob_parse cfg w ctx input y Hc D Hy)|]. exists z. split; [exact Z|].
    intros rho V. destruct (Go _ V) as [Fl [Fh [v [R I]]]].
    destruct (C30_simplify_for_multiple_value cfg w y l z rho (l ++ rho)%list v (lookup_app l rho) Z R) as [_ [v' [E' S']]].
    exists v'. split; [exact E'|]. now apply (inside_same lo hi v).
Qed.

(** A call of a function with a range known for all finite arguments is bounded
    by that range, whatever the bounds of its arguments. *)
Theorem C106_known_range : forall w box f args low up lo hi,
  is_finite lo = true -> is_finite hi = true ->
  (forall vs, List.length vs = List.length args -> Forall (fun v => is_finite v = true) vs ->
     same_for_both_zeros w f vs /\ exists v, call_function w f vs = Val v /\ at_most lo v /\ at_most v hi) ->
  (forall a, In a args -> bounded w box a (low a) (up a)) ->
  bounded w box (Call f args) lo hi.
Proof.
  intros w box f args low up lo hi Fl Fh K H. apply BD_call with (low := low) (up := up); auto.
  intros vs Q. apply K.
  - rewrite <- (map_length (fun a => (low a, up a)) args). clear - Q. induction Q; cbn; congruence.
  - clear - Q. induction Q as [|r v l m [F _] Q IH]; constructor; auto.
Qed.
(** So sin(e) lies between -1 and 1, if libm's sine does and is a zero at both zeros. *)
Theorem C106_sine : forall w box e a b,
  (forall v, is_finite v = true -> at_most (fneg fone) (l_sin w v) /\ at_most (l_sin w v) fone) ->
  (forall z, is_zero z -> is_zero (l_sin w z)) ->
  bounded w box e a b -> bounded w box (Call (builtin_function B_SIN) [e]) (fneg fone) fone.
Proof.
  intros w box e a b R Z H. apply C106_known_range with (low := fun _ => a) (up := fun _ => b); [reflexivity|reflexivity| |intros x [<-|[]]; exact H].
  intros vs L F. destruct vs as [|v [|? ?]]; try discriminate L. inversion F as [|? ? Fv _]; subst. split.
  - intros vs' u E C. injection C as <-. inversion E as [|? v' ? l Ev El]; subst. inversion El; subst. exists (l_sin w v'). split; [reflexivity|].
    destruct Ev as [->|[Z1 Z2]]; [now left|right; auto].
  - exists (l_sin w v). split; [reflexivity|]. now apply R.
Qed.

(** ** Clamping *)
Lemma not_flt_le : forall a b, is_nan a = false -> is_nan b = false -> flt b a = false -> at_most a b.
Proof.
  intros a b Na Nb L. apply at_most_toR. repeat split; auto. destruct (Rle_or_lt (toR a) (toR b)) as [|G]; [auto|].
  apply flt_toR in G; auto. congruence.
Qed.
(** Whatever the inner expression gives, an infinity or NaN included, min and
    max keep the result between two numbers. *)
Theorem C106_clamp : forall w x rho e a b v,
  root x = Call (builtin_function B_MIN) [Call (builtin_function B_MAX) [e; Number a]; Number b] ->
  at_most a b -> eval w x rho = Val (Eval_ok v) -> at_most a v /\ at_most v b.
Proof.
  intros w x rho e a b v Hx L E. apply at_most_toR in L as L'. destruct L' as [Na [Nb _]]. apply C21_eval_is_meaning in E. rewrite Hx in E.
  inversion E as [| | | | | | | | | | |f args vs v0 Hargs Hc]; subst. inversion Hargs as [|e1 l1 m vs1 Hm Hr]; subst. inversion Hr as [|e2 l2 u vs2 Hu Hn]; subst. inversion Hn; subst. assert (Eu : u = b) by (inversion Hu; auto). subst u.
  inversion Hm as [| | | | | | | | | | |f args vs v0 Hargs' Hc']; subst. inversion Hargs' as [|e1 l1 p vs1 Hp Hr']; subst. inversion Hr' as [|e2 l2 q vs2 Hq Hn']; subst. inversion Hn'; subst. assert (Eq : q = a) by (inversion Hq; auto). subst q.
  clear E Hargs Hr Hn Hu Hm Hargs' Hr' Hn' Hq Hp.
  destruct (C46_max w [p; a]) as [m' [Em [Im [Nm Lm]]]]; [exists a; cbn; auto|].
  change (call_function w (builtin_function B_MAX) [p; a] = Val m') in Em. rewrite Em in Hc'. injection Hc' as ->.
  destruct (C46_min w [m; b]) as [v' [Ev [Iv [Nv Lv]]]]; [exists b; cbn; auto|].
  change (call_function w (builtin_function B_MIN) [m; b] = Val v') in Ev. rewrite Ev in Hc. injection Hc as ->.
  assert (A : at_most a m) by (apply not_flt_le; auto; apply Lm; cbn; auto).
  split; [|apply not_flt_le; auto; apply Lv; cbn; auto]. destruct Iv as [<-|[<-|[]]]; auto.
Qed.

(** ** A concrete case *)
Local Open Scope string_scope.
Definition the_box (x : string) : option (f64 * f64) :=
  if String.eqb x "x" then Some (lit "1", lit "2")
  else if String.eqb x "y" then Some (lit "0", lit "3")
  else if String.eqb x "z" then Some (fneg (lit "5"), lit "5") else None.
Definition the_tree : element :=
  BinOp Plus
    (BinOp Minus (Call (builtin_function B_MIN) [BinOp Divide (Var "x") (BinOp Plus (Var "y") (Number (lit "1"))); Number (lit "1")])
                 (Call (builtin_function B_FLOOR) [BinOp Times (Number (lit "2")) (Var "x")]))
    (Call (builtin_function B_SUM) [Call (builtin_function B_ABS) [BinOp Minus (Var "x") (Var "y")]; BinOp Times (Number (lit "0")) (Var "z")]).
Ltac between := split; [vm_compute; reflexivity|]; split; [vm_compute; reflexivity|];
  intros ? Hin; cbn [In] in Hin; repeat (destruct Hin as [<-|Hin]; [split; vm_compute; reflexivity|]); destruct Hin.
Lemma the_tree_bounded : bounded w0 the_box the_tree (fneg (lit "3.75")) (lit "1").
Proof.
  assert (X : bounded w0 the_box (Var "x") (lit "1") (lit "2")) by (apply BD_var; [reflexivity|vm_compute; reflexivity|vm_compute; reflexivity]).
  assert (Y : bounded w0 the_box (Var "y") (lit "0") (lit "3")) by (apply BD_var; [reflexivity|vm_compute; reflexivity|vm_compute; reflexivity]).
  assert (Z : bounded w0 the_box (Var "z") (fneg (lit "5")) (lit "5")) by (apply BD_var; [reflexivity|vm_compute; reflexivity|vm_compute; reflexivity]).
  assert (N : forall s, is_finite (lit s) = true -> bounded w0 the_box (Number (lit s)) (lit s) (lit s)) by (intros s F; now apply BD_number).
  assert (Q : bounded w0 the_box (BinOp Divide (Var "x") (BinOp Plus (Var "y") (Number (lit "1")))) (lit "0.25") (lit "2")).
  { eapply BD_divide; [exact X|apply BD_plus; [exact Y|apply N; vm_compute; reflexivity|vm_compute; reflexivity|vm_compute; reflexivity]|left; vm_compute; reflexivity|between]. }
  assert (O : bounded w0 the_box (Number (lit "1")) (lit "0.25") (lit "1")) by (eapply BD_wider; [apply N; vm_compute; reflexivity|between]).
  assert (M : bounded w0 the_box (Call (builtin_function B_MIN) [BinOp Divide (Var "x") (BinOp Plus (Var "y") (Number (lit "1"))); Number (lit "1")]) (lit "0.25") (lit "1")).
  { apply BD_min with (one := Number (lit "1")) (up := fun e => match e with Number _ => lit "1" | _ => lit "2" end); [right; left; reflexivity|exact O|].
    intros a [<-|[<-|[]]]; assumption. }
  assert (F : bounded w0 the_box (Call (builtin_function B_FLOOR) [BinOp Times (Number (lit "2")) (Var "x")]) (ffloor (lit "2")) (ffloor (lit "4"))).
  { apply BD_rounding; [|cbn; tauto]. eapply BD_times; [apply N; vm_compute; reflexivity|exact X|between]. }
  assert (A : bounded w0 the_box (Call (builtin_function B_ABS) [BinOp Minus (Var "x") (Var "y")]) fzero (lit "2")).
  { eapply BD_abs; [apply BD_minus; [exact X|exact Y|vm_compute; reflexivity|vm_compute; reflexivity]|between]. }
  assert (T : bounded w0 the_box (BinOp Times (Number (lit "0")) (Var "z")) fzero fzero).
  { eapply BD_times; [apply N; vm_compute; reflexivity|exact Z|between]. }
  eapply BD_wider; [apply BD_plus; [apply BD_minus; [exact M|exact F|vm_compute; reflexivity|vm_compute; reflexivity]| | |]|].
  - apply BD_sum with (low := fun _ => fzero) (up := fun e => match e with Call _ _ => lit "2" | _ => fzero end).
    + intros a [<-|[<-|[]]]; assumption.
    + vm_compute; reflexivity.
    + vm_compute; reflexivity.
  - vm_compute; reflexivity.
  - vm_compute; reflexivity.
  - between.
Qed.
Example C106_witness : exists ts x y,
  let input := "min(x/(y+1), 1) - floor(2*x) + sum(abs(x-y), 0*z)" in
  let rho := [("x", lit "1.5"); ("y", lit "0.2"); ("z", fneg (lit "4"))] in
  tokens_of input ts /\ ~ has_double_bang input /\ no_number_after_parenthesis ts /\
  parse plain_config w0 ctx_default input = Parse_ok x /\ bounded w0 the_box (root x) (fneg (lit "3.75")) (lit "1") /\
  parse default_config w0 ctx_default input = Parse_ok y /\ root y <> root x /\
  values_in the_box (lookup rho) /\
  exists v, eval w0 y rho = Val (Eval_ok v) /\ is_finite v = true /\ at_most (fneg (lit "3.75")) v /\ at_most v (lit "1").
Proof.
  set (input := "min(x/(y+1), 1) - floor(2*x) + sum(abs(x-y), 0*z)").
  set (ts := [TId "min"; TSym "("; TId "x"; TSym "/"; TSym "("; TId "y"; TSym "+"; TNum "1"; TSym ")"; TSym ","; TNum "1"; TSym ")"; TSym "-"; TId "floor"; TSym "("; TNum "2"; TSym "*"; TId "x"; TSym ")"; TSym "+"; TId "sum"; TSym "("; TId "abs"; TSym "("; TId "x"; TSym "-"; TId "y"; TSym ")"; TSym ","; TNum "0"; TSym "*"; TId "z"; TSym ")"]).
  assert (Ht : tokens_of input ts) by (apply tokens_check; vm_compute; reflexivity).
  assert (D : ~ has_double_bang input) by (apply no_double_bang_check; vm_compute; reflexivity).
  assert (Hn : no_number_after_parenthesis ts).
  { apply (adjacent_check (fun a b => match a, b with TSym c, TNum _ => Ascii.eqb c ")" | _, _ => false end)); [|vm_compute; reflexivity].
    intros a b [-> [s ->]]. reflexivity. }
  destruct (parses_to (parse plain_config w0 ctx_default input) the_tree) as [x [Hx Ex]]; [vm_compute; reflexivity|].
  assert (P : bounded w0 the_box (root x) (fneg (lit "3.75")) (lit "1")) by (rewrite Ex; exact the_tree_bounded).
  destruct (C106_default_build default_config plain_config w0 ctx_default input ts x the_box _ _ eq_refl eq_refl eq_refl w0_fair (default_context_returns w0) Ht D Hn Hx P) as [y [Hy [Ev _]]].
  assert (V : values_in the_box (lookup [("x", lit "1.5"); ("y", lit "0.2"); ("z", fneg (lit "4"))])).
  { intros n a b H. unfold the_box in H.
    destruct (String.eqb_spec n "x") as [->|_]; [injection H as <- <-; eexists; split; [reflexivity|split; vm_compute; reflexivity]|].
    destruct (String.eqb_spec n "y") as [->|_]; [injection H as <- <-; eexists; split; [reflexivity|split; vm_compute; reflexivity]|].
    destruct (String.eqb_spec n "z") as [->|_]; [injection H as <- <-; eexists; split; [reflexivity|split; vm_compute; reflexivity]|discriminate H]. }
  exists ts, x, y. cbv zeta. repeat (split; [assumption|]). split; [|split; [exact V|exact (Ev _ V)]].
  intro K. assert (B : ok_and (parse default_config w0 ctx_default input) (fun y => ok_and (parse plain_config w0 ctx_default input) (fun x => negb (Nat.eqb (SimplifyFacts.size (root y)) (SimplifyFacts.size (root x))))) = true) by (vm_compute; reflexivity).
  rewrite Hx, Hy in B. cbn [ok_and] in B. rewrite K, Nat.eqb_refl in B. discriminate B.
Qed.

(** A libm whose sine has the range: 3 * sin(x/7) - 1 lies between -4 and 2. *)
Definition w_unit : world :=
  let f := fun x : f64 => x in
  let g := fun x y : f64 => fmul x y in
  mk_world (fun x => if Bleb (fneg fone) x && Bleb x fone then x else fone) f f f f f f f f f f f g f f f f g g f false false (fun s => s) (fun _ _ => None).
Example C106_sine_witness : exists x,
  let box := fun n => if String.eqb n "x" then Some (fneg (lit "1000"), lit "1000") else None in
  parse plain_config w_unit ctx_default "3*sin(x/7) - 1" = Parse_ok x /\
  (forall v, is_finite v = true -> at_most (fneg fone) (l_sin w_unit v) /\ at_most (l_sin w_unit v) fone) /\
  (forall z, is_zero z -> is_zero (l_sin w_unit z)) /\
  bounded w_unit box (root x) (fneg (lit "4")) (lit "2").
Proof.
  destruct (parses_to (parse plain_config w_unit ctx_default "3*sin(x/7) - 1")
    (BinOp Minus (BinOp Times (Number (lit "3")) (Call (builtin_function B_SIN) [BinOp Divide (Var "x") (Number (lit "7"))])) (Number (lit "1")))) as [x [Hx Ex]]; [vm_compute; reflexivity|].
  set (box := fun n => if String.eqb n "x" then Some (fneg (lit "1000"), lit "1000") else None).
  assert (R : forall v, is_finite v = true -> at_most (fneg fone) (l_sin w_unit v) /\ at_most (l_sin w_unit v) fone).
  { intros v _. unfold at_most. cbn [l_sin w_unit]. destruct (Bleb (fneg fone) v) eqn:E1; cbn [andb]; [|split; vm_compute; reflexivity].
    destruct (Bleb v fone) eqn:E2; [auto|split; vm_compute; reflexivity]. }
  assert (Z : forall z, is_zero z -> is_zero (l_sin w_unit z)).
  { intros z [s ->]. exists s. destruct s; vm_compute; reflexivity. }
  exists x. cbv zeta. split; [exact Hx|]. split; [exact R|]. split; [exact Z|]. rewrite Ex.
  assert (N : forall s, is_finite (lit s) = true -> bounded w_unit box (Number (lit s)) (lit s) (lit s)) by (intros s F; now apply BD_number).
  assert (Q : bounded w_unit box (BinOp Divide (Var "x") (Number (lit "7"))) (fneg (lit "143")) (lit "143")).
  { eapply BD_divide; [apply BD_var; [reflexivity|vm_compute; reflexivity|vm_compute; reflexivity]|apply N; vm_compute; reflexivity|left; vm_compute; reflexivity|between]. }
  pose proof (C106_sine w_unit box _ _ _ R Z Q) as S.
  eapply BD_wider; [apply BD_minus; [eapply (BD_times _ _ _ _ _ _ _ _ (fneg (lit "3")) (lit "3")); [apply N; vm_compute; reflexivity|exact S|between]|apply N; vm_compute; reflexivity|vm_compute; reflexivity|vm_compute; reflexivity]|between].
Qed.

(** The condition on divisors is needed: with x = 1 and y between -1 and 1 the
    four corner quotients of x / y are -1 and 1, but 1 / 0.1 is 10. *)
Theorem C106_divisors_refuted : exists x v,
  parse plain_config w0 ctx_default "x / y" = Parse_ok x /\
  all_between (fneg fone) fone [fdiv fone (fneg fone); fdiv fone fone; fdiv fone (fneg fone); fdiv fone fone] /\
  (at_most (fneg fone) (lit "0.1") /\ at_most (lit "0.1") fone) /\
  eval w0 x [("x", fone); ("y", lit "0.1")] = Val (Eval_ok v) /\ below fone v.
Proof.
  destruct (parses_to (parse plain_config w0 ctx_default "x / y") (BinOp Divide (Var "x") (Var "y"))) as [x [Hx Ex]]; [vm_compute; reflexivity|].
  exists x, (fdiv fone (lit "0.1")). split; [exact Hx|]. split; [between|]. split; [split; vm_compute; reflexivity|].
  split; [|vm_compute; reflexivity]. apply C21_eval_is_meaning. rewrite Ex. constructor; constructor; reflexivity.
Qed.
