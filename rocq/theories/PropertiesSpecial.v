(** * C72: where NaN and infinities come from *)
From Coq Require Import ZArith NArith List String Ascii Bool Lia Reals Lra.
From Flocq Require Import Core BinarySingleNaN.
From Verif Require Import F64 Syntax Factorial Builtins Context Element Parser Xprs.
From Verif Require Import SpecParse SpecTree SpecApi SpecMonotone SpecSpecial FloatFacts TreeFacts PropertiesEval PropertiesArith PropertiesNumeric.
From Verif Require Import PropertiesOptimise MonotoneFacts PropertiesMonotone SpecialFacts TestWorld.
Import ListNotations.
Local Open Scope R_scope.

(** ** The count of [mean] *)
Lemma count_0 : f64_of_Z 0 = fzero.
Proof. apply same_f64_eq. vm_compute. reflexivity. Qed.
Lemma count_pos : forall z, (0 < z)%Z -> f64_of_Z z = B754_infinity false \/ (is_finite (f64_of_Z z) = true /\ 1 <= B2R (f64_of_Z z)).
Proof.
  intros z Hz. unfold f64_of_Z. pose proof (binary_normalize_correct prec64 emax64 Hprec64 Hmax64 mode_NE z 0 false) as H.
  cbv zeta in H. assert (F2R (Float radix2 z 0) = IZR z) as E by (unfold F2R; cbn; lra). rewrite E in H.
  assert (L : 1 <= IZR z) by (apply (IZR_le 1); lia).
  destruct (Rlt_bool _ _).
  - right. destruct H as [H1 [H2 _]]. split; [exact H2|]. rewrite H1. apply round_ge_generic; auto.
    + apply (fexp_correct prec64 emax64 Hprec64).
    + apply valid_rnd_round_mode.
    + apply (small_Z_format 1). lia.
  - left. rewrite Rlt_bool_false in H by lra. unfold binary_overflow in H. cbn [overflow_to_inf] in H.
    destruct (binary_normalize prec64 emax64 Hprec64 Hmax64 mode_NE z 0 false) as [s|s| |s m e B]; try discriminate H. cbn in H. now injection H as ->.
Qed.

Section Special.
  Variables (w : world).

  Notation nn vs := (Forall (fun v : f64 => is_nan v = false) vs).
  Notation ni vs := (Forall (fun v : f64 => ~ infinite v) vs).

  Lemma outside_not : forall f b, fn_ptr f = Static_builtin b -> exact_builtin b = true -> ~ outside f.
  Proof. intros f b H E O. specialize (O b H). congruence. Qed.

  Lemma exact_or_outside : forall f, outside f \/ exists b, fn_ptr f = Static_builtin b /\ exact_builtin b = true.
  Proof.
    intro f. destruct (fn_ptr f) as [b|id|id] eqn:E.
    - destruct (exact_builtin b) eqn:X; [right; eauto|left]. intros b' Hb. congruence.
    - left. intros b' Hb. congruence.
    - left. intros b' Hb. congruence.
  Qed.

  (** what an exact built-in returns *)
  Definition exact_value (b : builtin) (vs : list f64) : option f64 :=
    match b, vs with
    | B_SQRT, a :: _ => Some (fsqrt a)
    | B_ABS, a :: _ => Some (fabs a)
    | B_FLOOR, a :: _ => Some (ffloor a)
    | B_CEIL, a :: _ => Some (fceil a)
    | B_ROUND, a :: _ => Some (fround a)
    | B_TRUNC, a :: _ => Some (ftrunc a)
    | B_RECIP, a :: _ => Some (frecip a)
    | B_FRACT, a :: _ => Some (ffract a)
    | B_FACTORIAL, a :: _ => Some (factorial a)
    | B_SUM, vs => Some (sum_f64 w vs)
    | B_MEAN, vs => Some (fdiv (sum_f64 w vs) (f64_of_Z (Z.of_nat (List.length vs))))
    | B_MIN, vs => Some (fold_left (min_f64 w) vs finf)
    | B_MAX, vs => Some (fold_left (max_f64 w) vs fninf)
    | _, _ => None
    end.
  Lemma call_exact : forall f b vs v, fn_ptr f = Static_builtin b -> exact_builtin b = true ->
    (call_function w f vs = Val v <-> exact_value b vs = Some v).
  Proof.
    intros f b vs v H E. unfold call_function. rewrite H. cbn [call_ptr].
    destruct b; try discriminate E; destruct vs as [|a vs]; cbn [call_builtin wrap1 exact_value]; split; intro Q; try discriminate Q; injection Q as <-; reflexivity.
  Qed.

  Lemma mean_nan : forall vs, nn vs ->
    (is_nan (fdiv (sum_f64 w vs) (f64_of_Z (Z.of_nat (List.length vs)))) = true <->
     vs = [] \/ infinities_clash w vs \/ (infinite (sum_f64 w vs) /\ infinite (f64_of_Z (Z.of_nat (List.length vs))))).
  Proof.
    intros vs N. destruct (is_nan (sum_f64 w vs)) eqn:Ns.
    - split; intros _; [right; left; now apply clash_iff|].
      destruct (sum_f64 w vs); try discriminate Ns. destruct (f64_of_Z _) as [[]|[]| |[]]; reflexivity.
    - destruct vs as [|v vs].
      + change (Z.of_nat (List.length (@nil f64))) with 0%Z. rewrite count_0. split; [now left|intros _].
        unfold sum_f64. cbn [fold_left]. destruct (sum_neg_zero w); reflexivity.
      + destruct (count_pos (Z.of_nat (List.length (v :: vs)))) as [C|[C L]]; [cbn [List.length]; lia| |].
        * rewrite C. rewrite div_nan_iff by auto. split.
          -- intros [[_ [s E]]|[E F]]; [discriminate E|auto].
          -- intros [E|[E|E]]; [discriminate E| |auto]. apply clash_iff in E; auto. congruence.
        * rewrite div_nan_iff by (auto using finite_not_nan). split.
          -- intros [[_ [s E]]|[_ [s E]]]; exfalso; rewrite E in *; [cbn [B2R] in L; lra|discriminate C].
          -- intros [E|[E|[_ [s E]]]]; [discriminate E| |rewrite E in C; discriminate C]. apply clash_iff in E; auto. congruence.
  Qed.
  Lemma div_no_grow : forall a b, is_finite a = true -> is_finite b = true -> 1 <= B2R b -> ~ infinite (fdiv a b).
  Proof.
    intros a b Fa Fb L. rewrite div_overflow by (auto; lra). intro H.
    assert (A : Rabs (B2R a) < bpow radix2 1024) by apply abs_B2R_lt_emax.
    assert (S0 : Rabs (B2R a / B2R b) <= Rabs (B2R a)).
    { unfold Rdiv. rewrite Rabs_mult, (Rabs_pos_eq (/ B2R b)) by (left; apply Rinv_0_lt_compat; lra).
      rewrite <- (Rmult_1_r (Rabs (B2R a))) at 2. apply Rmult_le_compat_l; [apply Rabs_pos|]. rewrite <- Rinv_1. apply Rinv_le_contravar; lra. }
    assert (LL : limit <= Rabs (B2R a)) by lra. apply rnd_overflow in LL. rewrite round_generic in LL; [lra|apply valid_rnd_round_mode|apply generic_format_B2R].
  Qed.
  Lemma mean_infinite : forall vs, ni vs ->
    (infinite (fdiv (sum_f64 w vs) (f64_of_Z (Z.of_nat (List.length vs)))) <->
     nn vs /\ total_overflows w vs /\ is_finite (f64_of_Z (Z.of_nat (List.length vs))) = true).
  Proof.
    intros vs I. set (c := f64_of_Z (Z.of_nat (List.length vs))).
    assert (C : (vs = [] /\ c = fzero) \/ c = B754_infinity false \/ (is_finite c = true /\ 1 <= B2R c)).
    { destruct vs as [|v vs]; [left; split; [auto|apply count_0]|right]. apply count_pos. cbn [List.length]. lia. }
    clearbody c. destruct C as [[-> ->]|C].
    { split; [intros [s E]|intros [_ [[l1 [a [l2 [t [E _]]]]] _]]; destruct l1; discriminate E].
      unfold sum_f64 in E. cbn [fold_left] in E. destruct (sum_neg_zero w); discriminate E. }
    split.
    - intro Inf. assert (N : nn vs).
      { apply Forall_forall. intros v Hv. destruct (is_nan v) eqn:E; auto. exfalso.
        assert (Q : is_nan (sum_f64 w vs) = true) by (eapply fold_in_nan; eauto). destruct (sum_f64 w vs); try discriminate Q.
        destruct Inf as [s Inf]. destruct c as [[]|[]| |[]]; discriminate Inf. }
      split; auto. destruct C as [-> |[Fc Lc]].
      + exfalso. destruct Inf as [s Inf]. destruct (sum_f64 w vs) as [[]|[]| |[]]; discriminate Inf.
      + split; auto. apply overflow_iff; auto.
        destruct (is_nan (sum_f64 w vs)) eqn:Ns. { exfalso. destruct (sum_f64 w vs); try discriminate Ns. destruct Inf as [s Inf]. destruct c as [[]|[]| |[]]; discriminate Inf. }
        destruct (finite_or_inf _ Ns) as [Fs|H]; [|exact H]. exfalso. exact (div_no_grow _ _ Fs Fc Lc Inf).
    - intros [N [T Fc]]. apply overflow_iff in T; auto. destruct T as [s ->]. destruct C as [-> |[_ Lc]]; [discriminate Fc|].
      destruct c as [u|u| |u m e B]; try discriminate Fc; [cbn [B2R] in Lc; lra|]. exists (xorb s u). destruct s, u; reflexivity.
  Qed.

  Lemma exact_nan : forall b vs v, exact_builtin b = true -> nn vs -> exact_value b vs = Some v -> forall f, fn_ptr f = Static_builtin b ->
    (is_nan v = true <-> invalid_call w f vs).
  Proof.
    intros b vs v X N E f Hf.
    assert (G : invalid_call w f vs -> is_nan v = true).
    { intro I. destruct I as [a vs H L|a vs H L|a vs H L|vs H L|vs H L|H|vs t H L1 L2 L3|vs u O C U]; try (rewrite H in Hf; injection Hf as <-; cbn [exact_value] in E; injection E as <-).
      - inversion N; subst. now apply sqrt_nan_iff.
      - inversion N; subst. now apply fract_nan_iff.
      - inversion N; subst. now apply factorial_nan_iff.
      - now apply clash_iff.
      - apply mean_nan; auto.
      - apply mean_nan; auto.
      - apply mean_nan; auto. right. right. split; auto. apply sums_to_fold in L1. unfold sum_f64. fold (start w). now rewrite L1.
      - exfalso. exact (outside_not _ _ Hf X O). }
    split; [|exact G]. intro Nv.
    destruct b; try discriminate X; destruct vs as [|a vs]; cbn [exact_value] in E; try discriminate E; injection E as <-;
      repeat match goal with H : nn (_ :: _) |- _ => inversion H; subst; clear H end.
    - apply IC_sqrt; auto. now apply sqrt_nan_iff.
    - exfalso. destruct a; discriminate.
    - exfalso. unfold ffloor in Nv. rewrite nearbyint_nan in Nv. congruence.
    - exfalso. unfold fceil in Nv. rewrite nearbyint_nan in Nv. congruence.
    - exfalso. unfold fround in Nv. rewrite nearbyint_nan in Nv. congruence.
    - exfalso. unfold ftrunc in Nv. rewrite nearbyint_nan in Nv. congruence.
    - exfalso. apply clash_iff in Nv; auto. destruct Nv as [[|] [s [l2 [Q _]]]]; discriminate Q.
    - apply IC_sum; auto. apply clash_iff; auto.
    - now apply IC_mean_empty.
    - apply mean_nan in Nv; auto. destruct Nv as [Q|[Q|[Q1 Q2]]]; [discriminate Q|now apply IC_mean|].
      apply (IC_mean_count w f (a :: vs) (sum_f64 w (a :: vs))); auto. reflexivity.
    - exfalso. rewrite recip_nan_iff in Nv; auto. discriminate Nv.
    - discriminate Nv.
    - exfalso. pose proof (min_start w (a :: vs) finf eq_refl) as Q. cbn [fold_left] in Q, Nv. congruence.
    - discriminate Nv.
    - exfalso. pose proof (max_start w (a :: vs) fninf eq_refl) as Q. cbn [fold_left] in Q, Nv. congruence.
    - apply IC_fract; auto. now apply fract_nan_iff.
    - apply IC_factorial; auto. now apply factorial_nan_iff.
  Qed.

  Lemma exact_infinite : forall b vs v, exact_builtin b = true -> ni vs -> exact_value b vs = Some v -> forall f, fn_ptr f = Static_builtin b ->
    (infinite v <-> overflowing_call w f vs).
  Proof.
    intros b vs v X I E f Hf.
    assert (G : overflowing_call w f vs -> infinite v).
    { intro O. destruct O as [a vs H Z|a vs H F Z L|a vs H F W L|vs H N T|vs H N T F|vs H A|vs u O C U];
        try (rewrite H in Hf; injection Hf as <-; cbn [exact_value] in E; injection E as <-).
      - inversion I; subst. apply recip_infinite_iff; auto.
      - inversion I; subst. apply recip_infinite_iff; auto.
      - inversion I; subst. apply factorial_infinite_iff; auto.
      - now apply overflow_iff.
      - apply mean_infinite; auto.
      - destruct H as [H|H]; rewrite H in Hf; injection Hf as <-; cbn [exact_value] in E; injection E as <-; [now apply min_infinite_iff|now apply max_infinite_iff].
      - exfalso. exact (outside_not _ _ Hf X O). }
    split; [|exact G]. clear G. intro Iv.
    assert (HS : b = B_SUM \/ b = B_MEAN \/ b = B_MIN \/ b = B_MAX \/ ~ (b = B_SUM \/ b = B_MEAN \/ b = B_MIN \/ b = B_MAX)) by (destruct b; intuition discriminate).
    destruct HS as [-> |[-> |[-> |[-> |HS]]]].
    - assert (v = sum_f64 w vs) as -> by (destruct vs; cbn [exact_value] in E; now injection E as <-).
      assert (N : nn vs).
      { apply Forall_forall. intros u Hu. destruct (is_nan u) eqn:Q; auto. exfalso.
        assert (R0 : is_nan (sum_f64 w vs) = true) by (eapply fold_in_nan; eauto). destruct Iv as [s Iv]. rewrite Iv in R0. discriminate R0. }
      apply OC_sum; auto. now apply overflow_iff.
    - assert (Ev : v = fdiv (sum_f64 w vs) (f64_of_Z (Z.of_nat (List.length vs)))) by (destruct vs; cbn [exact_value] in E; now injection E as <-).
      rewrite Ev in Iv. apply mean_infinite in Iv; auto. destruct Iv as [N [T F]]. now apply OC_mean.
    - assert (Ev : v = fold_left (min_f64 w) vs finf) by (destruct vs; cbn [exact_value] in E; now injection E as <-).
      rewrite Ev in Iv. apply min_infinite_iff in Iv; auto. apply OC_extremum; auto.
    - assert (Ev : v = fold_left (max_f64 w) vs fninf) by (destruct vs; cbn [exact_value] in E; now injection E as <-).
      rewrite Ev in Iv. apply max_infinite_iff in Iv; auto. apply OC_extremum; auto.
    - destruct b; try discriminate X; try (exfalso; apply HS; tauto); destruct vs as [|a vs]; cbn [exact_value] in E; try discriminate E; injection E as <-;
        inversion I as [|? ? Ia Il]; subst.
      + exfalso. exact (sqrt_not_infinite a Ia Iv).
      + exfalso. exact (abs_not_infinite a Ia Iv).
      + exfalso. exact (nearbyint_not_infinite _ a Ia Iv).
      + exfalso. exact (nearbyint_not_infinite _ a Ia Iv).
      + exfalso. exact (nearbyint_not_infinite _ a Ia Iv).
      + exfalso. exact (nearbyint_not_infinite _ a Ia Iv).
      + apply recip_infinite_iff in Iv; auto. destruct Iv as [Z|[F [Z L]]]; [now apply OC_recip_zero|now apply OC_recip].
      + exfalso. exact (fract_not_infinite a Ia Iv).
      + apply factorial_infinite_iff in Iv; auto. destruct Iv as [F [W L]]. now apply OC_factorial.
  Qed.

  Lemma call_nan : forall f vs v, nn vs -> call_function w f vs = Val v -> (is_nan v = true <-> invalid_call w f vs).
  Proof.
    intros f vs v N C. destruct (exact_or_outside f) as [O|[b [Hb X]]].
    - split; intro H; [eapply IC_outside; eauto|].
      destruct H as [a vs H _|a vs H _|a vs H _|vs H _|vs H _|H|vs t H _ _ _|vs u _ C' U]; try (specialize (O _ H); discriminate O).
      rewrite C in C'. injection C' as ->. exact U.
    - apply (call_exact f b) in C; auto. eapply exact_nan; eauto.
  Qed.
  Lemma call_infinite : forall f vs v, ni vs -> call_function w f vs = Val v -> (infinite v <-> overflowing_call w f vs).
  Proof.
    intros f vs v N C. destruct (exact_or_outside f) as [O|[b [Hb X]]].
    - split; intro H; [eapply OC_outside; eauto|].
      destruct H as [a vs H _|a vs H _ _ _|a vs H _ _ _|vs H _ _|vs H _ _ _|vs [H|H] _|vs u _ C' U]; try (specialize (O _ H); discriminate O).
      rewrite C in C'. injection C' as ->. exact U.
    - apply (call_exact f b) in C; auto. eapply exact_infinite; eauto.
  Qed.
  Lemma invalid_call_returns : forall f vs, invalid_call w f vs -> exists v, call_function w f vs = Val v.
  Proof.
    intros f vs [a l H _|a l H _|a l H _|l H _|l H _|H|l t H _ _ _|l u _ C _]; eauto;
      unfold call_function; rewrite H; cbn [call_ptr call_builtin wrap1]; eauto.
  Qed.
  Lemma overflowing_call_returns : forall f vs, overflowing_call w f vs -> exists v, call_function w f vs = Val v.
  Proof.
    intros f vs [a l H _|a l H _ _ _|a l H _ _ _|l H _ _|l H _ _ _|l [H|H] _|l u _ C _]; eauto;
      unfold call_function; rewrite H; cbn [call_ptr call_builtin wrap1]; eauto.
  Qed.

  Variable rho : string -> option f64.

  Lemma means_all_operands : forall (P : f64 -> Prop) args vs, means_all w rho args vs ->
    (forall b u, In b args -> means w rho b u -> P u) -> Forall P vs.
  Proof.
    intros P. induction args as [|a args IH]; intros vs M H; inversion M; subst; constructor.
    - apply (H a); auto. now left.
    - apply IH; auto. intros b u Hb. apply H. now right.
  Qed.
  Lemma means_all_values : forall (P : f64 -> Prop) args vs, means_all w rho args vs -> Forall P vs ->
    forall b u, In b args -> means w rho b u -> P u.
  Proof.
    intros P. induction args as [|a args IH]; intros vs M H b u Hb Mb; [destruct Hb|]. inversion M; subst. inversion H; subst. destruct Hb as [-> |Hb]; [|eauto].
    match goal with M1 : means w rho b ?v |- _ => now rewrite (means_det _ _ _ _ _ Mb M1) end.
  Qed.

  Ltac same := repeat match goal with
    H1 : means w rho ?e ?a, H2 : means w rho ?e ?b |- _ => pose proof (means_det _ _ _ _ _ H1 H2); subst; clear H2 end.
  Ltac operands := match goal with |- forall b u, operand b ?e -> means w rho b u -> _ =>
    let b := fresh "b" in let u := fresh "u" in let O := fresh "O" in let M := fresh "M" in
    intros b u O M; inversion O; subst; same end.

  Lemma nan_sources : forall a,
    nan_source w rho a <->
    (exists v, means w rho a v /\ is_nan v = true) /\ (forall b u, operand b a -> means w rho b u -> is_nan u = false).
  Proof.
    intro e. split.
    - intro H. destruct H as [n H|x v R H|l r s Ml Mr|l r s Ml Mr|l r a b Ml Mr H|l r a b Ml Mr H|l r a b Ml Mr Na Nb H|l r a b Ml Mr Na Nb H|e a M H|f args vs Ms N H].
      + split; [exists n; split; [constructor|auto]|intros b u O; inversion O].
      + split; [exists v; split; [now constructor|auto]|intros b u O; inversion O].
      + split; [eexists; split; [constructor; eassumption|destruct s; reflexivity]|operands; reflexivity].
      + split; [eexists; split; [constructor; eassumption|destruct s; reflexivity]|operands; reflexivity].
      + assert (is_nan a = false /\ is_nan b = false) as [Na Nb] by (destruct H as [[[s ->] [t ->]]|[[s ->] [t ->]]]; auto).
        split; [eexists; split; [constructor; eassumption|now apply mul_nan_iff]|operands; auto].
      + assert (is_nan a = false /\ is_nan b = false) as [Na Nb] by (destruct H as [[[s ->] [t ->]]|[[s ->] [t ->]]]; auto).
        split; [eexists; split; [constructor; eassumption|now apply div_nan_iff]|operands; auto].
      + split; [eexists; split; [constructor; eassumption|now apply rem_nan_iff]|operands; auto].
      + split; [eexists; split; [constructor; eassumption|auto]|operands; auto].
      + assert (Na : is_nan a = false) by (destruct H as [H|[H _]]; [apply below_toR in H; apply H|now apply finite_not_nan]).
        split; [eexists; split; [constructor; eassumption|now apply factorial_nan_iff]|operands; auto].
      + destruct (invalid_call_returns f vs H) as [v Hv]. split.
        * exists v. split; [econstructor; eauto|]. eapply call_nan; eauto.
        * intros b u O M. inversion O; subst. exact (means_all_values _ _ _ Ms N b u H1 M).
    - intros [[v [M N]] Ops]. destruct M as [n|x v R|l r a b Ml Mr|l r a b Ml Mr|l r a b Ml Mr|l r a b Ml Mr|l r a b Ml Mr|l r a b Ml Mr|e a M|e a M|e a M|f args vs v Ms C];
        try (pose proof (Ops l a (OP_left _ _ _) Ml) as Na; pose proof (Ops r b (OP_right _ _ _) Mr) as Nb);
        try (pose proof (Ops e a (OP_un _ _) M) as Na).
      + now constructor.
      + econstructor; eauto.
      + apply add_nan_iff in N; auto. destruct N as [s [-> ->]]. econstructor; eauto.
      + apply sub_nan_iff in N; auto. destruct N as [s [-> ->]]. econstructor; eauto.
      + apply mul_nan_iff in N; auto. econstructor; eauto.
      + apply div_nan_iff in N; auto. econstructor; eauto.
      + eapply NS_power; eauto.
      + apply rem_nan_iff in N; auto. eapply NS_modulo; eauto.
      + congruence.
      + exfalso. destruct a; discriminate.
      + apply factorial_nan_iff in N; auto. econstructor; eauto.
      + assert (Nv : nn vs) by (eapply means_all_operands; eauto; intros b u Hb; apply Ops; now constructor).
        econstructor; eauto. eapply call_nan; eauto.
  Qed.

  Lemma infinity_sources : forall a,
    infinity_source w rho a <->
    (exists v, means w rho a v /\ infinite v) /\ (forall b u, operand b a -> means w rho b u -> ~ infinite u).
  Proof.
    assert (FI : forall v : f64, is_finite v = true -> ~ infinite v) by (intros v F [s ->]; discriminate F).
    intro e. split.
    - intro H. destruct H as [n H|x v R H|l r a b Ml Mr Fa Fb H|l r a b Ml Mr Fa Fb H|l r a b Ml Mr Fa Fb H|l r a b Ml Mr Fa Za Zb|l r a b Ml Mr Fa Fb Zb H|l r a b Ml Mr Na Nb H|e a M F W H|f args vs Ms N H].
      + split; [exists n; split; [constructor|auto]|intros b u O; inversion O].
      + split; [exists v; split; [now constructor|auto]|intros b u O; inversion O].
      + split; [eexists; split; [constructor; eassumption|now apply add_overflow]|operands; auto].
      + split; [eexists; split; [constructor; eassumption|now apply sub_overflow]|operands; auto].
      + split; [eexists; split; [constructor; eassumption|now apply mul_overflow]|operands; auto].
      + destruct Zb as [t ->]. split.
        * eexists; split; [constructor; eassumption|]. destruct a as [s|s| |s m e B]; try discriminate Fa; [cbn [B2R] in Za; lra|].
          exists (xorb s t). destruct s, t; reflexivity.
        * operands; auto.
      + split; [eexists; split; [constructor; eassumption|now apply div_overflow]|operands; auto].
      + split; [eexists; split; [constructor; eassumption|auto]|operands; auto].
      + split; [eexists; split; [constructor; eassumption|apply factorial_infinite_iff; auto]|operands; auto].
      + destruct (overflowing_call_returns f vs H) as [v Hv]. split.
        * exists v. split; [econstructor; eauto|]. eapply call_infinite; eauto.
        * intros b u O M. inversion O; subst. exact (means_all_values _ _ _ Ms N b u H1 M).
    - intros [[v [M I]] Ops]. destruct M as [n|x v R|l r a b Ml Mr|l r a b Ml Mr|l r a b Ml Mr|l r a b Ml Mr|l r a b Ml Mr|l r a b Ml Mr|e a M|e a M|e a M|f args vs v Ms C];
        try (pose proof (Ops l a (OP_left _ _ _) Ml) as Na; pose proof (Ops r b (OP_right _ _ _) Mr) as Nb);
        try (pose proof (Ops e a (OP_un _ _) M) as Na).
      + now constructor.
      + econstructor; eauto.
      + assert (is_finite a = true /\ is_finite b = true) as [Fa Fb].
        { destruct I as [s I]. destruct (not_infinite a Na) as [Fa|Fa]; [|destruct a; discriminate].
          destruct (not_infinite b Nb) as [Fb|Fb]; [auto|]. destruct b; try discriminate Fb. destruct a; discriminate. }
        apply add_overflow in I; auto. eapply IS_plus; eauto.
      + assert (is_finite a = true /\ is_finite b = true) as [Fa Fb].
        { destruct I as [s I]. destruct (not_infinite a Na) as [Fa|Fa]; [|destruct a; discriminate].
          destruct (not_infinite b Nb) as [Fb|Fb]; [auto|]. destruct b; try discriminate Fb. destruct a; discriminate. }
        apply sub_overflow in I; auto. eapply IS_minus; eauto.
      + assert (is_finite a = true /\ is_finite b = true) as [Fa Fb].
        { destruct I as [s I]. destruct (not_infinite a Na) as [Fa|Fa]; [|destruct a; discriminate].
          destruct (not_infinite b Nb) as [Fb|Fb]; [auto|]. destruct b; try discriminate Fb. destruct a; discriminate. }
        apply mul_overflow in I; auto. eapply IS_times; eauto.
      + assert (is_finite a = true /\ is_finite b = true) as [Fa Fb].
        { destruct I as [s I]. destruct (not_infinite a Na) as [Fa|Fa]; [|destruct a; discriminate].
          destruct (not_infinite b Nb) as [Fb|Fb]; [auto|]. destruct b; try discriminate Fb. destruct a; discriminate. }
        destruct b as [t|t| |t m e B] eqn:Eb; try discriminate Fb.
        * eapply IS_divide_zero; eauto; [|now exists t]. destruct a as [s|s| |s m e B]; try discriminate Fa.
          -- destruct I as [u I]. discriminate I.
          -- apply finite_nonzero.
        * rewrite <- Eb in *. assert (Zb : B2R b <> 0) by (rewrite Eb; apply finite_nonzero). apply div_overflow in I; auto. eapply IS_divide; eauto.
      + eapply IS_power; eauto.
      + exfalso. exact (rem_not_infinite a b Na I).
      + contradiction.
      + exfalso. apply Na. destruct I as [s I]. destruct a as [u|u| |u m z B]; try discriminate I. now exists u.
      + apply factorial_infinite_iff in I; auto. destruct I as [F [W L]]. econstructor; eauto.
      + assert (Nv : ni vs) by (eapply means_all_operands; eauto; intros b u Hb; apply Ops; now constructor).
        econstructor; eauto. eapply call_infinite; eauto.
  Qed.

  (** Every bad value has a source. *)
  Lemma has_source : forall (bad : f64 -> Prop), (forall v, bad v \/ ~ bad v) ->
    forall e v, means w rho e v -> bad v ->
    exists a, sub a e /\ (exists u, means w rho a u /\ bad u) /\ (forall b u, operand b a -> means w rho b u -> ~ bad u).
  Proof.
    intros bad dec. induction e as [n|op l r IHl IHr|op e IHe|f args Hargs|y] using element_ind'; intros v M Bv.
    - exists (Number n). split; [apply sub_refl|]. split; [eauto|]. intros b u O. inversion O.
    - assert (exists a b, means w rho l a /\ means w rho r b) as [a [b [Ml Mr]]] by (inversion M; eauto).
      destruct (dec a) as [Ba|Ba].
      { destruct (IHl _ Ml Ba) as [q [S0 Q]]. exists q. split; [now apply sub_binl|auto]. }
      destruct (dec b) as [Bb|Bb].
      { destruct (IHr _ Mr Bb) as [q [S0 Q]]. exists q. split; [now apply sub_binr|auto]. }
      exists (BinOp op l r). split; [apply sub_refl|]. split; [eauto|]. intros c u O Mc. inversion O; subst; same; auto.
    - assert (exists a, means w rho e a) as [a Ma] by (inversion M; eauto).
      destruct (dec a) as [Ba|Ba].
      { destruct (IHe _ Ma Ba) as [q [S0 Q]]. exists q. split; [now apply sub_un|auto]. }
      exists (UnOp op e). split; [apply sub_refl|]. split; [eauto|]. intros c u O Mc. inversion O; subst; same; auto.
    - destruct (means_call _ _ _ _ _ M) as [vs [Ms C]].
      assert (D : (exists u, In u vs /\ bad u) \/ Forall (fun u => ~ bad u) vs).
      { clear -dec. induction vs as [|u vs IH]; [right; constructor|]. destruct (dec u) as [Bu|Bu]; [left; exists u; split; [now left|auto]|].
        destruct IH as [[x [Hx Bx]]|IH]; [left; exists x; split; [now right|auto]|right; now constructor]. }
      destruct D as [[u [Hu Bu]]|N].
      + destruct (means_all_in _ _ _ _ Ms _ Hu) as [a [Ha Ma]]. rewrite Forall_forall in Hargs. destruct (Hargs a Ha _ Ma Bu) as [q [S0 Q]].
        exists q. split; [eapply sub_arg; eauto|auto].
      + exists (Call f args). split; [apply sub_refl|]. split; [eauto|]. intros b u O Mb. inversion O; subst. exact (means_all_values _ _ _ Ms N b u H0 Mb).
    - exists (Var y). split; [apply sub_refl|]. split; [eauto|]. intros b u O. inversion O.
  Qed.
End Special.

(** A part is a source of NaN exactly if its value is NaN and no operand's is. *)
Theorem C72_nan_sources : forall w rho a,
  nan_source w rho a <->
  (exists v, means w rho a v /\ is_nan v = true) /\ (forall b u, operand b a -> means w rho b u -> is_nan u = false).
Proof. exact nan_sources. Qed.
(** The same for infinities. *)
Theorem C72_infinity_sources : forall w rho a,
  infinity_source w rho a <->
  (exists v, means w rho a v /\ infinite v) /\ (forall b u, operand b a -> means w rho b u -> ~ infinite u).
Proof. exact infinity_sources. Qed.

(** If evaluation returns NaN, some part of the expression is a source of NaN. *)
Theorem C72_nan_has_a_source : forall w x rho v,
  eval w x rho = Val (Eval_ok v) -> is_nan v = true -> exists a, sub a (root x) /\ nan_source w (lookup rho) a.
Proof.
  intros w x rho v E N. apply C21_eval_is_meaning in E.
  destruct (has_source w (lookup rho) (fun u => is_nan u = true)) with (e := root x) (v := v) as [a [S0 [V O]]]; auto.
  { intro u. destruct (is_nan u); auto. }
  exists a. split; auto. apply C72_nan_sources. split; auto. intros b u Hb Mb. specialize (O b u Hb Mb). now destruct (is_nan u).
Qed.
(** If it returns an infinity, some part is a source of infinities. *)
Theorem C72_infinity_has_a_source : forall w x rho v,
  eval w x rho = Val (Eval_ok v) -> infinite v -> exists a, sub a (root x) /\ infinity_source w (lookup rho) a.
Proof.
  intros w x rho v E I. apply C21_eval_is_meaning in E.
  destruct (has_source w (lookup rho) infinite) with (e := root x) (v := v) as [a [S0 [V O]]]; auto.
  { intros [s|s| |s m e B]; [right|left; now exists s|right|right]; intros [t H]; discriminate H. }
  exists a. split; auto. now apply C72_infinity_sources.
Qed.
(** So an expression without sources evaluates to a finite number. *)
Corollary C72_no_source_finite : forall w x rho v,
  eval w x rho = Val (Eval_ok v) ->
  (forall a, sub a (root x) -> ~ nan_source w (lookup rho) a /\ ~ infinity_source w (lookup rho) a) -> is_finite v = true.
Proof.
  intros w x rho v E H. destruct v as [s|s| |s m e B] eqn:Ev; auto; exfalso; rewrite <- Ev in E.
  - destruct (C72_infinity_has_a_source _ _ _ _ E) as [a [S0 A]]; [exists s; exact Ev|]. exact (proj2 (H a S0) A).
  - destruct (C72_nan_has_a_source _ _ _ _ E) as [a [S0 A]]; [now rewrite Ev|]. exact (proj1 (H a S0) A).
Qed.

(** NaN spreads through the operations that hand it on. *)
Lemma nan_spreads : forall w rho a e u v, hands_on a e -> means w rho a u -> is_nan u = true -> means w rho e v -> is_nan v = true.
Proof.
  intros w rho a e u v H Ma N. revert v. induction H as [|op l r Hop H IH|op l r Hop H IH|op e H IH|f e es Hf H IH|f e es Hf Hin H IH]; intros v M.
  - now rewrite <- (means_det _ _ _ _ _ Ma M).
  - destruct Hop as [-> |[-> |[-> |[-> | ->]]]]; inversion M; subst;
      match goal with L : means w rho l ?x |- _ => pose proof (IH _ L) as Q; destruct x; try discriminate Q end; reflexivity.
  - destruct Hop as [-> |[-> |[-> |[-> | ->]]]]; inversion M; subst;
      match goal with L : means w rho l ?y, R : means w rho r ?x |- _ => pose proof (IH _ R) as Q; destruct x; try discriminate Q; destruct y end; reflexivity.
  - inversion M; subst; match goal with L : means w rho e ?x |- _ => pose proof (IH _ L) as Q end; auto.
    + match goal with |- is_nan (fneg ?x) = true => destruct x; try discriminate Q; reflexivity end.
    + now apply factorial_of_nan.
  - destruct (means_call _ _ _ _ _ M) as [vs [Ms C]]. inversion Ms as [|? ? x xs Mx Mxs]; subst. pose proof (IH _ Mx) as Q. destruct x; try discriminate Q.
    cbn [In] in Hf. repeat (destruct Hf as [<- |Hf]; [injection C as <-; reflexivity|]). destruct Hf.
  - destruct (means_call _ _ _ _ _ M) as [vs [Ms C]].
    assert (Q : exists x, In x vs /\ is_nan x = true).
    { clear C M. revert vs Ms. induction es as [|b es IHes]; intros vs Ms; [destruct Hin|]. inversion Ms as [|? ? x xs Mx Mxs]; subst. destruct Hin as [-> |Hin].
      - exists x. split; [now left|auto].
      - destruct (IHes Hin _ Mxs) as [y [Hy Ny]]. exists y. split; [now right|auto]. }
    destruct Q as [x [Hx Nx]]. assert (Ns : is_nan (sum_f64 w vs) = true) by (eapply fold_in_nan; eauto).
    destruct Hf as [-> | ->]; injection C as <-; auto. destruct (sum_f64 w vs); try discriminate Ns. destruct (f64_of_Z _) as [[]|[]| |[]]; reflexivity.
Qed.
Theorem C72_nan_spreads : forall w x rho v a,
  eval w x rho = Val (Eval_ok v) -> nan_source w (lookup rho) a -> hands_on a (root x) -> is_nan v = true.
Proof.
  intros w x rho v a E S0 H. apply C21_eval_is_meaning in E. apply C72_nan_sources in S0. destruct S0 as [[u [Mu Nu]] _].
  exact (nan_spreads w (lookup rho) a (root x) u v H Mu Nu E).
Qed.

(** A witness: in [1 + sqrt(x - 4) * y] at x = 3 the call [sqrt(x - 4)] is a
    source of NaN, hands it on, and the value is NaN; in [0 * (1/x)] at x = 0
    the division is a source of an infinity and the product one of NaN. *)
Definition root_tree : element := Call (builtin_function B_SQRT) [BinOp Minus (Var "x") (Number (lit "4"))].
Definition spread_tree : element := BinOp Plus (Number (lit "1")) (BinOp Times root_tree (Var "y")).
Definition quotient_tree : element := BinOp Divide (Number (lit "1")) (Var "x").
Definition product_tree : element := BinOp Times (Number (lit "0")) quotient_tree.
Lemma value_check : forall w x rho t (p : f64 -> bool), root x = t ->
  (match eval_element_unchecked w rho t with Val v => p v | Boom _ => false end) = true -> exists v, eval w x rho = Val (Eval_ok v) /\ p v = true.
Proof.
  intros w x rho t p <-. rewrite unchecked_agrees. unfold eval. destruct (eval_element w rho (root x)) as [[v|e]|q]; intro Q; try discriminate Q; eauto.
Qed.
Lemma one_shape : exists m e B, lit "1" = B754_finite false m e B.
Proof.
  assert (H : (match lit "1" with B754_finite false _ _ _ => true | _ => false end) = true) by (vm_compute; reflexivity).
  destruct (lit "1") as [s|s| |[] m e B]; try discriminate H. eauto.
Qed.
Example C72_witness :
  (exists x v, parse plain_config w0 ctx_default "1 + sqrt(x - 4)*y" = Parse_ok x /\
     let rho := [("x"%string, lit "3"); ("y"%string, lit "2")] in
     nan_source w0 (lookup rho) root_tree /\ hands_on root_tree (root x) /\
     eval w0 x rho = Val (Eval_ok v) /\ is_nan v = true) /\
  (exists x v, parse plain_config w0 ctx_default "0*(1/x)" = Parse_ok x /\
     let rho := [("x"%string, fzero)] in
     infinity_source w0 (lookup rho) quotient_tree /\ nan_source w0 (lookup rho) (root x) /\
     eval w0 x rho = Val (Eval_ok v) /\ is_nan v = true).
Proof.
  split.
  - destruct (parses_to (parse plain_config w0 ctx_default "1 + sqrt(x - 4)*y") spread_tree) as [x [Hp Hr]]; [vm_compute; reflexivity|].
    destruct (value_check w0 x [("x"%string, lit "3"); ("y"%string, lit "2")] spread_tree is_nan Hr) as [v [Ev Nv]]; [vm_compute; reflexivity|].
    exists x, v. split; [exact Hp|]. cbv zeta. rewrite Hr. split; [|split; [|auto]].
    + unfold root_tree. apply NS_call with (vs := [fsub (lit "3") (lit "4")]).
      * constructor; [|constructor]. constructor; [constructor; reflexivity|constructor].
      * constructor; [vm_compute; reflexivity|constructor].
      * apply IC_sqrt; [reflexivity|]. vm_compute. reflexivity.
    + unfold spread_tree. apply HO_right; [auto|]. apply HO_left; [auto|]. apply HO_here.
  - destruct (parses_to (parse plain_config w0 ctx_default "0*(1/x)") product_tree) as [x [Hp Hr]]; [vm_compute; reflexivity|].
    destruct (value_check w0 x [("x"%string, fzero)] product_tree is_nan Hr) as [v [Ev Nv]]; [vm_compute; reflexivity|].
    exists x, v. split; [exact Hp|]. cbv zeta. rewrite Hr.
    assert (M1 : means w0 (lookup [("x"%string, fzero)]) (Number (lit "1")) (lit "1")) by constructor.
    assert (Mx : means w0 (lookup [("x"%string, fzero)]) (Var "x") fzero) by (constructor; reflexivity).
    destruct one_shape as [m [e [B E1]]].
    split; [|split; [|auto]].
    + unfold quotient_tree. apply (IS_divide_zero _ _ _ _ (lit "1") fzero); auto; [rewrite E1; apply finite_nonzero|now exists false].
    + unfold product_tree. eapply NS_times; [constructor|unfold quotient_tree; constructor; eassumption|]. left. split.
      * assert (Z : lit "0" = fzero) by (apply same_f64_eq; vm_compute; reflexivity). rewrite Z. now exists false.
      * rewrite E1. now exists false.
Qed.

(** Not every source shows: [min] drops NaN (here the value is 5), and [max] of
    nothing but NaN is -inf. *)
Theorem C72_spreads_everywhere_refuted :
  (exists x, parse plain_config w0 ctx_default "min(sqrt(x), 5)" = Parse_ok x /\
     (exists a, sub a (root x) /\ nan_source w0 (lookup [("x"%string, fneg (lit "1"))]) a) /\
     exists v, eval w0 x [("x"%string, fneg (lit "1"))] = Val (Eval_ok v) /\ v = lit "5") /\
  (exists x, parse plain_config w0 ctx_default "max(sqrt(x))" = Parse_ok x /\
     exists v, eval w0 x [("x"%string, fneg (lit "1"))] = Val (Eval_ok v) /\ v = fninf).
Proof.
  set (rt := Call (builtin_function B_SQRT) [Var "x"]). split.
  - destruct (parses_to (parse plain_config w0 ctx_default "min(sqrt(x), 5)") (Call (builtin_function B_MIN) [rt; Number (lit "5")])) as [x [Hp Hr]]; [vm_compute; reflexivity|].
    exists x. split; [exact Hp|]. split.
    + exists rt. split; [rewrite Hr; apply (sub_arg _ _ _ rt); [now left|apply sub_refl]|].
      apply NS_call with (vs := [fneg (lit "1")]).
      * constructor; [constructor; reflexivity|constructor].
      * constructor; [vm_compute; reflexivity|constructor].
      * apply IC_sqrt; [reflexivity|]. vm_compute. reflexivity.
    + destruct (value_check w0 x [("x"%string, fneg (lit "1"))] _ (fun v => same_f64 v (lit "5")) Hr) as [v [Ev Q]]; [vm_compute; reflexivity|].
      exists v. split; [exact Ev|now apply same_f64_eq].
  - destruct (parses_to (parse plain_config w0 ctx_default "max(sqrt(x))") (Call (builtin_function B_MAX) [rt])) as [x [Hp Hr]]; [vm_compute; reflexivity|].
    exists x. split; [exact Hp|].
    destruct (value_check w0 x [("x"%string, fneg (lit "1"))] _ (fun v => same_f64 v fninf) Hr) as [v [Ev Q]]; [vm_compute; reflexivity|].
    exists v. split; [exact Ev|now apply same_f64_eq].
Qed.
