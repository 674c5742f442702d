(** * C104: results that need no rounding are not rounded *)
From Coq Require Import ZArith NArith List String Ascii Bool Lia Reals Lra Arith.
From Flocq Require Import Core BinarySingleNaN.
From Verif Require Import F64 Syntax Factorial Builtins Context Element Parser Xprs.
From Verif Require Import SpecTokens SpecTree SpecRewrite SpecRegular SpecInteger SpecExact FloatFacts NumberFacts RegularFacts SimplifyFacts.
From Verif Require Import ParserResults PropertiesParse SpecApi SpecGrammar SpecParse TreeFacts LexExec BindFacts PropertiesEval PropertiesEq PropertiesNumeric PropertiesArith PropertiesGrammar PropertiesSimplify PropertiesOptimise PropertiesDefault PropertiesInteger TestWorld.
Import ListNotations.
Local Open Scope R_scope.

Lemma power_bpow : forall e, powerRZ 2 e = bpow radix2 e.
Proof. intro e. symmetry. apply (bpow_powerRZ radix2). Qed.

Lemma fits_exact : forall r, fits r -> rnd64 r = r /\ Rlt_bool (Rabs r) (bpow radix2 emax64) = true.
Proof.
  intros r [m [e [-> [Hm He]]]]. rewrite power_bpow. change (IZR m * bpow radix2 e) with (F2R (Float radix2 m e)). split.
  - apply round_generic; [typeclasses eauto|]. apply (generic_format_FLT radix2 (-1074) 53).
    exists (Float radix2 m e); [reflexivity|exact Hm|cbn; lia].
  - apply Rlt_bool_true. rewrite <- F2R_Zabs. apply Rlt_le_trans with (bpow radix2 (53 + e)).
    + rewrite bpow_plus. unfold F2R. cbn [Fnum Fexp]. apply Rmult_lt_compat_r; [apply bpow_gt_0|].
      change (bpow radix2 53) with (IZR (2 ^ 53)). now apply IZR_lt.
    + apply bpow_le. change emax64 with 1024%Z. lia.
Qed.

Lemma fits_f64 : forall v : f64, is_finite v = true -> fits (B2R v).
Proof.
  intros v F. destruct v as [s|s| |s m e B]; try discriminate F.
  - exists 0%Z, 0%Z. cbn. repeat split; try lia. lra.
  - exists (cond_Zopp s (Zpos m)), e. rewrite power_bpow. split; [reflexivity|].
    clear F. unfold SpecFloat.bounded in B. apply andb_prop in B. destruct B as [C L]. apply Zle_bool_imp_le in L.
    unfold SpecFloat.canonical_mantissa in C. apply Zeq_bool_eq in C. rewrite Digits.Zpos_digits2_pos in C.
    change emax64 with 1024%Z in *. change prec64 with 53%Z in *. unfold SpecFloat.fexp, SpecFloat.emin in C.
    split; [|lia]. rewrite abs_cond_Zopp. cbn [Z.abs].
    assert (D : (Digits.Zdigits radix2 (Zpos m) <= 53)%Z) by lia.
    pose proof (Digits.Zpower_gt_Zdigits radix2 53 (Zpos m) D) as P. exact P.
Qed.

Theorem C104_fits_iff : forall r, fits r <-> exists v : f64, is_real v r.
Proof.
  intro r. split.
  - intros H. destruct (fits_exact r H) as [R L]. destruct H as [m [e [E [Hm He]]]].
    pose proof (binary_normalize_correct prec64 emax64 Hprec64 Hmax64 mode_NE m e false) as N. cbv zeta in N.
    change (F2R (Float radix2 m e)) with (IZR m * bpow radix2 e) in N. rewrite <- power_bpow, <- E, R, L in N.
    destruct N as [N1 [N2 _]]. eexists. split; [exact N2|exact N1].
  - intros [v [F <-]]. now apply fits_f64.
Qed.

(** ** Exactness of each operation *)
Lemma fadd_real : forall a b x y, is_real a x -> is_real b y -> fits (x + y) -> is_real (fadd a b) (x + y).
Proof.
  intros a b x y [Fa Ra] [Fb Rb] S. destruct (fits_exact _ S) as [R L].
  pose proof (Bplus_correct prec64 emax64 Hprec64 Hmax64 mode_NE a b Fa Fb) as H.
  rewrite Ra, Rb, R, L in H. destruct H as [H1 [H2 _]]. now split.
Qed.
Lemma fsub_real : forall a b x y, is_real a x -> is_real b y -> fits (x - y) -> is_real (fsub a b) (x - y).
Proof.
  intros a b x y [Fa Ra] [Fb Rb] S. destruct (fits_exact _ S) as [R L].
  pose proof (Bminus_correct prec64 emax64 Hprec64 Hmax64 mode_NE a b Fa Fb) as H.
  rewrite Ra, Rb, R, L in H. destruct H as [H1 [H2 _]]. now split.
Qed.
Lemma fmul_real : forall a b x y, is_real a x -> is_real b y -> fits (x * y) -> is_real (fmul a b) (x * y).
Proof.
  intros a b x y [Fa Ra] [Fb Rb] S. destruct (fits_exact _ S) as [R L].
  pose proof (Bmult_correct prec64 emax64 Hprec64 Hmax64 mode_NE a b) as H.
  rewrite Ra, Rb, R, L, Fa, Fb in H. destruct H as [H1 [H2 _]]. now split.
Qed.
Lemma fdiv_real : forall a b x y, is_real a x -> is_real b y -> y <> 0 -> fits (x / y) -> is_real (fdiv a b) (x / y).
Proof.
  intros a b x y [Fa Ra] [Fb Rb] Hy S. destruct (fits_exact _ S) as [R L].
  assert (Hz : B2R b <> 0) by now rewrite Rb.
  pose proof (Bdiv_correct prec64 emax64 Hprec64 Hmax64 mode_NE a b Hz) as H.
  rewrite Ra, Rb, R, L, Fa in H. destruct H as [H1 [H2 _]]. now split.
Qed.
Lemma frem_real : forall a b x y, is_real a x -> is_real b y -> y <> 0 -> is_real (frem a b) (x - whole_part (x / y) * y).
Proof.
  intros a b x y [Fa Ra] [Fb Rb] Hy. assert (Hz : B2R b <> 0) by now rewrite Rb.
  destruct (frem_correct a b Fa Fb Hz) as [H1 [H2 _]]. split; [exact H2|]. now rewrite H1, Ra, Rb.
Qed.
Lemma fneg_real : forall a x, is_real a x -> is_real (fneg a) (- x).
Proof. intros a x [Fa Ra]. split; [unfold fneg; now rewrite is_finite_Bopp|]. unfold fneg. now rewrite B2R_Bopp, Ra. Qed.
Lemma factorial_real : forall a n, is_real a (INR n) -> (Z.of_nat (fact n) <= 2 ^ 53)%Z -> is_real (factorial a) (INR (fact n)).
Proof.
  intros a n [F R] H. rewrite INR_IZR_INZ in *. apply factorial_int; [now split|]. unfold small. pose proof (fact_pos n). lia.
Qed.
Lemma real_fits : forall v r, is_real v r -> fits r.
Proof. intros v r H. apply C104_fits_iff. now exists v. Qed.
Lemma zero_real : is_real fzero 0. Proof. now split. Qed.
Lemma one_real : is_real fone 1. Proof. split; [reflexivity|exact B2R_fone]. Qed.

Lemma fold_sum_real : forall l vs a x, is_real a x -> Forall2 is_real vs l -> (forall k, fits (fold_left Rplus (firstn k l) x)) ->
  is_real (fold_left fadd vs a) (fold_left Rplus l x).
Proof.
  induction l as [|z l IH]; intros vs a x Ha Hl S; inversion Hl as [|v ? vs' ? Hv Hl']; subst; [exact Ha|].
  cbn [fold_left]. apply (IH vs' (fadd a v) (x + z)).
  - apply fadd_real; auto. exact (S 1%nat).
  - exact Hl'.
  - intro k. exact (S (Datatypes.S k)).
Qed.
Lemma sum_real : forall w vs l, Forall2 is_real vs l -> (forall k, fits (real_total (firstn k l))) -> is_real (sum_f64 w vs) (real_total l).
Proof.
  intros w vs l H S. unfold sum_f64. apply fold_sum_real; auto. destruct (sum_neg_zero w); split; reflexivity.
Qed.
Lemma in_reals : forall vs rs, Forall2 is_real vs rs -> forall v, In v vs -> exists r, In r rs /\ is_real v r.
Proof.
  intros vs zs H. induction H as [|v z vs zs Hv H IH]; intros u [].
  - subst u. exists z. split; [now left|exact Hv].
  - destruct (IH u H0) as [y [Y1 Y2]]. exists y. split; [now right|exact Y2].
Qed.
Lemma in_reals_back : forall vs rs, Forall2 is_real vs rs -> forall r, In r rs -> exists v, In v vs /\ is_real v r.
Proof.
  intros vs zs H. induction H as [|v z vs zs Hv H IH]; intros u [].
  - subst u. exists v. split; [now left|exact Hv].
  - destruct (IH u H0) as [y [Y1 Y2]]. exists y. split; [now right|exact Y2].
Qed.
Lemma flt_real : forall a b x y, is_real a x -> is_real b y -> flt a b = false -> y <= x.
Proof.
  intros a b x y [Fa Ra] [Fb Rb] H. unfold flt in H. rewrite Bltb_correct, Ra, Rb in H by assumption.
  destruct (Rlt_bool_spec x y) as [|G]; [discriminate H|exact G].
Qed.
Lemma nearest_whole_round : forall r z, nearest_whole r z -> IZR (round_away r) = z.
Proof.
  intros r z [[n ->] [H1 H2]]. f_equal. unfold round_away. destruct (Rle_dec 0 r) as [P|P].
  - apply Zfloor_imp. rewrite plus_IZR. destruct (Req_dec (Rabs (r - IZR n)) (/ 2)) as [E|E].
    + specialize (H2 E). rewrite (Rabs_pos_eq r P) in H2. unfold Rabs in *.
      destruct (Rcase_abs (r - IZR n)), (Rcase_abs (IZR n)) as [N|N]; try lra.
      apply lt_IZR in N. assert (N1 : IZR n <= IZR (-1)) by (apply IZR_le; lia). lra.
    + unfold Rabs in *. destruct (Rcase_abs (r - IZR n)); lra.
  - apply Zceil_imp. rewrite minus_IZR. destruct (Req_dec (Rabs (r - IZR n)) (/ 2)) as [E|E].
    + specialize (H2 E). rewrite (Rabs_left r) in H2 by lra. unfold Rabs in *.
      destruct (Rcase_abs (r - IZR n)), (Rcase_abs (IZR n)) as [N|N]; try lra.
      assert (N0 : 0 < IZR n) by lra. apply lt_IZR in N0. assert (N1 : IZR 1 <= IZR n) by (apply IZR_le; lia). lra.
    + unfold Rabs in *. destruct (Rcase_abs (r - IZR n)); lra.
Qed.

Lemma call_real : forall w b vs rs r, Forall2 is_real vs rs -> exact_call b rs r ->
  exists v, call_function w (builtin_function b) vs = Val v /\ is_real v r.
Proof.
  intros w b vs zs z H Hc. inversion Hc; subst.
  1-8: inversion H as [|v ? vs' ? Hv Hn]; subst; inversion Hn; subst.
  1-6: destruct Hv as [Fv Rv]; destruct (C48_rounding_functions w v Fv) as [[u1 K1] [[u2 K2] [[u3 K3] [[u4 K4] [u5 K5]]]]].
  - destruct K5 as [E [F R]]. exists u5. split; [exact E|]. split; [exact F|]. now rewrite R, Rv.
  - destruct K1 as [E [F R]]. exists u1. split; [exact E|]. split; [exact F|]. destruct H0 as [n ->]. rewrite R, Rv. f_equal.
    apply Zfloor_imp. rewrite plus_IZR. lra.
  - destruct K2 as [E [F R]]. exists u2. split; [exact E|]. split; [exact F|]. destruct H0 as [n ->]. rewrite R, Rv. f_equal.
    apply Zceil_imp. rewrite minus_IZR. lra.
  - destruct K4 as [E [F R]]. exists u4. split; [exact E|]. split; [exact F|]. rewrite R, Rv. now apply nearest_whole_round.
  - destruct K3 as [E [F R]]. exists u3. split; [exact E|]. split; [exact F|]. now rewrite R, Rv.
  - destruct (C48_fract_is_exact w v Fv) as [u [E [F R]]]. exists u. split; [exact E|]. split; [exact F|]. now rewrite R, Rv.
  - exists (fsqrt v). split; [reflexivity|]. destruct Hv as [Fv Rv].
    destruct (Bsqrt_correct prec64 emax64 Hprec64 Hmax64 mode_NE v) as [R [F _]]. fold (fsqrt v) in *.
    rewrite Rv, sqrt_square in R by assumption. rewrite (proj1 (fits_exact z H1)) in R. split; [|exact R].
    rewrite F. destruct v as [s|s| |s m e B]; try discriminate Fv; auto. destruct s; auto. exfalso. cbn in Rv.
    pose proof (F2R_lt_0 radix2 (Float radix2 (Zneg m) e) eq_refl) as N. rewrite Rv in N. nra.
  - exists (frecip v). split; [reflexivity|]. unfold frecip. replace (/ a) with (1 / a) in * by (field; assumption).
    apply fdiv_real; auto. exact one_real.
  - destruct (in_reals_back _ _ H _ H0) as [u [Iu Hu]].
    destruct (C46_min w vs) as [m [E [Im [_ Lm]]]]. { exists u. split; [exact Iu|destruct Hu; now apply finite_not_nan]. }
    exists m. split; [exact E|]. destruct (in_reals _ _ H m Im) as [y [Iy Hy]].
    assert (Ey : y = z); [|now rewrite <- Ey].
    pose proof (flt_real _ _ _ _ Hu Hy (Lm u Iu)). pose proof (H1 y Iy). lra.
  - destruct (in_reals_back _ _ H _ H0) as [u [Iu Hu]].
    destruct (C46_max w vs) as [m [E [Im [_ Lm]]]]. { exists u. split; [exact Iu|destruct Hu; now apply finite_not_nan]. }
    exists m. split; [exact E|]. destruct (in_reals _ _ H m Im) as [y [Iy Hy]].
    assert (Ey : y = z); [|now rewrite <- Ey].
    pose proof (flt_real _ _ _ _ Hy Hu (Lm u Iu)). pose proof (H1 y Iy). lra.
  - exists (sum_f64 w vs). split; [reflexivity|]. now apply sum_real.
  - assert (Hlen : List.length vs = List.length zs) by (clear - H; induction H; cbn; auto).
    eexists. split; [reflexivity|]. rewrite Hlen. apply fdiv_real; auto.
    + now apply sum_real.
    + rewrite INR_IZR_INZ. destruct (f64_of_Z_small (Z.of_nat (List.length zs))); [lia|]. now split.
    + apply not_0_INR. destruct zs; [contradiction|discriminate].
Qed.

(** ** Expressions *)
Scheme exact_value_ind2 := Minimality for exact_value Sort Prop
  with exact_values_ind2 := Minimality for exact_values Sort Prop.
Combined Scheme exact_mutind from exact_value_ind2, exact_values_ind2.

Section Exact.
  Variable w : world.
  Variable rho : string -> option f64.

  Lemma exact_mean :
    (forall e r, exact_value rho e r -> exists v, means w rho e v /\ is_real v r) /\
    (forall l l', exact_values rho l l' -> exists vs, means_all w rho l vs /\ Forall2 is_real vs l').
  Proof.
    apply exact_mutind.
    - intros n Hn. exists n. split; [constructor|now split].
    - intros x v Hx F. exists v. split; [now constructor|now split].
    - intros l r a b _ [u [Mu Iu]] _ [v [Mv Iv]] S. exists (fadd u v). split; [now constructor|now apply fadd_real].
    - intros l r a b _ [u [Mu Iu]] _ [v [Mv Iv]] S. exists (fsub u v). split; [now constructor|now apply fsub_real].
    - intros l r a b _ [u [Mu Iu]] _ [v [Mv Iv]] S. exists (fmul u v). split; [now constructor|now apply fmul_real].
    - intros l r a b _ [u [Mu Iu]] _ [v [Mv Iv]] Hb S. exists (fdiv u v). split; [now constructor|now apply fdiv_real].
    - intros l r a b _ [u [Mu Iu]] _ [v [Mv Iv]] Hb _. exists (frem u v). split; [now constructor|now apply frem_real].
    - intros e a _ [u [Mu Iu]]. exists u. split; [now constructor|exact Iu].
    - intros e a _ [u [Mu Iu]]. exists (fneg u). split; [now constructor|now apply fneg_real].
    - intros e n _ [u [Mu Iu]] S. exists (factorial u). split; [now constructor|now apply factorial_real].
    - intros b args l z _ [vs [Mvs Ivs]] Hc. destruct (call_real w b vs l z Ivs Hc) as [v [E V]].
      exists v. split; [econstructor; eauto|exact V].
    - exists []. split; constructor.
    - intros a args z l _ [u [Mu Iu]] _ [vs [Mvs Ivs]]. exists (u :: vs). split; constructor; auto.
  Qed.

  Lemma exact_det : forall e a b, exact_value rho e a -> exact_value rho e b -> a = b.
  Proof.
    intros e a b Ha Hb. destruct (proj1 exact_mean _ _ Ha) as [u [Mu [_ Ru]]]. destruct (proj1 exact_mean _ _ Hb) as [v [Mv [_ Rv]]].
    pose proof (means_det _ _ _ _ _ Mu Mv). subst v. congruence.
  Qed.
  Lemma exact_fits : forall e a, exact_value rho e a -> fits a.
  Proof. intros e a H. destruct (proj1 exact_mean _ _ H) as [u [_ Iu]]. eapply real_fits; eauto. Qed.
  Lemma exact_as : forall e a b, exact_value rho e a -> a = b -> exact_value rho e b.
  Proof. now intros e a b H <-. Qed.
  Lemma number_as : forall v r, is_real v r -> exact_value rho (Number v) r.
  Proof. intros v r [F <-]. now constructor. Qed.

  (** *** Simplification keeps exact values *)
  Definition keeps_exact (e e' : element) : Prop := forall z, exact_value rho e z -> exact_value rho e' z.

  Lemma keepx_bin : forall op l r l' r', keeps_exact l l' -> keeps_exact r r' -> keeps_exact (BinOp op l r) (BinOp op l' r').
  Proof. intros op l r l' r' Hl Hr z H. inversion H; subst; econstructor; eauto. Qed.
  Lemma keepx_un : forall op e e', keeps_exact e e' -> keeps_exact (UnOp op e) (UnOp op e').
  Proof. intros op e e' He z H. inversion H; subst; econstructor; eauto. Qed.
  Lemma keepx_all : forall l l', Forall2 keeps_exact l l' -> forall ns, exact_values rho l ns -> exact_values rho l' ns.
  Proof. intros l l' H. induction H; intros ns Hn; inversion Hn; subst; constructor; auto. Qed.
  Lemma keepx_call : forall f args args', Forall2 keeps_exact args args' -> keeps_exact (Call f args) (Call f args').
  Proof. intros f args args' H z Hz. inversion Hz; subst. econstructor; eauto. eapply keepx_all; eauto. Qed.

  Lemma exact_no_bf : (forall e z, exact_value rho e z -> no_bf e) /\ (forall l l', exact_values rho l l' -> Forall no_bf l).
  Proof.
    apply exact_mutind; intros; cbn [no_bf]; auto; try (split; [discriminate|auto]).
    apply (proj2 (no_bf_call (builtin_function b) args)). assumption.
  Qed.
  Lemma is_real_feq : forall x y z, feq x y = true -> is_real x z -> is_real y z.
  Proof.
    intros x y z H [Fx Rx]. apply feq_cases in H. destruct H as [[<- _]|[[s ->] [t ->]]]; [now split|].
    split; [reflexivity|]. exact Rx.
  Qed.
  Lemma equal_keepx : (forall a b, equal_exprs a b -> keeps_exact a b) /\
    (forall l m, equal_lists l m -> Forall2 keeps_exact l m).
  Proof.
    apply equal_mutind.
    - intros x y H z Hz. inversion Hz as [n F| | | | | | | | | |]; subst. apply number_as.
      apply (is_real_feq _ _ _ H). now split.
    - intros x z Hz. exact Hz.
    - intros op a b _ IH. now apply keepx_un.
    - intros op l r l' r' _ _ IH1 _ IH2. now apply keepx_bin.
    - intros op l r l' r' Hop _ IH1 _ IH2 z Hz. inversion Hz; subst; try (destruct Hop; discriminate).
      + rewrite Rplus_comm in *. constructor; auto.
      + rewrite Rmult_comm in *. constructor; auto.
    - intros f args args' _ IH. now apply keepx_call.
    - constructor.
    - intros a b l m _ IH _ IHl. now constructor.
  Qed.
  Lemma eq_exact : forall l r a b, el_eq l r = Val true -> exact_value rho l a -> exact_value rho r b -> a = b.
  Proof.
    intros l r a b E Hl Hr. apply (el_eq_equal _ _ (proj1 exact_no_bf _ _ Hl)) in E.
    exact (exact_det r a b (proj1 equal_keepx _ _ E _ Hl) Hr).
  Qed.
  Lemma lit_exact : forall e v n z, lit_eq e v -> is_real v n -> exact_value rho e z -> z = n.
  Proof.
    intros e v n z [x [-> Hx]] [_ Rv] Hz. inversion Hz as [m F| | | | | | | | | |]; subst.
    assert (K : is_real x (B2R x)) by now split. apply (is_real_feq _ _ _ Hx) in K. destruct K as [_ K]. congruence.
  Qed.
  Lemma literal_exact : forall e v z, exact_value rho e z -> means w rho e v -> exact_value rho (Number v) z.
  Proof.
    intros e v z H M. destruct (proj1 exact_mean _ _ H) as [u [Mu Iu]]. apply number_as. now rewrite (means_det _ _ _ _ _ M Mu).
  Qed.
  Lemma whole_part_IZR : forall n, whole_part (IZR n) = IZR n.
  Proof. intro n. unfold whole_part. now rewrite Ztrunc_IZR. Qed.

  Local Ltac same := match goal with E : el_eq ?l ?r = Val true, A : exact_value rho ?l ?a, B : exact_value rho ?r ?b |- _ =>
    pose proof (eq_exact _ _ _ _ E A B) end.

  Lemma rewrites_keepx : forall cfg op l r e, rewrites cfg w op l r e -> keeps_exact (BinOp op l r) e.
  Proof.
    intros cfg op l r e Hrw z H.
    assert (L0 : forall a, exact_value rho l a -> lit_eq l fzero -> a = 0) by (intros a Ha K; eapply lit_exact; eauto using zero_real).
    assert (R0 : forall a, exact_value rho r a -> lit_eq r fzero -> a = 0) by (intros a Ha K; eapply lit_exact; eauto using zero_real).
    assert (L1 : forall a, exact_value rho l a -> lit_eq l fone -> a = 1) by (intros a Ha K; eapply lit_exact; eauto using one_real).
    assert (R1 : forall a, exact_value rho r a -> lit_eq r fone -> a = 1) by (intros a Ha K; eapply lit_exact; eauto using one_real).
    assert (Z0 : exact_value rho (Number fzero) 0) by (apply number_as, zero_real).
    assert (Z1 : exact_value rho (Number fone) 1) by (apply number_as, one_real).
    destruct Hrw; try exact H.
    - inversion H; subst. rewrite (L0 a) by assumption. now rewrite Rplus_0_l.
    - inversion H; subst. rewrite (R0 b) by assumption. now rewrite Rplus_0_r.
    - inversion H as [| |? ? m b Hl Hr S| | | | | | | |]; subst. inversion Hl; subst.
      same. subst. now rewrite Rplus_opp_l.
    - inversion H as [| |? ? m b Hl Hr S| | | | | | | |]; subst. inversion Hr; subst.
      same. subst. now rewrite Rplus_opp_r.
    - inversion H; subst. rewrite (L0 a) by assumption. rewrite Rminus_0_l. now constructor.
    - inversion H; subst. rewrite (R0 b) by assumption. now rewrite Rminus_0_r.
    - inversion H; subst. same. subst. now rewrite Rminus_diag_eq.
    - inversion H as [| | |? ? m b Hl Hr S| | | | | | |]; subst. inversion Hr as [| | | | | | | |? c Hc| |]; subst.
      replace (m - - c) with (m + c) in * by ring. now constructor.
    - inversion H; subst. rewrite (L0 a) by assumption. now rewrite Rmult_0_l.
    - inversion H; subst. rewrite (R0 b) by assumption. now rewrite Rmult_0_r.
    - inversion H; subst. rewrite (L1 a) by assumption. now rewrite Rmult_1_l.
    - inversion H; subst. rewrite (R1 b) by assumption. now rewrite Rmult_1_r.
    - inversion H as [| | | |? ? m b' Hl Hr S| | | | | |]; subst. inversion Hl as [| | | | | | | |? c Hc| |]; inversion Hr as [| | | | | | | |? d Hd| |]; subst.
      rewrite Rmult_opp_opp in *. now constructor.
    - inversion H; subst. exfalso. eauto.
    - inversion H; subst. rewrite (L0 a) by assumption. unfold Rdiv. now rewrite Rmult_0_l.
    - inversion H; subst. exfalso. eauto.
    - inversion H; subst. rewrite (R1 b) by assumption. unfold Rdiv. now rewrite Rinv_1, Rmult_1_r.
    - inversion H; subst. same. subst. unfold Rdiv. now rewrite Rinv_r.
    - inversion H as [| | | | |? ? q m Hl Hr S F| | | | |]; subst.
      inversion Hl as [| | | | | | | |? c Hc| |]; inversion Hr as [| | | | | | | |? d Hd| |]; subst.
      assert (d <> 0) by (intro; subst d; apply S; ring).
      replace (- c / - d) with (c / d) in * by (field; assumption). now constructor.
    - inversion H.
    - inversion H.
    - inversion H.
    - inversion H; subst. exfalso. eauto.
    - inversion H; subst. rewrite (L0 a) by assumption. apply (exact_as _ _ _ Z0). unfold Rdiv. rewrite Rmult_0_l, (whole_part_IZR 0). ring.
    - inversion H; subst. exfalso. eauto.
    - inversion H as [| | | | | |? ? m b Hl Hr S W| | | |]; subst. assert (b = 1) by eauto. subst b. destruct (W eq_refl) as [n ->]. apply (exact_as _ _ _ Z0).
      unfold Rdiv. rewrite Rinv_1, !Rmult_1_r, whole_part_IZR. ring.
    - inversion H; subst. same. subst. apply (exact_as _ _ _ Z0). unfold Rdiv. rewrite Rinv_r by assumption.
      rewrite (whole_part_IZR 1). ring.
    - eapply literal_exact; [exact H|]. inversion H; subst; cbn in H0; injection H0 as <-; repeat constructor.
  Qed.

  Lemma simplify_unop_keepx : forall op e e', simplify_unop op e = Val e' -> keeps_exact (UnOp op e) e'.
  Proof.
    intros op e e' H z Hz. destruct op; cbn in H; try discriminate.
    - injection H as <-. inversion Hz; subst. assumption.
    - destruct e; injection H as <-; auto. eapply literal_exact; [exact Hz|]. repeat constructor.
    - destruct e; injection H as <-; auto. eapply literal_exact; [exact Hz|]. repeat constructor.
  Qed.
  Lemma simplify_call_keepx : forall f args e', simplify_call w f args = Val e' -> keeps_exact (Call f args) e'.
  Proof.
    intros f args e' H z Hz. unfold simplify_call in H. destruct (Nat.eqb _ _) eqn:E; [|now injection H as <-].
    apply Nat.eqb_eq in E. destruct (call_function w f (number_values args)) as [v|] eqn:Ev; cbn in H; [|discriminate]. injection H as <-.
    eapply literal_exact; [exact Hz|]. econstructor; [|exact Ev]. now apply number_args_mean.
  Qed.
  Lemma simplify_keepx : forall cfg e e', simplify cfg w e = Val e' -> keeps_exact e e'.
  Proof.
    intros cfg. induction e as [n|op l r IHl IHr|op a IH|f args IH|y] using element_ind'; intros e' H z Hz; cbn in H.
    - now injection H as <-.
    - destruct (simplify cfg w l) eqn:El; cbn in H; [|discriminate].
      destruct (simplify cfg w r) eqn:Er; cbn in H; [|discriminate].
      apply simplify_binop_rewrites in H. eapply rewrites_keepx; [exact H|].
      eapply keepx_bin; [exact (IHl _ eq_refl)|exact (IHr _ eq_refl)|exact Hz].
    - destruct (simplify cfg w a) eqn:Ea; cbn in H; [|discriminate].
      eapply simplify_unop_keepx; [exact H|]. eapply keepx_un; [exact (IH _ eq_refl)|exact Hz].
    - destruct (map_out (simplify cfg w) args) as [args'|] eqn:Ea; cbn in H; [|discriminate].
      eapply simplify_call_keepx; [exact H|]. eapply keepx_call; [|exact Hz].
      apply map_out_Forall2 in Ea. clear - IH Ea. induction Ea; constructor; inversion IH; subst; auto.
    - now injection H as <-.
  Qed.
  Lemma simplified_keepx : forall cfg,
    (forall e e', simplified_from cfg w e e' -> keeps_exact e e') /\
    (forall l l', simplified_all cfg w l l' -> Forall2 keeps_exact l l').
  Proof.
    intro cfg. apply simplified_mutind; intros; auto using keepx_bin, keepx_un, keepx_call.
    - intros z Hz. exact Hz.
    - intros z Hz. exact Hz.
    - intros z Hz. eapply simplify_keepx; eauto.
  Qed.
End Exact.

(** *** Partial evaluation *)
Section Given.
  Variable w : world.
  Variable rho : string -> option f64.
  Variables (x : string) (c : f64).
  Let rho' := fun y => if String.eqb y x then Some c else rho y.

  Lemma simplify_for_keepx : forall cfg e e', el_simplify_for cfg w x c e = Val e' ->
    forall z, exact_value rho' e z -> exact_value rho e' z.
  Proof.
    intros cfg. induction e as [m|op l r IHl IHr|op a IH|f args IH|y] using element_ind'; intros e' H z Hz; cbn -[simplify] in H.
    - injection H as <-. inversion Hz; subst. now constructor.
    - destruct (el_simplify_for cfg w x c l) eqn:El; cbn -[simplify] in H; [|discriminate].
      destruct (el_simplify_for cfg w x c r) eqn:Er; cbn -[simplify] in H; [|discriminate].
      eapply simplify_keepx; [exact H|]. inversion Hz; subst; econstructor; eauto.
    - destruct (el_simplify_for cfg w x c a) eqn:Ea; cbn -[simplify] in H; [|discriminate].
      eapply simplify_keepx; [exact H|]. inversion Hz; subst; econstructor; eauto.
    - destruct (map_out _ args) eqn:Ea; cbn -[simplify] in H; [|discriminate].
      eapply simplify_keepx; [exact H|]. apply map_out_Forall2 in Ea. inversion Hz as [| | | | | | | | | |b args1 ns z1 Hns Hcall]; subst.
      econstructor; [|exact Hcall]. clear Hz Hcall H. revert ns Hns.
      induction Ea as [|a a' l l' Ha HA IHA]; intros ns Hns; inversion Hns; subst; [constructor|].
      inversion IH; subst. constructor; eauto.
    - inversion Hz as [|y1 v Hy F| | | | | | | | |]; subst. unfold rho' in Hy.
      destruct (String.eqb y x); injection H as <-; [injection Hy as <-|]; now constructor.
  Qed.
End Given.

(** ** C104 *)
Theorem C104_exact : forall w x rho r,
  exact_value (fun y => sget y rho) (root x) r ->
  exists v, eval w x rho = Val (Eval_ok v) /\ is_real v r.
Proof.
  intros w x rho r H. destruct (proj1 (exact_mean w (lookup rho)) _ _ H) as [v [M V]].
  exists v. split; [now apply C21_eval_is_meaning|exact V].
Qed.

(** For texts, in every configuration: [t] is what the text says, and the parsed
    expression, simplified or not, evaluates exactly. *)
Theorem C104_texts : forall cfg w ctx input ts t,
  fair_order w -> context_functions_return w ctx ->
  tokens_of input ts -> clear_tokens ctx ts -> sentence (pejmdas cfg) ctx ts t -> declared ctx t ->
  exists x, parse cfg w ctx input = Parse_ok x /\
    forall rho r, exact_value (fun y => sget y rho) t r -> exists v, eval w x rho = Val (Eval_ok v) /\ is_real v r.
Proof.
  intros cfg w ctx input ts t Hf Hcf Hts Hcl Hs Hd. destruct (optimize cfg) eqn:Ho.
  - destruct (C05_default_sentences_are_accepted cfg w ctx input ts t Ho Hf Hcf Hts Hcl Hs Hd) as [x [Hx [Z _]]].
    exists x. split; [exact Hx|]. intros rho r Hr.
    apply C104_exact. now apply (proj1 (simplified_keepx w (fun y => sget y rho) cfg) _ _ Z).
  - destruct (C05_sentences_are_accepted cfg w ctx input ts t Ho Hf Hts Hs Hd) as [x [Hx <-]].
    exists x. split; [exact Hx|]. intros rho r Hr. now apply C104_exact.
Qed.

(** Partial evaluation does not disturb it. *)
Theorem C104_simplify_for : forall cfg w x name c x' rho r,
  simplify_for cfg w x (name, c) = Val x' ->
  exact_value (fun y => if String.eqb y name then Some c else sget y rho) (root x) r ->
  exists v, eval w x' rho = Val (Eval_ok v) /\ is_real v r.
Proof.
  intros cfg w x name c x' rho r Hs H. apply simplify_for_inv in Hs. destruct Hs as [Hs _]. cbn [fst snd] in Hs.
  apply C104_exact. exact (simplify_for_keepx w (fun y => sget y rho) name c cfg _ _ Hs r H).
Qed.

(** Sums and differences of multiples of a power of two. *)
Lemma fits_units : forall m g, (Z.abs m < 2 ^ 53)%Z -> (-1074 <= g <= 971)%Z -> fits (IZR m * powerRZ 2 g).
Proof. intros m g Hm Hg. now exists m, g. Qed.
Lemma units_exact : forall rho g e m t, (-1074 <= g <= 971)%Z -> in_units rho g e m t ->
  (Z.abs m <= t)%Z /\ ((t < 2 ^ 53)%Z -> exact_value rho e (IZR m * powerRZ 2 g)).
Proof.
  intros rho g e m t Hg H. induction H as [n m [F <-]|x v m Hx [F <-]|l r a b s t _ [Al IHl] _ [Ar IHr]|l r a b s t _ [Al IHl] _ [Ar IHr]|e a s _ [A IH]|e a s _ [A IH]].
  - split; [lia|]. intros _. now constructor.
  - split; [lia|]. intros _. now constructor.
  - split; [lia|]. intro Ht. rewrite plus_IZR, Rmult_plus_distr_r. constructor; [apply IHl; lia|apply IHr; lia|].
    rewrite <- Rmult_plus_distr_r, <- plus_IZR. apply fits_units; lia.
  - split; [lia|]. intro Ht. rewrite minus_IZR, Rmult_minus_distr_r. constructor; [apply IHl; lia|apply IHr; lia|].
    rewrite <- Rmult_minus_distr_r, <- minus_IZR. apply fits_units; lia.
  - split; [exact A|]. intro Ht. constructor. auto.
  - split; [lia|]. intro Ht. rewrite opp_IZR, <- Ropp_mult_distr_l. constructor. auto.
Qed.
Theorem C104_units : forall cfg w ctx input ts t g,
  fair_order w -> context_functions_return w ctx ->
  tokens_of input ts -> clear_tokens ctx ts -> sentence (pejmdas cfg) ctx ts t -> declared ctx t ->
  (-1074 <= g <= 971)%Z ->
  exists x, parse cfg w ctx input = Parse_ok x /\
    forall rho m k, in_units (fun y => sget y rho) g t m k -> (k < 2 ^ 53)%Z ->
      exists v, eval w x rho = Val (Eval_ok v) /\ is_real v (IZR m * powerRZ 2 g).
Proof.
  intros cfg w ctx input ts t g Hf Hcf Hts Hcl Hs Hd Hg.
  destruct (C104_texts cfg w ctx input ts t Hf Hcf Hts Hcl Hs Hd) as [x [Hx K]]. exists x. split; [exact Hx|].
  intros rho m k Hu Hk. apply K. exact (proj2 (units_exact _ g _ _ _ Hg Hu) Hk).
Qed.

(** *** Witnesses *)
Local Open Scope string_scope.
Definition eighths : string := "(x + 0.625) * 3 / 0.25 - sqrt(y * y) + 7.5 % 2".
Definition eighths_tokens : list token :=
  ([TSym "("; TId "x"; TSym "+"; TNum "0.625"; TSym ")"; TSym "*"; TNum "3"; TSym "/"; TNum "0.25"; TSym "-";
    TId "sqrt"; TSym "("; TId "y"; TSym "*"; TId "y"; TSym ")"; TSym "+"; TNum "7.5"; TSym "%"; TNum "2"])%list.
Definition eighths_tree : element :=
  BinOp Plus
    (BinOp Minus
      (BinOp Divide (BinOp Times (BinOp Plus (Var "x") (Number (lit "0.625"))) (Number (lit "3"))) (Number (lit "0.25")))
      (Call (builtin_function B_SQRT) [BinOp Times (Var "y") (Var "y")]))
    (BinOp Modulo (Number (lit "7.5")) (Number (lit "2"))).

Definition f64_at (m e : Z) : f64 := binary_normalize prec64 emax64 Hprec64 Hmax64 mode_NE m e false.
Lemma f64_at_real : forall m e, (Z.abs m < 2 ^ 53)%Z -> (-1074 <= e <= 971)%Z -> is_real (f64_at m e) (IZR m * powerRZ 2 e).
Proof.
  intros m e Hm He. destruct (fits_exact _ (fits_units m e Hm He)) as [R L].
  pose proof (binary_normalize_correct prec64 emax64 Hprec64 Hmax64 mode_NE m e false) as N. cbv zeta in N.
  change (F2R (Float radix2 m e)) with (IZR m * bpow radix2 e) in N. rewrite <- power_bpow, R, L in N.
  destruct N as [N1 [N2 _]]. split; [exact N2|exact N1].
Qed.
Lemma lit_at : forall s m e, same_f64 (lit s) (f64_at m e) = true -> (Z.abs m < 2 ^ 53)%Z -> (-1074 <= e <= 971)%Z ->
  is_real (lit s) (IZR m * powerRZ 2 e).
Proof. intros s m e H Hm He. apply same_f64_eq in H. rewrite H. now apply f64_at_real. Qed.
Lemma fits_at : forall r m e, r = IZR m * powerRZ 2 e -> (Z.abs m < 2 ^ 53)%Z -> (-1074 <= e <= 971)%Z -> fits r.
Proof. intros r m e E Hm He. now exists m, e. Qed.

Definition at_xy : list (string * f64) := [("x", f64_at 11 (-3)); ("y", f64_at 5 (-1))].

Lemma number_at : forall rho s m e r, same_f64 (lit s) (f64_at m e) = true -> (Z.abs m < 2 ^ 53)%Z -> (-1074 <= e <= 971)%Z ->
  r = IZR m * powerRZ 2 e -> exact_value rho (Number (lit s)) r.
Proof. intros rho s m e r H Hm He ->. apply number_as. now apply lit_at. Qed.
Lemma var_at : forall (rho : string -> option f64) x m e r, rho x = Some (f64_at m e) -> (Z.abs m < 2 ^ 53)%Z -> (-1074 <= e <= 971)%Z ->
  r = IZR m * powerRZ 2 e -> exact_value rho (Var x) r.
Proof.
  intros rho x m e r H Hm He ->. destruct (f64_at_real m e Hm He) as [F <-]. now constructor.
Qed.
Ltac p2 := rewrite power_bpow; cbn; lra.
Ltac numb m e := apply (number_at _ _ m e); [vm_compute; reflexivity|lia|lia|p2].

Lemma eighths_value : exact_value (fun y => sget y at_xy) eighths_tree 23.
Proof.
  assert (X : exact_value (fun y => sget y at_xy) (Var "x") (11 / 8)) by (apply (var_at _ _ 11 (-3)); [reflexivity|lia|lia|p2]).
  assert (Y : exact_value (fun y => sget y at_xy) (Var "y") (5 / 2)) by (apply (var_at _ _ 5 (-1)); [reflexivity|lia|lia|p2]).
  assert (S : exact_value (fun y => sget y at_xy) (BinOp Plus (Var "x") (Number (lit "0.625"))) (11 / 8 + 5 / 8)).
  { apply XV_plus; [exact X|numb 5%Z (-3)%Z|]. apply (fits_at _ 2 0); [p2|lia|lia]. }
  assert (P : exact_value (fun y => sget y at_xy) (BinOp Times (BinOp Plus (Var "x") (Number (lit "0.625"))) (Number (lit "3"))) ((11 / 8 + 5 / 8) * 3)).
  { apply XV_times; [exact S|numb 3%Z 0%Z|]. apply (fits_at _ 6 0); [p2|lia|lia]. }
  assert (D : exact_value (fun y => sget y at_xy)
     (BinOp Divide (BinOp Times (BinOp Plus (Var "x") (Number (lit "0.625"))) (Number (lit "3"))) (Number (lit "0.25"))) ((11 / 8 + 5 / 8) * 3 / (1 / 4))).
  { apply XV_divide; [exact P|numb 1%Z (-2)%Z|lra|]. apply (fits_at _ 24 0); [p2|lia|lia]. }
  assert (Q : exact_value (fun y => sget y at_xy) (Call (builtin_function B_SQRT) [BinOp Times (Var "y") (Var "y")]) (5 / 2)).
  { apply XV_call with [5 / 2 * (5 / 2)]; [|apply XC_sqrt; [lra|apply (fits_at _ 5 (-1)); [p2|lia|lia]]].
    constructor; [|constructor]. apply XV_times; auto. apply (fits_at _ 25 (-2)); [p2|lia|lia]. }
  assert (M : exact_value (fun y => sget y at_xy) (BinOp Modulo (Number (lit "7.5")) (Number (lit "2"))) (3 / 2)).
  { apply (exact_as _ _ (15 / 2 - whole_part (15 / 2 / 2) * 2)).
    - apply XV_modulo; [numb 15%Z (-1)%Z|numb 2%Z 0%Z|lra|lra].
    - unfold whole_part. replace (Ztrunc (15 / 2 / 2)) with 3%Z; [lra|]. rewrite Ztrunc_floor by lra. symmetry. apply Zfloor_imp. cbn. lra. }
  apply (exact_as _ _ ((11 / 8 + 5 / 8) * 3 / (1 / 4) - 5 / 2 + 3 / 2)); [|lra].
  apply XV_plus; [apply XV_minus|exact M|]; auto.
  - apply (fits_at _ 43 (-1)); [p2|lia|lia].
  - apply (fits_at _ 23 0); [p2|lia|lia].
Qed.

Example C104_witness : exists x v, parse default_config w0 ctx_default eighths = Parse_ok x /\
  root x <> eighths_tree /\ eval w0 x at_xy = Val (Eval_ok v) /\ is_real v 23.
Proof.
  assert (Hts : tokens_of eighths eighths_tokens) by (apply tokens_check; vm_compute; reflexivity).
  assert (Hcl : clear_tokens ctx_default eighths_tokens) by (apply clear_check; vm_compute; reflexivity).
  assert (Hp : exists p, parse (plain default_config) w0 ctx_default eighths = Parse_ok p /\ root p = eighths_tree)
    by (apply parses_to; vm_compute; reflexivity).
  apply (C05_parser_decides_grammar (plain default_config) w0 ctx_default eighths eighths_tokens eighths_tree
           eq_refl w0_fair Hts Hcl) in Hp. destruct Hp as [Hs Hd].
  destruct (C104_texts default_config w0 ctx_default eighths eighths_tokens eighths_tree w0_fair (default_context_returns w0)
              Hts Hcl Hs Hd) as [x [Hx K]].
  destruct (K at_xy 23 eighths_value) as [v [E V]].
  exists x, v. split; [exact Hx|]. split; [|now split]. intro R.
  assert (H : ok_and (parse default_config w0 ctx_default eighths) (fun x => negb (same_tree (root x) eighths_tree)) = true) by (vm_compute; reflexivity).
  rewrite Hx in H. cbn [ok_and] in H. rewrite R in H. vm_compute in H. discriminate H.
Qed.

(** Money in 64ths: 0.015625 is one unit. *)
Example C104_units_witness : exists v x, parse default_config w0 ctx_default "12.5 - 3.015625 + x" = Parse_ok x /\
  eval w0 x [("x", f64_at (-7) (-6))] = Val (Eval_ok v) /\ is_real v (IZR 600 * powerRZ 2 (-6)).
Proof.
  set (ts := [TNum "12.5"; TSym "-"; TNum "3.015625"; TSym "+"; TId "x"]).
  set (t := BinOp Plus (BinOp Minus (Number (lit "12.5")) (Number (lit "3.015625"))) (Var "x")).
  assert (Hts : tokens_of "12.5 - 3.015625 + x" ts) by (apply tokens_check; vm_compute; reflexivity).
  assert (Hcl : clear_tokens ctx_default ts) by (apply clear_check; vm_compute; reflexivity).
  assert (Hp : exists p, parse (plain default_config) w0 ctx_default "12.5 - 3.015625 + x" = Parse_ok p /\ root p = t)
    by (apply parses_to; vm_compute; reflexivity).
  apply (C05_parser_decides_grammar (plain default_config) w0 ctx_default _ ts t eq_refl w0_fair Hts Hcl) in Hp. destruct Hp as [Hs Hd].
  destruct (C104_units default_config w0 ctx_default _ ts t (-6) w0_fair (default_context_returns w0) Hts Hcl Hs Hd) as [x [Hx K]]; [lia|].
  destruct (K [("x", f64_at (-7) (-6))] 600%Z 1000%Z) as [v [E V]].
  - change 600%Z with (800 - 193 + - 7)%Z. change 1000%Z with (Z.abs 800 + Z.abs 193 + Z.abs (-7))%Z.
    apply IU_plus; [apply IU_minus; apply IU_number; apply lit_at; [vm_compute; reflexivity|lia|lia|vm_compute; reflexivity|lia|lia]|].
    apply (IU_var _ _ _ (f64_at (-7) (-6))); [reflexivity|]. apply f64_at_real; lia.
  - lia.
  - exists v, x. auto.
Qed.

(** Partial evaluation of the first text at x = 1.375. *)
Example C104_simplify_for_witness : exists x x' v, parse (plain default_config) w0 ctx_default eighths = Parse_ok x /\
  simplify_for default_config w0 x ("x", f64_at 11 (-3)) = Val x' /\
  eval w0 x' [("y", f64_at 5 (-1))] = Val (Eval_ok v) /\ is_real v 23.
Proof.
  destruct (parses_to (parse (plain default_config) w0 ctx_default eighths) eighths_tree) as [x [Hx R]]; [vm_compute; reflexivity|].
  destruct (simplify_for default_config w0 x ("x", f64_at 11 (-3))) as [x'|p] eqn:Hs.
  - destruct (C104_simplify_for default_config w0 x "x" (f64_at 11 (-3)) x' [("y", f64_at 5 (-1))] 23 Hs) as [v [E V]].
    + rewrite R. exact eighths_value.
    + exists x, x', v. auto.
  - exfalso. unfold simplify_for, simplify_for_in_place in Hs. cbn [fst snd] in Hs. rewrite R in Hs.
    assert (K : match el_simplify_for default_config w0 "x" (f64_at 11 (-3)) eighths_tree with Val _ => true | Boom _ => false end = true) by (vm_compute; reflexivity).
    destruct (el_simplify_for default_config w0 "x" (f64_at 11 (-3)) eighths_tree); [discriminate Hs|discriminate K].
Qed.

(** The exception for the remainder by 1 is needed: 2.5 % 1 is 0.5, which fits,
    but the default build makes it 0; without simplification it is 0.5. *)
Theorem C104_remainder_by_one :
  (exists x v, parse default_config w0 ctx_default "2.5 % 1" = Parse_ok x /\ eval w0 x [] = Val (Eval_ok v) /\ is_real v 0) /\
  (exists x v, parse (plain default_config) w0 ctx_default "2.5 % 1" = Parse_ok x /\ eval w0 x [] = Val (Eval_ok v) /\ is_real v (1 / 2)).
Proof.
  split.
  - destruct (parses_to (parse default_config w0 ctx_default "2.5 % 1") (Number fzero)) as [x [Hx R]]; [vm_compute; reflexivity|].
    exists x, fzero. split; [exact Hx|]. split; [|exact zero_real]. unfold eval. rewrite R. reflexivity.
  - destruct (parses_to (parse (plain default_config) w0 ctx_default "2.5 % 1")
      (BinOp Modulo (Number (lit "2.5")) (Number (lit "1")))) as [x [Hx R]]; [vm_compute; reflexivity|].
    exists x, (f64_at 1 (-1)). split; [exact Hx|]. split.
    + unfold eval. rewrite R. apply eval_check. vm_compute. reflexivity.
    + replace (1 / 2) with (IZR 1 * powerRZ 2 (-1)) by p2. apply f64_at_real; lia.
Qed.
