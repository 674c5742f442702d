(** * Facts behind C73: laws of the f64 operations *)
From Coq Require Import ZArith List String Bool Reals Lra Lia Permutation.
From Flocq Require Import Core BinarySingleNaN Mult_error.
From Verif Require Import F64 Syntax Factorial Builtins FloatFacts SpecTree SpecMonotone SpecSpecial SpecLaws.
From Verif Require Import PropertiesEq RegularFacts PropertiesArith MonotoneFacts SpecialFacts PropertiesNumeric.
Import ListNotations.
Local Open Scope R_scope.

(** ** f64 values are determined by value and sign *)
Lemma toR_same : forall x y : f64, is_nan x = false -> is_nan y = false -> toR x = toR y -> same_value x y.
Proof.
  intros x y Nx Ny E. apply same_value_iff.
  destruct (finite_or_inf x Nx) as [Fx|[s ->]], (finite_or_inf y Ny) as [Fy|[t ->]].
  - rewrite (toR_finite x Fx), (toR_finite y Fy) in E.
    destruct (Req_dec (B2R x) 0) as [Z|Z].
    + right. rewrite E in Z. assert (Zx : B2R x = 0) by congruence. clear E.
      destruct x as [s|s| |s m e B]; try discriminate; [|now elim (finite_nonzero s m e B)].
      destruct y as [t|t| |t m e B]; try discriminate; [|now elim (finite_nonzero t m e B)]. split; eexists; reflexivity.
    + left. now apply B2R_inj; [apply is_finite_strict_B2R|apply is_finite_strict_B2R; congruence|].
  - exfalso. pose proof (finite_range x Fx). destruct t; cbn [toR] in E; fold big in E; lra.
  - exfalso. pose proof (finite_range y Fy). destruct s; cbn [toR] in E; fold big in E; lra.
  - pose proof big_pos. destruct s, t; cbn [toR] in E; fold big in E; auto; lra.
Qed.
Lemma same_sign_eq : forall x y : f64, same_value x y -> (is_nan x = false -> is_nan y = false -> Bsign x = Bsign y) -> x = y.
Proof. intros x y H S0. apply same_value_iff in H. destruct H as [->|[[s ->] [t ->]]]; auto. f_equal. now apply S0. Qed.
Lemma toR_eq : forall x y : f64, is_nan x = is_nan y -> (is_nan x = false -> is_nan y = false -> toR x = toR y /\ Bsign x = Bsign y) -> x = y.
Proof.
  intros x y N H. destruct (is_nan x) eqn:Nx.
  - destruct x; try discriminate; destruct y; try discriminate; reflexivity.
  - destruct (H eq_refl (eq_sym N)) as [E S0]. apply same_sign_eq; auto. apply toR_same; auto.
Qed.

Lemma sign_fneg : forall x : f64, is_nan x = false -> Bsign (fneg x) = negb (Bsign x).
Proof. intros [s|s| |s m e B] H; try discriminate; reflexivity. Qed.
Lemma fin_nan : forall v : f64, is_finite v = true -> is_nan v = false. Proof. now intros [| | |]. Qed.
Lemma nan_fnan : forall x : f64, is_nan x = true -> x = fnan. Proof. now intros [| | |]. Qed.

(** ** Signs of products and quotients *)
Lemma sign_mul : forall a b, is_nan (fmul a b) = false -> Bsign (fmul a b) = xorb (Bsign a) (Bsign b).
Proof.
  intros a b N. destruct (fmul_nan a b N) as [Na Nb].
  destruct (finite_or_inf a Na) as [Fa|[s ->]]; [|destruct b; try discriminate; reflexivity].
  destruct (finite_or_inf b Nb) as [Fb|[s ->]]; [|destruct a; try discriminate; reflexivity].
  pose proof (Bmult_correct prec64 emax64 Hprec64 Hmax64 mode_NE a b) as H. fold (fmul a b) in H.
  destruct (Rlt_bool _ _); [apply H; exact N|]. apply overflow_infinity in H. now rewrite H.
Qed.
Lemma sign_div : forall a b, is_nan (fdiv a b) = false -> Bsign (fdiv a b) = xorb (Bsign a) (Bsign b).
Proof.
  intros a b N. destruct (fdiv_nan a b N) as [Na Nb].
  destruct (finite_or_inf a Na) as [Fa|[s ->]]; [|destruct b; try discriminate; reflexivity].
  destruct (finite_or_inf b Nb) as [Fb|[s ->]]; [|destruct a; try discriminate; reflexivity].
  destruct b as [t|t| |t m e B] eqn:Eb; try discriminate; [destruct a; try discriminate; reflexivity|].
  assert (NZ : B2R b <> 0) by (rewrite Eb; apply finite_nonzero). rewrite <- Eb in *.
  pose proof (Bdiv_correct prec64 emax64 Hprec64 Hmax64 mode_NE a b NZ) as H. fold (fdiv a b) in H.
  destruct (Rlt_bool _ _); [apply H; exact N|]. apply overflow_infinity in H. now rewrite H.
Qed.

Lemma mul_neg : forall a b, fmul (fneg a) b = fneg (fmul a b).
Proof.
  intros a b. destruct (mul_neg_l a b) as [E N]. apply toR_eq; [now rewrite nan_fneg|]. intros N1 N2. split; [now rewrite toR_fneg|].
  rewrite nan_fneg in N2. rewrite sign_fneg, !sign_mul by auto. destruct (fmul_nan a b N2) as [Na _].
  rewrite sign_fneg by auto. now rewrite negb_xorb_l.
Qed.
Lemma div_neg : forall a b, fdiv (fneg a) b = fneg (fdiv a b).
Proof.
  intros a b. destruct (div_neg_l a b) as [E N]. apply toR_eq; [now rewrite nan_fneg|]. intros N1 N2. split; [now rewrite toR_fneg|].
  rewrite nan_fneg in N2. rewrite sign_fneg, !sign_div by auto. destruct (fdiv_nan a b N2) as [Na _].
  rewrite sign_fneg by auto. now rewrite negb_xorb_l.
Qed.
Lemma div_by_neg : forall a b, fdiv a (fneg b) = fneg (fdiv a b).
Proof. intros a b. rewrite <- div_neg, <- (fdiv_neg_neg a (fneg b)). now rewrite fneg_fneg. Qed.

(** ** Absolute values *)
Lemma fabs_cases : forall a, fabs a = if Bsign a then fneg a else a.
Proof. now intros [[]|[]| |[] m e B]. Qed.
Lemma fabs_fneg : forall a, fabs (fneg a) = fabs a. Proof. now intros [s|s| |s m e B]. Qed.
Lemma fabs_fabs : forall a, fabs (fabs a) = fabs a. Proof. now intros [s|s| |s m e B]. Qed.
Lemma mul_neg_right : forall a b, fmul a (fneg b) = fneg (fmul a b).
Proof. intros a b. rewrite (fmul_comm a), mul_neg. now rewrite fmul_comm. Qed.
Lemma fabs_mul : forall a b, fabs (fmul a b) = fmul (fabs a) (fabs b).
Proof.
  intros a b. rewrite (fabs_cases a), (fabs_cases b). destruct (is_nan (fmul a b)) eqn:N.
  - apply nan_fnan in N. rewrite N. destruct (Bsign a), (Bsign b); rewrite ?mul_neg, ?mul_neg_right, N; reflexivity.
  - rewrite fabs_cases, sign_mul by auto.
    destruct (Bsign a), (Bsign b); cbn [xorb]; rewrite ?mul_neg, ?mul_neg_right, ?fneg_fneg; reflexivity.
Qed.
Lemma fabs_div : forall a b, fabs (fdiv a b) = fdiv (fabs a) (fabs b).
Proof.
  intros a b. rewrite (fabs_cases a), (fabs_cases b). destruct (is_nan (fdiv a b)) eqn:N.
  - apply nan_fnan in N. rewrite N. destruct (Bsign a), (Bsign b); rewrite ?div_neg, ?div_by_neg, N; reflexivity.
  - rewrite fabs_cases, sign_div by auto.
    destruct (Bsign a), (Bsign b); cbn [xorb]; rewrite ?div_neg, ?div_by_neg, ?fneg_fneg; reflexivity.
Qed.
Lemma fabs_same : forall a b, same_value a b -> fabs a = fabs b.
Proof. intros a b H. apply same_value_iff in H. destruct H as [->|[[s ->] [t ->]]]; reflexivity. Qed.

(** ** Sums *)
Lemma add_neg : forall a b, same_value (fneg (fadd a b)) (fadd (fneg a) (fneg b)).
Proof.
  intros a b. destruct (is_nan a) eqn:Na; [apply nan_fnan in Na; subst; destruct b; apply same_value_refl|].
  destruct (is_nan b) eqn:Nb; [apply nan_fnan in Nb; subst; destruct a; apply same_value_refl|].
  destruct (finite_or_inf a Na) as [Fa|[s ->]]; [|destruct b as [t|[]| |]; destruct s; try discriminate; apply same_value_refl].
  destruct (finite_or_inf b Nb) as [Fb|[s ->]]; [|destruct a as [t|t| |]; destruct s; try discriminate; apply same_value_refl].
  apply toR_same.
  - rewrite nan_fneg. now apply finite_add_nan.
  - apply finite_add_nan; now rewrite fin_fneg.
  - rewrite toR_fneg, !toR_add by (rewrite ?fin_fneg; auto). rewrite <- clamp_opp, <- rnd64_opp, !B2R_fneg. f_equal. f_equal. lra.
Qed.
Lemma sub_neg : forall a b, same_value (fneg (fsub a b)) (fsub b a).
Proof. intros a b. rewrite !fsub_fadd. eapply same_trans; [apply add_neg|]. rewrite fneg_fneg, fadd_comm. apply same_value_refl. Qed.
Lemma sub_zero : forall a, fsub a fzero = a.
Proof. intros [[]|[]| |[] m e B]; reflexivity. Qed.

Lemma value_is_inj : forall m n r, value_is m r -> value_is n r -> r <> 0 -> m = n.
Proof. intros m n r [Fm Em] [Fn En] Z. apply B2R_inj; [now apply is_finite_strict_B2R; rewrite Em|now apply is_finite_strict_B2R; rewrite En|congruence]. Qed.
Lemma value_is_fone : value_is fone 1.
Proof. destruct fone_shape as [m [e [B E]]]. split; [now rewrite E|]. rewrite <- B2R_fone. now rewrite E. Qed.
Lemma value_is_one : forall n, value_is n 1 -> n = fone.
Proof. intros n H. apply (value_is_inj n fone 1 H value_is_fone). lra. Qed.
Lemma mul_one : forall a, fmul a fone = a.
Proof.
  intro a. destruct (is_finite a) eqn:F; [now apply fmul_one_r|]. destruct fone_shape as [m [e [B ->]]].
  destruct a as [s|s| |]; try discriminate; [destruct s|]; reflexivity.
Qed.
Lemma div_one : forall a, fdiv a fone = a.
Proof.
  intro a. destruct (is_finite a) eqn:F; [now apply fdiv_one|]. destruct fone_shape as [m [e [B ->]]].
  destruct a as [s|s| |]; try discriminate; [destruct s|]; reflexivity.
Qed.

Lemma pos_sign : forall n r, value_is n r -> 0 < r -> Bsign n = false.
Proof. intros n r [F E] P. apply sign_pos; [now destruct n|]. rewrite toR_finite; auto. lra. Qed.
Lemma pos_shape : forall n r, value_is n r -> 0 < r -> exists m e B, n = B754_finite false m e B.
Proof.
  intros n r H P. pose proof (pos_sign n r H P) as S0. destruct H as [F E].
  destruct n as [s|s| |s m e B]; try discriminate; [cbn in E; lra|]. cbn in S0. subst s. eauto.
Qed.
Lemma double_format : forall r, generic_format radix2 fexp64 r -> generic_format radix2 fexp64 (r * bpow radix2 1).
Proof.
  intros r H. exact (mult_bpow_pos_exact_FLT radix2 (-1074) 53 r 1 H ltac:(lia)).
Qed.
Lemma double : forall a n, value_is n 2 -> fadd a a = fmul n a.
Proof.
  intros a n H. destruct (pos_shape n 2 H ltac:(lra)) as [m [e [B En]]].
  destruct (is_finite a) eqn:F; [|rewrite En; destruct a as [s|s| |]; try discriminate; [destruct s|]; reflexivity].
  destruct a as [s|s| |s ma ea Ba] eqn:Ea; try discriminate; [rewrite En; destruct s; reflexivity|]. rewrite <- Ea in *.
  destruct H as [Fn E]. assert (NZ : B2R a <> 0) by (rewrite Ea; apply finite_nonzero).
  apply toR_eq; [now rewrite finite_add_nan, finite_mul_nan by auto|]. intros _ _. rewrite toR_add, toR_mul, E by auto. split; [do 2 f_equal; lra|].
  rewrite sign_mul by (now apply finite_mul_nan). rewrite En. cbn [Bsign xorb].
  pose proof (Bplus_correct prec64 emax64 Hprec64 Hmax64 mode_NE a a F F) as H. fold (fadd a a) in H.
  destruct (Rlt_bool _ _).
  - destruct H as [_ [_ ->]]. destruct (Bsign a) eqn:Sa; [pose proof (sign_le a F Sa)|pose proof (sign_ge a F Sa)].
    + now rewrite Rcompare_Lt by lra.
    + now rewrite Rcompare_Gt by lra.
  - destruct H as [H _]. apply overflow_infinity in H. rewrite H. now destruct (Bsign a).
Qed.
Lemma triple : forall a n, value_is n 3 -> fadd (fadd a a) a = fmul n a.
Proof.
  intros a n H. destruct (pos_shape n 3 H ltac:(lra)) as [m [e [B En]]].
  destruct (is_finite a) eqn:F; [|rewrite En; destruct a as [s|s| |]; try discriminate; [destruct s|]; reflexivity].
  destruct a as [s|s| |s ma ea Ba] eqn:Ea; try discriminate; [rewrite En; destruct s; reflexivity|]. rewrite <- Ea in *.
  destruct H as [Fn E]. assert (NZ : B2R a <> 0) by (rewrite Ea; apply finite_nonzero).
  assert (FD : generic_format radix2 fexp64 (B2R a + B2R a)).
  { replace (B2R a + B2R a) with (B2R a * bpow radix2 1) by (cbn; lra). apply double_format. apply format_f64. }
  pose proof (Bplus_correct prec64 emax64 Hprec64 Hmax64 mode_NE a a F F) as H. fold (fadd a a) in H.
  rewrite round_generic in H by (auto; typeclasses eauto).
  assert (T : toR (fmul n a) = clamp (rnd64 (3 * B2R a))) by (rewrite toR_mul, E by auto; reflexivity).
  assert (Nm : is_nan (fmul n a) = false) by now apply finite_mul_nan.
  assert (Sm : Bsign (fmul n a) = Bsign a) by (rewrite sign_mul, En by auto; now destruct (Bsign a)).
  destruct (Rlt_bool_spec (Rabs (B2R a + B2R a)) (bpow radix2 emax64)) as [L|L].
  - destruct H as [R2 [F2 S2]]. assert (Na : is_nan (fadd (fadd a a) a) = false) by now apply finite_add_nan.
    apply toR_eq; [congruence|]. intros _ _. rewrite T, toR_add, R2 by auto. split; [do 2 f_equal; lra|]. rewrite Sm.
    pose proof (Bplus_correct prec64 emax64 Hprec64 Hmax64 mode_NE (fadd a a) a F2 F) as H. fold (fadd (fadd a a) a) in H.
    assert (S2a : Bsign (fadd a a) = Bsign a).
    { rewrite S2. destruct (Bsign a) eqn:Sa; [pose proof (sign_le a F Sa)|pose proof (sign_ge a F Sa)].
      - now rewrite Rcompare_Lt by lra.
      - now rewrite Rcompare_Gt by lra. }
    destruct (Rlt_bool _ _).
    + destruct H as [_ [_ ->]]. rewrite R2. destruct (Bsign a) eqn:Sa; [pose proof (sign_le a F Sa)|pose proof (sign_ge a F Sa)].
      * now rewrite Rcompare_Lt by lra.
      * now rewrite Rcompare_Gt by lra.
    + destruct H as [H _]. apply overflow_infinity in H. rewrite H. exact S2a.
  - destruct H as [H _]. apply overflow_infinity in H. rewrite H.
    assert (I : fadd (B754_infinity (Bsign a)) a = B754_infinity (Bsign a)) by (rewrite Ea; destruct s; reflexivity). rewrite I.
    apply toR_eq; [now rewrite Nm|]. intros _ _. rewrite T. split; [|now rewrite Sm].
    fold big in L.
    destruct (Bsign a) eqn:Sa; [pose proof (sign_le a F Sa)|pose proof (sign_ge a F Sa)]; cbn [toR]; fold big; symmetry.
    + apply clamp_lo. rewrite Rabs_left1 in L by lra. apply Rle_trans with (rnd64 (B2R a + B2R a)); [apply rnd64_le; lra|].
      rewrite (round_generic radix2 fexp64 (round_mode mode_NE) _ FD). lra.
    + apply clamp_hi. rewrite Rabs_pos_eq in L by lra. apply Rle_trans with (rnd64 (B2R a + B2R a)); [|apply rnd64_le; lra].
      rewrite (round_generic radix2 fexp64 (round_mode mode_NE) _ FD). lra.
Qed.
Lemma scale : forall a m n k, value_is m (bpow radix2 k) -> value_is n (bpow radix2 (- k)) -> fdiv a m = fmul a n.
Proof.
  intros a m n k Hm Hn. destruct (pos_shape m _ Hm (bpow_gt_0 _ _)) as [mm [em [Bm Em]]]. destruct (pos_shape n _ Hn (bpow_gt_0 _ _)) as [mn [en [Bn En]]].
  destruct (is_finite a) eqn:F; [|rewrite Em, En; destruct a as [s|s| |]; try discriminate; [destruct s|]; reflexivity].
  pose proof (bpow_gt_0 radix2 k). destruct Hm as [Fm Rm], Hn as [Fn Rn].
  assert (NZ : B2R m <> 0) by (rewrite Rm; lra).
  apply toR_eq; [now rewrite div_nan_finite, finite_mul_nan by auto|]. intros N1 N2. split.
  - rewrite toR_div, toR_mul, Rm, Rn by auto. rewrite bpow_opp. reflexivity.
  - rewrite sign_div, sign_mul by auto. now rewrite Em, En.
Qed.

(** ** Remainders *)
Lemma frem_neg_l : forall a b, frem (fneg a) b = fneg (frem a b).
Proof.
  intros a b. destruct a as [s|s| |s m e B] eqn:Ea, b as [t|t| |t m' e' B'] eqn:Eb; try reflexivity. rewrite <- Ea, <- Eb.
  assert (Fa : fis_finite a = true) by now subst. assert (Fb : fis_finite b = true) by now subst.
  assert (Zb : B2R b <> 0) by (subst b; apply finite_nonzero).
  assert (Fa' : fis_finite (fneg a) = true) by now subst.
  destruct (frem_correct a b Fa Fb Zb) as [R1 [F1 [S1 _]]]. destruct (frem_correct (fneg a) b Fa' Fb Zb) as [R2 [F2 [S2 _]]].
  apply B2R_Bsign_inj; auto; [now rewrite fin_fneg| |].
  - rewrite R2, !B2R_fneg, R1. replace (- B2R a / B2R b) with (- (B2R a / B2R b)) by (field; auto). rewrite Ztrunc_opp, opp_IZR. lra.
  - assert (NF : forall v : f64, fis_finite v = true -> is_nan v = false) by now intros [| | |].
    rewrite S2, !sign_fneg, S1; auto.
Qed.
Lemma frem_neg_r : forall a b, frem a (fneg b) = frem a b.
Proof.
  intros a b. destruct a as [s|s| |s m e B] eqn:Ea, b as [t|t| |t m' e' B'] eqn:Eb; try reflexivity.
Qed.
Lemma Ztrunc_small : forall r, Rabs r < 1 -> Ztrunc r = 0%Z.
Proof.
  intros r H. apply Rabs_lt_inv in H. destruct (Rle_or_lt 0 r).
  - rewrite Ztrunc_floor by auto. apply Zfloor_imp. cbn. lra.
  - rewrite Ztrunc_ceil by lra. apply Zceil_imp. cbn. lra.
Qed.
Lemma frem_frem : forall a b, frem (frem a b) b = frem a b.
Proof.
  intros a b. destruct a as [s|s| |s m e B] eqn:Ea, b as [t|t| |t m' e' B'] eqn:Eb; try reflexivity. rewrite <- Ea, <- Eb.
  assert (Fa : fis_finite a = true) by now subst. assert (Fb : fis_finite b = true) by now subst.
  assert (Zb : B2R b <> 0) by (subst b; apply finite_nonzero).
  destruct (frem_correct a b Fa Fb Zb) as [R1 [F1 [S1 L1]]]. destruct (frem_correct (frem a b) b F1 Fb Zb) as [R2 [F2 [S2 _]]].
  apply B2R_Bsign_inj; auto. rewrite R2, Ztrunc_small; [cbn; lra|].
  unfold Rdiv. rewrite Rabs_mult, Rabs_inv. apply Rmult_lt_reg_r with (Rabs (B2R b)); [now apply Rabs_pos_lt|].
  rewrite Rmult_assoc, Rinv_l, Rmult_1_r, Rmult_1_l; auto. now apply Rabs_no_R0.
Qed.
Lemma frem_sign : forall a b, is_nan (frem a b) = false -> Bsign (frem a b) = Bsign a.
Proof.
  intros a b. destruct a as [s|s| |s m e B] eqn:Ea, b as [t|t| |t m' e' B'] eqn:Eb; try reflexivity; try discriminate. rewrite <- Ea, <- Eb. intros _.
  apply frem_correct; subst; auto. apply finite_nonzero.
Qed.
Lemma fabs_frem : forall a b, fabs (frem a b) = frem (fabs a) b.
Proof.
  intros a b. rewrite (fabs_cases a). destruct (is_nan (frem a b)) eqn:N.
  - apply nan_fnan in N. rewrite N. destruct (Bsign a); rewrite ?frem_neg_l, N; reflexivity.
  - rewrite fabs_cases, frem_sign by auto. destruct (Bsign a); rewrite ?frem_neg_l; reflexivity.
Qed.

(** ** Rounding to whole numbers *)
Lemma nearbyint_finite : forall md (x : f64), is_finite x = true ->
  is_finite (Bnearbyint md x) = true /\ B2R (Bnearbyint md x) = IZR (round_mode md (B2R x)) /\ Bsign (Bnearbyint md x) = Bsign x.
Proof.
  intros md x F. destruct (Bnearbyint_correct prec64 emax64 Hmax64 md x) as [R1 [F1 S1]]. rewrite F in F1. split; [exact F1|]. split.
  - rewrite R1. apply round_FIX0.
  - apply S1. destruct (Bnearbyint md x); try discriminate; reflexivity.
Qed.
Lemma nearbyint_whole : forall md (x : f64) n, is_finite x = true -> B2R x = IZR n -> Bnearbyint md x = x.
Proof.
  intros md x n F E. destruct (nearbyint_finite md x F) as [F1 [R1 S1]]. apply B2R_Bsign_inj; auto.
  rewrite R1, E. f_equal. apply (@Zrnd_IZR (round_mode md) (valid_rnd_round_mode md)).
Qed.
Lemma nearbyint_twice : forall md md' (x : f64), Bnearbyint md (Bnearbyint md' x) = Bnearbyint md' x.
Proof.
  intros md md' x. destruct (is_finite x) eqn:F; [|destruct x; try discriminate; reflexivity].
  destruct (nearbyint_finite md' x F) as [F1 [R1 _]]. eapply nearbyint_whole; eauto.
Qed.
Definition md_of (f : builtin) : mode := match f with B_FLOOR => mode_DN | B_CEIL => mode_UP | B_ROUND => mode_NA | _ => mode_ZR end.
Lemma call_rounding : forall w f a, rounding f = true -> call_function w (builtin_function f) [a] = Val (Bnearbyint (md_of f) a).
Proof. intros w f a H. destruct f; try discriminate; reflexivity. Qed.
Lemma nearbyint_neg : forall md md' (x : f64), (forall r, round_mode md (- r) = (- round_mode md' r)%Z) ->
  Bnearbyint md (fneg x) = fneg (Bnearbyint md' x).
Proof.
  intros md md' x H. destruct (is_finite x) eqn:F; [|destruct x; try discriminate; reflexivity].
  destruct (nearbyint_finite md' x F) as [F1 [R1 S1]]. destruct (nearbyint_finite md (fneg x) ltac:(now rewrite fin_fneg)) as [F2 [R2 S2]].
  apply B2R_Bsign_inj; auto; [now rewrite fin_fneg| |].
  - rewrite R2, !B2R_fneg, R1, H, opp_IZR. reflexivity.
  - rewrite S2, !sign_fneg, S1; auto using fin_nan.
Qed.
Lemma Zfloor_opp : forall r, Zfloor (- r) = (- Zceil r)%Z. Proof. intro r. unfold Zceil. now rewrite Z.opp_involutive. Qed.
Lemma ZnearestA_opp : forall r, Znearest (Zle_bool 0) (- r) = (- Znearest (Zle_bool 0) r)%Z.
Proof.
  intro r. rewrite !ZnearestA_round_away. unfold round_away. destruct (Rle_dec 0 (- r)), (Rle_dec 0 r).
  - assert (r = 0) as -> by lra. rewrite Ropp_0, Rplus_0_l. rewrite (Zfloor_imp 0) by (cbn; lra). reflexivity.
  - rewrite <- Zfloor_opp. f_equal. lra.
  - unfold Zceil. do 2 f_equal. lra.
  - exfalso. lra.
Qed.
Lemma floor_neg : forall x, ffloor (fneg x) = fneg (fceil x).
Proof. intro x. apply nearbyint_neg. intro r. apply Zfloor_opp. Qed.
Lemma trunc_neg : forall x, ftrunc (fneg x) = fneg (ftrunc x).
Proof. intro x. apply nearbyint_neg. intro r. apply Ztrunc_opp. Qed.
Lemma round_neg : forall x, fround (fneg x) = fneg (fround x).
Proof. intro x. apply nearbyint_neg. intro r. apply ZnearestA_opp. Qed.

(** ** Minima and maxima *)
Lemma flt_fneg : forall x y, flt (fneg x) (fneg y) = flt y x.
Proof.
  intros x y. destruct (is_nan x) eqn:Nx; [rewrite !flt_nan; auto; left; now rewrite <- nan_fneg in Nx|].
  destruct (is_nan y) eqn:Ny; [rewrite !flt_nan; auto; right; now rewrite <- nan_fneg in Ny|].
  apply eq_true_iff_eq. rewrite !flt_toR by (unfold fis_nan; now rewrite ?nan_fneg). rewrite !toR_fneg. lra.
Qed.
Lemma max_min : forall w x y, max_f64 w x y = fneg (min_f64 w (fneg x) (fneg y)).
Proof.
  intros w x y. unfold max_f64, min_f64, fis_nan. rewrite !nan_fneg, !flt_fneg.
  destruct (is_nan x); [now rewrite fneg_fneg|]. destruct (is_nan y); [now rewrite fneg_fneg|].
  destruct (flt x y) eqn:E1.
  - destruct (flt y x) eqn:E2; [|now rewrite fneg_fneg]. exfalso.
    assert (is_nan x = false) by (destruct (is_nan x) eqn:N; auto; rewrite flt_nan in E1 by auto; discriminate).
    assert (is_nan y = false) by (destruct (is_nan y) eqn:N; auto; rewrite flt_nan in E1 by auto; discriminate).
    rewrite flt_toR in E1, E2 by auto. lra.
  - destruct (flt y x); [now rewrite fneg_fneg|]. destruct (minmax_second w); now rewrite fneg_fneg.
Qed.
Lemma max_min_fold : forall w l a, fold_left (max_f64 w) l a = fneg (fold_left (min_f64 w) (map fneg l) (fneg a)).
Proof.
  intros w l. induction l as [|b l IH]; intro a; cbn [fold_left map]; [now rewrite fneg_fneg|].
  rewrite IH, max_min, fneg_fneg. reflexivity.
Qed.
Lemma min_inf_l : forall w a, is_nan a = false -> min_f64 w finf a = a.
Proof.
  intros w a N. unfold min_f64, fis_nan. cbn [is_nan finf]. rewrite N.
  assert (E : flt (B754_infinity false) a = false) by (destruct a as [s|[]| |s m e B]; try discriminate; reflexivity). fold finf in E. rewrite E.
  destruct (flt a finf) eqn:E2; auto. destruct a as [s|[]| |[] m e B]; try discriminate. fold finf. now destruct (minmax_second w).
Qed.

(** min as a commutative, associative operation up to the sign of zero *)
Lemma min_value : forall w x y, is_nan x = false -> is_nan (min_f64 w x y) = false /\ toR (min_f64 w x y) = if is_nan y then toR x else Rmin (toR x) (toR y).
Proof.
  intros w x y N. unfold min_f64, fis_nan. rewrite N. destruct (is_nan y) eqn:Ny; [auto|].
  destruct (flt x y) eqn:E1; [rewrite flt_toR in E1 by auto; split; auto; rewrite Rmin_left; lra|].
  destruct (flt y x) eqn:E2; [rewrite flt_toR in E2 by auto; split; auto; rewrite Rmin_right; lra|].
  assert (E : toR x = toR y).
  { apply Rle_antisym; apply Rnot_lt_le; intro L; [apply (flt_toR y x) in L|apply (flt_toR x y) in L]; auto; congruence. }
  rewrite (Rmin_left (toR x) (toR y)) by lra. destruct (minmax_second w); split; auto.
Qed.
Lemma min_fold_value : forall w l a, is_nan a = false -> is_nan (fold_left (min_f64 w) l a) = false /\ toR (fold_left (min_f64 w) l a) = fold_left (fun r y => if is_nan y then r else Rmin r (toR y)) l (toR a).
Proof.
  intros w l. induction l as [|b l IH]; intros a N; cbn [fold_left]; [auto|].
  destruct (min_value w a b N) as [N1 E1]. destruct (IH _ N1) as [N2 E2]. split; auto. now rewrite E2, E1.
Qed.
Lemma min_order : forall l l' r, Permutation l l' ->
  fold_left (fun r y => if is_nan y then r else Rmin r (toR y)) l r =
  fold_left (fun r y => if is_nan y then r else Rmin r (toR y)) l' r.
Proof.
  intros l l' r P. revert r. induction P as [|x l l' P IH|x y l|l1 l2 l3 P1 IH1 P2 IH2]; intro r; cbn [fold_left]; auto.
  - f_equal. destruct (is_nan x), (is_nan y); auto. rewrite <- !Rmin_assoc. f_equal. apply Rmin_comm.
  - now rewrite IH1.
Qed.
Lemma min_permutation : forall w l l', Permutation l l' -> same_value (fold_left (min_f64 w) l finf) (fold_left (min_f64 w) l' finf).
Proof.
  intros w l l' P. destruct (min_fold_value w l finf eq_refl) as [N E], (min_fold_value w l' finf eq_refl) as [N' E'].
  apply toR_same; auto. rewrite E, E'. now apply min_order.
Qed.
Lemma max_permutation : forall w l l', Permutation l l' -> same_value (fold_left (max_f64 w) l fninf) (fold_left (max_f64 w) l' fninf).
Proof. intros w l l' P. rewrite !max_min_fold. apply fneg_same. apply (min_permutation w). now apply Permutation_map. Qed.

Lemma same_nan : forall x y, same_value x y -> is_nan x = is_nan y.
Proof. intros x y H. apply same_value_iff in H. destruct H as [->|[[s ->] [t ->]]]; reflexivity. Qed.
Lemma same_toR : forall x y, same_value x y -> toR x = toR y.
Proof. intros x y H. apply same_value_iff in H. destruct H as [->|[[s ->] [t ->]]]; reflexivity. Qed.
Lemma min_fold_same : forall w l l', Forall2 same_value l l' -> same_value (fold_left (min_f64 w) l finf) (fold_left (min_f64 w) l' finf).
Proof.
  intros w l l' H. destruct (min_fold_value w l finf eq_refl) as [N E], (min_fold_value w l' finf eq_refl) as [N' E'].
  apply toR_same; auto. rewrite E, E'. clear N E N' E'. generalize (toR finf).
  induction H as [|x y l l' S0 Sl IH]; intro r; cbn [fold_left]; auto. rewrite (same_nan x y S0), (same_toR x y S0). apply IH.
Qed.
Lemma max_fold_same : forall w l l', Forall2 same_value l l' -> same_value (fold_left (max_f64 w) l fninf) (fold_left (max_f64 w) l' fninf).
Proof.
  intros w l l' H. rewrite !max_min_fold. apply fneg_same. apply min_fold_same.
  induction H; cbn [map]; constructor; auto. now apply fneg_same.
Qed.

(** ** Sums of lists *)
Lemma sum_fold_same : forall l l' a a', Forall2 same_value l l' -> same_value a a' -> same_value (fold_left fadd l a) (fold_left fadd l' a').
Proof. intros l l' a a' H. revert a a'. induction H; intros a a' S0; cbn [fold_left]; auto. apply IHForall2. now apply fadd_same. Qed.
Lemma sum_fold_neg : forall l a, same_value (fold_left fadd (map fneg l) (fneg a)) (fneg (fold_left fadd l a)).
Proof.
  intros l. induction l as [|b l IH]; intro a; cbn [fold_left map]; [apply same_value_refl|].
  eapply same_trans; [|apply IH]. apply sum_fold_same; [|apply same_sym, add_neg].
  clear. induction l; constructor; auto. apply same_value_refl.
Qed.
Lemma Forall2_same_refl : forall l, Forall2 same_value l l.
Proof. induction l; constructor; auto. apply same_value_refl. Qed.

(** ** Functions of one argument up to the sign of zero *)
Lemma fsqrt_same : forall a b, same_value a b -> same_value (fsqrt a) (fsqrt b).
Proof. intros a b H. apply same_value_iff in H. destruct H as [->|[[s ->] [t ->]]]; apply same_value_iff; auto. right. split; eexists; reflexivity. Qed.
Lemma nearbyint_same : forall md (a b : f64), same_value a b -> same_value (Bnearbyint md a) (Bnearbyint md b).
Proof. intros md a b H. apply same_value_iff in H. destruct H as [->|[[s ->] [t ->]]]; apply same_value_iff; auto. right. split; eexists; reflexivity. Qed.
Lemma ffract_same : forall a b, same_value a b -> same_value (ffract a) (ffract b).
Proof. intros a b H. unfold ffract. apply fsub_same; auto. now apply nearbyint_same. Qed.
Lemma fabs_sqrt : forall a, same_value (fabs (fsqrt a)) (fsqrt a).
Proof.
  intro a. destruct (is_nan (fsqrt a)) eqn:N; [apply nan_fnan in N; rewrite N; apply same_value_refl|].
  apply toR_same; auto; [now rewrite nan_fabs|]. rewrite toR_fabs. apply Rabs_pos_eq. now apply sqrt_nonneg.
Qed.
Lemma fract_neg : forall a, same_value (ffract (fneg a)) (fneg (ffract a)).
Proof.
  intro a. unfold ffract. rewrite trunc_neg, !fsub_fadd. apply same_sym. apply add_neg.
Qed.
Lemma fract_value : forall a, is_finite a = true -> is_finite (ffract a) = true /\ B2R (ffract a) = B2R a - IZR (Ztrunc (B2R a)).
Proof.
  intros x Hx. unfold ffract, fsub.
  destruct (ftrunc_correct x) as [Ht Hf]. unfold fis_finite in Hf. rewrite Hx in Hf.
  pose proof (Bminus_correct prec64 emax64 Hprec64 Hmax64 mode_NE x (ftrunc x) Hx Hf) as H.
  rewrite Ht in H. rewrite (round_generic radix2 fexp64 (round_mode mode_NE) _ (frac_format x Hx)) in H.
  rewrite Rlt_bool_true in H; [destruct H as [H1 [H2 _]]; auto|].
  eapply Rlt_trans; [apply trunc_frac_bound|]. change 1 with (bpow radix2 0). apply bpow_lt. reflexivity.
Qed.
Lemma fract_rem : forall a, same_value (ffract a) (frem a fone).
Proof.
  intro a. destruct (is_finite a) eqn:F.
  - destruct value_is_fone as [F1 E1].
    destruct (frem_correct a fone F F1 ltac:(rewrite E1; lra)) as [R1 [F2 _]].
    destruct (fract_value a F) as [F3 R3]. apply toR_same; [now destruct (ffract a)|now destruct (frem a fone)|].
    rewrite !toR_finite by auto. rewrite R1, R3, E1. replace (B2R a / 1) with (B2R a) by field. lra.
  - destruct fone_shape as [m [e [B E]]]. rewrite E. destruct a as [s|s| |]; try discriminate; [destruct s|]; apply same_value_refl.
Qed.
