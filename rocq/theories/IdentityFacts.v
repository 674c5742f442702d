(** * Facts behind C74: identities that hold for ordinary values *)
From Coq Require Import ZArith List String Bool Reals Lra Lia.
From Flocq Require Import Core BinarySingleNaN Sterbenz Relative Mult_error.
From Verif Require Import F64 Syntax Builtins FloatFacts SpecMonotone SpecSpecial SpecLaws.
From Verif Require Import PropertiesEq RegularFacts PropertiesArith MonotoneFacts SpecialFacts PropertiesNumeric LawsFacts.
Import ListNotations.
Local Open Scope R_scope.

(** sqrt(x x) = x *)
Lemma round_sqrt_square : forall x, generic_format radix2 fexp64 x -> bpow radix2 (-511) <= x ->
  rnd64 (sqrt (rnd64 (x * x))) = x.
Proof.
  intros x Fx Lx. pose proof (bpow_gt_0 radix2 (-511)) as P511. assert (Px : 0 < x) by lra.
  set (e := (mag_val radix2 x (mag radix2 x))). pose proof (bpow_mag_gt radix2 x) as U. pose proof (bpow_mag_le radix2 x ltac:(lra)) as L.
  fold e in U, L. rewrite Rabs_pos_eq in U, L by lra.
  assert (He : (-510 <= e)%Z).
  { assert (-511 < e)%Z; [|lia]. apply (lt_bpow radix2). lra. }
  assert (Ce : cexp radix2 fexp64 x = (e - 53)%Z).
  { unfold cexp. fold e. rewrite fexp64_FLT. unfold FLT_exp. lia. }
  destruct (Req_dec x (bpow radix2 (e - 1))) as [E|NE].
  - assert (Ex : x * x = bpow radix2 (2 * e - 2)) by (replace (2 * e - 2)%Z with ((e - 1) + (e - 1))%Z by lia; rewrite bpow_plus; f_equal; exact E).
    rewrite (round_generic radix2 fexp64 (round_mode mode_NE) (x * x)).
    + rewrite sqrt_square by lra. apply round_generic; auto. typeclasses eauto.
    + rewrite Ex. apply generic_format_bpow. rewrite fexp64_FLT. unfold FLT_exp. lia.
  - set (ul := bpow radix2 (e - 53)). assert (Eul : ulp radix2 fexp64 x = ul) by (rewrite ulp_neq_0 by lra; now rewrite Ce).
    assert (Pul : 0 < ul) by apply bpow_gt_0.
    assert (Es : succ radix2 fexp64 x = x + ul) by (rewrite succ_eq_pos by lra; now rewrite Eul).
    assert (Ep : pred radix2 fexp64 x = x - ul).
    { rewrite pred_eq_pos by lra. unfold pred_pos. fold e. rewrite Req_bool_false by auto. now rewrite Eul. }
    assert (Top : x + ul <= bpow radix2 e).
    { rewrite <- Es. apply succ_le_lt; auto; try typeclasses eauto. apply generic_format_bpow. rewrite fexp64_FLT. unfold FLT_exp. lia. }
    assert (E53 : bpow radix2 e * / IZR (2 ^ 53) = ul).
    { unfold ul. replace (e - 53)%Z with (e + - (53))%Z by lia. rewrite bpow_plus. f_equal. }
    set (u := / IZR (2 ^ 53)) in *. assert (Pu : 0 < u) by (apply Rinv_0_lt_compat, (IZR_lt 0); reflexivity).
    assert (Low : 2 * x * u >= ul).
    { rewrite <- E53. assert (bpow radix2 e = 2 * bpow radix2 (e - 1)) by (replace e with (1 + (e - 1))%Z at 1 by lia; rewrite bpow_plus; cbn; lra). nra. }
    destruct (relative_error_N_FLT_ex radix2 (-1074) 53 ltac:(reflexivity) (fun x => negb (Z.even x)) (x * x)) as [d [Hd Hr]].
    { rewrite Rabs_pos_eq by nra. apply Rle_trans with (bpow radix2 (-511) * bpow radix2 (-511)); [rewrite <- bpow_plus; apply bpow_le; lia|]. nra. }
    change (round radix2 (FLT_exp (-1074) 53) ZnearestE (x * x)) with (rnd64 (x * x)) in Hr. rewrite Hr.
    assert (Hu : / 2 * bpow radix2 (-53 + 1) = u).
    { change (-53 + 1)%Z with (-(52))%Z. rewrite bpow_opp. unfold u. cbn. lra. }
    assert (Hd' : Rabs d <= u) by (rewrite <- Hu; exact Hd). clear Hd. rename Hd' into Hd. apply Rabs_le_inv in Hd. set (y := x * x * (1 + d)).
    assert (Yhi : y < (x + ul / 2) * (x + ul / 2)).
    { unfold y. assert (x * x * d <= x * x * u) by nra. assert (x * x * u <= x * ul); [|nra].
      rewrite <- E53. assert (x * u <= bpow radix2 e * u) by nra. nra. }
    assert (X2 : ul / 2 < x).
    { apply Rlt_le_trans with (bpow radix2 (e - 1)); auto. apply Rlt_trans with ul; [lra|]. apply bpow_lt. lia. }
    assert (Ylo : (x - ul / 2) * (x - ul / 2) < y).
    { unfold y. assert (A1 : x * x * d >= - (x * x * u)) by nra.
      assert (A2 : x * x * u <= x * ul - x * u * ul).
      { rewrite <- E53 at 1. assert (x <= bpow radix2 e - ul) by lra. assert (x * u * x <= x * u * (bpow radix2 e - ul)) by (apply Rmult_le_compat_l; nra). nra. }
      assert (A3 : x * u * ul >= ul * ul / 2) by nra. nra. }
    assert (Py : 0 < y) by nra.
    assert (Sq : sqrt y * sqrt y = y) by (apply sqrt_sqrt; lra). pose proof (sqrt_pos y) as Sp.
    assert (Shi : sqrt y < x + ul / 2) by (apply Rnot_le_lt; intro C; nra).
    assert (Slo : x - ul / 2 < sqrt y) by (apply Rnot_le_lt; intro C; nra).
    apply Rle_antisym.
    + apply round_N_le_midp; auto; try typeclasses eauto. rewrite Es. lra.
    + apply round_N_ge_midp; auto; try typeclasses eauto. rewrite Ep. lra.
Qed.

Lemma sqrt_square_value : forall v : f64, is_finite v = true -> bpow radix2 (-511) <= Rabs (B2R v) <= bpow radix2 511 ->
  fsqrt (fmul v v) = fabs v.
Proof.
  intros v F [L U]. set (x := Rabs (B2R v)) in *.
  assert (Fx : generic_format radix2 fexp64 x) by (apply generic_format_abs, format_f64).
  assert (Ex : B2R v * B2R v = x * x) by (unfold x; rewrite <- Rabs_mult; symmetry; apply Rabs_pos_eq; nra).
  pose proof (bpow_gt_0 radix2 (-511)) as P.
  pose proof (Bmult_correct prec64 emax64 Hprec64 Hmax64 mode_NE v v) as H. fold (fmul v v) in H. rewrite Ex in H.
  assert (B : rnd64 (x * x) <= bpow radix2 1022).
  { rewrite <- (round_generic radix2 fexp64 (round_mode mode_NE) (bpow radix2 1022)).
    - apply rnd64_le. change 1022%Z with (511 + 511)%Z. rewrite bpow_plus. nra.
    - apply generic_format_bpow. rewrite fexp64_FLT. unfold FLT_exp. lia. }
  assert (N0 : 0 <= rnd64 (x * x)) by (apply rnd64_abs_sign; nra).
  rewrite Rlt_bool_true in H.
  2:{ rewrite Rabs_pos_eq by exact N0. apply Rle_lt_trans with (1 := B). apply bpow_lt. reflexivity. }
  destruct H as [R1 [F1 S1]]. rewrite F in F1. cbn [andb] in F1. change (is_finite (fmul v v) = true) in F1.
  assert (Sq : Bsign (fmul v v) = false) by (rewrite (S1 (fin_nan _ F1)); apply xorb_nilpotent).
  destruct (Bsqrt_correct prec64 emax64 Hprec64 Hmax64 mode_NE (fmul v v)) as [R2 [F2 S2]]. fold (fsqrt (fmul v v)) in R2, F2, S2.
  rewrite R1, round_sqrt_square in R2 by auto.
  assert (F3 : is_finite (fsqrt (fmul v v)) = true).
  { rewrite F2. destruct (fmul v v) as [s|s| |s m e Hb]; try discriminate; auto. cbn in Sq. now subst s. }
  apply B2R_Bsign_inj; auto; [now destruct v|rewrite R2; unfold x, fabs; now rewrite B2R_Babs|].
  rewrite S2 by now apply fin_nan. rewrite Sq. destruct v; try discriminate; reflexivity.
Qed.

(** Sterbenz: a difference of numbers within a factor of two is exact *)
Lemma sub_exact : forall x y : f64, is_finite x = true -> is_finite y = true -> B2R y / 2 <= B2R x <= 2 * B2R y ->
  is_finite (fsub x y) = true /\ B2R (fsub x y) = B2R x - B2R y.
Proof.
  intros x y Fx Fy H. pose proof (Bminus_correct prec64 emax64 Hprec64 Hmax64 mode_NE x y Fx Fy) as C. fold (fsub x y) in C.
  rewrite (round_generic radix2 fexp64 (round_mode mode_NE)) in C.
  - rewrite Rlt_bool_true in C; [tauto|]. pose proof (finite_bound x) as Bx. pose proof (finite_bound y) as By.
    apply Rabs_lt_inv in Bx, By. apply Rabs_lt. lra.
  - apply sterbenz; try typeclasses eauto; auto; apply format_f64.
Qed.
Lemma add_back : forall x y : f64, is_finite x = true -> is_finite y = true -> B2R y / 2 <= B2R x <= 2 * B2R y ->
  same_value (fadd (fsub x y) y) x.
Proof.
  intros x y Fx Fy H. destruct (sub_exact x y Fx Fy H) as [F E]. apply toR_same; [now apply finite_add_nan|now apply fin_nan|].
  rewrite toR_add, E by auto. replace (B2R x - B2R y + B2R y) with (B2R x) by lra.
  rewrite (round_generic radix2 fexp64 (round_mode mode_NE) _ (format_f64 x)), toR_finite by auto. apply clamp_id. apply finite_bound.
Qed.

(** whole part and fraction *)
Lemma trunc_fract : forall x : f64, is_finite x = true -> same_value (fadd (ftrunc x) (ffract x)) x.
Proof.
  intros x F. destruct (fract_value x F) as [F1 E1]. destruct (ftrunc_correct x) as [E2 F2]. unfold fis_finite in F2. rewrite F in F2.
  apply toR_same; [now apply finite_add_nan|now apply fin_nan|].
  rewrite toR_add, E1, E2 by auto. replace (IZR (Ztrunc (B2R x)) + (B2R x - IZR (Ztrunc (B2R x)))) with (B2R x) by lra.
  rewrite (round_generic radix2 fexp64 (round_mode mode_NE) _ (format_f64 x)), toR_finite by auto. apply clamp_id. apply finite_bound.
Qed.

(** scaling by a power of two and back *)
Lemma scale_back : forall (x n : f64) k, is_finite x = true -> value_is n (bpow radix2 k) ->
  bpow radix2 (-1022) <= Rabs (B2R x * bpow radix2 k) < bpow radix2 1024 -> fdiv (fmul x n) n = x.
Proof.
  intros x n k F [Fn En] [L U].
  assert (Pk : 0 < bpow radix2 k) by apply bpow_gt_0.
  assert (Sn : Bsign n = false) by (apply (pos_sign n (bpow radix2 k)); [split; auto|auto]).
  assert (FM : generic_format radix2 fexp64 (B2R x * bpow radix2 k)).
  { exact (mult_bpow_exact_FLT radix2 (-1074) 53 (B2R x) k (format_f64 x) ltac:(
      let H := fresh in assert (H : (-1022 < mag radix2 (B2R x * bpow radix2 k))%Z) by (apply (lt_bpow radix2); apply Rle_lt_trans with (1 := L); apply bpow_mag_gt);
      rewrite mag_mult_bpow in H by (intro Z; rewrite Z, Rmult_0_l, Rabs_R0 in L; pose proof (bpow_gt_0 radix2 (-1022)); lra); lia)). }
  pose proof (Bmult_correct prec64 emax64 Hprec64 Hmax64 mode_NE x n) as H. fold (fmul x n) in H. rewrite En in H.
  rewrite (round_generic radix2 fexp64 (round_mode mode_NE) _ FM) in H. rewrite Rlt_bool_true in H by exact U.
  destruct H as [R1 [F1 _]]. rewrite F, Fn in F1. cbn [andb] in F1. change (is_finite (fmul x n) = true) in F1.
  assert (NZ : B2R n <> 0) by (rewrite En; lra).
  pose proof (Bdiv_correct prec64 emax64 Hprec64 Hmax64 mode_NE (fmul x n) n NZ) as H. fold (fdiv (fmul x n) n) in H.
  rewrite En, R1 in H. replace (B2R x * bpow radix2 k / bpow radix2 k) with (B2R x) in H by (field; lra).
  rewrite (round_generic radix2 fexp64 (round_mode mode_NE) _ (format_f64 x)) in H. rewrite Rlt_bool_true in H by apply finite_bound.
  destruct H as [R2 [F2 _]]. rewrite F1 in F2.
  apply B2R_Bsign_inj; auto. rewrite sign_div by now apply fin_nan. rewrite sign_mul by now apply fin_nan. rewrite Sn. now rewrite !xorb_false_r.
Qed.

(** ** The remaining laws *)
Lemma nonzero_eq : forall x y : f64, is_nan x = false -> is_nan y = false -> toR x = toR y -> toR y <> 0 -> x = y.
Proof.
  intros x y Nx Ny E NZ. pose proof (toR_same x y Nx Ny E) as H. apply same_value_iff in H. destruct H as [H|[[s ->] [t ->]]]; auto.
  elim NZ. now destruct t.
Qed.
Lemma same_nonzero : forall x y : f64, same_value x y -> is_finite y = true -> B2R y <> 0 -> x = y.
Proof.
  intros x y H F NZ. apply same_value_iff in H. destruct H as [H|[[s ->] [t ->]]]; auto. now elim NZ.
Qed.
Lemma sub_self : forall v : f64, is_finite v = true -> fsub v v = fzero.
Proof.
  intros v F. pose proof (Bminus_correct prec64 emax64 Hprec64 Hmax64 mode_NE v v F F) as H. fold (fsub v v) in H.
  replace (B2R v - B2R v) with 0 in H by lra. rewrite round_0 in H by typeclasses eauto. rewrite Rabs_R0, Rlt_bool_true in H by apply bpow_gt_0.
  rewrite Rcompare_Eq in H by reflexivity. destruct H as [R1 [F1 S1]]. apply B2R_Bsign_inj; auto. rewrite S1. now destruct (Bsign v).
Qed.
Lemma div_self : forall v : f64, is_finite v = true -> B2R v <> 0 -> fdiv v v = fone.
Proof.
  intros v F NZ. destruct value_is_fone as [F1 E1]. apply nonzero_eq.
  - now apply div_nan_finite.
  - now apply fin_nan.
  - rewrite toR_div by auto. replace (B2R v / B2R v) with (B2R fone) by (rewrite E1; field; auto).
    rewrite (round_generic radix2 fexp64 (round_mode mode_NE) _ (format_f64 fone)), (toR_finite fone F1). apply clamp_id. apply finite_bound.
  - rewrite (toR_finite fone F1), E1. lra.
Qed.
Lemma near_cases : forall x y, Rabs (x - y) <= Rabs x -> Rabs (x - y) <= Rabs y -> y / 2 <= x <= 2 * y \/ (- y) / 2 <= - x <= 2 * - y.
Proof. intros x y. unfold Rabs. repeat destruct Rcase_abs; lra. Qed.
Lemma near_exact : forall x y : f64, is_finite x = true -> is_finite y = true ->
  Rabs (B2R x - B2R y) <= Rabs (B2R x) -> Rabs (B2R x - B2R y) <= Rabs (B2R y) ->
  is_finite (fsub x y) = true /\ B2R (fsub x y) = B2R x - B2R y.
Proof.
  intros x y Fx Fy H1 H2. pose proof (Bminus_correct prec64 emax64 Hprec64 Hmax64 mode_NE x y Fx Fy) as C. fold (fsub x y) in C.
  rewrite (round_generic radix2 fexp64 (round_mode mode_NE)) in C.
  - rewrite Rlt_bool_true in C; [tauto|]. apply Rle_lt_trans with (1 := H1), finite_bound.
  - destruct (near_cases _ _ H1 H2) as [H|H].
    + apply sterbenz; try typeclasses eauto; auto; apply format_f64.
    + replace (B2R x - B2R y) with (- (- B2R x - - B2R y)) by lra. apply generic_format_opp.
      apply sterbenz; try typeclasses eauto; auto; apply generic_format_opp, format_f64.
Qed.
Lemma near_back : forall x y : f64, is_finite x = true -> is_finite y = true -> B2R x <> 0 ->
  Rabs (B2R x - B2R y) <= Rabs (B2R x) -> Rabs (B2R x - B2R y) <= Rabs (B2R y) -> fadd (fsub x y) y = x.
Proof.
  intros x y Fx Fy NZ H1 H2. destruct (near_exact x y Fx Fy H1 H2) as [F E]. apply nonzero_eq; [now apply finite_add_nan|now apply fin_nan| |].
  - rewrite toR_add, E by auto. replace (B2R x - B2R y + B2R y) with (B2R x) by lra.
    rewrite (round_generic radix2 fexp64 (round_mode mode_NE) _ (format_f64 x)), toR_finite by auto. apply clamp_id. apply finite_bound.
  - now rewrite toR_finite.
Qed.
Lemma half_gap : forall x, generic_format radix2 fexp64 x -> 0 < x ->
  x * bpow radix2 (-54) <= (succ radix2 fexp64 x - x) / 2 /\ x * bpow radix2 (-54) <= (x - pred radix2 fexp64 x) / 2.
Proof.
  intros x Fx Px. rewrite succ_eq_pos, pred_eq_pos by lra.
  set (e := (mag_val radix2 x (mag radix2 x))). pose proof (bpow_mag_gt radix2 x) as U. pose proof (bpow_mag_le radix2 x ltac:(lra)) as L.
  fold e in U, L. rewrite Rabs_pos_eq in U, L by lra.
  assert (Ul : bpow radix2 (e - 53) <= ulp radix2 fexp64 x).
  { rewrite ulp_neq_0 by lra. apply bpow_le. unfold cexp. fold e. rewrite fexp64_FLT. unfold FLT_exp. lia. }
  assert (E1 : bpow radix2 (e - 53) = bpow radix2 e * bpow radix2 (-54) * 2).
  { replace (e - 53)%Z with (e + (-54) + 1)%Z by lia. rewrite !bpow_plus. cbn [bpow Z.pow_pos Pos.iter]. reflexivity. }
  pose proof (bpow_gt_0 radix2 (-54)) as P54. split.
  - assert (x * bpow radix2 (-54) <= bpow radix2 e * bpow radix2 (-54)) by nra. lra.
  - unfold pred_pos. fold e. destruct (Req_bool_spec x (bpow radix2 (e - 1))) as [E|NE].
    + assert (bpow radix2 (e - 1 - 53) <= bpow radix2 (fexp64 (e - 1))) by (apply bpow_le; rewrite fexp64_FLT; unfold FLT_exp; lia).
      assert (bpow radix2 (e - 1 - 53) = bpow radix2 (e - 1) * bpow radix2 (-54) * 2).
      { replace (e - 1 - 53)%Z with ((e - 1) + (-54) + 1)%Z by lia. rewrite !bpow_plus. cbn [bpow Z.pow_pos Pos.iter]. reflexivity. }
      assert (x * bpow radix2 (-54) = bpow radix2 (e - 1) * bpow radix2 (-54)) by (f_equal; exact E). lra.
    + assert (x * bpow radix2 (-54) <= bpow radix2 e * bpow radix2 (-54)) by nra. lra.
Qed.
Lemma absorb_pos : forall x y, generic_format radix2 fexp64 x -> 0 < x -> Rabs y < x * bpow radix2 (-54) -> rnd64 (x + y) = x.
Proof.
  intros x y Fx Px H. destruct (half_gap x Fx Px) as [A B]. apply Rabs_lt_inv in H. apply Rle_antisym.
  - apply round_N_le_midp; auto; try typeclasses eauto. lra.
  - apply round_N_ge_midp; auto; try typeclasses eauto. lra.
Qed.
Lemma absorb_real : forall x y, generic_format radix2 fexp64 x -> Rabs y < Rabs x * bpow radix2 (-54) -> rnd64 (x + y) = x.
Proof.
  intros x y Fx H. destruct (Rtotal_order x 0) as [N|[Z0|P]].
  - assert (E : rnd64 (- x + - y) = - x).
    { apply absorb_pos; [now apply generic_format_opp|lra|]. rewrite Rabs_Ropp. rewrite (Rabs_left x) in H by lra. exact H. }
    replace (- x + - y) with (- (x + y)) in E by lra. rewrite rnd64_opp in E. lra.
  - subst x. rewrite Rabs_R0, Rmult_0_l in H. pose proof (Rabs_pos y). lra.
  - apply absorb_pos; auto. now rewrite (Rabs_pos_eq x) in H by lra.
Qed.
Lemma absorb : forall a b : f64, is_finite a = true -> is_finite b = true -> Rabs (B2R b) < Rabs (B2R a) * bpow radix2 (-54) -> fadd a b = a.
Proof.
  intros a b Fa Fb H. apply nonzero_eq; [now apply finite_add_nan|now apply fin_nan| |].
  - rewrite toR_add, absorb_real, toR_finite by (auto using format_f64). apply clamp_id, finite_bound.
  - rewrite toR_finite by auto. intro Z0. rewrite Z0, Rabs_R0, Rmult_0_l in H. pose proof (Rabs_pos (B2R b)). lra.
Qed.
Lemma rem_small : forall a b : f64, is_finite a = true -> is_finite b = true -> Rabs (B2R a) < Rabs (B2R b) -> frem a b = a.
Proof.
  intros a b Fa Fb H. assert (NZ : B2R b <> 0) by (intro Z0; rewrite Z0, Rabs_R0 in H; pose proof (Rabs_pos (B2R a)); lra).
  destruct (frem_correct a b Fa Fb NZ) as [E [F [S1 _]]]. rewrite Ztrunc_small in E.
  - apply B2R_Bsign_inj; auto. rewrite E. cbn. lra.
  - unfold Rdiv. rewrite Rabs_mult, Rabs_inv. assert (0 < Rabs (B2R b)) by now apply Rabs_pos_lt.
    apply Rmult_lt_reg_r with (Rabs (B2R b)); auto. rewrite Rmult_assoc, Rinv_l by lra. lra.
Qed.
Lemma trunc_fract_eq : forall x : f64, is_finite x = true -> B2R x <> 0 -> fadd (ftrunc x) (ffract x) = x.
Proof. intros x F NZ. apply same_nonzero; auto. now apply trunc_fract. Qed.
Lemma fract_whole : forall (x : f64) k, is_finite x = true -> B2R x = IZR k -> ffract x = fzero.
Proof. intros x k F E. unfold ffract. unfold ftrunc. rewrite (nearbyint_whole mode_ZR x k F E). now apply sub_self. Qed.
Lemma ceil_floor : forall (x : f64), is_finite x = true -> (forall k, B2R x <> IZR k) -> B2R x < -1 \/ 0 < B2R x ->
  fceil x = fadd (ffloor x) fone.
Proof.
  intros x F NW R. destruct value_is_fone as [F1 E1].
  destruct (nearbyint_finite mode_DN x F) as [Ff [Ef _]]. destruct (nearbyint_finite mode_UP x F) as [Fc [Ec _]].
  fold (ffloor x) in Ff, Ef. fold (fceil x) in Fc, Ec. cbn [round_mode] in Ef, Ec.
  symmetry. apply nonzero_eq; [now apply finite_add_nan|now apply fin_nan| |].
  - rewrite toR_add, Ef, E1, <- plus_IZR by auto.
    assert (C : Zceil (B2R x) = (Zfloor (B2R x) + 1)%Z) by (apply Zceil_floor_neq; intro H; now apply (NW (Zfloor (B2R x)))).
    rewrite <- C, <- Ec, (round_generic radix2 fexp64 (round_mode mode_NE) _ (format_f64 _)), toR_finite by auto. apply clamp_id, finite_bound.
  - rewrite toR_finite, Ec by auto. apply (IZR_neq _ 0). intro Z0. pose proof (Zceil_ub (B2R x)) as C1. rewrite Z0 in C1.
    destruct R as [R|R]; [|lra]. assert (Zceil (B2R x) <= -1)%Z by (apply Zceil_glb; lra). lia.
Qed.
Lemma sum_one : forall w (x : f64), is_finite x = true -> B2R x <> 0 -> sum_f64 w [x] = x.
Proof.
  intros w x F NZ. unfold sum_f64. cbn [fold_left]. apply same_nonzero; auto. apply fadd_zero_l. destruct (sum_neg_zero w); eexists; reflexivity.
Qed.
Lemma start_add : forall w (x : f64), same_value (fadd (if sum_neg_zero w then fnzero else fzero) x) x.
Proof. intros w x. apply fadd_zero_l. destruct (sum_neg_zero w); eexists; reflexivity. Qed.
Lemma two : value_is (f64_of_Z 2) 2.
Proof. destruct (f64_of_Z_small 2 ltac:(lia)) as [E F]. split; auto. Qed.
Lemma double_value : forall x : f64, is_finite x = true -> Rabs (B2R x) <= bpow radix2 1022 ->
  is_finite (fadd x x) = true /\ B2R (fadd x x) = 2 * B2R x.
Proof.
  intros x F B. pose proof (Bplus_correct prec64 emax64 Hprec64 Hmax64 mode_NE x x F F) as H. fold (fadd x x) in H.
  replace (B2R x + B2R x) with (B2R x * bpow radix2 1) in H by (cbn; lra).
  rewrite (round_generic radix2 fexp64 (round_mode mode_NE) _ (double_format _ (format_f64 x))) in H.
  rewrite Rlt_bool_true in H.
  - destruct H as [E [F1 _]]. split; auto. rewrite E. cbn. lra.
  - rewrite Rabs_mult, (Rabs_pos_eq (bpow radix2 1)) by apply bpow_ge_0. apply Rle_lt_trans with (bpow radix2 1022 * bpow radix2 1).
    + apply Rmult_le_compat_r; [apply bpow_ge_0|exact B].
    + rewrite <- bpow_plus. apply bpow_lt. reflexivity.
Qed.
Lemma mean_two : forall x : f64, is_finite x = true -> B2R x <> 0 -> Rabs (B2R x) <= bpow radix2 1022 ->
  fdiv (fadd x x) (f64_of_Z 2) = x.
Proof.
  intros x F NZ B. destruct (double_value x F B) as [F1 E1]. destruct two as [F2 E2].
  assert (N2 : B2R (f64_of_Z 2) <> 0) by (rewrite E2; lra).
  apply nonzero_eq; [now apply div_nan_finite|now apply fin_nan| |now rewrite toR_finite].
  rewrite toR_div, E1, E2 by auto. replace (2 * B2R x / 2) with (B2R x) by field.
  rewrite (round_generic radix2 fexp64 (round_mode mode_NE) _ (format_f64 x)), toR_finite by auto. apply clamp_id, finite_bound.
Qed.

(** the mean of two numbers lies between them *)
Lemma mean_between : forall x y : f64, is_finite x = true -> is_finite y = true ->
  Rabs (B2R x) <= bpow radix2 1022 -> Rabs (B2R y) <= bpow radix2 1022 ->
  is_finite (fdiv (fadd x y) (f64_of_Z 2)) = true /\
  Rmin (B2R x) (B2R y) <= B2R (fdiv (fadd x y) (f64_of_Z 2)) <= Rmax (B2R x) (B2R y).
Proof.
  intros x y Fx Fy Bx By. destruct two as [F2 E2].
  assert (N2 : B2R (f64_of_Z 2) <> 0) by (rewrite E2; lra).
  assert (Dbl : forall r, generic_format radix2 fexp64 r -> rnd64 (2 * r) = 2 * r).
  { intros r Fr. replace (2 * r) with (r * bpow radix2 1) by (cbn; lra).
    exact (round_generic radix2 fexp64 (round_mode mode_NE) _ (double_format _ Fr)). }
  assert (Fmin : generic_format radix2 fexp64 (Rmin (B2R x) (B2R y))) by (unfold Rmin; destruct Rle_dec; apply format_f64).
  assert (Fmax : generic_format radix2 fexp64 (Rmax (B2R x) (B2R y))) by (unfold Rmax; destruct Rle_dec; apply format_f64).
  set (lo := Rmin (B2R x) (B2R y)) in *. set (hi := Rmax (B2R x) (B2R y)) in *.
  assert (Sum : 2 * lo <= B2R x + B2R y <= 2 * hi).
  { unfold lo, hi, Rmin, Rmax. destruct Rle_dec; lra. }
  assert (Lo : - bpow radix2 1022 <= lo) by (apply Rabs_le_inv in Bx, By; unfold lo, Rmin; destruct Rle_dec; lra).
  assert (Hi : hi <= bpow radix2 1022) by (apply Rabs_le_inv in Bx, By; unfold hi, Rmax; destruct Rle_dec; lra).
  assert (S1 : 2 * lo <= rnd64 (B2R x + B2R y) <= 2 * hi).
  { split; [rewrite <- (Dbl lo Fmin)|rewrite <- (Dbl hi Fmax)]; apply rnd64_le; lra. }
  assert (E23 : bpow radix2 1023 = 2 * bpow radix2 1022) by (change 1023%Z with (1 + 1022)%Z; rewrite bpow_plus; reflexivity).
  assert (L24 : bpow radix2 1023 < bpow radix2 emax64) by (apply bpow_lt; reflexivity).
  pose proof (Bplus_correct prec64 emax64 Hprec64 Hmax64 mode_NE x y Fx Fy) as H. fold (fadd x y) in H.
  rewrite Rlt_bool_true in H by (apply Rabs_lt; lra). destruct H as [E [F1 _]].
  pose proof (Bdiv_correct prec64 emax64 Hprec64 Hmax64 mode_NE (fadd x y) (f64_of_Z 2) N2) as H. fold (fdiv (fadd x y) (f64_of_Z 2)) in H.
  rewrite E, E2 in H. set (s := rnd64 (B2R x + B2R y)) in *.
  assert (S2 : lo <= rnd64 (s / 2) <= hi).
  { split.
    - rewrite <- (round_generic radix2 fexp64 (round_mode mode_NE) _ Fmin). apply rnd64_le. lra.
    - rewrite <- (round_generic radix2 fexp64 (round_mode mode_NE) _ Fmax). apply rnd64_le. lra. }
  pose proof (bpow_gt_0 radix2 1022) as P22.
  rewrite Rlt_bool_true in H by (apply Rabs_lt; lra). destruct H as [E3 [F3 _]]. rewrite F1 in F3. split; [exact F3|]. now rewrite E3.
Qed.

(** smaller and larger *)
Lemma flt_num : forall a b : f64, is_finite a = true -> is_finite b = true -> flt a b = Rlt_bool (B2R a) (B2R b).
Proof. intros a b Fa Fb. unfold flt. now apply Bltb_correct. Qed.
Lemma min_of : forall w (a b : f64), is_finite a = true -> is_finite b = true -> B2R a < B2R b -> min_f64 w a b = a.
Proof.
  intros w a b Fa Fb H. unfold min_f64, fis_nan. rewrite (fin_nan a Fa), (fin_nan b Fb), (flt_num a b Fa Fb), Rlt_bool_true by auto. reflexivity.
Qed.
Lemma min_of' : forall w (a b : f64), is_finite a = true -> is_finite b = true -> B2R b < B2R a -> min_f64 w a b = b.
Proof.
  intros w a b Fa Fb H. unfold min_f64, fis_nan. rewrite (fin_nan a Fa), (fin_nan b Fb), (flt_num a b Fa Fb), (flt_num b a Fb Fa), Rlt_bool_false, Rlt_bool_true by lra. reflexivity.
Qed.
Lemma max_of : forall w (a b : f64), is_finite a = true -> is_finite b = true -> B2R a < B2R b -> max_f64 w a b = b.
Proof.
  intros w a b Fa Fb H. unfold max_f64, fis_nan. rewrite (fin_nan a Fa), (fin_nan b Fb), (flt_num a b Fa Fb), Rlt_bool_true by auto. reflexivity.
Qed.
Lemma max_of' : forall w (a b : f64), is_finite a = true -> is_finite b = true -> B2R b < B2R a -> max_f64 w a b = a.
Proof.
  intros w a b Fa Fb H. unfold max_f64, fis_nan. rewrite (fin_nan a Fa), (fin_nan b Fb), (flt_num a b Fa Fb), (flt_num b a Fb Fa), Rlt_bool_false, Rlt_bool_true by lra. reflexivity.
Qed.
Lemma min_self : forall w (a : f64), min_f64 w a a = a.
Proof. intros w a. unfold min_f64. destruct (fis_nan a), (flt a a), (minmax_second w); reflexivity. Qed.
Lemma max_self : forall w (a : f64), max_f64 w a a = a.
Proof. intros w a. unfold max_f64. destruct (fis_nan a), (flt a a), (minmax_second w); reflexivity. Qed.
Lemma max_inf_l : forall w a, is_nan a = false -> max_f64 w fninf a = a.
Proof.
  intros w a N. rewrite max_min. change (fneg fninf) with finf. rewrite min_inf_l by (destruct a; auto). apply fneg_fneg.
Qed.
