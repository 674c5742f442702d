(** * Facts about f64 *)
From Coq Require Import ZArith NArith List String Ascii Bool Lia Reals Lra Psatz.
From Flocq Require Import Core BinarySingleNaN Plus_error.
From Verif Require Import F64.
Import ListNotations.
Local Open Scope R_scope.

Notation fexp64 := (SpecFloat.fexp prec64 emax64).
Notation rnd64 := (round radix2 fexp64 (round_mode mode_NE)).

Global Instance valid_fexp64 : Valid_exp fexp64.
Proof. exact (fexp_correct prec64 emax64 Hprec64). Qed.
Global Instance valid_rnd_NE : Valid_rnd (round_mode mode_NE).
Proof. exact (valid_rnd_round_mode mode_NE). Qed.
Global Instance fexp64_mono : Monotone_exp fexp64.
Proof. exact (fexp_monotone prec64 emax64). Qed.

Lemma fexp64_FLT : forall e, fexp64 e = FLT_exp (-1074) 53 e.
Proof. intro e. unfold SpecFloat.fexp, FLT_exp, SpecFloat.emin, prec64, emax64. f_equal. Qed.

Global Instance fexp64_not_FTZ : Exp_not_FTZ fexp64.
Proof.
  intros e. rewrite !fexp64_FLT.
  unfold FLT_exp. lia.
Qed.

Lemma format_f64 : forall x : f64, generic_format radix2 fexp64 (B2R x).
Proof. intro x. apply generic_format_B2R. Qed.

(** comparison *)
Lemma feq_refl : forall x, feq x x = negb (fis_nan x).
Proof. intro x. apply Beqb_refl. Qed.

Lemma feq_finite : forall x y, fis_finite x = true -> fis_finite y = true ->
  (feq x y = true <-> B2R x = B2R y).
Proof.
  intros x y Hx Hy. unfold feq. rewrite Beqb_correct; auto.
  destruct (Req_bool_spec (B2R x) (B2R y)); split; intro; congruence.
Qed.

Definition is_zero (x : f64) : Prop := exists s, x = B754_zero s.

Lemma feq_cases : forall x y, feq x y = true <->
  (x = y /\ fis_nan x = false) \/ (is_zero x /\ is_zero y).
Proof.
  intros x y. split.
  - intro H. destruct (fis_finite x) eqn:Fx, (fis_finite y) eqn:Fy.
    + apply feq_finite in H; auto.
      destruct x as [s| | |s m e He], y as [s'| | |s' m' e' He']; try discriminate.
      * right. split; eexists; reflexivity.
      * exfalso. assert (Hz : @is_finite_strict prec64 emax64 (B754_finite s' m' e' He') = true) by reflexivity.
        cbn in H. symmetry in H. revert H.
        pose proof (F2R_neq_0 radix2 (Float radix2 (cond_Zopp s' (Zpos m')) e')) as Hn.
        cbn in Hn. destruct s'; apply Hn; discriminate.
      * exfalso. cbn in H. revert H.
        pose proof (F2R_neq_0 radix2 (Float radix2 (cond_Zopp s (Zpos m)) e)) as Hn.
        cbn in Hn. destruct s; apply Hn; discriminate.
      * left. split; auto. apply B2R_inj; auto.
    + destruct x as [s|s| |s m e B], y as [t|t| |t m' e' B']; try discriminate;
        destruct s; try discriminate; destruct t; discriminate.
    + destruct x as [s|s| |s m e B], y as [t|t| |t m' e' B']; try discriminate;
        destruct s; try discriminate; destruct t; discriminate.
    + destruct x as [| s | |], y as [|s'| |]; try discriminate.
      destruct s, s'; try discriminate; auto.
  - intros [[-> H]|[[s ->] [s' ->]]].
    + rewrite feq_refl, H. reflexivity.
    + reflexivity.
Qed.

Lemma feq_sym : forall x y, feq x y = feq y x.
Proof.
  intros x y. destruct (feq x y) eqn:E, (feq y x) eqn:E'; auto.
  - assert (feq y x = true); [|congruence]. apply feq_cases. apply feq_cases in E.
    destruct E as [[-> H]|[H1 H2]]; auto.
  - assert (feq x y = true); [|congruence]. apply feq_cases. apply feq_cases in E'.
    destruct E' as [[-> H]|[H1 H2]]; auto.
Qed.

Lemma feq_trans : forall x y z, feq x y = true -> feq y z = true -> feq x z = true.
Proof.
  intros x y z H1 H2. apply feq_cases in H1. apply feq_cases in H2. apply feq_cases.
  destruct H1 as [[-> H1]|[H1 H1']]; auto. destruct H2 as [[-> H2]|[H2 H2']]; auto.
Qed.

(** order: on non-NaN values [flt] is a strict weak order; embed into R by
    sending the infinities outside the range of finite values *)
Definition toR (x : f64) : R :=
  match x with
  | B754_infinity false => bpow radix2 emax64
  | B754_infinity true => - bpow radix2 emax64
  | _ => B2R x
  end.

Lemma finite_bound : forall x : f64, Rabs (B2R x) < bpow radix2 emax64.
Proof. intro x. apply abs_B2R_lt_emax. Qed.

Lemma flt_toR : forall x y, fis_nan x = false -> fis_nan y = false ->
  (flt x y = true <-> toR x < toR y).
Proof.
  intros x y Hx Hy.
  assert (Hp : 0 < bpow radix2 emax64) by apply bpow_gt_0.
  destruct (fis_finite x) eqn:Fx, (fis_finite y) eqn:Fy.
  - unfold flt. rewrite Bltb_correct; auto.
    replace (toR x) with (B2R x) by (destruct x; try discriminate; reflexivity).
    replace (toR y) with (B2R y) by (destruct y; try discriminate; reflexivity).
    destruct (Rlt_bool_spec (B2R x) (B2R y)); split; intro; auto; try lra; discriminate.
  - pose proof (finite_bound x) as Hb. apply Rabs_lt_inv in Hb.
    destruct y as [| s | |]; try discriminate.
    assert (toR x = B2R x) as -> by (destruct x; try discriminate; reflexivity).
    destruct s; cbn [toR].
    + split; [|lra]. destruct x as [sx| | |sx mx ex Hbx]; try discriminate; destruct sx; cbn; discriminate.
    + split; [lra|]. intros _. destruct x as [sx| | |sx mx ex Hbx]; try discriminate; try reflexivity; destruct sx; reflexivity.
  - pose proof (finite_bound y) as Hb. apply Rabs_lt_inv in Hb.
    destruct x as [| s | |]; try discriminate.
    assert (toR y = B2R y) as -> by (destruct y; try discriminate; reflexivity).
    destruct s; cbn [toR].
    + split; [lra|]. intros _. destruct y as [sx| | |sx mx ex Hbx]; try discriminate; try reflexivity; destruct sx; reflexivity.
    + split; [|lra]. destruct y as [sx| | |sx mx ex Hbx]; try discriminate; destruct sx; discriminate.
  - destruct x as [| s | |]; try discriminate. destruct y as [|s'| |]; try discriminate.
    destruct s, s'; cbn; split; intro; try lra; try discriminate; try reflexivity.
Qed.

Lemma flt_nan : forall x y, fis_nan x = true \/ fis_nan y = true -> flt x y = false.
Proof. intros [s|s| |s m e B] [t|t| |t m' e' B'] [H|H]; try discriminate; try reflexivity; destruct s; reflexivity. Qed.

(** rounding of integers *)
Lemma rnd64_0 : rnd64 0 = 0.
Proof. apply round_0. typeclasses eauto. Qed.
Lemma small_Z_format : forall n, (Z.abs n <= 2 ^ 53)%Z -> generic_format radix2 fexp64 (IZR n).
Proof.
  intros n Hn. change (generic_format radix2 (FLT_exp (-1074) 53) (IZR n)).
  destruct (Z.eq_dec (Z.abs n) (2 ^ 53)) as [E|E].
  - assert (Hb : generic_format radix2 (FLT_exp (-1074) 53) (bpow radix2 53)).
    { apply generic_format_bpow. unfold FLT_exp. lia. }
    assert (Habs : IZR n = bpow radix2 53 \/ IZR n = - bpow radix2 53).
    { assert (bpow radix2 53 = IZR (2 ^ 53)) as -> by (rewrite <- IZR_Zpower; [reflexivity|lia]).
      rewrite <- opp_IZR. destruct (Z.abs_spec n) as [[_ H]|[_ H]]; rewrite H in E.
      - left. now rewrite E.
      - right. f_equal. lia. }
    destruct Habs as [->| ->]; auto. now apply generic_format_opp.
  - apply generic_format_FLT. exists (Float radix2 n 0); cbn; try lia.
    + unfold F2R. cbn. lra.
Qed.

Lemma f64_of_Z_small : forall n, (Z.abs n <= 2 ^ 53)%Z ->
  B2R (f64_of_Z n) = IZR n /\ fis_finite (f64_of_Z n) = true.
Proof.
  intros n Hn. unfold f64_of_Z.
  pose proof (binary_normalize_correct prec64 emax64 Hprec64 Hmax64 mode_NE n 0 false) as H.
  cbv zeta in H.
  assert (F2R (Float radix2 n 0) = IZR n) as E by (unfold F2R; cbn; lra).
  rewrite E in H.
  rewrite (round_generic radix2 fexp64 (round_mode mode_NE) (IZR n) (small_Z_format n Hn)) in H.
  rewrite Rlt_bool_true in H.
  - destruct H as [H1 [H2 _]]. auto.
  - rewrite <- abs_IZR. apply Rle_lt_trans with (IZR (2 ^ 53)).
    + now apply IZR_le.
    + change (IZR (2 ^ 53)) with (IZR (radix2 ^ 53)). rewrite (IZR_Zpower radix2 53) by lia. apply bpow_lt. reflexivity.
Qed.

(** truncation and fractional part *)
Lemma Ztrunc_round : forall x, round radix2 (FIX_exp 0) Ztrunc x = IZR (Ztrunc x).
Proof.
  intro x. unfold round, F2R, scaled_mantissa, cexp, FIX_exp. cbn. rewrite !Rmult_1_r. reflexivity.
Qed.
Lemma round_FIX0 : forall rnd x, round radix2 (FIX_exp 0) rnd x = IZR (rnd x).
Proof.
  intros rnd x. unfold round, F2R, scaled_mantissa, cexp, FIX_exp. cbn. rewrite !Rmult_1_r. reflexivity.
Qed.

Lemma ftrunc_correct : forall x, B2R (ftrunc x) = IZR (Ztrunc (B2R x)) /\ fis_finite (ftrunc x) = fis_finite x.
Proof.
  intro x. unfold ftrunc. destruct (Bnearbyint_correct prec64 emax64 Hmax64 mode_ZR x) as [H1 [H2 _]].
  cbn [round_mode] in H1. rewrite round_FIX0 in H1. auto.
Qed.

Lemma trunc_frac_bound : forall r, Rabs (r - IZR (Ztrunc r)) < 1.
Proof.
  intro r. destruct (Rle_lt_dec 0 r) as [H|H].
  - rewrite Ztrunc_floor by auto. pose proof (Zfloor_lb r). pose proof (Zfloor_ub r).
    apply Rabs_def1; lra.
  - rewrite Ztrunc_ceil by lra. pose proof (Zceil_ub r).
    pose proof (Zceil_lb r). apply Rabs_def1; lra.
Qed.

Lemma one_format : generic_format radix2 fexp64 1.
Proof. apply (small_Z_format 1). lia. Qed.

(** the fractional part is zero exactly for integers *)
Lemma ffract_zero : forall x, fis_finite x = true ->
  (feq (ffract x) fzero = true <-> exists n, B2R x = IZR n).
Proof.
  intros x Hx. unfold ffract. destruct (ftrunc_correct x) as [Ht Hf]. rewrite Hx in Hf.
  pose proof (Bminus_correct prec64 emax64 Hprec64 Hmax64 mode_NE x (ftrunc x) Hx Hf) as H.
  rewrite Ht in H.
  assert (Hb : Rabs (rnd64 (B2R x - IZR (Ztrunc (B2R x)))) <= 1).
  { apply abs_round_le_generic; try typeclasses eauto.
    - exact one_format.
    - left. apply trunc_frac_bound. }
  rewrite Rlt_bool_true in H.
  2:{ eapply Rle_lt_trans; [exact Hb|]. change 1 with (bpow radix2 0). apply bpow_lt. reflexivity. }
  destruct H as [H1 [H2 _]]. fold (fsub x (ftrunc x)) in *.
  rewrite feq_finite by auto. rewrite H1. cbn [B2R fzero]. split.
  - intro H. assert (B2R x + - IZR (Ztrunc (B2R x)) = 0).
    { apply (round_plus_eq_0 radix2 fexp64 (round_mode mode_NE)); auto.
      - apply format_f64.
      - apply generic_format_opp. rewrite <- Ht. apply format_f64. }
    exists (Ztrunc (B2R x)). lra.
  - intros [n Hn]. rewrite Hn, Ztrunc_IZR. replace (IZR n - IZR n) with 0 by lra. apply rnd64_0.
Qed.

(** the integers of a finite value *)
Lemma bounded_inv : forall m e, SpecFloat.bounded prec64 emax64 m e = true ->
  (Zpos m < 2 ^ 53)%Z /\ (-1074 <= e <= 971)%Z.
Proof.
  intros m e H. unfold SpecFloat.bounded in H. apply andb_true_iff in H. destruct H as [H1 H2].
  unfold SpecFloat.canonical_mantissa in H1. apply Zeq_bool_eq in H1.
  apply Zle_bool_imp_le in H2. rewrite fexp64_FLT in H1. unfold FLT_exp in H1.
  rewrite Digits.Zpos_digits2_pos in H1. change (emax64 - prec64)%Z with 971%Z in H2.
  pose proof (Digits.Zdigits_correct radix2 (Zpos m)) as [_ Hd]. cbn [Z.abs] in Hd.
  split; [|lia].
  assert (Digits.Zdigits radix2 (Zpos m) <= 53)%Z as Hle by lia.
  eapply Z.lt_le_trans; [exact Hd|]. apply (Zpower_le radix2 _ 53). exact Hle.
Qed.

Lemma format_small : forall m e, (Z.abs m < 2 ^ 53)%Z -> (-1074 <= e)%Z ->
  generic_format radix2 fexp64 (F2R (Float radix2 m e)).
Proof.
  intros m e Hm He. change (generic_format radix2 (FLT_exp (-1074) 53) (F2R (Float radix2 m e))).
  apply generic_format_FLT. exists (Float radix2 m e); auto.
Qed.

(** ** The remainder is exact *)
Lemma frem_correct : forall x y, fis_finite x = true -> fis_finite y = true -> B2R y <> 0 ->
  B2R (frem x y) = B2R x - IZR (Ztrunc (B2R x / B2R y)) * B2R y /\
  fis_finite (frem x y) = true /\ Bsign (frem x y) = Bsign x /\
  Rabs (B2R (frem x y)) < Rabs (B2R y).
Proof.
  intros x y Hx Hy Hy0.
  destruct y as [sy|sy| |sy my ey Hby]; try discriminate; [now elim Hy0|]. clear Hy.
  destruct x as [sx|sx| |sx mx ex Hbx]; try discriminate; clear Hx.
  - cbn [frem]. replace (B2R (B754_zero sx : f64)) with 0 by reflexivity.
    unfold Rdiv. rewrite Rmult_0_l, (Ztrunc_IZR 0). repeat split; try lra.
    rewrite Rabs_R0. now apply Rabs_pos_lt.
  - destruct (bounded_inv _ _ Hbx) as [Hmx Hex]. destruct (bounded_inv _ _ Hby) as [Hmy Hey].
    pose proof (finite_bound (B754_finite sy my ey Hby)) as Hyb.
    cbn [frem]. set (e := Z.min ex ey).
    set (X := (Z.pos mx * 2 ^ (ex - e))%Z). set (Y := (Z.pos my * 2 ^ (ey - e))%Z).
    set (r := (X mod Y)%Z).
    assert (He : (-1074 <= e)%Z) by lia.
    assert (HX : (0 < X)%Z) by (unfold X; pose proof (Z.pow_pos_nonneg 2 (ex - e)); lia).
    assert (HY : (0 < Y)%Z) by (unfold Y; pose proof (Z.pow_pos_nonneg 2 (ey - e)); lia).
    assert (Hr : (0 <= r < Y)%Z) by (apply Z.mod_pos_bound; auto).
    assert (HrX : (r <= X)%Z) by (apply Z.mod_le; lia).
    assert (Hr53 : (r < 2 ^ 53)%Z).
    { destruct (Z.min_spec ex ey) as [[Hlt Hmin]|[Hge Hmin]].
      - apply Z.le_lt_trans with X; auto. unfold X, e. rewrite Hmin, Z.sub_diag, Z.mul_1_r. auto.
      - apply Z.lt_trans with Y; [lia|]. unfold Y, e. rewrite Hmin, Z.sub_diag, Z.mul_1_r. auto. }
    assert (Ex : F2R (Float radix2 (Zpos mx) ex) = IZR X * bpow radix2 e).
    { unfold F2R, X. cbn [Fnum Fexp]. rewrite mult_IZR.
      change (IZR (2 ^ (ex - e))) with (IZR (Zpower radix2 (ex - e))). rewrite IZR_Zpower by lia.
      rewrite Rmult_assoc, <- bpow_plus. do 2 f_equal. lia. }
    assert (Ey : F2R (Float radix2 (Zpos my) ey) = IZR Y * bpow radix2 e).
    { unfold F2R, Y. cbn [Fnum Fexp]. rewrite mult_IZR.
      change (IZR (2 ^ (ey - e))) with (IZR (Zpower radix2 (ey - e))). rewrite IZR_Zpower by lia.
      rewrite Rmult_assoc, <- bpow_plus. do 2 f_equal. lia. }
    assert (Hp : 0 < bpow radix2 e) by apply bpow_gt_0.
    assert (HYR : 0 < IZR Y) by (apply IZR_lt; auto).
    assert (HXR : 0 < IZR X) by (apply IZR_lt; auto).
    set (q := (X / Y)%Z).
    assert (Hq : X = (Y * q + r)%Z) by (apply Z.div_mod; lia).
    assert (HqR : IZR X = IZR Y * IZR q + IZR r) by (rewrite Hq, plus_IZR, mult_IZR; reflexivity).
    assert (HrR : 0 <= IZR r < IZR Y) by (split; [apply IZR_le|apply IZR_lt]; lia).
    assert (Hq0 : (0 <= q)%Z) by (apply Z.div_pos; lia).
    assert (Hfl : Zfloor (IZR X / IZR Y) = q).
    { apply Zfloor_imp. rewrite plus_IZR. split.
      - apply (Rmult_le_reg_r (IZR Y)); auto. field_simplify; lra.
      - apply (Rmult_lt_reg_r (IZR Y)); auto. field_simplify; lra. }
    assert (Hbx' : forall s, B2R (B754_finite s mx ex Hbx : f64) = (if s then -1 else 1) * (IZR X * bpow radix2 e)).
    { intro s. cbn [B2R]. destruct s; cbn [SpecFloat.cond_Zopp].
      - rewrite F2R_Zopp. rewrite <- Ex. cbn. lra.
      - rewrite <- Ex. lra. }
    assert (Hby' : forall s, B2R (B754_finite s my ey Hby : f64) = (if s then -1 else 1) * (IZR Y * bpow radix2 e)).
    { intro s. cbn [B2R]. destruct s; cbn [SpecFloat.cond_Zopp].
      - rewrite F2R_Zopp. rewrite <- Ey. cbn. lra.
      - rewrite <- Ey. lra. }
    (* the rounded result is exact *)
    pose proof (binary_normalize_correct prec64 emax64 Hprec64 Hmax64 mode_NE (cond_Zopp sx r) e sx) as HN.
    cbv zeta in HN.
    assert (Hval : F2R (Float radix2 (cond_Zopp sx r) e) = (if sx then -1 else 1) * (IZR r * bpow radix2 e)).
    { unfold F2R. cbn [Fnum Fexp]. destruct sx; cbn [cond_Zopp]; [rewrite opp_IZR|]; lra. }
    assert (Hfmt : generic_format radix2 fexp64 (F2R (Float radix2 (cond_Zopp sx r) e))).
    { apply format_small; auto. destruct sx; cbn [cond_Zopp]; lia. }
    rewrite (round_generic radix2 fexp64 (round_mode mode_NE) _ Hfmt) in HN.
    assert (Habs : Rabs (F2R (Float radix2 (cond_Zopp sx r) e)) = IZR r * bpow radix2 e).
    { rewrite Hval. assert (0 <= IZR r * bpow radix2 e) by nra.
      destruct sx; [rewrite Rabs_left1|rewrite Rabs_right]; lra. }
    assert (HabsY : Rabs (B2R (B754_finite sy my ey Hby : f64)) = IZR Y * bpow radix2 e).
    { rewrite Hby'. assert (0 < IZR Y * bpow radix2 e) by nra.
      destruct sy; [rewrite Rabs_left1|rewrite Rabs_right]; lra. }
    assert (Hlt : IZR r * bpow radix2 e < IZR Y * bpow radix2 e) by nra.
    rewrite Rlt_bool_true in HN.
    2:{ rewrite Habs. rewrite HabsY in Hyb. lra. }
    destruct HN as [HN1 [HN2 HN3]].
    split; [|split; [exact HN2|split]].
    + rewrite HN1, Hval, Hbx', Hby'.
      assert (Hquot : Ztrunc ((if sx then -1 else 1) * (IZR X * bpow radix2 e) / ((if sy then -1 else 1) * (IZR Y * bpow radix2 e)))
                 = if xorb sx sy then (- q)%Z else q).
      { replace ((if sx then -1 else 1) * (IZR X * bpow radix2 e) / ((if sy then -1 else 1) * (IZR Y * bpow radix2 e)))
          with (if xorb sx sy then - (IZR X / IZR Y) else IZR X / IZR Y)
          by (destruct sx, sy; cbn [xorb]; field; lra).
        assert (0 <= IZR X / IZR Y) by (apply Rle_mult_inv_pos; lra).
        destruct (xorb sx sy); [rewrite Ztrunc_opp|]; rewrite Ztrunc_floor by auto; rewrite Hfl; reflexivity. }
      rewrite Hquot. destruct sx, sy; cbn [xorb]; rewrite ?opp_IZR, HqR; ring.
    + rewrite HN3, Hval. cbn [Bsign].
      destruct (Rcompare_spec ((if sx then -1 else 1) * (IZR r * bpow radix2 e)) 0) as [H|H|H]; auto.
      * destruct sx; auto. assert (0 <= IZR r * bpow radix2 e) by nra. lra.
      * destruct sx; auto. assert (0 <= IZR r * bpow radix2 e) by nra. lra.
    + rewrite HN1, Habs, HabsY. exact Hlt.
Qed.
