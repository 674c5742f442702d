(** * Monotonicity of the f64 operations, for C70 *)
From Coq Require Import ZArith NArith List String Bool Lia Reals Lra.
From Flocq Require Import Core BinarySingleNaN.
From Verif Require Import F64 Syntax Factorial Builtins.
From Verif Require Import SpecTree SpecMonotone FloatFacts NumberFacts PropertiesArith PropertiesNumeric PropertiesEq.
Import ListNotations.
Local Open Scope R_scope.

Definition big : R := bpow radix2 emax64.
Lemma big_pos : 0 < big. Proof. apply bpow_gt_0. Qed.

(** ** Rounding into the extended line *)
Definition clamp (r : R) : R := Rmax (- big) (Rmin big r).
Lemma clamp_le : forall r s, r <= s -> clamp r <= clamp s.
Proof. intros r s H. unfold clamp. apply Rmax_case; [apply Rmax_l|]. apply Rle_trans with (Rmin big s); [|apply Rmax_r]. apply Rmin_glb; [apply Rmin_l|]. apply Rle_trans with (1 := Rmin_r _ _). exact H. Qed.
Lemma clamp_id : forall r, Rabs r < big -> clamp r = r.
Proof. intros r H. apply Rabs_lt_inv in H. unfold clamp. rewrite Rmin_right by lra. apply Rmax_right. lra. Qed.
Lemma clamp_hi : forall r, big <= r -> clamp r = big.
Proof. intros r H. pose proof big_pos. unfold clamp. rewrite Rmin_left by lra. apply Rmax_right. lra. Qed.
Lemma clamp_lo : forall r, r <= - big -> clamp r = - big.
Proof. intros r H. pose proof big_pos. unfold clamp. rewrite Rmin_right by lra. apply Rmax_left. lra. Qed.
Lemma clamp_0 : clamp 0 = 0. Proof. apply clamp_id. rewrite Rabs_R0. apply big_pos. Qed.

Lemma rnd64_le : forall r s, r <= s -> rnd64 r <= rnd64 s.
Proof. intros r s H. apply round_le; auto; typeclasses eauto. Qed.
Lemma rnd64_abs_sign : forall r, 0 <= r -> 0 <= rnd64 r.
Proof. intros r H. rewrite <- rnd64_0. now apply rnd64_le. Qed.
Lemma rnd64_neg_sign : forall r, r <= 0 -> rnd64 r <= 0.
Proof. intros r H. rewrite <- rnd64_0. now apply rnd64_le. Qed.

Lemma toR_finite : forall x, is_finite x = true -> toR x = B2R x.
Proof. intros [s|s| |s m e H] F; try discriminate; reflexivity. Qed.
Lemma toR_fneg : forall x, toR (fneg x) = - toR x.
Proof. intros [s|[]| |s m e H]; cbn [toR fneg Bopp negb]; try lra. - cbn. lra. - cbn; lra. - change (B754_finite (negb s) m e H : f64) with (Bopp (B754_finite s m e H : f64)). now rewrite B2R_Bopp. Qed.
Lemma nan_fneg : forall x, is_nan (fneg x) = is_nan x.
Proof. intros [s|[]| |s m e H]; reflexivity. Qed.
Lemma fneg_fneg : forall x, fneg (fneg x) = x.
Proof. intro x. apply Bopp_involutive. Qed.

(** if the exact result is [r], what the operation returns *)
Lemma toR_rounded : forall (v : f64) r,
  (if Rlt_bool (Rabs (rnd64 r)) (bpow radix2 emax64)
   then B2R v = rnd64 r /\ is_finite v = true
   else exists s, v = B754_infinity s /\ (s = true -> r <= 0) /\ (s = false -> 0 <= r)) -> toR v = clamp (rnd64 r).
Proof.
  intros v r H. fold big in H. destruct (Rlt_bool_spec (Rabs (rnd64 r)) big) as [L|L].
  - destruct H as [H F]. rewrite toR_finite, H, clamp_id; auto.
  - destruct H as [s [-> [Hn Hp]]]. destruct s; cbn [toR]; fold big; symmetry.
    + apply clamp_lo. pose proof (rnd64_neg_sign r (Hn eq_refl)). rewrite Rabs_left1 in L by lra. lra.
    + apply clamp_hi. pose proof (rnd64_abs_sign r (Hp eq_refl)). rewrite Rabs_pos_eq in L by lra. lra.
Qed.

Lemma toR_add : forall a b, is_finite a = true -> is_finite b = true -> toR (fadd a b) = clamp (rnd64 (B2R a + B2R b)).
Proof.
  intros a b Fa Fb. pose proof (Bplus_correct prec64 emax64 Hprec64 Hmax64 mode_NE a b Fa Fb) as H. fold (fadd a b) in H.
  apply toR_rounded. destruct (Rlt_bool _ _); [tauto|]. destruct H as [H S0]. exists (Bsign a). split; [now apply overflow_infinity in H|]. split; intro E.
  - assert (Eb : Bsign b = true) by congruence. pose proof (sign_le a Fa E). pose proof (sign_le b Fb Eb). lra.
  - assert (Eb : Bsign b = false) by congruence. pose proof (sign_ge a Fa E). pose proof (sign_ge b Fb Eb). lra.
Qed.

Lemma xorb_sign_mul : forall (a b : f64), is_finite a = true -> is_finite b = true ->
  (xorb (Bsign a) (Bsign b) = true -> B2R a * B2R b <= 0) /\ (xorb (Bsign a) (Bsign b) = false -> 0 <= B2R a * B2R b).
Proof.
  intros a b Fa Fb. destruct (Bsign a) eqn:Sa, (Bsign b) eqn:Sb; split; intro H; try discriminate H;
    (pose proof (sign_le a Fa Sa) as H1 || pose proof (sign_ge a Fa Sa) as H1);
    (pose proof (sign_le b Fb Sb) as H2 || pose proof (sign_ge b Fb Sb) as H2); nra.
Qed.

Lemma toR_mul : forall a b, is_finite a = true -> is_finite b = true -> toR (fmul a b) = clamp (rnd64 (B2R a * B2R b)).
Proof.
  intros a b Fa Fb. pose proof (Bmult_correct prec64 emax64 Hprec64 Hmax64 mode_NE a b) as H. fold (fmul a b) in H.
  apply toR_rounded. destruct (Rlt_bool _ _).
  - destruct H as [H [F _]]. split; auto. now rewrite F, Fa, Fb.
  - exists (xorb (Bsign a) (Bsign b)). split; [now apply overflow_infinity in H|]. now apply xorb_sign_mul.
Qed.

Lemma toR_div : forall a b, is_finite a = true -> is_finite b = true -> B2R b <> 0 -> toR (fdiv a b) = clamp (rnd64 (B2R a / B2R b)).
Proof.
  intros a b Fa Fb Nb. pose proof (Bdiv_correct prec64 emax64 Hprec64 Hmax64 mode_NE a b Nb) as H. fold (fdiv a b) in H.
  apply toR_rounded. destruct (Rlt_bool _ _).
  - destruct H as [H [F _]]. split; auto. congruence.
  - exists (xorb (Bsign a) (Bsign b)). split; [now apply overflow_infinity in H|].
    destruct (xorb_sign_mul a b Fa Fb) as [X1 X2]. assert (P : 0 < / B2R b * / B2R b) by (pose proof (Rinv_neq_0_compat _ Nb); nra).
    assert (E : B2R a / B2R b = (B2R a * B2R b) * (/ B2R b * / B2R b)) by (field; auto). rewrite E.
    split; intro S0; [specialize (X1 S0)|specialize (X2 S0)]; nra.
Qed.

(** ** Infinite operands *)
Lemma finite_or_inf : forall x : f64, is_nan x = false -> is_finite x = true \/ exists s, x = B754_infinity s.
Proof. intros [s|s| |s m e H] N; try discriminate; eauto. Qed.
Lemma toR_finf : toR finf = big. Proof. reflexivity. Qed.
Lemma toR_fninf : toR fninf = - big. Proof. reflexivity. Qed.
Lemma range : forall x, is_nan x = false -> - big <= toR x <= big.
Proof. exact toR_range. Qed.
Lemma finite_range : forall x, is_finite x = true -> - big < toR x < big.
Proof. intros x F. rewrite toR_finite by auto. pose proof (finite_bound x) as B. fold big in B. apply Rabs_lt_inv in B. exact B. Qed.
Lemma sign_pos : forall x : f64, is_nan x = false -> 0 < toR x -> Bsign x = false.
Proof.
  intros [s|[]| |[] m e H] N L; try discriminate; auto; cbn [toR B2R] in L; try lra.
  - pose proof big_pos. fold big in L. lra.
  - exfalso. pose proof (F2R_lt_0 radix2 (Float radix2 (Zneg m) e) eq_refl) as L2. cbn [cond_Zopp Z.opp] in L. lra.
Qed.
Lemma sign_neg : forall x : f64, is_nan x = false -> toR x < 0 -> Bsign x = true.
Proof.
  intros x N L. pose proof (sign_pos (fneg x)) as H. rewrite nan_fneg, toR_fneg in H. specialize (H N ltac:(lra)).
  destruct x as [s|s| |s m e B]; try discriminate; cbn [fneg Bopp Bsign] in *; now destruct s.
Qed.

Lemma fadd_nan_l : forall a b, is_nan (fadd a b) = false -> is_nan a = false /\ is_nan b = false.
Proof. intros [s|s| |s m e H] [t|t| |t m' e' H'] N; try (now split); discriminate. Qed.

Lemma add_le : forall a b a' b', is_nan (fadd a b) = false -> is_nan (fadd a' b') = false ->
  toR a <= toR a' -> toR b <= toR b' -> toR (fadd a b) <= toR (fadd a' b').
Proof.
  intros a b a' b' N N' Ha Hb. destruct (fadd_nan_l _ _ N) as [Na Nb], (fadd_nan_l _ _ N') as [Na' Nb'].
  pose proof big_pos as P. pose proof (range _ N) as R1. pose proof (range _ N') as R2.
  pose proof (range _ Na') as Ra'. pose proof (range _ Nb') as Rb'.
  destruct (finite_or_inf _ Na) as [Fa|[[] ->]].
  2: { assert (toR (fadd (B754_infinity true) b) = - big) as ->; [|lra]. destruct b as [t|[]| |t m e H]; try discriminate; reflexivity. }
  2: { change (toR (B754_infinity false)) with big in Ha. assert (a' = finf) as -> by (apply toR_inf_only; [exact Na'|fold big; lra]).
       assert (toR (fadd finf b') = big) as ->; [|lra]. destruct b' as [t|[]| |t m e H]; try discriminate; reflexivity. }
  destruct (finite_or_inf _ Nb) as [Fb|[[] ->]].
  2: { assert (toR (fadd a (B754_infinity true)) = - big) as ->; [|lra]. destruct a as [t|[]| |t m e H]; try discriminate; reflexivity. }
  2: { change (toR (B754_infinity false)) with big in Hb. assert (b' = finf) as -> by (apply toR_inf_only; [exact Nb'|fold big; lra]).
       assert (toR (fadd a' finf) = big) as ->; [|lra]. destruct a' as [t|[]| |t m e H]; try discriminate; reflexivity. }
  pose proof (finite_range a Fa) as Sa. pose proof (finite_range b Fb) as Sb.
  destruct (finite_or_inf _ Na') as [Fa'|[[] ->]].
  2: { change (toR (B754_infinity true)) with (- big) in Ha. lra. }
  2: { assert (toR (fadd (B754_infinity false) b') = big) as ->; [|lra]. destruct b' as [t|[]| |t m e H]; try discriminate; reflexivity. }
  destruct (finite_or_inf _ Nb') as [Fb'|[[] ->]].
  2: { change (toR (B754_infinity true)) with (- big) in Hb. lra. }
  2: { assert (toR (fadd a' (B754_infinity false)) = big) as ->; [|lra]. destruct a' as [t|[]| |t m e H]; try discriminate; reflexivity. }
  rewrite !toR_add by auto. rewrite !toR_finite in Ha, Hb by auto. apply clamp_le, rnd64_le. lra.
Qed.

Lemma fmul_nan : forall a b, is_nan (fmul a b) = false -> is_nan a = false /\ is_nan b = false.
Proof. intros [s|s| |s m e H] [t|t| |t m' e' H'] N; try (now split); discriminate. Qed.
Lemma fdiv_nan : forall a b, is_nan (fdiv a b) = false -> is_nan a = false /\ is_nan b = false.
Proof. intros [s|s| |s m e H] [t|t| |t m' e' H'] N; try (now split); discriminate. Qed.

(** the value on an infinite factor *)
Definition inf_of (s : bool) : R := if s then - big else big.
Lemma toR_mul_inf_l : forall s b, is_nan (fmul (B754_infinity s) b) = false ->
  toR (fmul (B754_infinity s) b) = inf_of (xorb s (Bsign b)) /\ toR b <> 0.
Proof.
  pose proof big_pos. intros s [t|t| |t m e B] N; try discriminate; (split; [destruct s, t; reflexivity|]).
  - destruct t; cbn [toR]; fold big; lra.
  - cbn [toR B2R]. intro E. apply eq_0_F2R in E. destruct t; discriminate.
Qed.

Lemma sign_cases : forall x : f64, is_nan x = false -> toR x <> 0 -> (Bsign x = true /\ toR x < 0) \/ (Bsign x = false /\ 0 < toR x).
Proof. intros x N H. destruct (Rlt_or_le (toR x) 0); [left; split; auto; now apply sign_neg|right]. assert (0 < toR x) by lra. split; auto. now apply sign_pos. Qed.

(** multiplying by a fixed factor that is not negative *)
Lemma scale_le : forall c b b', is_nan (fmul c b) = false -> is_nan (fmul c b') = false ->
  0 <= toR c -> toR b <= toR b' -> toR (fmul c b) <= toR (fmul c b').
Proof.
  intros c b b' N N' Hc Hb. pose proof big_pos as P. pose proof (range _ N) as R1. pose proof (range _ N') as R2.
  destruct (fmul_nan _ _ N) as [Nc Nb], (fmul_nan _ _ N') as [_ Nb'].
  destruct (finite_or_inf _ Nc) as [Fc|[[] ->]].
  2: { change (toR (B754_infinity true)) with (- big) in Hc. lra. }
  2: { destruct (toR_mul_inf_l _ _ N) as [E Z], (toR_mul_inf_l _ _ N') as [E' Z']. rewrite E, E' in *. cbn [xorb].
       destruct (sign_cases b Nb Z) as [[-> L]|[-> L]]; unfold inf_of; [destruct (Bsign b'); lra|].
       destruct (sign_cases b' Nb' Z') as [[_ L']|[-> L']]; lra. }
  destruct (finite_or_inf _ Nb) as [Fb|[s ->]].
  2: { rewrite fmul_comm in N, R1 |- *. destruct (toR_mul_inf_l _ _ N) as [E Z]. destruct (sign_cases c Nc Z) as [[_ L]|[S0 L]]; [lra|].
       rewrite S0, xorb_false_r in E. rewrite E. destruct s; cbn [inf_of]; [lra|]. change (toR (B754_infinity false)) with big in Hb.
       assert (b' = finf) as -> by (apply toR_inf_only; [exact Nb'|fold big; lra]).
       rewrite fmul_comm in N', R2 |- *. destruct (toR_mul_inf_l _ _ N') as [E' _]. unfold finf at 1. rewrite E', S0. cbn. lra. }
  pose proof (finite_range b Fb) as Sb.
  destruct (finite_or_inf _ Nb') as [Fb'|[s ->]].
  2: { rewrite (fmul_comm c (B754_infinity s)) in N', R2 |- *. destruct (toR_mul_inf_l _ _ N') as [E Z]. destruct (sign_cases c Nc Z) as [[_ L]|[S0 L]]; [lra|].
       rewrite S0, xorb_false_r in E. rewrite E. destruct s; cbn [inf_of]; [|lra]. change (toR (B754_infinity true)) with (- big) in Hb. lra. }
  rewrite !toR_mul by auto. rewrite (toR_finite c Fc) in Hc. rewrite (toR_finite b Fb), (toR_finite b' Fb') in Hb.
  apply clamp_le, rnd64_le. now apply Rmult_le_compat_l.
Qed.

Lemma mul_zero : forall a b, is_nan (fmul a b) = false -> toR a = 0 -> toR (fmul a b) = 0.
Proof.
  intros a b N Z. destruct (fmul_nan _ _ N) as [Na Nb]. pose proof big_pos as P.
  destruct (finite_or_inf _ Na) as [Fa|[[] ->]]; [|change (- big = 0) in Z; lra|change (big = 0) in Z; lra].
  destruct (finite_or_inf _ Nb) as [Fb|[s ->]].
  - rewrite toR_mul by auto. rewrite toR_finite in Z by auto. rewrite Z, Rmult_0_l, rnd64_0. apply clamp_0.
  - rewrite fmul_comm in N. destruct (toR_mul_inf_l _ _ N) as [_ E]. elim (E Z).
Qed.
Lemma mul_nonneg : forall a b, is_nan (fmul a b) = false -> 0 <= toR a -> 0 <= toR b -> 0 <= toR (fmul a b).
Proof.
  intros a b N Ha Hb. destruct (fmul_nan _ _ N) as [Na Nb]. pose proof big_pos as P.
  destruct (finite_or_inf _ Na) as [Fa|[s ->]].
  - destruct (finite_or_inf _ Nb) as [Fb|[s ->]].
    + rewrite toR_mul by auto. rewrite (toR_finite a Fa) in Ha. rewrite (toR_finite b Fb) in Hb. rewrite <- clamp_0. apply clamp_le. apply rnd64_abs_sign. nra.
    + rewrite fmul_comm in N |- *. destruct (toR_mul_inf_l _ _ N) as [E Z]. destruct (sign_cases a Na Z) as [[_ L]|[S0 L]]; [lra|].
      rewrite E, S0, xorb_false_r. destruct s; cbn [inf_of]; [change (0 <= - big) in Hb|]; lra.
  - destruct (toR_mul_inf_l _ _ N) as [E Z]. destruct (sign_cases b Nb Z) as [[_ L]|[S0 L]]; [lra|].
    rewrite E, S0, xorb_false_r. destruct s; cbn [inf_of]; [change (0 <= - big) in Ha|]; lra.
Qed.

(** both factors moving, neither negative *)
Lemma mul_le : forall a b a' b', is_nan (fmul a b) = false -> is_nan (fmul a' b') = false ->
  0 <= toR a <= toR a' -> 0 <= toR b <= toR b' -> toR (fmul a b) <= toR (fmul a' b').
Proof.
  intros a b a' b' N N' [Ha La] [Hb Lb]. destruct (fmul_nan _ _ N) as [Na Nb], (fmul_nan _ _ N') as [Na' Nb'].
  destruct (Req_dec (toR a) 0) as [Z|Z].
  { rewrite (mul_zero a b N Z). apply mul_nonneg; auto; lra. }
  destruct (is_nan (fmul a b')) eqn:M.
  - (* a is an infinity and b' a zero, so b is a zero *)
    assert (toR b' = 0) as Zb'.
    { destruct (finite_or_inf _ Na) as [Fa|[s ->]], (finite_or_inf _ Nb') as [Fb'|[t ->]].
      - exfalso. pose proof (Bmult_correct prec64 emax64 Hprec64 Hmax64 mode_NE a b') as H. fold (fmul a b') in H.
        destruct (Rlt_bool _ _); [destruct H as [_ [H _]]; rewrite Fa, Fb' in H; apply finite_not_nan in H; congruence|].
        apply overflow_infinity in H. rewrite H in M. discriminate.
      - exfalso. destruct a as [u|u| |u m e B]; try discriminate Fa; [now elim Z|destruct u, t; discriminate M].
      - destruct b' as [u|u| |u m e B]; try discriminate; [reflexivity]. 
      - destruct s, t; discriminate M. }
    rewrite (fmul_comm a b), (mul_zero b a), <- (mul_zero b' a'), fmul_comm by (try lra; now rewrite fmul_comm). lra.
  - apply Rle_trans with (toR (fmul a b')).
    + now apply scale_le.
    + rewrite (fmul_comm a b') in M |- *. rewrite (fmul_comm a' b') in N' |- *. apply scale_le; auto. lra.
Qed.

(** ** Quotients by a positive divisor *)
Lemma toR_div_by_inf : forall a s, is_nan (fdiv a (B754_infinity s)) = false -> toR (fdiv a (B754_infinity s)) = 0.
Proof. intros [t|t| |t m e B] s N; try discriminate; reflexivity. Qed.
Lemma toR_inf_div : forall s b, is_nan (fdiv (B754_infinity s) b) = false -> 0 < toR b -> toR (fdiv (B754_infinity s) b) = inf_of s.
Proof.
  intros s [t|t| |t m e B] N H; try discriminate; try (cbn in H; lra).
  assert (t = false) as -> by (apply (sign_pos (B754_finite t m e B)); auto). destruct s; reflexivity.
Qed.

Lemma div_by_le : forall a a' b, is_nan (fdiv a b) = false -> is_nan (fdiv a' b) = false ->
  0 < toR b -> toR a <= toR a' -> toR (fdiv a b) <= toR (fdiv a' b).
Proof.
  intros a a' b N N' Hb Ha. pose proof big_pos as P. pose proof (range _ N) as R1. pose proof (range _ N') as R2.
  destruct (fdiv_nan _ _ N) as [Na Nb], (fdiv_nan _ _ N') as [Na' _].
  destruct (finite_or_inf _ Nb) as [Fb|[s ->]]; [|rewrite !toR_div_by_inf by auto; lra].
  destruct (finite_or_inf _ Na) as [Fa|[s ->]].
  2: { rewrite (toR_inf_div s b N Hb). destruct s; cbn [inf_of]; [lra|]. change (toR (B754_infinity false)) with big in Ha.
       assert (a' = finf) as -> by (apply toR_inf_only; [exact Na'|fold big; lra]). unfold finf. rewrite (toR_inf_div false b N' Hb). cbn. lra. }
  pose proof (finite_range a Fa) as Sa.
  destruct (finite_or_inf _ Na') as [Fa'|[s ->]].
  2: { rewrite (toR_inf_div s b N' Hb). destruct s; cbn [inf_of]; [|lra]. change (toR (B754_infinity true)) with (- big) in Ha. lra. }
  rewrite (toR_finite a Fa), (toR_finite a' Fa') in Ha. rewrite (toR_finite b Fb) in Hb. rewrite !toR_div by (auto; lra). apply clamp_le, rnd64_le.
  apply Rmult_le_compat_r; auto. apply Rlt_le, Rinv_0_lt_compat. lra.
Qed.

Lemma div_nonneg : forall a b, is_nan (fdiv a b) = false -> 0 <= toR a -> 0 < toR b -> 0 <= toR (fdiv a b).
Proof.
  intros a b N Ha Hb. destruct (fdiv_nan _ _ N) as [Na Nb]. pose proof big_pos as P.
  destruct (finite_or_inf _ Nb) as [Fb|[s ->]]; [|rewrite !toR_div_by_inf by auto; lra].
  destruct (finite_or_inf _ Na) as [Fa|[s ->]].
  - rewrite (toR_finite a Fa) in Ha. rewrite (toR_finite b Fb) in Hb. rewrite !toR_div by (auto; lra). rewrite <- clamp_0. apply clamp_le, rnd64_abs_sign.
    apply Rmult_le_pos; auto. apply Rlt_le, Rinv_0_lt_compat. lra.
  - rewrite (toR_inf_div s b N Hb). destruct s; cbn [inf_of]; [change (0 <= - big) in Ha|]; lra.
Qed.

Lemma div_le : forall a b a' b', is_nan (fdiv a b) = false -> is_nan (fdiv a' b') = false ->
  0 <= toR a <= toR a' -> 0 < toR b' <= toR b -> toR (fdiv a b) <= toR (fdiv a' b').
Proof.
  intros a b a' b' N N' [Ha La] [Hb Lb]. pose proof big_pos as P. pose proof (range _ N) as R1. pose proof (range _ N') as R2.
  destruct (fdiv_nan _ _ N) as [Na Nb], (fdiv_nan _ _ N') as [Na' Nb'].
  destruct (finite_or_inf _ Nb) as [Fb|[s ->]].
  2: { rewrite toR_div_by_inf by auto. apply div_nonneg; auto; lra. }
  pose proof (finite_range b Fb) as Sb.
  destruct (finite_or_inf _ Nb') as [Fb'|[[] ->]].
  2: { change (0 < - big) in Hb. lra. }
  2: { change (toR (B754_infinity false)) with big in Lb. lra. }
  destruct (finite_or_inf _ Na) as [Fa|[s ->]].
  2: { rewrite (toR_inf_div s b N ltac:(lra)). destruct s; cbn [inf_of]; [lra|]. change (toR (B754_infinity false)) with big in La.
       assert (a' = finf) as -> by (apply toR_inf_only; [exact Na'|fold big; lra]). unfold finf. rewrite (toR_inf_div false b' N' Hb). cbn. lra. }
  destruct (finite_or_inf _ Na') as [Fa'|[s ->]].
  2: { rewrite (toR_inf_div s b' N' Hb). destruct s; cbn [inf_of]; [|lra]. change (toR (B754_infinity true)) with (- big) in La. lra. }
  rewrite (toR_finite a Fa) in Ha, La. rewrite (toR_finite a' Fa') in La. rewrite (toR_finite b Fb) in Lb. rewrite (toR_finite b' Fb') in Hb, Lb. rewrite !toR_div by (auto; lra). apply clamp_le, rnd64_le. unfold Rdiv.
  apply Rmult_le_compat; auto.
  - apply Rlt_le, Rinv_0_lt_compat. lra.
  - apply Rinv_le; lra.
Qed.

(** ** Signs *)
Lemma clamp_opp : forall r, clamp (- r) = - clamp r.
Proof.
  intro r. pose proof big_pos. destruct (Rlt_or_le (Rabs r) big) as [L|L].
  - rewrite !clamp_id; auto. now rewrite Rabs_Ropp.
  - destruct (Rle_or_lt 0 r); [rewrite Rabs_pos_eq in L by lra; rewrite (clamp_hi r L)|rewrite Rabs_left in L by lra; rewrite (clamp_lo r ltac:(lra))].
    + rewrite clamp_lo; lra.
    + rewrite clamp_hi; lra.
Qed.
Lemma rnd64_opp : forall r, rnd64 (- r) = - rnd64 r.
Proof. intro r. change (round_mode mode_NE) with ZnearestE. apply round_NE_opp. Qed.
Lemma fin_fneg : forall a, is_finite (fneg a) = is_finite a. Proof. intros [s|s| |s m e H]; reflexivity. Qed.
Lemma B2R_fneg : forall a, B2R (fneg a) = - B2R a. Proof. intro a. apply B2R_Bopp. Qed.

Lemma mul_neg_l : forall a b, toR (fmul (fneg a) b) = - toR (fmul a b) /\ is_nan (fmul (fneg a) b) = is_nan (fmul a b).
Proof.
  intros a b. split.
  - destruct (is_finite a) eqn:Fa, (is_finite b) eqn:Fb.
    + rewrite !toR_mul by (rewrite ?fin_fneg; auto). rewrite B2R_fneg, <- clamp_opp, <- rnd64_opp. do 2 f_equal. ring.
    + destruct a as [s|s| |s m e H], b as [t|t| |t m' e' H']; try discriminate; cbn; try (destruct s, t; cbn); lra.
    + destruct a as [s|s| |s m e H], b as [t|t| |t m' e' H']; try discriminate; cbn; try (destruct s, t; cbn); lra.
    + destruct a as [s|s| |s m e H], b as [t|t| |t m' e' H']; try discriminate; cbn; try (destruct s, t; cbn); lra.
  - destruct a as [s|s| |s m e H], b as [t|t| |t m' e' H']; try reflexivity.
    assert (F : forall x y : f64, is_finite x = true -> is_finite y = true -> is_nan (fmul x y) = false).
    { intros x y Fx Fy. pose proof (Bmult_correct prec64 emax64 Hprec64 Hmax64 mode_NE x y) as C. fold (fmul x y) in C.
      destruct (Rlt_bool _ _); [destruct C as [_ [C _]]; rewrite Fx, Fy in C; now apply finite_not_nan|].
      apply overflow_infinity in C. now rewrite C. }
    rewrite !F; auto.
Qed.
Lemma mul_neg_r : forall a b, toR (fmul a (fneg b)) = - toR (fmul a b) /\ is_nan (fmul a (fneg b)) = is_nan (fmul a b).
Proof. intros a b. rewrite (fmul_comm a (fneg b)), (fmul_comm a b). apply mul_neg_l. Qed.

Lemma div_nan_finite : forall x y : f64, is_finite x = true -> is_finite y = true -> B2R y <> 0 -> is_nan (fdiv x y) = false.
Proof.
  intros x y Fx Fy N. pose proof (Bdiv_correct prec64 emax64 Hprec64 Hmax64 mode_NE x y N) as C. fold (fdiv x y) in C.
  destruct (Rlt_bool _ _); [destruct C as [_ [C _]]; apply finite_not_nan; congruence|].
  apply overflow_infinity in C. now rewrite C.
Qed.
Lemma finite_nonzero : forall s m e H, B2R (B754_finite s m e H : f64) <> 0.
Proof. intros s m e H E. cbn [B2R] in E. apply eq_0_F2R in E. destruct s; discriminate. Qed.
Lemma div_neg_l : forall a b, toR (fdiv (fneg a) b) = - toR (fdiv a b) /\ is_nan (fdiv (fneg a) b) = is_nan (fdiv a b).
Proof.
  intros a b.
  destruct a as [s|s| |s m e H], b as [t|t| |t m' e' H'];
    try (match goal with |- context [B754_finite s _ _ _] => match goal with |- context [B754_finite t _ _ _] => fail 2 end | _ => idtac end;
         split; [unfold fdiv, fneg; destruct s, t || idtac; cbn [Bdiv Bopp xorb negb toR B2R]; fold big; lra|reflexivity]).
  pose proof (finite_nonzero t m' e' H') as Z. split.
  - rewrite !toR_div by auto. rewrite B2R_fneg, <- clamp_opp, <- rnd64_opp. do 2 f_equal. unfold Rdiv. ring.
  - rewrite !div_nan_finite; auto.
Qed.
Lemma div_neg_r : forall a b, toR (fdiv a (fneg b)) = - toR (fdiv a b) /\ is_nan (fdiv a (fneg b)) = is_nan (fdiv a b).
Proof.
  intros a b.
  destruct a as [s|s| |s m e H], b as [t|t| |t m' e' H'];
    try (match goal with |- context [B754_finite s _ _ _] => match goal with |- context [B754_finite t _ _ _] => fail 2 end | _ => idtac end;
         split; [unfold fdiv, fneg; destruct s, t || idtac; cbn [Bdiv Bopp xorb negb toR B2R]; fold big; lra|reflexivity]).
  pose proof (finite_nonzero t m' e' H') as Z.
  assert (Z' : B2R (fneg (B754_finite t m' e' H')) <> 0) by (rewrite B2R_fneg; lra). split.
  - rewrite !toR_div by auto. rewrite B2R_fneg, <- clamp_opp, <- rnd64_opp. do 2 f_equal. field. lra.
  - rewrite !div_nan_finite; auto.
Qed.

(** ** Order and sides through [toR] *)
Lemma at_most_toR : forall a b, at_most a b <-> is_nan a = false /\ is_nan b = false /\ toR a <= toR b.
Proof.
  intros a b. unfold at_most. pose proof big_pos as P.
  destruct (is_finite a) eqn:Fa, (is_finite b) eqn:Fb.
  - rewrite (finite_not_nan a), (finite_not_nan b), Bleb_correct, !toR_finite by auto.
    destruct (Rle_bool_spec (B2R a) (B2R b)); split; intro H0; auto; try discriminate; try lra.
  - pose proof (finite_range a Fa). destruct b as [t|[]| |t m e B]; try discriminate Fb; change (toR (B754_infinity true)) with (- big); change (toR (B754_infinity false)) with big;
      (split; [intro C|intros [? [? ?]]]); try discriminate; try lra.
    + destruct a as [[]|[]| |[] m e B]; discriminate.
    + split; [now apply finite_not_nan|]. split; auto. lra.
    + destruct a as [[]|[]| |[] m e B]; try discriminate Fa; reflexivity.
    + destruct a as [[]|[]| |[] m e B]; discriminate.
  - pose proof (finite_range b Fb). destruct a as [t|[]| |t m e B]; try discriminate Fa; change (toR (B754_infinity true)) with (- big); change (toR (B754_infinity false)) with big;
      (split; [intro C|intros [? [? ?]]]); try discriminate; try lra.
    + split; auto. split; [now apply finite_not_nan|]. lra.
    + destruct b as [[]|[]| |[] m e B]; try discriminate Fb; reflexivity.
    + destruct b as [[]|[]| |[] m e B]; discriminate.
  - destruct a as [t|[]| |t m e B], b as [u|[]| |u m' e' B']; try discriminate; cbn [toR is_nan B2R]; fold big;
      (split; [intro C|intros [? [? ?]]]); try discriminate; try lra; auto; split; auto; split; auto; lra.
Qed.
Lemma below_toR : forall a b, below a b <-> is_nan a = false /\ is_nan b = false /\ toR a < toR b.
Proof.
  intros a b. unfold below. destruct (is_nan a) eqn:Na.
  - split; [intro H|intros [H _]; discriminate]. change (flt a b = true) in H. rewrite flt_nan in H by auto. discriminate.
  - destruct (is_nan b) eqn:Nb.
    + split; [intro H|intros [_ [H _]]; discriminate]. change (flt a b = true) in H. rewrite flt_nan in H by auto. discriminate.
    + change (flt a b = true <-> false = false /\ false = false /\ toR a < toR b). rewrite (flt_toR a b Na Nb). tauto.
Qed.

Definition sR (s : way) (r : R) : R := match s with Up => r | Down => - r end.
Definition sv (s : way) (v : f64) : f64 := match s with Up => v | Down => fneg v end.
Definition positive (b : bool) (r : R) : Prop := if b then 0 < r else 0 <= r.

Lemma on_side_toR : forall v s b, on_side v s b <-> is_nan v = false /\ positive b (sR s (toR v)).
Proof.
  intros v [] []; unfold on_side, positive, sR; rewrite ?below_toR, ?at_most_toR; change (toR fzero) with 0; change (is_nan fzero) with false;
    (split; [intros [? [? ?]]; split; auto; lra|intros [? ?]; repeat split; auto; lra]).
Qed.
Lemma step_toR : forall d v v', step d v v' <-> is_nan v = false /\ is_nan v' = false /\ sR d (toR v) <= sR d (toR v').
Proof.
  intros [] v v'; unfold step, sR; rewrite at_most_toR; split; intros [? [? ?]]; repeat split; auto; lra.
Qed.

Lemma toR_sv : forall s v, toR (sv s v) = sR s (toR v).
Proof. intros [] v; cbn; auto. apply toR_fneg. Qed.
Lemma sR_turn : forall s t r, sR (turn s t) r = sR s (sR t r).
Proof. intros [] [] r; cbn; lra. Qed.
Lemma sR_opposite : forall s r, sR (opposite s) r = - sR s r.
Proof. intros [] r; cbn; lra. Qed.
Lemma sR_sR : forall s r, sR s (sR s r) = r.
Proof. intros [] r; cbn; lra. Qed.
Lemma sR_comm : forall s t r, sR s (sR t r) = sR t (sR s r).
Proof. intros [] [] r; cbn; lra. Qed.
Lemma sR_opp : forall s r, sR s (- r) = - sR s r.
Proof. intros [] r; cbn; lra. Qed.
Lemma mul_sv : forall s t a b, toR (fmul (sv s a) (sv t b)) = sR s (sR t (toR (fmul a b))) /\ is_nan (fmul (sv s a) (sv t b)) = is_nan (fmul a b).
Proof.
  intros [] [] a b; cbn [sv sR]; auto; rewrite ?(proj1 (mul_neg_l _ _)), ?(proj2 (mul_neg_l _ _)), ?(proj1 (mul_neg_r _ _)), ?(proj2 (mul_neg_r _ _)); split; auto.
Qed.
Lemma div_sv : forall s t a b, toR (fdiv (sv s a) (sv t b)) = sR s (sR t (toR (fdiv a b))) /\ is_nan (fdiv (sv s a) (sv t b)) = is_nan (fdiv a b).
Proof.
  intros [] [] a b; cbn [sv sR]; auto; rewrite ?(proj1 (div_neg_l _ _)), ?(proj2 (div_neg_l _ _)), ?(proj1 (div_neg_r _ _)), ?(proj2 (div_neg_r _ _)); split; auto.
Qed.
(** removing signs *)
Lemma mul_unsv : forall s t a b, toR (fmul a b) = sR s (sR t (toR (fmul (sv s a) (sv t b)))).
Proof. intros s t a b. rewrite (proj1 (mul_sv s t a b)), (sR_comm s t (sR s _)), (sR_sR s). now rewrite sR_sR. Qed.
Lemma div_unsv : forall s t a b, toR (fdiv a b) = sR s (sR t (toR (fdiv (sv s a) (sv t b)))).
Proof. intros s t a b. rewrite (proj1 (div_sv s t a b)), (sR_comm s t (sR s _)), (sR_sR s). now rewrite sR_sR. Qed.

(** ** Operations between two sets of values *)
Definition ord (d : way) (v v' : f64) : Prop := sR d (toR v) <= sR d (toR v').

Lemma ord_up : forall d v v', ord d v v' <-> match d with Up => toR v <= toR v' | Down => toR v' <= toR v end.
Proof. intros [] v v'; unfold ord; cbn [sR]; split; intro; lra. Qed.
Lemma ord_turn : forall s d v v', ord (turn s d) v v' <-> ord d (sv s v) (sv s v').
Proof. intros s d v v'. unfold ord. now rewrite !toR_sv, !sR_turn, (sR_comm s d), (sR_comm s d (toR v')). Qed.

Lemma add_ord : forall d a b a' b', is_nan (fadd a b) = false -> is_nan (fadd a' b') = false ->
  ord d a a' -> ord d b b' -> ord d (fadd a b) (fadd a' b').
Proof. intros d a b a' b' N N' Ha Hb. rewrite ord_up in *. destruct d; now apply add_le. Qed.
Lemma neg_ord : forall d a a', ord (opposite d) a a' -> ord d (fneg a) (fneg a').
Proof. intros d a a'. unfold ord. rewrite !toR_fneg, !sR_opposite, !sR_opp. auto. Qed.
Lemma sub_ord : forall d a b a' b', is_nan (fsub a b) = false -> is_nan (fsub a' b') = false ->
  ord d a a' -> ord (opposite d) b b' -> ord d (fsub a b) (fsub a' b').
Proof. intros d a b a' b'. rewrite !fsub_fneg. intros N N' Ha Hb. apply add_ord; auto. now apply neg_ord. Qed.

Lemma mul_ord : forall d s t a b a' b', is_nan (fmul a b) = false -> is_nan (fmul a' b') = false ->
  0 <= sR s (toR a) -> 0 <= sR s (toR a') -> 0 <= sR t (toR b) -> 0 <= sR t (toR b') ->
  ord (turn t d) a a' -> ord (turn s d) b b' -> ord d (fmul a b) (fmul a' b').
Proof.
  intros d s t a b a' b' N N' Sa Sa' Sb Sb' Ha Hb. unfold ord. rewrite (mul_unsv s t a b), (mul_unsv s t a' b').
  rewrite <- !(sR_turn s t), <- !(sR_turn d (turn s t)).
  rewrite <- toR_sv in Sa, Sa', Sb, Sb'. rewrite <- (proj2 (mul_sv s t a b)) in N. rewrite <- (proj2 (mul_sv s t a' b')) in N'.
  assert (Ea : ord (turn d (turn s t)) (sv s a) (sv s a')) by (apply (proj1 (ord_turn s _ a a')); destruct d, s, t; exact Ha).
  assert (Eb : ord (turn d (turn s t)) (sv t b) (sv t b')) by (apply (proj1 (ord_turn t _ b b')); destruct d, s, t; exact Hb).
  change (ord (turn d (turn s t)) (fmul (sv s a) (sv t b)) (fmul (sv s a') (sv t b'))).
  rewrite ord_up in *. destruct (turn d (turn s t)); apply mul_le; auto.
Qed.

Lemma scale_ord : forall d s c b b', is_nan (fmul c b) = false -> is_nan (fmul c b') = false ->
  0 <= sR s (toR c) -> ord (turn s d) b b' -> ord d (fmul c b) (fmul c b').
Proof.
  intros d s c b b' N N' Sc Hb. unfold ord. rewrite (mul_unsv s Up c b), (mul_unsv s Up c b').
  rewrite <- !(sR_turn s Up), <- !(sR_turn d (turn s Up)).
  rewrite <- toR_sv in Sc. rewrite <- (proj2 (mul_sv s Up c b)) in N. rewrite <- (proj2 (mul_sv s Up c b')) in N'.
  assert (Eb : ord (turn d (turn s Up)) (sv Up b) (sv Up b')) by (apply (proj1 (ord_turn Up _ b b')); destruct d, s; exact Hb).
  change (ord (turn d (turn s Up)) (fmul (sv s c) (sv Up b)) (fmul (sv s c) (sv Up b'))).
  rewrite ord_up in *. destruct (turn d (turn s Up)); apply scale_le; auto.
Qed.

Lemma div_ord : forall d s t a b a' b', is_nan (fdiv a b) = false -> is_nan (fdiv a' b') = false ->
  0 <= sR s (toR a) -> 0 <= sR s (toR a') -> 0 < sR t (toR b) -> 0 < sR t (toR b') ->
  ord (turn t d) a a' -> ord (turn (opposite s) d) b b' -> ord d (fdiv a b) (fdiv a' b').
Proof.
  intros d s t a b a' b' N N' Sa Sa' Sb Sb' Ha Hb. unfold ord. rewrite (div_unsv s t a b), (div_unsv s t a' b').
  rewrite <- !(sR_turn s t), <- !(sR_turn d (turn s t)).
  rewrite <- toR_sv in Sa, Sa', Sb, Sb'. rewrite <- (proj2 (div_sv s t a b)) in N. rewrite <- (proj2 (div_sv s t a' b')) in N'.
  assert (Ea : ord (turn d (turn s t)) (sv s a) (sv s a')) by (apply (proj1 (ord_turn s _ a a')); destruct d, s, t; exact Ha).
  assert (Eb : ord (opposite (turn d (turn s t))) (sv t b) (sv t b')) by (apply (proj1 (ord_turn t _ b b')); destruct d, s, t; exact Hb).
  change (ord (turn d (turn s t)) (fdiv (sv s a) (sv t b)) (fdiv (sv s a') (sv t b'))).
  rewrite ord_up in *. destruct (turn d (turn s t)); apply div_le; auto.
Qed.

Lemma div_by_ord : forall d t a b a', is_nan (fdiv a b) = false -> is_nan (fdiv a' b) = false ->
  0 < sR t (toR b) -> ord (turn t d) a a' -> ord d (fdiv a b) (fdiv a' b).
Proof.
  intros d t a b a' N N' Sb Ha. unfold ord. rewrite (div_unsv Up t a b), (div_unsv Up t a' b).
  rewrite <- !(sR_turn Up t), <- !(sR_turn d (turn Up t)).
  rewrite <- toR_sv in Sb. rewrite <- (proj2 (div_sv Up t a b)) in N. rewrite <- (proj2 (div_sv Up t a' b)) in N'.
  assert (Ea : ord (turn d (turn Up t)) (sv Up a) (sv Up a')) by (apply (proj1 (ord_turn Up _ a a')); destruct d, t; exact Ha).
  change (ord (turn d (turn Up t)) (fdiv (sv Up a) (sv t b)) (fdiv (sv Up a') (sv t b))).
  rewrite ord_up in *. destruct (turn d (turn Up t)); apply div_by_le; auto.
Qed.

(** ** Functions *)
Definition rises (f : f64 -> f64) : Prop :=
  forall a b, is_nan (f a) = false -> is_nan (f b) = false -> is_nan a = false -> is_nan b = false -> toR a <= toR b -> toR (f a) <= toR (f b).
Lemma rises_ord : forall f d a a', rises f -> is_nan (f a) = false -> is_nan (f a') = false -> is_nan a = false -> is_nan a' = false ->
  ord d a a' -> ord d (f a) (f a').
Proof. intros f d a a' R0 N N' Na Na' H. rewrite ord_up in *. destruct d; apply R0; auto. Qed.

Lemma rises_nearbyint : forall md, rises (fun x => Bnearbyint md x).
Proof.
  intros md a b N N' Na Nb H. pose proof (range _ N) as R1. pose proof (range _ N') as R2. pose proof big_pos as P.
  destruct (finite_or_inf _ Na) as [Fa|[[] ->]].
  2: { change (toR (Bnearbyint md (B754_infinity true : f64))) with (- big). lra. }
  2: { change (toR (B754_infinity false)) with big in H. assert (b = finf) as -> by (apply toR_inf_only; [exact Nb|fold big; lra]). apply Rle_refl. }
  pose proof (finite_range a Fa).
  destruct (finite_or_inf _ Nb) as [Fb|[[] ->]].
  2: { change (toR (B754_infinity true)) with (- big) in H. lra. }
  2: { change (toR (Bnearbyint md (B754_infinity false : f64))) with big. lra. }
  destruct (Bnearbyint_correct prec64 emax64 Hmax64 md a) as [Ea [Ga _]].
  destruct (Bnearbyint_correct prec64 emax64 Hmax64 md b) as [Eb [Gb _]].
  rewrite !toR_finite in * by congruence. rewrite Ea, Eb. apply round_le; auto; typeclasses eauto.
Qed.

Lemma rises_sqrt : rises fsqrt.
Proof.
  intros a b N N' Na Nb H. pose proof (range _ N) as R1. pose proof (range _ N') as R2. pose proof big_pos as P.
  destruct (finite_or_inf _ Na) as [Fa|[[] ->]]; [|discriminate N|].
  2: { change (toR (B754_infinity false)) with big in H. assert (b = finf) as -> by (apply toR_inf_only; [exact Nb|fold big; lra]). apply Rle_refl. }
  pose proof (finite_range a Fa).
  destruct (finite_or_inf _ Nb) as [Fb|[[] ->]]; [|discriminate N'|change (toR (fsqrt (B754_infinity false))) with big; lra].
  destruct (Bsqrt_correct prec64 emax64 Hprec64 Hmax64 mode_NE a) as [Ea [Ga _]]. fold (fsqrt a) in *.
  destruct (Bsqrt_correct prec64 emax64 Hprec64 Hmax64 mode_NE b) as [Eb [Gb _]]. fold (fsqrt b) in *.
  assert (fin : forall x : f64, is_finite x = true -> is_nan (fsqrt x) = false -> is_finite (fsqrt x) = true).
  { intros [s|s| |[] m e B] F Nx; try discriminate; auto. 
    destruct (Bsqrt_correct prec64 emax64 Hprec64 Hmax64 mode_NE (B754_finite false m e B)) as [_ [G _]]. exact G. }
  rewrite (toR_finite (fsqrt a)), (toR_finite (fsqrt b)), Ea, Eb by auto. rewrite !toR_finite in H by auto.
  apply rnd64_le. now apply sqrt_le_1_alt.
Qed.
Lemma sqrt_nonneg : forall a, is_nan (fsqrt a) = false -> 0 <= toR (fsqrt a).
Proof.
  intros a N. pose proof big_pos as P. destruct (is_finite (fsqrt a)) eqn:F.
  - rewrite toR_finite by auto. destruct (Bsqrt_correct prec64 emax64 Hprec64 Hmax64 mode_NE a) as [E _]. fold (fsqrt a) in E.
    rewrite E. apply rnd64_abs_sign, sqrt_pos.
  - destruct a as [s|[]| |[] m e B]; try discriminate; [change (0 <= big); lra|].
    destruct (Bsqrt_correct prec64 emax64 Hprec64 Hmax64 mode_NE (B754_finite false m e B)) as [_ [G _]]. unfold fsqrt in F. congruence.
Qed.

Lemma toR_fabs : forall a, toR (fabs a) = Rabs (toR a).
Proof.
  pose proof big_pos as P. intros [s|[]| |s m e B]; cbn [fabs Babs toR]; fold big.
  - cbn. now rewrite Rabs_R0.
  - rewrite Rabs_Ropp, Rabs_pos_eq; lra.
  - rewrite Rabs_pos_eq; lra.
  - cbn. now rewrite Rabs_R0.
  - change (B754_finite false m e B : f64) with (Babs (B754_finite s m e B : f64)). apply B2R_Babs.
Qed.
Lemma nan_fabs : forall a, is_nan (fabs a) = is_nan a. Proof. now intros [s|s| |s m e B]. Qed.
Lemma abs_ord : forall d s a a', 0 <= sR s (toR a) -> 0 <= sR s (toR a') -> ord (turn s d) a a' -> ord d (fabs a) (fabs a').
Proof.
  intros d s a a' Sa Sa' H. rewrite ord_turn in H. unfold ord in *. rewrite !toR_sv in H. rewrite !toR_fabs.
  assert (E : forall r, 0 <= sR s r -> Rabs r = sR s r) by (intros r Hr; destruct s; cbn in *; [now apply Rabs_pos_eq|now rewrite Rabs_left1 by lra]).
  now rewrite !E.
Qed.

(** factorial *)
Fixpoint ascending (l : list f64) : bool :=
  match l with
  | a :: (b :: _) as t => Bleb a b && ascending t
  | _ => true
  end.
Lemma ascending_nth : forall l i j a b, ascending l = true -> (i <= j)%nat -> nth_error l i = Some a -> nth_error l j = Some b ->
  is_nan a = false -> is_nan b = false -> toR a <= toR b.
Proof.
  induction l as [|x l IH]; intros i j a b H Hij Ha Hb Na Nb; [destruct i; discriminate|].
  assert (Hl : ascending l = true) by (destruct l as [|y l]; [reflexivity|apply andb_true_iff in H; tauto]).
  destruct i as [|i], j as [|j]; [injection Ha as ->; injection Hb as ->; lra| |lia|apply (IH i j); auto; lia].
  injection Ha as ->. destruct l as [|y l]; [destruct j; discriminate|]. apply andb_true_iff in H. destruct H as [H _].
  apply at_most_toR in H. destruct H as [_ [Ny L]]. apply Rle_trans with (1 := L).
  apply (IH 0%nat j y b); auto. lia.
Qed.
Lemma table_ascending : ascending FACTORIALS = true.
Proof. vm_compute. reflexivity. Qed.

Lemma factorial_values : forall x, is_nan (factorial x) = false ->
  (x = finf /\ factorial x = finf) \/
  (exists n, is_finite x = true /\ B2R x = IZR n /\ (170 < n)%Z /\ factorial x = finf) \/
  (exists n, is_finite x = true /\ B2R x = IZR n /\ (0 <= n <= 170)%Z /\ nth_error FACTORIALS (Z.to_nat n) = Some (factorial x)).
Proof.
  intros x N. unfold factorial in *. destruct (C36_factorial_cases x) as [H1 [H2 [H3 [H4 [H5 [H6 H7]]]]]].
  destruct (is_nan x) eqn:Nx; [rewrite H1 in N by auto; discriminate|].
  destruct (finite_or_inf _ Nx) as [Fx|[[] ->]].
  - destruct (Req_dec (B2R x) (IZR (Ztrunc (B2R x)))) as [Hi|Hi].
    + set (n := Ztrunc (B2R x)) in *. destruct (Z_lt_le_dec n 0) as [Hn|Hn].
      * rewrite H4 in N; auto; [discriminate|]. rewrite Hi. now apply IZR_lt.
      * right. destruct (Z_lt_le_dec 170 n) as [Hg|Hg].
        -- left. exists n. rewrite (H6 n); auto.
        -- right. exists n. destruct (H7 n) as [v [Hv E]]; auto. rewrite E. auto.
    + rewrite H5 in N; auto; [discriminate|]. intros n Hn. apply Hi. rewrite Hn, Ztrunc_IZR. reflexivity.
  - rewrite H3 in N by auto. discriminate.
  - left. split; reflexivity.
Qed.

Lemma rises_factorial : rises factorial.
Proof.
  intros a b N N' Na Nb H. pose proof (range _ N) as R1. pose proof big_pos as P.
  destruct (factorial_values b N') as [[-> ->]|[[n [Fb [Eb [Gb ->]]]]|[n [Fb [Eb [Gb Tb]]]]]]; [exact (proj2 R1)|exact (proj2 R1)|].
  pose proof (finite_range b Fb) as H0. rewrite (toR_finite b Fb), Eb in H.
  destruct (factorial_values a N) as [[-> _]|[[k [Fa [Ea [Ga _]]]]|[k [Fa [Ea [Ga Ta]]]]]].
  - rewrite (toR_finite b Fb), Eb in H0. change (toR finf) with big in H. lra.
  - rewrite (toR_finite a Fa), Ea in H. apply le_IZR in H. lia.
  - rewrite (toR_finite a Fa), Ea in H. apply le_IZR in H.
    exact (ascending_nth FACTORIALS (Z.to_nat k) (Z.to_nat n) _ _ table_ascending ltac:(lia) Ta Tb N N').
Qed.
Lemma factorial_positive : forall x, is_nan (factorial x) = false -> 0 < toR (factorial x).
Proof.
  intros x N. pose proof big_pos as P.
  destruct (factorial_values x N) as [[_ ->]|[[n [_ [_ [_ ->]]]]|[n [_ [_ [_ T]]]]]]; [exact P|exact P|].
  destruct C37_table_recurrence as [H0 _].
  pose proof (ascending_nth FACTORIALS 0 (Z.to_nat n) _ _ table_ascending ltac:(lia) H0 T eq_refl N) as L.
  rewrite (toR_finite fone) in L by reflexivity. unfold fone in L. rewrite Bone_correct in L. lra.
Qed.

(** lists *)
Inductive all2 {A B} (P : A -> B -> Prop) : list A -> list B -> Prop :=
| all2_nil : all2 P [] []
| all2_cons : forall a b l m, P a b -> all2 P l m -> all2 P (a :: l) (b :: m).

Lemma min_toR : forall w a b, is_nan a = false -> is_nan b = false -> toR (min_f64 w a b) = Rmin (toR a) (toR b).
Proof.
  intros w a b Na Nb. destruct (min_step w a b Na) as [_ [L1 [L2 [E|[E _]]]]]; rewrite E in *; specialize (L2 Nb).
  - now rewrite Rmin_left.
  - now rewrite Rmin_right.
Qed.
Lemma max_toR : forall w a b, is_nan a = false -> is_nan b = false -> toR (max_f64 w a b) = Rmax (toR a) (toR b).
Proof.
  intros w a b Na Nb. destruct (max_step w a b Na) as [_ [L1 [L2 [E|[E _]]]]]; rewrite E in *; specialize (L2 Nb).
  - now rewrite Rmax_left.
  - now rewrite Rmax_right.
Qed.
Definition go2 (v v' : f64) : Prop := is_nan v = false /\ is_nan v' = false /\ toR v <= toR v'.
Lemma min_le : forall w l l', all2 go2 l l' -> forall a a', go2 a a' -> go2 (fold_left (min_f64 w) l a) (fold_left (min_f64 w) l' a').
Proof.
  induction 1 as [|x y l m [Nx [Ny Lx]] H IH]; intros a a' [Na [Na' La]]; cbn [fold_left]; [repeat split; auto|].
  apply IH. split; [exact (proj1 (min_step w a x Na))|]. split; [exact (proj1 (min_step w a' y Na'))|].
  rewrite !min_toR by auto. apply Rmin_glb; [apply Rle_trans with (1 := Rmin_l _ _)|apply Rle_trans with (1 := Rmin_r _ _)]; auto.
Qed.
Lemma max_le : forall w l l', all2 go2 l l' -> forall a a', go2 a a' -> go2 (fold_left (max_f64 w) l a) (fold_left (max_f64 w) l' a').
Proof.
  induction 1 as [|x y l m [Nx [Ny Lx]] H IH]; intros a a' [Na [Na' La]]; cbn [fold_left]; [repeat split; auto|].
  apply IH. split; [exact (proj1 (max_step w a x Na))|]. split; [exact (proj1 (max_step w a' y Na'))|].
  rewrite !max_toR by auto. apply Rmax_lub; [apply Rle_trans with (2 := Rmax_l _ _)|apply Rle_trans with (2 := Rmax_r _ _)]; auto.
Qed.
Lemma fold_fadd_nan : forall l a, is_nan (fold_left fadd l a) = false -> is_nan a = false.
Proof. induction l as [|x l IH]; intros a H; auto. apply IH in H. now apply fadd_nan_l in H. Qed.
Lemma sum_le : forall l l', all2 go2 l l' -> forall a a', is_nan (fold_left fadd l a) = false -> is_nan (fold_left fadd l' a') = false ->
  toR a <= toR a' -> toR (fold_left fadd l a) <= toR (fold_left fadd l' a').
Proof.
  induction 1 as [|x y l m [Nx [Ny Lx]] H IH]; intros a a' N N' La; cbn [fold_left] in *; auto.
  apply IH; auto. apply add_le; auto; eapply fold_fadd_nan; eauto.
Qed.
