(** * C69: how far rounding can carry a result from the exact value *)
From Coq Require Import ZArith NArith List String Ascii Bool Lia Reals Lra.
From Flocq Require Import Core BinarySingleNaN Relative Plus_error.
From Verif Require Import F64 Syntax Factorial Builtins Context Element Parser Xprs.
From Verif Require Import SpecParse SpecTree SpecNumber SpecApi SpecError FloatFacts NumberFacts PropertiesEval PropertiesArith PropertiesOptimise TestWorld.
Import ListNotations.
Local Open Scope R_scope.

(** ** One rounding *)
Lemma half_ulp_bpow : half_ulp = bpow radix2 (-53).
Proof. unfold half_ulp. change (-53)%Z with (Z.opp 53). rewrite bpow_opp. f_equal. rewrite bpow_powerRZ. change (IZR radix2) with 2. change 53%Z with (Z.of_nat 53). now rewrite <- pow_powerRZ. Qed.
Lemma tiny_bpow : tiny = bpow radix2 (-1022).
Proof. unfold tiny. change (-1022)%Z with (Z.opp 1022). rewrite bpow_opp. f_equal. rewrite bpow_powerRZ. change (IZR radix2) with 2. change 1022%Z with (Z.of_nat 1022). now rewrite <- pow_powerRZ. Qed.
Lemma huge_bpow : huge = bpow radix2 1022.
Proof. unfold huge. rewrite bpow_powerRZ. change (IZR radix2) with 2. change 1022%Z with (Z.of_nat 1022). now rewrite <- pow_powerRZ. Qed.
Lemma half_ulp_pos : 0 < half_ulp. Proof. rewrite half_ulp_bpow. apply bpow_gt_0. Qed.
Lemma tiny_pos : 0 < tiny. Proof. rewrite tiny_bpow. apply bpow_gt_0. Qed.

Lemma round_error : forall x, Rabs (rnd64 x - x) <= half_ulp * (Rabs x + tiny).
Proof.
  intro x. change fexp64 with (FLT_exp (-1074) 53). change (round_mode mode_NE) with ZnearestE.
  destruct (error_N_FLT radix2 (-1074) 53 eq_refl (fun t => negb (Z.even t)) x) as [eps [eta [He [Ht [_ E]]]]].
  change ZnearestE with (Znearest (fun t => negb (Z.even t))). rewrite E.
  replace (x * (1 + eps) + eta - x) with (x * eps + eta) by ring.
  assert (H1 : / 2 * bpow radix2 (- (53) + 1) = half_ulp).
  { rewrite half_ulp_bpow. change (bpow radix2 (- (53) + 1)) with (bpow radix2 (-53 + 1)). rewrite bpow_plus. change (bpow radix2 1) with 2. lra. }
  assert (H2 : / 2 * bpow radix2 (-1074) = half_ulp * tiny).
  { rewrite half_ulp_bpow, tiny_bpow, <- bpow_plus. change (bpow radix2 (-1074)) with (bpow radix2 (-53 + -1022 + 1)). rewrite bpow_plus. change (bpow radix2 1) with 2. lra. }
  rewrite H1 in He. rewrite H2 in Ht. apply Rle_trans with (1 := Rabs_triang _ _). rewrite Rabs_mult.
  pose proof (Rabs_pos x). nra.
Qed.

Lemma round_sum_error : forall a b : f64, Rabs (rnd64 (B2R a + B2R b) - (B2R a + B2R b)) <= half_ulp * Rabs (B2R a + B2R b).
Proof.
  intros a b. assert (Ga := generic_format_B2R prec64 emax64 a). assert (Gb := generic_format_B2R prec64 emax64 b).
  change fexp64 with (FLT_exp (-1074) 53) in *. change (round_mode mode_NE) with (Znearest (fun t => negb (Z.even t))).
  destruct (@FLT_plus_error_N_ex radix2 (-1074) 53 Hprec64 (fun t => negb (Z.even t)) _ _ Ga Gb) as [eps [He E]]. rewrite E.
  replace ((B2R a + B2R b) * (1 + eps) - (B2R a + B2R b)) with (eps * (B2R a + B2R b)) by ring.
  rewrite Rabs_mult. apply Rmult_le_compat_r; [apply Rabs_pos|]. apply Rle_trans with (1 := He).
  assert (Hu : u_ro radix2 53 = half_ulp).
  { unfold u_ro. rewrite half_ulp_bpow. change (bpow radix2 (- (53) + 1)) with (bpow radix2 (-53 + 1)). rewrite bpow_plus. change (bpow radix2 1) with 2. lra. }
  rewrite Hu. pose proof half_ulp_pos. apply Rmult_le_reg_r with (1 + half_ulp); [lra|]. unfold Rdiv. rewrite Rmult_assoc, Rinv_l by lra. nra.
Qed.

Lemma round_in_range : forall x, Rabs x <= 2 * huge -> Rlt_bool (Rabs (rnd64 x)) (bpow radix2 emax64) = true.
Proof.
  intros x H. apply Rlt_bool_true. apply Rle_lt_trans with (bpow radix2 1023); [|now apply bpow_lt].
  apply abs_round_le_generic; try typeclasses eauto.
  - apply generic_format_bpow. vm_compute. congruence.
  - replace (bpow radix2 1023) with (2 * huge); auto. rewrite huge_bpow. change 1023%Z with (1022 + 1)%Z. rewrite bpow_plus. change (bpow radix2 1) with 2. lra.
Qed.

(** ** Accumulated factors *)
Definition grow (n : nat) : R := (1 + half_ulp) ^ n.
Lemma grow_1 : forall n, 1 <= grow n.
Proof. intro n. apply pow_R1_Rle. pose proof half_ulp_pos. lra. Qed.
Lemma grow_plus : forall n m, grow (n + m) = grow n * grow m.
Proof. intros. apply pow_add. Qed.
Lemma grow_succ : forall n, grow (n + 1) = grow n * (1 + half_ulp).
Proof. intro n. rewrite grow_plus. f_equal. unfold grow. ring. Qed.
Lemma grow_linear : forall n, (Z.of_nat n <= 2 ^ 52)%Z -> grow n <= 1 + INR n * / 2 ^ 52 /\ INR n * / 2 ^ 52 <= 1.
Proof.
  intro n. assert (E : half_ulp = / 2 * / 2 ^ 52) by (unfold half_ulp; rewrite <- Rinv_mult; f_equal; cbn; lra).
  assert (Hp : 0 < / 2 ^ 52) by (apply Rinv_0_lt_compat, pow_lt; lra).
  assert (B : forall n, (Z.of_nat n <= 2 ^ 52)%Z -> INR n * / 2 ^ 52 <= 1).
  { intros k Hk. apply Rmult_le_reg_r with (2 ^ 52); [apply pow_lt; lra|]. rewrite Rmult_assoc, Rinv_l by (apply pow_nonzero; lra).
    rewrite INR_IZR_INZ, Rmult_1_r, Rmult_1_l. replace (2 ^ 52) with (IZR (2 ^ 52)); [now apply IZR_le|]. symmetry. apply (pow_IZR 2 52). }
  intro H. split; [|auto]. induction n as [|n IH].
  - cbn. lra.
  - assert (Hn : (Z.of_nat n <= 2 ^ 52)%Z) by lia. specialize (IH Hn). specialize (B n Hn).
    rewrite <- Nat.add_1_r, grow_succ, plus_INR. cbn [INR].
    assert (0 <= INR n) by apply pos_INR. set (q := / 2 ^ 52) in *. set (k := INR n) in *. rewrite E.
    apply Rle_trans with ((1 + k * q) * (1 + / 2 * q)); [apply Rmult_le_compat_r; lra|]. nra.
Qed.
Lemma grow_2 : forall n, (Z.of_nat n <= 2 ^ 52)%Z -> grow n <= 2.
Proof. intros n H. destruct (grow_linear n H). lra. Qed.

(** ** One operation *)
Definition close (v : f64) (r m : R) (n : nat) : Prop :=
  is_finite v = true /\ Rabs (B2R v - r) <= (grow n - 1) * m /\ Rabs r <= m.

Lemma close_bound : forall v r m n, close v r m n -> Rabs (B2R v) <= grow n * m.
Proof.
  intros v r m n [_ [H1 H2]]. replace (B2R v) with ((B2R v - r) + r) by ring. apply Rle_trans with (1 := Rabs_triang _ _). lra.
Qed.

Lemma close_add : forall a b r s m k i j, close a r m i -> close b s k j -> m + k <= huge -> (Z.of_nat (i + j) <= 2 ^ 52)%Z ->
  close (fadd a b) (r + s) (m + k) (i + j + 1).
Proof.
  intros a b r s m k i j Ha Hb Hh Hn.
  assert (Pm : 0 <= m) by (apply Rle_trans with (Rabs r); [apply Rabs_pos|apply Ha]).
  assert (Pk : 0 <= k) by (apply Rle_trans with (Rabs s); [apply Rabs_pos|apply Hb]).
  destruct Ha as [Fa [Ea Ra]], Hb as [Fb [Eb Rb]]. set (x := B2R a + B2R b).
  pose proof (grow_1 i) as Gi. pose proof (grow_1 j) as Gj. pose proof (grow_plus i j) as Gp. pose proof (grow_2 _ Hn) as G2.
  assert (Ex : Rabs (x - (r + s)) <= (grow (i + j) - 1) * (m + k)).
  { unfold x. replace (B2R a + B2R b - (r + s)) with ((B2R a - r) + (B2R b - s)) by ring.
    apply Rle_trans with (1 := Rabs_triang _ _).
    assert (L1 : grow i <= grow (i + j)) by (rewrite Gp; nra). assert (L2 : grow j <= grow (i + j)) by (rewrite Gp; nra).
    assert ((grow i - 1) * m <= (grow (i + j) - 1) * m) by (apply Rmult_le_compat_r; lra).
    assert ((grow j - 1) * k <= (grow (i + j) - 1) * k) by (apply Rmult_le_compat_r; lra). lra. }
  assert (Hrs : Rabs (r + s) <= m + k) by (apply Rle_trans with (1 := Rabs_triang _ _); lra).
  assert (Hx : Rabs x <= grow (i + j) * (m + k)).
  { replace x with ((x - (r + s)) + (r + s)) by ring. apply Rle_trans with (1 := Rabs_triang _ _). lra. }
  assert (Ho : Rabs x <= 2 * huge) by nra.
  pose proof (Bplus_correct prec64 emax64 Hprec64 Hmax64 mode_NE a b Fa Fb) as H. fold (fadd a b) in H. fold x in H.
  rewrite (round_in_range x Ho) in H. destruct H as [HR [HF _]].
  split; [exact HF|]. split; [|exact Hrs]. rewrite HR. pose proof (round_sum_error a b) as He. fold x in He.
  replace (rnd64 x - (r + s)) with ((rnd64 x - x) + (x - (r + s))) by ring.
  apply Rle_trans with (1 := Rabs_triang _ _). rewrite grow_succ. pose proof half_ulp_pos. nra.
Qed.

Lemma close_neg : forall a r m i, close a r m i -> close (fneg a) (- r) m i.
Proof.
  intros a r m i [F [E R0]]. unfold fneg. split; [now rewrite is_finite_Bopp|]. split.
  - rewrite B2R_Bopp. replace (- B2R a - - r) with (- (B2R a - r)) by ring. now rewrite Rabs_Ropp.
  - now rewrite Rabs_Ropp.
Qed.

Lemma close_sub : forall a b r s m k i j, close a r m i -> close b s k j -> m + k <= huge -> (Z.of_nat (i + j) <= 2 ^ 52)%Z ->
  close (fsub a b) (r - s) (m + k) (i + j + 1).
Proof.
  intros a b r s m k i j Ha Hb Hh Hn. pose proof (close_add _ _ _ _ _ _ _ _ Ha (close_neg _ _ _ _ Hb) Hh Hn) as H.
  destruct Ha as [Fa _], Hb as [Fb _].
  assert (Eq : B2R (fsub a b) = B2R (fadd a (fneg b)) /\ is_finite (fsub a b) = is_finite (fadd a (fneg b))).
  { pose proof (Bminus_correct prec64 emax64 Hprec64 Hmax64 mode_NE a b Fa Fb) as H1. fold (fsub a b) in H1.
    assert (Fb' : is_finite (fneg b) = true) by (unfold fneg; now rewrite is_finite_Bopp).
    pose proof (Bplus_correct prec64 emax64 Hprec64 Hmax64 mode_NE a (fneg b) Fa Fb') as H2. fold (fadd a (fneg b)) in H2.
    assert (En : B2R (fneg b) = - B2R b) by apply B2R_Bopp. rewrite En in H2. unfold Rminus in H1.
    destruct (Rlt_bool _ _).
    - destruct H1 as [H1 [H1' _]], H2 as [H2 [H2' _]]. split; congruence.
    - destruct H2 as [H2 _]. destruct H as [HF _]. apply overflow_infinity in H2. rewrite H2 in HF. discriminate. }
  destruct Eq as [E1 E2]. destruct H as [H1 [H2 H3]]. split; [congruence|]. rewrite E1. split; [|exact H3]. exact H2.
Qed.

Lemma close_mul : forall a b r s m k i j, close a r m i -> close b s k j -> m * k + tiny <= huge -> (Z.of_nat (i + j) <= 2 ^ 52)%Z ->
  close (fmul a b) (r * s) (m * k + tiny) (i + j + 1).
Proof.
  intros a b r s m k i j Ha Hb Hh Hn. pose proof (close_bound _ _ _ _ Ha) as Ba.
  assert (Pm : 0 <= m) by (apply Rle_trans with (Rabs r); [apply Rabs_pos|apply Ha]).
  assert (Pk : 0 <= k) by (apply Rle_trans with (Rabs s); [apply Rabs_pos|apply Hb]).
  destruct Ha as [Fa [Ea Ra]], Hb as [Fb [Eb Rb]]. set (x := B2R a * B2R b). pose proof tiny_pos as Tp.
  pose proof (grow_1 i) as Gi. pose proof (grow_1 j) as Gj. pose proof (grow_plus i j) as Gp. pose proof (grow_2 _ Hn) as G2.
  assert (Pmk : 0 <= m * k) by nra.
  assert (Ex : Rabs (x - r * s) <= (grow (i + j) - 1) * (m * k)).
  { unfold x. replace (B2R a * B2R b - r * s) with (B2R a * (B2R b - s) + (B2R a - r) * s) by ring.
    apply Rle_trans with (1 := Rabs_triang _ _). rewrite !Rabs_mult. rewrite Gp.
    apply Rle_trans with ((grow i * m) * ((grow j - 1) * k) + ((grow i - 1) * m) * k); [|lra].
    apply Rplus_le_compat; apply Rmult_le_compat; auto using Rabs_pos. }
  assert (Hrs : Rabs (r * s) <= m * k) by (rewrite Rabs_mult; apply Rmult_le_compat; auto using Rabs_pos).
  assert (Hx : Rabs x <= grow (i + j) * (m * k)).
  { replace x with ((x - r * s) + r * s) by ring. apply Rle_trans with (1 := Rabs_triang _ _). lra. }
  assert (Ho : Rabs x <= 2 * huge) by nra.
  pose proof (Bmult_correct prec64 emax64 Hprec64 Hmax64 mode_NE a b) as H. fold (fmul a b) in H. fold x in H.
  rewrite (round_in_range x Ho) in H. destruct H as [HR [HF _]]. rewrite Fa, Fb in HF.
  split; [exact HF|]. split; [|lra]. rewrite HR. pose proof (round_error x) as He.
  replace (rnd64 x - r * s) with ((rnd64 x - x) + (x - r * s)) by ring.
  apply Rle_trans with (1 := Rabs_triang _ _). rewrite grow_succ. pose proof half_ulp_pos.
  assert (Gij := grow_1 (i + j)). set (g := grow (i + j)) in *. set (p := m * k) in *. set (t := tiny) in *. set (h := half_ulp) in *.
  apply Rle_trans with (h * (g * p + t) + (g - 1) * p); [nra|].
  assert (0 <= (g - 1) * t) by nra. assert (h * t <= h * (g * t)) by nra. nra.
Qed.

Lemma close_div : forall a b r s k m i, close a r m i -> close b s k 0 -> s <> 0 -> m / Rabs s + tiny <= huge -> (Z.of_nat i <= 2 ^ 52)%Z ->
  close (fdiv a b) (r / s) (m / Rabs s + tiny) (i + 1).
Proof.
  intros a b r s k m i Ha Hb Hs Hh Hn.
  assert (Pm : 0 <= m) by (apply Rle_trans with (Rabs r); [apply Rabs_pos|apply Ha]).
  destruct Ha as [Fa [Ea Ra]], Hb as [Fb [Eb Rb]].
  assert (Es : B2R b = s).
  { unfold grow in Eb. cbn [pow] in Eb. rewrite Rminus_eq_0, Rmult_0_l in Eb.
    assert (B2R b - s = 0); [|lra]. destruct (Req_dec (B2R b - s) 0); auto. pose proof (Rabs_pos_lt _ H). lra. }
  pose proof tiny_pos as Tp. assert (Ps : 0 < / Rabs s) by (apply Rinv_0_lt_compat, Rabs_pos_lt, Hs).
  set (x := B2R a / B2R b). pose proof (grow_1 i) as Gi. pose proof (grow_2 _ Hn) as G2.
  assert (Ex : Rabs (x - r / s) <= (grow i - 1) * (m / Rabs s)).
  { unfold x. rewrite Es. replace (B2R a / s - r / s) with ((B2R a - r) * / s) by (unfold Rdiv; ring).
    rewrite Rabs_mult, Rabs_inv. unfold Rdiv. rewrite <- Rmult_assoc. apply Rmult_le_compat_r; lra. }
  assert (Hrs : Rabs (r / s) <= m / Rabs s) by (unfold Rdiv; rewrite Rabs_mult, Rabs_inv; apply Rmult_le_compat_r; lra).
  assert (Pp : 0 <= m / Rabs s) by (unfold Rdiv; nra).
  assert (Hx : Rabs x <= grow i * (m / Rabs s)).
  { replace x with ((x - r / s) + r / s) by ring. apply Rle_trans with (1 := Rabs_triang _ _). lra. }
  assert (Ho : Rabs x <= 2 * huge) by nra.
  assert (Hb0 : B2R b <> 0) by (rewrite Es; exact Hs).
  pose proof (Bdiv_correct prec64 emax64 Hprec64 Hmax64 mode_NE a b Hb0) as H. fold (fdiv a b) in H. fold x in H.
  rewrite (round_in_range x Ho) in H. destruct H as [HR [HF _]]. rewrite Fa in HF.
  split; [exact HF|]. split; [|lra]. rewrite HR. pose proof (round_error x) as He.
  replace (rnd64 x - r / s) with ((rnd64 x - x) + (x - r / s)) by ring.
  apply Rle_trans with (1 := Rabs_triang _ _). rewrite grow_succ. pose proof half_ulp_pos.
  set (g := grow i) in *. set (p := m / Rabs s) in *. set (t := tiny) in *. set (h := half_ulp) in *.
  apply Rle_trans with (h * (g * p + t) + (g - 1) * p); [nra|].
  assert (0 <= (g - 1) * t) by nra. assert (h * t <= h * (g * t)) by nra. nra.
Qed.

Lemma close_abs : forall a r m i, close a r m i -> close (fabs a) (Rabs r) m i.
Proof.
  intros a r m i [F [E R0]]. unfold fabs. split; [now rewrite is_finite_Babs|]. split.
  - rewrite B2R_Babs. apply Rle_trans with (2 := E). apply Rabs_triang_inv2.
  - now rewrite Rabs_Rabsolu.
Qed.

(** A divisor with roundings: [g] is the factor its relative error can reach. *)
Lemma grow_mult : forall c j, (grow j - 1) * INR c <= grow (c * j) - 1.
Proof.
  intros c j. induction c as [|c IH]; [cbn; unfold grow; cbn [pow]; lra|].
  rewrite S_INR. replace (S c * j)%nat with (c * j + j)%nat by lia. rewrite grow_plus. pose proof (grow_1 j). pose proof (grow_1 (c * j)). nra.
Qed.
Lemma close_quotient : forall a b r s m k i j c, close a r m i -> close b s k j -> s <> 0 -> k <= INR c * Rabs s ->
  m / Rabs s + tiny <= huge -> (Z.of_nat (i + 2 * c * j) <= 2 ^ 52)%Z ->
  close (fdiv a b) (r / s) (m / Rabs s + tiny) (i + 2 * c * j + 1).
Proof.
  intros a b r s m k i j c Ha Hb Hs Hk Hh Hn.
  assert (Pm : 0 <= m) by (apply Rle_trans with (Rabs r); [apply Rabs_pos|apply Ha]).
  destruct Ha as [Fa [Ea Ra]], Hb as [Fb [Eb Rb]]. pose proof tiny_pos as Tp.
  assert (Pa : 0 < Rabs s) by now apply Rabs_pos_lt. assert (Ps : 0 < / Rabs s) by now apply Rinv_0_lt_compat.
  set (g := grow (c * j)). assert (G1 : 1 <= g) by apply grow_1.
  assert (G3 : g <= 3 / 2).
  { destruct (grow_linear (c * j)) as [L _]; [lia|]. apply Rle_trans with (1 := L).
    destruct (grow_linear (2 * (c * j))) as [_ L2]; [lia|]. rewrite mult_INR in L2. change (INR 2) with 2 in L2. lra. }
  assert (Gn : grow (i + 2 * c * j) = grow i * (g * g)).
  { rewrite grow_plus. f_equal. replace (2 * c * j)%nat with (c * j + c * j)%nat by lia. apply grow_plus. }
  pose proof (grow_1 i) as Gi. pose proof (grow_2 _ Hn) as G2. rewrite Gn in G2.
  assert (Eb' : Rabs (B2R b - s) <= (g - 1) * Rabs s).
  { apply Rle_trans with (1 := Eb). pose proof (grow_1 j). pose proof (grow_mult c j) as GM. fold g in GM.
    apply Rle_trans with ((grow j - 1) * (INR c * Rabs s)); [apply Rmult_le_compat_l; lra|]. rewrite <- Rmult_assoc. apply Rmult_le_compat_r; lra. }
  assert (Lb : (2 - g) * Rabs s <= Rabs (B2R b)).
  { pose proof (Rabs_triang_inv s (s - B2R b)) as T0. replace (s - (s - B2R b)) with (B2R b) in T0 by ring. rewrite Rabs_minus_sym in Eb'. lra. }
  assert (Pb : 0 < Rabs (B2R b)) by nra. assert (Hb0 : B2R b <> 0) by (intro E; rewrite E, Rabs_R0 in Pb; lra).
  set (x := B2R a / B2R b). set (q := m / Rabs s). assert (Pq : 0 <= q) by (unfold q, Rdiv; nra).
  assert (Em : m = q * Rabs s) by (unfold q; field; lra).
  assert (Ex : Rabs (x - r / s) <= (grow i * (g * g) - 1) * q).
  { assert (N : Rabs ((B2R a - r) * s - r * (B2R b - s)) <= (grow i + g - 2) * (m * Rabs s)).
    { unfold Rminus at 1. apply Rle_trans with (1 := Rabs_triang _ _). rewrite Rabs_Ropp, !Rabs_mult.
      apply Rle_trans with ((grow i - 1) * m * Rabs s + m * ((g - 1) * Rabs s)); [|lra].
      apply Rplus_le_compat; [apply Rmult_le_compat_r; lra|]. apply Rmult_le_compat; auto using Rabs_pos. }
    replace (x - r / s) with (((B2R a - r) * s - r * (B2R b - s)) / (B2R b * s)) by (unfold x; field; auto).
    unfold Rdiv. rewrite Rabs_mult, Rabs_inv, Rabs_mult. apply Rmult_le_reg_r with (Rabs (B2R b) * Rabs s); [nra|].
    rewrite Rmult_assoc, Rinv_l by nra. rewrite Rmult_1_r. apply Rle_trans with (1 := N). rewrite Em.
    apply Rle_trans with ((grow i * (g * g) - 1) * q * ((2 - g) * Rabs s * Rabs s)).
    - replace ((grow i + g - 2) * (q * Rabs s * Rabs s)) with ((grow i + g - 2) * (q * (Rabs s * Rabs s))) by ring.
      replace ((grow i * (g * g) - 1) * q * ((2 - g) * Rabs s * Rabs s)) with ((grow i * (g * g) - 1) * (2 - g) * (q * (Rabs s * Rabs s))) by ring.
      apply Rmult_le_compat_r; [apply Rmult_le_pos; nra|].
      assert (K1 : 0 <= 1 + g - g * g) by nra. assert (K2 : 0 <= (g - 1) * (1 + g - g * g)) by (apply Rmult_le_pos; lra).
      assert (K3 : 1 <= g * g * (2 - g)) by (replace (g * g * (2 - g)) with (1 + (g - 1) * (1 + g - g * g)) by ring; lra).
      replace ((grow i * (g * g) - 1) * (2 - g)) with (grow i * (g * g * (2 - g)) + g - 2) by ring. nra.
    - apply Rmult_le_compat_l; [apply Rmult_le_pos; auto; nra|]. apply Rmult_le_compat_r; lra. }
  assert (Hrs : Rabs (r / s) <= q) by (unfold q, Rdiv; rewrite Rabs_mult, Rabs_inv; apply Rmult_le_compat_r; lra).
  assert (Hx : Rabs x <= grow i * (g * g) * q).
  { replace x with ((x - r / s) + r / s) by ring. apply Rle_trans with (1 := Rabs_triang _ _). lra. }
  assert (Ho : Rabs x <= 2 * huge).
  { apply Rle_trans with (1 := Hx). apply Rle_trans with (2 * q); [apply Rmult_le_compat_r; auto|]. fold q in Hh. lra. }
  pose proof (Bdiv_correct prec64 emax64 Hprec64 Hmax64 mode_NE a b Hb0) as H. fold (fdiv a b) in H. fold x in H.
  rewrite (round_in_range x Ho) in H. destruct H as [HR [HF _]]. rewrite Fa in HF.
  split; [exact HF|]. split; [|fold q; lra]. rewrite HR. pose proof (round_error x) as He.
  replace (rnd64 x - r / s) with ((rnd64 x - x) + (x - r / s)) by ring.
  apply Rle_trans with (1 := Rabs_triang _ _). rewrite grow_succ, Gn. pose proof half_ulp_pos. fold q.
  set (gg := grow i * (g * g)) in *. assert (1 <= gg) by (unfold gg; nra). clearbody gg. clear Gn.
  set (t := tiny) in *. set (h := half_ulp) in *.
  apply Rle_trans with (h * (gg * q + t) + (gg - 1) * q); [nra|].
  assert (0 <= (gg - 1) * t) by nra. assert (h * t <= h * (gg * t)) by nra. nra.
Qed.
Lemma close_sqrt : forall a r m i, close a r m i -> 0 < r -> INR i * / 2 ^ 52 * m <= r -> m / sqrt r + tiny <= huge ->
  (Z.of_nat i <= 2 ^ 52)%Z -> close (fsqrt a) (sqrt r) (m / sqrt r + tiny) (i + 1).
Proof.
  intros a r m i Ha Pr Hr Hh Hn.
  assert (Pm : 0 <= m) by (apply Rle_trans with (Rabs r); [apply Rabs_pos|apply Ha]).
  destruct Ha as [Fa [Ea Ra]]. pose proof tiny_pos as Tp. pose proof (grow_1 i) as Gi. pose proof (grow_2 _ Hn) as G2.
  destruct (grow_linear i Hn) as [GL _].
  assert (Na : 0 <= B2R a).
  { assert (E : (grow i - 1) * m <= r) by (apply Rle_trans with (2 := Hr); apply Rmult_le_compat_r; lra).
    pose proof (Rabs_triang_inv r (r - B2R a)) as T0. apply Rabs_le_inv in Ea. lra. }
  pose proof (sqrt_lt_R0 _ Pr) as Ps. assert (Pi : 0 < / sqrt r) by now apply Rinv_0_lt_compat.
  set (x := sqrt (B2R a)). assert (Px : 0 <= x) by apply sqrt_pos. set (q := m / sqrt r). assert (Pq : 0 <= q) by (unfold q, Rdiv; nra).
  assert (Ex : Rabs (x - sqrt r) <= (grow i - 1) * q).
  { assert (E : B2R a - r = (x - sqrt r) * (x + sqrt r)).
    { unfold x. replace ((sqrt (B2R a) - sqrt r) * (sqrt (B2R a) + sqrt r)) with (sqrt (B2R a) * sqrt (B2R a) - sqrt r * sqrt r) by ring. rewrite !sqrt_sqrt; lra. }
    rewrite E, Rabs_mult, (Rabs_pos_eq (x + sqrt r)) in Ea by lra. unfold q, Rdiv. rewrite <- Rmult_assoc.
    apply Rmult_le_reg_r with (sqrt r); auto. rewrite Rmult_assoc, Rinv_l by lra. rewrite Rmult_1_r.
    apply Rle_trans with (2 := Ea). apply Rmult_le_compat_l; [apply Rabs_pos|lra]. }
  assert (Hq : sqrt r <= q).
  { unfold q, Rdiv. apply Rmult_le_reg_r with (sqrt r); auto. rewrite Rmult_assoc, Rinv_l by lra. rewrite Rmult_1_r, sqrt_sqrt by lra.
    apply Rle_trans with (2 := Ra). apply Rle_abs. }
  destruct (Bsqrt_correct prec64 emax64 Hprec64 Hmax64 mode_NE a) as [HR [HF _]]. fold (fsqrt a) in HR, HF. fold x in HR.
  assert (F : is_finite (fsqrt a) = true).
  { rewrite HF. destruct a as [z|z| |[] ma ea Ba]; try discriminate Fa; auto. exfalso.
    assert (B2R (B754_finite true ma ea Ba : f64) < 0) by (apply F2R_lt_0; reflexivity). lra. }
  split; [exact F|]. split; [|rewrite Rabs_pos_eq by lra; fold q; lra]. rewrite HR. pose proof (round_error x) as He.
  rewrite (Rabs_pos_eq x Px) in He. assert (Hx : x <= grow i * q) by (apply Rabs_le_inv in Ex; lra).
  replace (rnd64 x - sqrt r) with ((rnd64 x - x) + (x - sqrt r)) by ring.
  apply Rle_trans with (1 := Rabs_triang _ _). rewrite grow_succ. pose proof half_ulp_pos. fold q.
  set (g := grow i) in *. set (t := tiny) in *. set (h := half_ulp) in *.
  apply Rle_trans with (h * (g * q + t) + (g - 1) * q); [nra|].
  assert (0 <= (g - 1) * t) by nra. assert (h * t <= h * (g * t)) by nra. nra.
Qed.

(** the smaller and the greater of two *)
Lemma min_finite_value : forall w a b, is_finite a = true -> is_finite b = true ->
  is_finite (min_f64 w a b) = true /\ B2R (min_f64 w a b) = Rmin (B2R a) (B2R b).
Proof.
  intros w a b Fa Fb. unfold min_f64, fis_nan. assert (is_nan a = false) as -> by (destruct a; auto; discriminate). assert (is_nan b = false) as -> by (destruct b; auto; discriminate).
  unfold flt. rewrite !Bltb_correct by auto. destruct (Rlt_bool_spec (B2R a) (B2R b)); [split; auto; rewrite Rmin_left; lra|].
  destruct (Rlt_bool_spec (B2R b) (B2R a)); [split; auto; rewrite Rmin_right; lra|]. assert (B2R a = B2R b) as E by lra.
  destruct (minmax_second w); split; auto; rewrite E, Rmin_left; lra.
Qed.
Lemma max_finite_value : forall w a b, is_finite a = true -> is_finite b = true ->
  is_finite (max_f64 w a b) = true /\ B2R (max_f64 w a b) = Rmax (B2R a) (B2R b).
Proof.
  intros w a b Fa Fb. unfold max_f64, fis_nan. assert (is_nan a = false) as -> by (destruct a; auto; discriminate). assert (is_nan b = false) as -> by (destruct b; auto; discriminate).
  unfold flt. rewrite !Bltb_correct by auto. destruct (Rlt_bool_spec (B2R a) (B2R b)); [split; auto; rewrite Rmax_right; lra|].
  destruct (Rlt_bool_spec (B2R b) (B2R a)); [split; auto; rewrite Rmax_left; lra|]. assert (B2R a = B2R b) as E by lra.
  destruct (minmax_second w); split; auto; rewrite E, Rmax_left; lra.
Qed.
Definition picks (op : f64 -> f64 -> f64) (pick : R -> R -> R) : Prop :=
  (forall a b, is_finite a = true -> is_finite b = true -> is_finite (op a b) = true /\ B2R (op a b) = pick (B2R a) (B2R b)) /\
  (forall x y r s, Rabs (pick x y - pick r s) <= Rmax (Rabs (x - r)) (Rabs (y - s))) /\ (forall r s, Rabs (pick r s) <= Rmax (Rabs r) (Rabs s)) /\
  (forall x y z, pick (pick x y) z = pick x (pick y z)).
Lemma picks_min : forall w, picks (min_f64 w) Rmin.
Proof.
  intro w. split; [apply min_finite_value|]. repeat split; intros.
  - unfold Rmin, Rmax. repeat destruct (Rle_dec _ _); unfold Rabs in *; repeat destruct (Rcase_abs _); lra.
  - unfold Rmin, Rmax. repeat destruct (Rle_dec _ _); unfold Rabs in *; repeat destruct (Rcase_abs _); lra.
  - unfold Rmin. repeat destruct (Rle_dec _ _); lra.
Qed.
Lemma picks_max : forall w, picks (max_f64 w) Rmax.
Proof.
  intro w. split; [apply max_finite_value|]. repeat split; intros.
  - unfold Rmax. repeat destruct (Rle_dec _ _); unfold Rabs in *; repeat destruct (Rcase_abs _); lra.
  - unfold Rmax. repeat destruct (Rle_dec _ _); unfold Rabs in *; repeat destruct (Rcase_abs _); lra.
  - unfold Rmax. repeat destruct (Rle_dec _ _); lra.
Qed.
Lemma close_pick : forall op pick a b r s m k i j, picks op pick -> close a r m i -> close b s k j ->
  close (op a b) (pick r s) (Rmax m k) (i + j).
Proof.
  intros op pick a b r s m k i j [P1 [P2 [P3 _]]] Ha Hb.
  assert (Pm : 0 <= m) by (apply Rle_trans with (Rabs r); [apply Rabs_pos|apply Ha]).
  assert (Pk : 0 <= k) by (apply Rle_trans with (Rabs s); [apply Rabs_pos|apply Hb]).
  destruct Ha as [Fa [Ea Ra]], Hb as [Fb [Eb Rb]]. destruct (P1 a b Fa Fb) as [F E]. split; [exact F|]. rewrite E.
  pose proof (grow_1 i) as Gi. pose proof (grow_1 j) as Gj. pose proof (grow_plus i j) as Gp. pose proof (Rmax_l m k). pose proof (Rmax_r m k).
  split.
  - apply Rle_trans with (1 := P2 _ _ _ _). apply Rmax_lub.
    + apply Rle_trans with (1 := Ea). apply Rmult_le_compat; try lra. rewrite Gp. nra.
    + apply Rle_trans with (1 := Eb). apply Rmult_le_compat; try lra. rewrite Gp. nra.
  - apply Rle_trans with (1 := P3 _ _). apply Rmax_lub; lra.
Qed.

(** ** The whole expression *)
Scheme measured_mut := Induction for measured Sort Prop
  with measured_sum_mut := Induction for measured_sum Sort Prop
  with measured_extremum_mut := Induction for measured_extremum Sort Prop.
Combined Scheme measured_mutind from measured_mut, measured_sum_mut, measured_extremum_mut.

Lemma measured_nonneg : forall rho,
  (forall t r m n, measured rho t r m n -> 0 <= m) /\ (forall l r m n, measured_sum rho l r m n -> 0 <= m) /\
  (forall pick l r m n, measured_extremum rho pick l r m n -> 0 <= m).
Proof.
  intro rho. pose proof tiny_pos as T0.
  assert (D : forall m s, 0 <= m -> 0 < s -> 0 <= m / s + tiny) by (intros m s Hm Hs; apply Rinv_0_lt_compat in Hs; unfold Rdiv; nra).
  apply measured_mutind; intros; auto using Rabs_pos; try lra; try nra.
  - apply D; auto. now apply Rabs_pos_lt.
  - apply D; auto. now apply Rabs_pos_lt.
  - apply D; auto. apply lt_0_INR. destruct args; [congruence|cbn; lia].
  - apply D; [lra|]. now apply Rabs_pos_lt.
  - apply D; auto. now apply sqrt_lt_R0.
  - apply Rle_trans with (1 := H). apply Rmax_l.
Qed.

Lemma measured_sum_length : forall rho l r m n, measured_sum rho l r m n -> (List.length l <= n)%nat.
Proof. intros rho. induction l as [|a l IH]; intros r m n H; inversion H; subst; cbn [List.length]; [lia|]. match goal with Q : measured_sum rho l _ _ _ |- _ => apply IH in Q end. lia. Qed.
Lemma measured_abs : forall rho,
  (forall t r m n, measured rho t r m n -> Rabs r <= m) /\ (forall l r m n, measured_sum rho l r m n -> Rabs r <= m) /\
  (forall pick l r m n, measured_extremum rho pick l r m n -> pick = Rmin \/ pick = Rmax -> Rabs r <= m).
Proof.
  intro rho. pose proof tiny_pos as T0. destruct (measured_nonneg rho) as [NN [NS NX]].
  assert (D : forall r m s, Rabs r <= m -> s <> 0 -> Rabs (r / s) <= m / Rabs s + tiny).
  { intros r m s Hm Hs. assert (0 < / Rabs s) by (apply Rinv_0_lt_compat; now apply Rabs_pos_lt). unfold Rdiv. rewrite Rabs_mult, Rabs_inv. nra. }
  apply measured_mutind; intros; auto; try lra.
  - apply Rle_trans with (1 := Rabs_triang _ _). lra.
  - unfold Rminus. apply Rle_trans with (1 := Rabs_triang _ _). rewrite Rabs_Ropp. lra.
  - rewrite Rabs_mult. assert (Rabs r * Rabs s <= m * k) by (apply Rmult_le_compat; auto using Rabs_pos). lra.
  - now rewrite Rabs_Ropp.
  - now rewrite Rabs_Rabsolu.
  - assert (PL : 0 < INR (List.length args)) by (apply lt_0_INR; destruct args; [congruence|cbn; lia]).
    rewrite <- (Rabs_pos_eq (INR (List.length args))) at 2 by lra. apply D; auto. lra.
  - apply D; auto. rewrite Rabs_R1. lra.
  - pose proof (sqrt_lt_R0 _ r0) as Ps. rewrite Rabs_pos_eq by lra. apply Rle_trans with (m / sqrt r); [|lra].
    unfold Rdiv. apply Rmult_le_reg_r with (sqrt r); auto. rewrite Rmult_assoc, Rinv_l by lra. rewrite Rmult_1_r, sqrt_sqrt by lra.
    apply Rle_trans with (2 := H). apply Rle_abs.
  - rewrite Rabs_R0. lra.
  - apply Rle_trans with (1 := Rabs_triang _ _). lra.
  - specialize (H0 H1). pose proof (Rmax_l m k). pose proof (Rmax_r m k). destruct H1 as [-> | ->]; unfold Rmin, Rmax in *; destruct (Rle_dec r s); lra.
Qed.

Lemma measured_close : forall w rho,
  (forall t r m n, measured rho t r m n -> (Z.of_nat n <= 2 ^ 52)%Z -> exists v, means w rho t v /\ close v r m n) /\
  (forall l r m n, measured_sum rho l r m n -> forall acc r0 m0 n0, close acc r0 m0 n0 -> m0 + m <= huge ->
     (Z.of_nat (n0 + n) <= 2 ^ 52)%Z -> exists vs, means_all w rho l vs /\ close (fold_left fadd vs acc) (r0 + r) (m0 + m) (n0 + n)) /\
  (forall pick l r m n, measured_extremum rho pick l r m n -> (Z.of_nat n <= 2 ^ 52)%Z ->
     exists v vs, means_all w rho l (v :: vs) /\ is_finite v = true /\ forall op, picks op pick ->
       close (fold_left op vs v) r m n /\
       forall acc r0 m0 n0, close acc r0 m0 n0 -> close (fold_left op (v :: vs) acc) (pick r0 r) (Rmax m0 m) (n0 + n)).
Proof.
  intros w rho. destruct (measured_nonneg rho) as [NN [NS NX]].
  assert (One : close fone 1 1 0).
  { assert (E : B2R fone = 1) by apply Bone_correct. split; [apply is_finite_Bone|]. rewrite E. split; [rewrite Rminus_eq_0, Rabs_R0; unfold grow; cbn [pow]; lra|rewrite Rabs_R1; lra]. }
  assert (Cz : close (if sum_neg_zero w then fnzero else fzero) 0 0 0).
  { assert (Zz : forall b, close (B754_zero b) 0 0 0) by (intro b; split; auto; cbn [B2R]; split; [rewrite Rminus_0_r, Rabs_R0; lra|rewrite Rabs_R0; lra]).
    destruct (sum_neg_zero w); apply Zz. }
  assert (Z0 : forall x, Rabs (x - x) <= (grow 0 - 1) * Rabs x) by (intro x; unfold grow; cbn [pow]; rewrite !Rminus_eq_0, Rabs_R0; lra).
  apply measured_mutind.
  - intros v F _. exists v. split; [constructor|]. split; auto. split; auto. lra.
  - intros x v E F _. exists v. split; [now constructor|]. split; auto. split; auto. lra.
  - intros a b r s m k i j _ IHa _ IHb Hh Hn. destruct (IHa ltac:(lia)) as [va [Ma Ca]]. destruct (IHb ltac:(lia)) as [vb [Mb Cb]].
    exists (fadd va vb). split; [now constructor|]. apply close_add; auto. lia.
  - intros a b r s m k i j _ IHa _ IHb Hh Hn. destruct (IHa ltac:(lia)) as [va [Ma Ca]]. destruct (IHb ltac:(lia)) as [vb [Mb Cb]].
    exists (fsub va vb). split; [now constructor|]. apply close_sub; auto. lia.
  - intros a b r s m k i j _ IHa _ IHb Hh Hn. destruct (IHa ltac:(lia)) as [va [Ma Ca]]. destruct (IHb ltac:(lia)) as [vb [Mb Cb]].
    exists (fmul va vb). split; [now constructor|]. apply close_mul; auto. lia.
  - intros a b r s k m i _ IHa _ IHb Hs Hh Hn. destruct (IHa ltac:(lia)) as [va [Ma Ca]]. destruct (IHb ltac:(lia)) as [vb [Mb Cb]].
    exists (fdiv va vb). split; [now constructor|]. eapply close_div; eauto. lia.
  - intros a b r s m k i j c _ IHa Hb IHb Hs Hk Hh Hn.
    assert (Nc : c <> 0%nat) by (intros ->; cbn [INR] in Hk; pose proof (proj1 (measured_abs rho) _ _ _ _ Hb); pose proof (Rabs_pos_lt s Hs); lra).
    destruct (IHa ltac:(lia)) as [va [Ma Ca]]. destruct (IHb ltac:(nia)) as [vb [Mb Cb]].
    exists (fdiv va vb). split; [now constructor|]. apply (close_quotient _ _ _ _ _ k); auto. lia.
  - intros a r m i _ IH Hn. destruct (IH Hn) as [v [M C]]. exists v. split; auto. now constructor.
  - intros a r m i _ IH Hn. destruct (IH Hn) as [v [M C]]. exists (fneg v). split; [now constructor|now apply close_neg].
  - intros a r m i _ IH Hn. destruct (IH Hn) as [v [M C]]. exists (fabs v). split; [|now apply close_abs].
    apply M_call with (vs := [v]); [constructor; auto; constructor|reflexivity].
  - intros args r m i _ IH Hm Hn.
    set (z := if sum_neg_zero w then fnzero else fzero) in *.
    destruct (IH z 0 0 0%nat Cz ltac:(lra) Hn) as [vs [M C]]. exists (fold_left fadd vs z). split.
    + apply M_call with (vs := vs); auto.
    + rewrite !Rplus_0_l in C. exact C.
  - intros args r m i Hs IH Ne Hm Hh Hn.
    set (z := if sum_neg_zero w then fnzero else fzero) in *.
    destruct (IH z 0 0 0%nat Cz ltac:(lra) ltac:(lia)) as [vs [M C]]. rewrite !Rplus_0_l in C. cbn [Nat.add] in C.
    assert (EL : List.length vs = List.length args).
    { clear -M. revert vs M. induction args as [|a args IH]; intros vs M; inversion M; subst; cbn; auto. }
    assert (Ln : (Z.of_nat (List.length args) <= 2 ^ 53)%Z) by (apply measured_sum_length in Hs; lia).
    destruct (f64_of_Z_small (Z.of_nat (List.length args))) as [EB FB]; [lia|]. rewrite <- INR_IZR_INZ in EB.
    assert (PL : 0 < INR (List.length args)) by (apply lt_0_INR; destruct args; [congruence|cbn; lia]).
    exists (fdiv (fold_left fadd vs z) (f64_of_Z (Z.of_nat (List.length args)))). split.
    + apply M_call with (vs := vs); auto. rewrite <- EL. reflexivity.
    + rewrite <- (Rabs_pos_eq (INR (List.length args))) at 2 by lra. apply close_div with (k := INR (List.length args)); auto; [|lra|rewrite Rabs_pos_eq; lra|lia].
      split; [exact FB|]. rewrite EB. split; [rewrite Rminus_eq_0, Rabs_R0; unfold grow; cbn [pow]; lra|rewrite Rabs_pos_eq; lra].
  - intros a s k j c Ha IH Hs Hk Hh Hn.
    assert (Nc : c <> 0%nat) by (intros ->; cbn [INR] in Hk; pose proof (proj1 (measured_abs rho) _ _ _ _ Ha); pose proof (Rabs_pos_lt s Hs); lra).
    destruct (IH ltac:(nia)) as [v [M C]].
    exists (frecip v). split; [apply M_call with (vs := [v]); [constructor; auto; constructor|reflexivity]|].
    change (2 * c * j + 1)%nat with (0 + 2 * c * j + 1)%nat. apply (close_quotient _ _ _ _ _ k); auto. lia.
  - intros a r m i _ IH Hr Hc Hh Hn. destruct (IH ltac:(lia)) as [v [M C]].
    exists (fsqrt v). split; [apply M_call with (vs := [v]); [constructor; auto; constructor|reflexivity]|]. apply close_sqrt; auto. lia.
  - intros args r m i _ IH Hn. destruct (IH Hn) as [v [vs [M [F H]]]]. destruct (H _ (picks_min w)) as [C _].
    exists (fold_left (min_f64 w) vs v). split; [|exact C]. apply M_call with (vs := v :: vs); auto. cbn [call_function call_ptr fn_ptr builtin_function call_builtin fold_left].
    do 2 f_equal. unfold min_f64, fis_nan. destruct v as [[]|[]| |[]]; try discriminate F; reflexivity.
  - intros args r m i _ IH Hn. destruct (IH Hn) as [v [vs [M [F H]]]]. destruct (H _ (picks_max w)) as [C _].
    exists (fold_left (max_f64 w) vs v). split; [|exact C]. apply M_call with (vs := v :: vs); auto. cbn [call_function call_ptr fn_ptr builtin_function call_builtin fold_left].
    do 2 f_equal. unfold max_f64, fis_nan. destruct v as [[]|[]| |[]]; try discriminate F; reflexivity.
  - intros acc r0 m0 n0 C Hm Hn. exists []. split; [constructor|]. cbn [fold_left]. now rewrite !Rplus_0_r, Nat.add_0_r.
  - intros a args r s m k i j Ha IHa Hs IHs acc r0 m0 n0 C Hm Hn. destruct (IHa ltac:(lia)) as [v [M Cv]].
    assert (0 <= k) by eauto. assert (0 <= m) by eauto.
    assert (C' : close (fadd acc v) (r0 + r) (m0 + m) (n0 + i + 1)) by (apply close_add; auto; [lra|lia]).
    destruct (IHs _ _ _ _ C' ltac:(lra) ltac:(lia)) as [vs [Ms Cs]]. exists (v :: vs). split; [now constructor|]. cbn [fold_left].
    replace (r0 + (r + s)) with (r0 + r + s) by ring. replace (m0 + (m + k)) with (m0 + m + k) by ring.
    replace (n0 + (i + j + 1))%nat with (n0 + i + 1 + j)%nat by lia. exact Cs.
  - intros pick a r m i _ IH Hn. destruct (IH Hn) as [v [M C]]. exists v, []. split; [repeat constructor; auto|]. split; [apply C|].
    intros op P. split; [exact C|]. intros acc r0 m0 n0 Ca. cbn [fold_left]. now apply close_pick.
  - intros pick a args r s m k i j _ IHa _ IHs Hn. destruct (IHa ltac:(lia)) as [v [M C]]. destruct (IHs ltac:(lia)) as [v1 [vs [Ms [F H]]]].
    exists v, (v1 :: vs). split; [constructor; auto|]. split; [apply C|]. intros op P. destruct (H op P) as [_ H2]. split; [now apply H2|].
    intros acc r0 m0 n0 Ca. change (fold_left op (v :: v1 :: vs) acc) with (fold_left op (v1 :: vs) (op acc v)).
    pose proof (H2 _ _ _ _ (close_pick _ _ _ _ _ _ _ _ _ _ P Ca C)) as Q. destruct P as [_ [_ [_ P4]]].
    rewrite P4, <- Nat.add_assoc in Q. now rewrite Rmax_assoc.
Qed.

(** ** C69 *)
(** The value of an expression differs from its exact value by at most its
    magnitude times (1 + 2^-53)^n - 1, where n is the number of rounded
    operations, and never overflows. *)
Theorem C69_error_bound : forall w x rho r m n,
  measured (lookup rho) (root x) r m n -> (Z.of_nat n <= 2 ^ 52)%Z ->
  exists v, eval w x rho = Val (Eval_ok v) /\ is_finite v = true /\
    Rabs (B2R v - r) <= ((1 + half_ulp) ^ n - 1) * m.
Proof.
  intros w x rho r m n H Hn. destruct (proj1 (measured_close w (lookup rho)) _ _ _ _ H Hn) as [v [M [F [E _]]]].
  exists v. split; [|auto]. apply C21_eval_is_meaning. exact M.
Qed.

(** In particular by at most n times 2^-52 times the magnitude. *)
Theorem C69_linear_error_bound : forall w x rho r m n,
  measured (lookup rho) (root x) r m n -> (Z.of_nat n <= 2 ^ 52)%Z ->
  exists v, eval w x rho = Val (Eval_ok v) /\ is_finite v = true /\
    Rabs (B2R v - r) <= INR n * / 2 ^ 52 * m.
Proof.
  intros w x rho r m n H Hn. destruct (C69_error_bound w x rho r m n H Hn) as [v [E [F B]]]. exists v. split; auto. split; auto.
  apply Rle_trans with (1 := B). apply Rmult_le_compat_r; [exact (proj1 (measured_nonneg _) _ _ _ _ H)|].
  destruct (grow_linear n Hn) as [G _]. change ((1 + half_ulp) ^ n) with (grow n). apply Rplus_le_reg_r with 1. apply Rle_trans with (grow n); [apply Req_le; ring|]. rewrite Rplus_comm. exact G.
Qed.

(** If the magnitude is at most [c] times the exact value (c = 1 if nothing
    is subtracted), the relative error is at most c n 2^-52. *)
Theorem C69_relative_error_bound : forall w x rho r m n c,
  measured (lookup rho) (root x) r m n -> (Z.of_nat n <= 2 ^ 52)%Z -> m <= c * Rabs r ->
  exists v, eval w x rho = Val (Eval_ok v) /\ is_finite v = true /\
    Rabs (B2R v - r) <= c * INR n * / 2 ^ 52 * Rabs r.
Proof.
  intros w x rho r m n c H Hn Hc. destruct (C69_linear_error_bound w x rho r m n H Hn) as [v [E [F B]]]. exists v. split; auto. split; auto.
  apply Rle_trans with (1 := B). replace (c * INR n * / 2 ^ 52 * Rabs r) with (INR n * / 2 ^ 52 * (c * Rabs r)) by ring.
  apply Rmult_le_compat_l; auto. apply Rmult_le_pos; [apply pos_INR|]. apply Rlt_le, Rinv_0_lt_compat, pow_lt. lra.
Qed.

(** ** Limits and a concrete case *)
Lemma B2R_of : forall (v : f64) s m e, B2SF v = SpecFloat.S754_finite s m e -> B2R v = F2R (Float radix2 (cond_Zopp s (Zpos m)) e) /\ is_finite v = true.
Proof. intros [z'|s'| |s' m' e' Hb] s m e H; try discriminate H. injection H as -> -> ->. auto. Qed.

Lemma B2R_1e16 : B2R (lit "1e16") = 10000000000000000 /\ is_finite (lit "1e16") = true.
Proof.
  destruct (B2R_of (lit "1e16") false 5000000000000000 1) as [-> F]; [vm_compute; reflexivity|]. split; auto.
  unfold F2R. cbn. lra.
Qed.
Lemma B2R_1 : B2R (lit "1") = 1 /\ is_finite (lit "1") = true.
Proof.
  destruct (B2R_of (lit "1") false 4503599627370496 (-52)) as [-> F]; [vm_compute; reflexivity|]. split; auto.
  unfold F2R. cbn. lra.
Qed.
Lemma B2R_3 : B2R (lit "3") = 3 /\ is_finite (lit "3") = true.
Proof.
  destruct (B2R_of (lit "3") false 6755399441055744 (-51)) as [-> F]; [vm_compute; reflexivity|]. split; auto.
  unfold F2R. cbn. lra.
Qed.
Lemma huge_large : 100000000000000000 <= huge.
Proof.
  rewrite huge_bpow. apply Rle_trans with (bpow radix2 60); [|apply bpow_le; lia].
  rewrite <- (IZR_Zpower radix2 60) by lia. apply IZR_le. vm_compute. discriminate.
Qed.
Lemma tiny_small : tiny <= 1.
Proof. rewrite tiny_bpow. apply (bpow_le radix2 (-1022) 0). lia. Qed.

(** A bound relative to the value itself is impossible: (1e16 + 1) - 1e16 is 1,
    with two roundings, and evaluates to 0. *)
Theorem C69_cancellation_refuted : exists x m,
  parse plain_config w0 ctx_default "(1e16 + 1) - 1e16" = Parse_ok x /\
  measured (lookup []) (root x) 1 m 2 /\ eval w0 x [] = Val (Eval_ok fzero).
Proof.
  destruct (parses_to (parse plain_config w0 ctx_default "(1e16 + 1) - 1e16")
    (BinOp Minus (BinOp Plus (Number (lit "1e16")) (Number (lit "1"))) (Number (lit "1e16")))) as [x [Hp Hr]]; [vm_compute; reflexivity|].
  exists x, (Rabs 10000000000000000 + Rabs 1 + Rabs 10000000000000000). split; [exact Hp|]. rewrite Hr. split.
  - destruct B2R_1e16 as [E1 F1], B2R_1 as [E2 F2]. pose proof huge_large.
    replace 1 with (10000000000000000 + 1 - 10000000000000000) at 1 by ring. change 2%nat with (1 + 0 + 1)%nat.
    assert (Rabs 10000000000000000 = 10000000000000000) by (apply Rabs_pos_eq; lra). assert (Rabs 1 = 1) by apply Rabs_R1.
    apply ME_minus; [change 1%nat with (0 + 0 + 1)%nat; apply ME_plus| |]; try lra.
    + rewrite <- E1. now apply ME_number.
    + rewrite <- E2. now apply ME_number.
    + rewrite <- E1. now apply ME_number.
  - unfold eval. rewrite Hr. apply eval_check. vm_compute. reflexivity.
Qed.

(** The witness: signs, all four operators, abs and sum. *)
Example C69_witness : exists x r m,
  parse plain_config w0 ctx_default "x*x - sum(x, -1, abs(x)) / 3" = Parse_ok x /\
  measured (lookup [("x"%string, lit "1e16")]) (root x) r m 6 /\ (Z.of_nat 6 <= 2 ^ 52)%Z.
Proof.
  destruct (parses_to (parse plain_config w0 ctx_default "x*x - sum(x, -1, abs(x)) / 3")
    (BinOp Minus (BinOp Times (Var "x") (Var "x"))
       (BinOp Divide (Call (builtin_function B_SUM) [Var "x"; UnOp Minus (Number (lit "1")); Call (builtin_function B_ABS) [Var "x"]]) (Number (lit "3"))))) as [x [Hp Hr]]; [vm_compute; reflexivity|].
  assert (EX : exists r m, measured (lookup [("x"%string, lit "1e16")]) (root x) r m 6); [|destruct EX as [r [m M]]; exists x, r, m; split; [exact Hp|split; [exact M|vm_compute; discriminate]]].
  rewrite Hr. destruct B2R_1e16 as [E1 F1], B2R_1 as [E2 F2], B2R_3 as [E3 F3]. pose proof huge_large as HL. pose proof tiny_small as TS. pose proof tiny_pos as TP.
  set (rho := lookup [("x"%string, lit "1e16")]).
  assert (Mx : measured rho (Var "x") 10000000000000000 10000000000000000 0).
  { pose proof (ME_var rho "x" (lit "1e16") eq_refl F1) as H. rewrite E1 in H. rewrite Rabs_pos_eq in H by lra. exact H. }
  assert (M1 : measured rho (Number (lit "1")) 1 1 0).
  { pose proof (ME_number rho (lit "1") F2) as H. rewrite E2 in H. rewrite Rabs_pos_eq in H by lra. exact H. }
  assert (M3 : measured rho (Number (lit "3")) 3 3 0).
  { pose proof (ME_number rho (lit "3") F3) as H. rewrite E3 in H. rewrite Rabs_pos_eq in H by lra. exact H. }
  assert (MS : measured_sum rho [Var "x"; UnOp Minus (Number (lit "1")); Call (builtin_function B_ABS) [Var "x"]]
    (10000000000000000 + (- (1) + (Rabs 10000000000000000 + 0))) (10000000000000000 + (1 + (10000000000000000 + 0))) 3).
  { change 3%nat with (0 + (0 + (0 + 0 + 1) + 1) + 1)%nat. repeat apply MS_cons; auto; [now apply ME_minus_sign|now apply ME_abs|apply MS_nil]. }
  assert (MD := ME_sum rho _ _ _ _ MS ltac:(lra)).
  assert (R3 : Rabs 3 = 3) by (apply Rabs_pos_eq; lra).
  assert (MQ := ME_divide rho _ _ _ _ _ _ _ MD M3 ltac:(lra) ltac:(rewrite R3; lra)).
  assert (H32 : 10000000000000000 * 10000000000000000 + tiny <= huge).
  { rewrite huge_bpow. apply Rle_trans with (bpow radix2 120); [|apply bpow_le; lia].
    rewrite <- (IZR_Zpower radix2 120) by lia. apply Rle_trans with (IZR (10000000000000000 * 10000000000000000 + 1)); [rewrite plus_IZR, mult_IZR; lra|apply IZR_le; vm_compute; discriminate]. }
  assert (MT := ME_times rho _ _ _ _ _ _ _ _ Mx Mx H32).
  do 2 eexists. change 6%nat with ((0 + 0 + 1) + (3 + 1) + 1)%nat. eapply ME_minus; [exact MT|exact MQ|].
  rewrite R3. apply Rle_trans with (2 * (10000000000000000 * 10000000000000000 + tiny)); [lra|].
  assert (H33 : 10000000000000000 * 10000000000000000 + tiny <= bpow radix2 120).
  { rewrite <- (IZR_Zpower radix2 120) by lia. apply Rle_trans with (IZR (10000000000000000 * 10000000000000000 + 1)); [rewrite plus_IZR, mult_IZR; lra|apply IZR_le; vm_compute; discriminate]. }
  apply Rle_trans with (2 * bpow radix2 120); [lra|]. rewrite huge_bpow. change 2 with (bpow radix2 1) at 1. rewrite <- bpow_plus. apply bpow_le. lia.
Qed.

(** The bound at work on a text with products, mean, sqrt and a divisor that is
    itself computed: for all x and y from 1 to 1e16 the relative error is at
    most 10 * 2^-52. *)
Lemma tiny_tiny : tiny * 1000000000000000000 <= 1.
Proof.
  rewrite tiny_bpow. apply Rle_trans with (bpow radix2 (-1022) * bpow radix2 60).
  - apply Rmult_le_compat_l; [apply bpow_ge_0|]. rewrite <- (IZR_Zpower radix2 60) by lia. apply IZR_le. vm_compute. discriminate.
  - rewrite <- bpow_plus. apply (bpow_le radix2 _ 0). lia.
Qed.
Lemma huge_square : 1000000000000000000000000000000000 <= huge.
Proof.
  rewrite huge_bpow. apply Rle_trans with (bpow radix2 120); [|apply bpow_le; lia].
  rewrite <- (IZR_Zpower radix2 120) by lia. apply IZR_le. vm_compute. discriminate.
Qed.
Theorem C69_example_for_all_values : exists e,
  parse plain_config w0 ctx_default "sqrt(mean(x*x, y*y)) / (x + y)" = Parse_ok e /\
  forall w vx vy, is_finite vx = true -> is_finite vy = true ->
    1 <= B2R vx <= 10000000000000000 -> 1 <= B2R vy <= 10000000000000000 ->
    let exact := sqrt ((B2R vx * B2R vx + B2R vy * B2R vy) / 2) / (B2R vx + B2R vy) in
    exists v, eval w e [("x"%string, vx); ("y"%string, vy)] = Val (Eval_ok v) /\ is_finite v = true /\
      Rabs (B2R v - exact) <= 10 * / 2 ^ 52 * exact.
Proof.
  set (tm := Call (builtin_function B_MEAN) [BinOp Times (Var "x") (Var "x"); BinOp Times (Var "y") (Var "y")]).
  set (te := BinOp Divide (Call (builtin_function B_SQRT) [tm]) (BinOp Plus (Var "x") (Var "y"))).
  destruct (parses_to (parse plain_config w0 ctx_default "sqrt(mean(x*x, y*y)) / (x + y)") te) as [e [Hp Hr]]; [vm_compute; reflexivity|].
  exists e. split; [exact Hp|]. intros w vx vy Fx Fy Bx By. cbv zeta. set (x := B2R vx) in *. set (y := B2R vy) in *.
  set (rho := [("x"%string, vx); ("y"%string, vy)]).
  pose proof tiny_pos as TP. pose proof tiny_tiny as TT. pose proof huge_square as HS.
  assert (Mx : measured (lookup rho) (Var "x") x x 0).
  { pose proof (ME_var (lookup rho) "x" vx eq_refl Fx) as H. fold x in H. rewrite Rabs_pos_eq in H by lra. exact H. }
  assert (My : measured (lookup rho) (Var "y") y y 0).
  { pose proof (ME_var (lookup rho) "y" vy eq_refl Fy) as H. fold y in H. rewrite Rabs_pos_eq in H by lra. exact H. }
  set (B := 10000000000000000) in *.
  assert (X2 : 1 <= x * x <= B * B) by (split; nra). assert (Y2 : 1 <= y * y <= B * B) by (split; nra).
  assert (BB : B * B = 100000000000000000000000000000000) by (unfold B; lra).
  assert (Mxx := ME_times _ _ _ _ _ _ _ _ _ Mx Mx ltac:(lra)). assert (Myy := ME_times _ _ _ _ _ _ _ _ _ My My ltac:(lra)).
  assert (Ms := MS_cons _ _ _ _ _ _ _ _ _ Mxx (MS_cons _ _ _ _ _ _ _ _ _ Myy (MS_nil _))). cbn [Nat.add] in Ms.
  assert (Mm := ME_mean _ _ _ _ _ Ms ltac:(discriminate) ltac:(lra)). cbn [List.length INR Nat.add] in Mm. fold tm in Mm. specialize (Mm ltac:(lra)).
  set (r := (x * x + (y * y + 0)) / (1 + 1)) in *. set (m := (x * x + tiny + (y * y + tiny + 0)) / (1 + 1) + tiny) in *.
  assert (R1 : 1 <= r <= B * B) by (unfold r; lra). assert (Em : m = r + 2 * tiny) by (unfold m, r; lra).
  assert (Er : (x * x + y * y) / 2 = r) by (unfold r; lra). rewrite Er.
  set (q := sqrt r). assert (Pq : 1 <= q) by (unfold q; rewrite <- sqrt_1; apply sqrt_le_1; lra).
  assert (Eq : q * q = r) by (apply sqrt_sqrt; lra).
  assert (Iq : / q <= 1) by (rewrite <- Rinv_1; apply Rinv_le_contravar; lra). assert (Iq0 : 0 < / q) by (apply Rinv_0_lt_compat; lra).
  assert (Emq : m / q = q + 2 * tiny * / q) by (rewrite Em, <- Eq; field; lra).
  assert (Lmq : m / q <= q + 2 * tiny) by (rewrite Emq; nra). assert (Qr : q <= r) by nra.
  assert (I5 : INR 5 * / 2 ^ 52 * m <= r).
  { assert (/ 2 ^ 52 <= / 16) by (apply Rinv_le_contravar; [lra|]; replace (2 ^ 52) with (IZR (2 ^ 52)) by (symmetry; apply (pow_IZR 2 52)); apply (IZR_le 16); vm_compute; discriminate).
    assert (0 < / 2 ^ 52) by (apply Rinv_0_lt_compat, pow_lt; lra). change (INR 5) with 5 || cbn [INR]. nra. }
  assert (Mq := ME_sqrt _ _ _ _ _ Mm ltac:(lra) I5 ltac:(fold q; lra)). fold q in Mq.
  assert (Md := ME_plus _ _ _ _ _ _ _ _ _ Mx My ltac:(unfold B in *; lra)). cbn [Nat.add] in Md, Mq.
  set (d := x + y) in *. assert (D : 2 <= d <= 2 * B) by (unfold d; lra). assert (Ad : Rabs d = d) by (apply Rabs_pos_eq; lra).
  assert (Id : / d <= / 2) by (apply Rinv_le_contravar; lra). assert (Id0 : 0 < / d) by (apply Rinv_0_lt_compat; lra).
  assert (Lm : (m / q + tiny) / Rabs d + tiny <= 10 / 9 * (q / d)).
  { rewrite Ad. unfold Rdiv at 1. apply Rle_trans with ((q + 3 * tiny) * / d + tiny); [apply Rplus_le_compat_r, Rmult_le_compat_r; lra|].
    apply Rmult_le_reg_r with d; [lra|]. unfold Rdiv. rewrite Rmult_plus_distr_r. rewrite !Rmult_assoc, Rinv_l, !Rmult_1_r by lra.
    unfold B in D. nra. }
  assert (Qd : q / d <= B * B) by (unfold Rdiv; nra).
  assert (Mt := ME_quotient _ _ _ _ _ _ _ _ _ 1 Mq Md ltac:(lra) ltac:(rewrite Ad; cbn [INR]; lra) ltac:(lra)). cbn [Nat.add Nat.mul] in Mt.
  rewrite <- Er in *. fold te in Mt. rewrite <- Hr in Mt.
  destruct (C69_linear_error_bound w e rho _ _ _ Mt ltac:(vm_compute; discriminate)) as [v [Ev [Fv E]]].
  exists v. split; [exact Ev|]. split; [exact Fv|]. apply Rle_trans with (1 := E).
  set (M := (m / q + tiny) / Rabs d + tiny) in *.
  assert (P52 : 0 < / 2 ^ 52) by (apply Rinv_0_lt_compat, pow_lt; lra).
  assert (I9 : INR 9 = 9) by (cbn [INR]; lra). rewrite I9. set (p := / 2 ^ 52) in *. nra.
Qed.
