(** * C81: changing units by a power of two changes the result by that power *)
From Coq Require Import ZArith NArith List String Ascii Bool Lia Reals Lra.
From Flocq Require Import Core BinarySingleNaN Plus_error.
From Verif Require Import F64 Syntax Factorial Builtins Context Element Parser Xprs.
From Verif Require Import SpecParse SpecTree SpecNumber SpecApi SpecLaws SpecScale FloatFacts NumberFacts PropertiesEval PropertiesArith PropertiesOptimise PropertiesLaws TestWorld.
Import ListNotations.
Local Open Scope R_scope.

(** ** Rounding without lower bound *)
Notation rndX := (round radix2 (FLX_exp 53) (round_mode mode_NE)).

Lemma round_shift : forall x j, rndX (x * bpow radix2 j) = rndX x * bpow radix2 j.
Proof.
  intros x j. destruct (Req_dec x 0) as [->|Hx]; [rewrite Rmult_0_l, !round_0 by typeclasses eauto; ring|].
  unfold round, scaled_mantissa, cexp, F2R. cbn [Fnum Fexp]. rewrite mag_mult_bpow by exact Hx. unfold FLX_exp.
  replace (mag radix2 x + j - 53)%Z with (mag radix2 x - 53 + j)%Z by ring.
  rewrite !bpow_plus. rewrite Rmult_assoc, <- (bpow_plus _ j), Z.opp_add_distr.
  replace (j + (- (mag radix2 x - 53) + - j))%Z with (- (mag radix2 x - 53))%Z by ring. ring.
Qed.

Lemma round_normal : forall x, bpow radix2 (-1022) <= Rabs x -> rnd64 x = rndX x.
Proof. intros x H. apply (round_FLT_FLX radix2 (-1074) 53). exact H. Qed.

Lemma small_normal : generic_format radix2 fexp64 (bpow radix2 (-1022)).
Proof. apply generic_format_bpow. vm_compute. congruence. Qed.
Lemma small_normal_X : generic_format radix2 (FLX_exp 53) (bpow radix2 (-1022)).
Proof. apply generic_format_bpow. unfold FLX_exp. lia. Qed.

(** results above the smallest normal number come from such numbers *)
Lemma normal_before : forall x, bpow radix2 (-1022) < Rabs (rnd64 x) -> bpow radix2 (-1022) <= Rabs x.
Proof.
  intros x H. destruct (Rle_or_lt (bpow radix2 (-1022)) (Rabs x)) as [L|L]; auto. exfalso.
  apply Rlt_not_le with (1 := H). apply abs_round_le_generic; try typeclasses eauto; [apply small_normal|lra].
Qed.
Lemma normal_before_X : forall x, bpow radix2 (-1022) < Rabs (rndX x) -> bpow radix2 (-1022) <= Rabs x.
Proof.
  intros x H. destruct (Rle_or_lt (bpow radix2 (-1022)) (Rabs x)) as [L|L]; auto. exfalso.
  apply Rlt_not_le with (1 := H). apply abs_round_le_generic; try typeclasses eauto; [apply small_normal_X|lra].
Qed.

Lemma shift_normal : forall x j, bpow radix2 (-1022) < Rabs (rnd64 x) -> bpow radix2 (-1022) < Rabs (rnd64 x) * bpow radix2 j ->
  rnd64 (x * bpow radix2 j) = rnd64 x * bpow radix2 j.
Proof.
  intros x j H1 H2. rewrite (round_normal x) in * by now apply normal_before. rewrite <- round_shift.
  apply round_normal. apply normal_before_X. rewrite round_shift, Rabs_mult, (Rabs_pos_eq (bpow radix2 j)) by apply bpow_ge_0. exact H2.
Qed.

Lemma sum_X : forall a b, generic_format radix2 fexp64 a -> generic_format radix2 fexp64 b -> rnd64 (a + b) = rndX (a + b).
Proof.
  intros a b Ha Hb. destruct (Rle_or_lt (bpow radix2 (-1022)) (Rabs (a + b))) as [H|H]; [now apply round_normal|].
  assert (G : generic_format radix2 (FLT_exp (-1074) 53) (a + b)).
  { apply FLT_format_plus_small; auto; [reflexivity|]. apply Rle_trans with (bpow radix2 (-1022)); [lra|]. apply bpow_le. lia. }
  rewrite !round_generic; auto; try typeclasses eauto. apply generic_format_FLX_FLT with (1 := G).
Qed.
Lemma shift_sum : forall a b j, generic_format radix2 fexp64 a -> generic_format radix2 fexp64 b ->
  generic_format radix2 fexp64 (a * bpow radix2 j) -> generic_format radix2 fexp64 (b * bpow radix2 j) ->
  rnd64 (a * bpow radix2 j + b * bpow radix2 j) = rnd64 (a + b) * bpow radix2 j.
Proof. intros a b j Ha Hb Ha' Hb'. rewrite !sum_X; auto. rewrite <- round_shift. f_equal. ring. Qed.

(** ** One operation *)
Lemma scaled_neg : forall j v v', scaled j v v' -> scaled j (fneg v) (fneg v').
Proof.
  intros j v v' (F & F' & E & S). unfold fneg. split; [now rewrite is_finite_Bopp|]. split; [now rewrite is_finite_Bopp|].
  split; [rewrite !B2R_Bopp, E; ring|]. rewrite !Bsign_Bopp by (now apply finite_not_nan). now rewrite S.
Qed.
Lemma scaled_abs : forall j v v', scaled j v v' -> scaled j (fabs v) (fabs v').
Proof.
  intros j v v' (F & F' & E & S). unfold fabs. split; [now rewrite is_finite_Babs|]. split; [now rewrite is_finite_Babs|].
  split; [rewrite !B2R_Babs, E, Rabs_mult, (Rabs_pos_eq (bpow radix2 j)) by apply bpow_ge_0; reflexivity|].
  rewrite !Bsign_Babs by (now apply finite_not_nan). reflexivity.
Qed.
Lemma scaled_format : forall j v v', scaled j v v' -> generic_format radix2 fexp64 (B2R v * bpow radix2 j).
Proof. intros j v v' (F & F' & E & S). rewrite <- E. apply format_f64. Qed.
Lemma Rcompare_shift : forall x j, Rcompare (x * bpow radix2 j) 0 = Rcompare x 0.
Proof.
  intros x j. pose proof (bpow_gt_0 radix2 j). destruct (Rcompare_spec x 0).
  - apply Rcompare_Lt. nra.
  - apply Rcompare_Eq. nra.
  - apply Rcompare_Gt. nra.
Qed.

Lemma infinite_not_finite : forall v s, B2SF v = binary_overflow prec64 emax64 mode_NE s -> is_finite (v : f64) = true -> False.
Proof. intros v s H F. apply overflow_infinity in H. subst v. discriminate F. Qed.
Lemma abs_shift : forall x j, Rabs (x * bpow radix2 j) = Rabs x * bpow radix2 j.
Proof. intros. rewrite Rabs_mult, (Rabs_pos_eq (bpow radix2 j)) by apply bpow_ge_0. reflexivity. Qed.

Lemma scaled_add : forall k d a a' b b', scaled (k * d) a a' -> scaled (k * d) b b' -> fits k d (fadd a b) -> scaled (k * d) (fadd a b) (fadd a' b').
Proof.
  intros k d a a' b b' Sa Sb [F Hb].
  pose proof (shift_sum (B2R a) (B2R b) (k * d) (format_f64 a) (format_f64 b) (scaled_format _ _ _ Sa) (scaled_format _ _ _ Sb)) as E.
  destruct Sa as (Fa & Fa' & Ea & Ga), Sb as (Fb & Fb' & Eb & Gb).
  pose proof (Bplus_correct prec64 emax64 Hprec64 Hmax64 mode_NE a b Fa Fb) as H. fold (fadd a b) in H.
  pose proof (Bplus_correct prec64 emax64 Hprec64 Hmax64 mode_NE a' b' Fa' Fb') as H'. fold (fadd a' b') in H'.
  destruct (Rlt_bool (Rabs (rnd64 (B2R a + B2R b))) (bpow radix2 emax64)); [|exfalso; exact (infinite_not_finite _ _ (proj1 H) F)].
  destruct H as [HR [_ HS]]. rewrite Ea, Eb, E in H'. rewrite Rlt_bool_true in H'.
  2:{ rewrite abs_shift, <- HR. exact Hb. }
  destruct H' as [HR' [HF' HS']]. split; [exact F|]. split; [exact HF'|]. split; [rewrite HR', HR; reflexivity|].
  rewrite HS, HS'. rewrite <- Rmult_plus_distr_r, Rcompare_shift, Ga, Gb. reflexivity.
Qed.
Lemma scaled_sub : forall k d a a' b b', scaled (k * d) a a' -> scaled (k * d) b b' -> fits k d (fsub a b) -> scaled (k * d) (fsub a b) (fsub a' b').
Proof. intros k d a a' b b' Sa Sb F. rewrite fsub_fneg in F. rewrite !fsub_fneg. apply scaled_add; auto. now apply scaled_neg. Qed.

Lemma scaled_result : forall k d (x : R) (r : f64), B2R r = rnd64 x -> fits k d r -> x = 0 \/ normal k d r ->
  rnd64 (x * bpow radix2 (k * d)) = B2R r * bpow radix2 (k * d) /\
  Rlt_bool (Rabs (rnd64 (x * bpow radix2 (k * d)))) (bpow radix2 emax64) = true.
Proof.
  intros k d x r E [F Hb] Hn.
  assert (K : rnd64 (x * bpow radix2 (k * d)) = B2R r * bpow radix2 (k * d)).
  { rewrite E. destruct Hn as [->|[N1 N2]]; [rewrite Rmult_0_l, !rnd64_0; ring|]. rewrite E in *. now apply shift_normal. }
  split; [exact K|]. apply Rlt_bool_true. rewrite K, abs_shift. exact Hb.
Qed.

Lemma scaled_mul : forall k d e a a' b b', scaled (k * d) a a' -> scaled (k * e) b b' -> fits k (d + e) (fmul a b) ->
  B2R a = 0 \/ B2R b = 0 \/ normal k (d + e) (fmul a b) -> scaled (k * (d + e)) (fmul a b) (fmul a' b').
Proof.
  intros k d e a a' b b' (Fa & Fa' & Ea & Ga) (Fb & Fb' & Eb & Gb) Hf Hn.
  pose proof (Bmult_correct prec64 emax64 Hprec64 Hmax64 mode_NE a b) as H. fold (fmul a b) in H.
  pose proof (Bmult_correct prec64 emax64 Hprec64 Hmax64 mode_NE a' b') as H'. fold (fmul a' b') in H'.
  destruct (Rlt_bool (Rabs (rnd64 (B2R a * B2R b))) (bpow radix2 emax64)); [|exfalso; exact (infinite_not_finite _ _ H (proj1 Hf))].
  destruct H as [HR [HF HS]].
  assert (Hx : B2R a * B2R b = 0 \/ normal k (d + e) (fmul a b)) by (destruct Hn as [Z|[Z|N]]; [left; rewrite Z; ring|left; rewrite Z; ring|now right]).
  destruct (scaled_result k (d + e) _ _ HR Hf Hx) as [K L].
  replace (B2R a' * B2R b') with (B2R a * B2R b * bpow radix2 (k * (d + e))) in H'.
  2:{ rewrite Ea, Eb, Z.mul_add_distr_l, bpow_plus. ring. }
  rewrite L in H'. destruct H' as [HR' [HF' HS']].
  split; [apply Hf|]. split; [rewrite HF', Fa', Fb'; reflexivity|]. split; [rewrite HR'; exact K|].
  rewrite HS by (apply finite_not_nan; apply Hf).
  rewrite HS' by (apply finite_not_nan; rewrite HF', Fa', Fb'; reflexivity). now rewrite Ga, Gb.
Qed.

Lemma scaled_div : forall k d e a a' b b', scaled (k * d) a a' -> scaled (k * e) b b' -> B2R b <> 0 -> fits k (d - e) (fdiv a b) ->
  B2R a = 0 \/ normal k (d - e) (fdiv a b) -> scaled (k * (d - e)) (fdiv a b) (fdiv a' b').
Proof.
  intros k d e a a' b b' (Fa & Fa' & Ea & Ga) (Fb & Fb' & Eb & Gb) Hz Hf Hn.
  assert (Hz' : B2R b' <> 0) by (rewrite Eb; pose proof (bpow_gt_0 radix2 (k * e)); nra).
  pose proof (Bdiv_correct prec64 emax64 Hprec64 Hmax64 mode_NE a b Hz) as H. fold (fdiv a b) in H.
  pose proof (Bdiv_correct prec64 emax64 Hprec64 Hmax64 mode_NE a' b' Hz') as H'. fold (fdiv a' b') in H'.
  destruct (Rlt_bool (Rabs (rnd64 (B2R a / B2R b))) (bpow radix2 emax64)); [|exfalso; exact (infinite_not_finite _ _ H (proj1 Hf))].
  destruct H as [HR [HF HS]].
  assert (Hx : B2R a / B2R b = 0 \/ normal k (d - e) (fdiv a b)) by (destruct Hn as [Z|N]; [left; rewrite Z; unfold Rdiv; ring|now right]).
  destruct (scaled_result k (d - e) _ _ HR Hf Hx) as [K L].
  replace (B2R a' / B2R b') with (B2R a / B2R b * bpow radix2 (k * (d - e))) in H'.
  2:{ rewrite Ea, Eb. replace (k * (d - e))%Z with (k * d + - (k * e))%Z by ring. rewrite bpow_plus, bpow_opp. field.
      split; [apply Rgt_not_eq, bpow_gt_0|exact Hz]. }
  rewrite L in H'. destruct H' as [HR' [HF' HS']].
  split; [apply Hf|]. split; [rewrite HF'; exact Fa'|]. split; [rewrite HR'; exact K|].
  rewrite HS by (apply finite_not_nan; apply Hf).
  rewrite HS' by (apply finite_not_nan; rewrite HF'; exact Fa'). now rewrite Ga, Gb.
Qed.

Lemma scaled_same : forall v, is_finite v = true -> scaled 0 v v.
Proof. intros v F. split; [exact F|]. split; [exact F|]. split; [cbn [bpow]; ring|reflexivity]. Qed.
Lemma scaled_0 : forall v v', scaled 0 v v' -> v' = v.
Proof.
  intros v v' (F & F' & E & S). apply B2R_Bsign_inj; auto. rewrite E. cbn [bpow]. ring.
Qed.
Lemma scaled_zero : forall j s, scaled j (B754_zero s) (B754_zero s).
Proof. intros j s. split; [reflexivity|]. split; [reflexivity|]. split; [|reflexivity]. cbn [B2R]. ring. Qed.

Lemma frecip_div : forall x, frecip x = fdiv fone x. Proof. reflexivity. Qed.
Lemma scaled_recip : forall k d a a', scaled (k * d) a a' -> B2R a <> 0 -> fits k (- d) (frecip a) -> normal k (- d) (frecip a) ->
  scaled (k * - d) (frecip a) (frecip a').
Proof.
  intros k d a a' S Hz Hf Hn. rewrite !frecip_div in *. change (- d)%Z with (0 - d)%Z in *.
  apply scaled_div; auto. rewrite Z.mul_0_r. apply scaled_same. reflexivity.
Qed.

Lemma scaled_rem : forall j a a' b b', scaled j a a' -> scaled j b b' -> B2R b <> 0 -> scaled j (frem a b) (frem a' b').
Proof.
  intros j a a' b b' (Fa & Fa' & Ea & Ga) (Fb & Fb' & Eb & Gb) Hz. pose proof (bpow_gt_0 radix2 j) as P.
  assert (Hz' : B2R b' <> 0) by (rewrite Eb; nra).
  destruct (frem_correct a b Fa Fb Hz) as (R1 & F1 & S1 & _). destruct (frem_correct a' b' Fa' Fb' Hz') as (R2 & F2 & S2 & _).
  split; [exact F1|]. split; [exact F2|]. split; [|congruence]. rewrite R1, R2, Ea, Eb.
  replace (B2R a * bpow radix2 j / (B2R b * bpow radix2 j)) with (B2R a / B2R b); [ring|]. field. split; [lra|exact Hz].
Qed.

Lemma scaled_sqrt : forall k d a a', scaled (k * (2 * d)) a a' -> 0 <= B2R a -> scaled (k * d) (fsqrt a) (fsqrt a').
Proof.
  intros k d a a' (Fa & Fa' & Ea & Ga) Hp.
  destruct (Req_dec (B2R a) 0) as [Z|Z].
  { assert (Z' : B2R a' = 0) by (rewrite Ea, Z; ring). rewrite (finite_zero a Fa Z), (finite_zero a' Fa' Z'), Ga.
    apply scaled_zero. }
  assert (P : 0 < B2R a) by lra. assert (P' : 0 < B2R a') by (rewrite Ea; pose proof (bpow_gt_0 radix2 (k * (2 * d))); nra).
  assert (Low : forall v : f64, 0 < B2R v -> bpow radix2 (-537) <= sqrt (B2R v)).
  { intros v Pv. rewrite <- (sqrt_square (bpow radix2 (-537))) by apply bpow_ge_0. apply sqrt_le_1_alt. rewrite <- bpow_plus.
    change (-537 + -537)%Z with (-1074)%Z. pose proof (format_f64 v) as G.
    assert (Hg : bpow radix2 (-1074) <= Rabs (B2R v)).
    { apply (generic_format_ge_bpow radix2 fexp64 (-1074)); [intro e; rewrite fexp64_FLT; apply Z.le_max_r|now rewrite Rabs_pos_eq by lra|].
      apply generic_format_abs. exact G. }
    rewrite Rabs_pos_eq in Hg by lra. exact Hg. }
  assert (Es : sqrt (B2R a') = sqrt (B2R a) * bpow radix2 (k * d)).
  { rewrite Ea. replace (k * (2 * d))%Z with (k * d + k * d)%Z by ring. rewrite bpow_plus, sqrt_mult_alt by lra.
    rewrite sqrt_square by apply bpow_ge_0. reflexivity. }
  assert (N : forall v : f64, 0 < B2R v -> rnd64 (sqrt (B2R v)) = rndX (sqrt (B2R v))).
  { intros v Pv. apply round_normal. rewrite Rabs_pos_eq by apply sqrt_pos. apply Rle_trans with (2 := Low v Pv). apply bpow_le. lia. }
  destruct (Bsqrt_correct prec64 emax64 Hprec64 Hmax64 mode_NE a) as [HR [HF HS]]. fold (fsqrt a) in *.
  destruct (Bsqrt_correct prec64 emax64 Hprec64 Hmax64 mode_NE a') as [HR' [HF' HS']]. fold (fsqrt a') in *.
  assert (F : is_finite (fsqrt a) = true).
  { rewrite HF. destruct a as [s|s| |s m e B]; try discriminate Fa; [reflexivity|]. destruct s; [|reflexivity]. cbn in P.
    pose proof (F2R_lt_0 radix2 (Float radix2 (Zneg m) e) eq_refl). lra. }
  assert (F' : is_finite (fsqrt a') = true).
  { rewrite HF'. destruct a' as [s|s| |s m e B]; try discriminate Fa'; [reflexivity|]. destruct s; [|reflexivity]. cbn in P'.
    pose proof (F2R_lt_0 radix2 (Float radix2 (Zneg m) e) eq_refl). lra. }
  split; [exact F|]. split; [exact F'|]. split.
  - rewrite HR', HR. rewrite (N a P), (N a' P'), Es. apply round_shift.
  - rewrite HS by now apply finite_not_nan. rewrite HS' by now apply finite_not_nan. exact Ga.
Qed.

(** ** Lists *)
Lemma scaled_fold : forall k d vs vs', Forall2 (scaled (k * d)) vs vs' ->
  forall a b, scaled (k * d) a b -> (forall n, fits k d (fold_left fadd (firstn n vs) a)) ->
  scaled (k * d) (fold_left fadd vs a) (fold_left fadd vs' b).
Proof.
  intros k d vs vs' H. induction H as [|x y l m Hxy H IH]; intros a b Hs Hf; cbn [fold_left]; [exact Hs|].
  apply IH.
  - apply scaled_add; auto. exact (Hf 1%nat).
  - intro n. exact (Hf (S n)).
Qed.
Lemma scaled_sum : forall w k d vs vs', Forall2 (scaled (k * d)) vs vs' -> (forall n, fits k d (sum_f64 w (firstn n vs))) ->
  scaled (k * d) (sum_f64 w vs) (sum_f64 w vs').
Proof.
  intros w k d vs vs' H Hf. unfold sum_f64 in *. apply scaled_fold; auto. destruct (sum_neg_zero w); apply scaled_zero.
Qed.

Lemma scaled_flt : forall j a a' b b', scaled j a a' -> scaled j b b' -> flt a' b' = flt a b.
Proof.
  intros j a a' b b' (Fa & Fa' & Ea & Ga) (Fb & Fb' & Eb & Gb). unfold flt. rewrite !Bltb_correct by auto. rewrite Ea, Eb.
  pose proof (bpow_gt_0 radix2 j). destruct (Rlt_bool_spec (B2R a) (B2R b)); [apply Rlt_bool_true|apply Rlt_bool_false]; nra.
Qed.
Lemma scaled_min : forall w j a a' b b', scaled j a a' -> scaled j b b' -> scaled j (min_f64 w a b) (min_f64 w a' b').
Proof.
  intros w j a a' b b' Sa Sb. unfold min_f64, fis_nan. rewrite (scaled_flt j a a' b b'), (scaled_flt j b b' a a') by auto.
  rewrite !finite_not_nan by (apply Sa || apply Sb). destruct (flt a b), (flt b a), (minmax_second w); auto.
Qed.
Lemma scaled_max : forall w j a a' b b', scaled j a a' -> scaled j b b' -> scaled j (max_f64 w a b) (max_f64 w a' b').
Proof.
  intros w j a a' b b' Sa Sb. unfold max_f64, fis_nan. rewrite (scaled_flt j a a' b b'), (scaled_flt j b b' a a') by auto.
  rewrite !finite_not_nan by (apply Sa || apply Sb). destruct (flt a b), (flt b a), (minmax_second w); auto.
Qed.
Lemma min_inf : forall w (a : f64), is_finite a = true -> min_f64 w finf a = a.
Proof. intros w [s|s| |s m e B] F; try discriminate F; unfold min_f64; cbn; destruct s; reflexivity. Qed.
Lemma max_inf : forall w (a : f64), is_finite a = true -> max_f64 w fninf a = a.
Proof. intros w [s|s| |s m e B] F; try discriminate F; unfold max_f64; cbn; destruct s; reflexivity. Qed.
Lemma scaled_fold2 : forall (f : f64 -> f64 -> f64) j, (forall a a' b b', scaled j a a' -> scaled j b b' -> scaled j (f a b) (f a' b')) ->
  forall vs vs', Forall2 (scaled j) vs vs' -> forall a b, scaled j a b -> scaled j (fold_left f vs a) (fold_left f vs' b).
Proof. intros f j Hf vs vs' H. induction H; intros a b Hs; cbn [fold_left]; auto. Qed.

Lemma scaled_mean : forall k d vs vs' s s', scaled (k * d) s s' -> fits k d s -> List.length vs' = List.length vs -> vs <> [] ->
  (Z.of_nat (List.length vs) <= 2 ^ 53)%Z -> let n := f64_of_Z (Z.of_nat (@List.length f64 vs)) in
  B2R s = 0 \/ normal k d (fdiv s n) -> scaled (k * d) (fdiv s n) (fdiv s' (f64_of_Z (Z.of_nat (@List.length f64 vs')))).
Proof.
  intros k d vs vs' s s' Hs Hf Hl Hne Hn n H. rewrite Hl. fold n.
  destruct (f64_of_Z_small (Z.of_nat (List.length vs))) as [EB FB]; [lia|]. fold n in EB, FB.
  assert (P : 1 <= B2R n) by (rewrite EB; apply IZR_le; destruct vs; [congruence|cbn [List.length]; lia]).
  replace (k * d)%Z with (k * (d - 0))%Z by ring. replace d with (d - 0)%Z in H, Hf by ring.
  apply scaled_div; auto.
  - rewrite Z.mul_0_r. now apply scaled_same.
  - lra.
  - destruct Hf as [Fs Hb].
    assert (L : Rabs (rnd64 (B2R s / B2R n)) <= Rabs (B2R s)).
    { apply abs_round_le_generic; try typeclasses eauto; [apply generic_format_abs, format_f64|].
      unfold Rdiv. rewrite Rabs_mult, Rabs_inv, (Rabs_pos_eq (B2R n)) by lra.
      assert (/ B2R n <= 1) by (rewrite <- Rinv_1; apply Rinv_le_contravar; lra). pose proof (Rabs_pos (B2R s)). nra. }
    pose proof (Bdiv_correct prec64 emax64 Hprec64 Hmax64 mode_NE s n ltac:(lra)) as HD. fold (fdiv s n) in HD.
    rewrite Rlt_bool_true in HD by (apply Rle_lt_trans with (1 := L); apply abs_B2R_lt_emax).
    destruct HD as [HR [HF _]]. split; [congruence|]. rewrite HR. apply Rle_lt_trans with (2 := Hb).
    apply Rmult_le_compat_r; [apply bpow_ge_0|exact L].
Qed.

Scheme scales_min := Minimality for scales Sort Prop
  with scales_all_min := Minimality for scales_all Sort Prop.
Combined Scheme scales_mutind from scales_min, scales_all_min.

Lemma scaled_0_all : forall vs vs', Forall2 (scaled 0) vs vs' -> vs' = vs.
Proof. intros vs vs' H. induction H as [|x y l m Hxy H IH]; auto. now rewrite (scaled_0 _ _ Hxy), IH. Qed.

Lemma scales_means : forall w k deg rho rho', rescaled k deg rho rho' ->
  (forall e d v, scales w k deg rho e d v -> means w rho e v /\ exists v', means w rho' e v' /\ scaled (k * d) v v') /\
  (forall l d vs, scales_all w k deg rho l d vs -> means_all w rho l vs /\ exists vs', means_all w rho' l vs' /\ Forall2 (scaled (k * d)) vs vs').
Proof.
  intros w k deg rho rho' Hr. apply scales_mutind.
  - intros n F. split; [constructor|]. exists n. split; [constructor|]. rewrite Z.mul_0_r. now apply scaled_same.
  - intros s d. split; [constructor|]. exists (B754_zero s). split; [constructor|]. apply scaled_zero.
  - intros x v E F. split; [now constructor|]. destruct (Hr x v E F) as [v' [E' S]]. exists v'. split; [now constructor|exact S].
  - intros a b d x y _ [Ma [x' [Ma' Sa]]] _ [Mb [y' [Mb' Sb]]] Hf. split; [now constructor|].
    exists (fadd x' y'). split; [now constructor|]. now apply scaled_add.
  - intros a b d x y _ [Ma [x' [Ma' Sa]]] _ [Mb [y' [Mb' Sb]]] Hf. split; [now constructor|].
    exists (fsub x' y'). split; [now constructor|]. now apply scaled_sub.
  - intros a b d x y _ [Ma [x' [Ma' Sa]]] _ [Mb [y' [Mb' Sb]]] Hz. split; [now constructor|].
    exists (frem x' y'). split; [now constructor|]. now apply scaled_rem.
  - intros args d vs v _ [M [vs' [M' S]]] Hf Hv. split; [now apply M_call with (vs := vs)|].
    exists (sum_f64 w vs'). split; [now apply M_call with (vs := vs')|]. injection Hv as <-. apply scaled_sum; auto.
    intro n. exact (Hf n _ eq_refl).
  - intros args d vs v _ [M [vs' [M' S]]] Hf Hne Hn Hv Hs. split; [now apply M_call with (vs := vs)|].
    exists (fdiv (sum_f64 w vs') (f64_of_Z (Z.of_nat (List.length vs')))). split; [now apply M_call with (vs := vs')|].
    assert (S' : scaled (k * d) (sum_f64 w vs) (sum_f64 w vs')) by (apply scaled_sum; auto; intro n; exact (Hf n _ eq_refl)).
    injection Hv as <-. apply scaled_mean; auto.
    + rewrite <- (firstn_all vs). exact (Hf _ _ eq_refl).
    + clear -S. induction S; cbn [List.length]; congruence.
    + destruct Hs as [[s [E Z]]|N]; [left|now right]. injection E as <-. exact Z.
  - intros args d vs v _ [M [vs' [M' S]]] Hne Hv. split; [now apply M_call with (vs := vs)|].
    exists (fold_left (min_f64 w) vs' finf). split; [now apply M_call with (vs := vs')|]. injection Hv as <-.
    inversion S as [|x y l m Hxy Hlm E1 E2]; subst; [congruence|]. cbn [fold_left].
    rewrite !min_inf by apply Hxy. apply scaled_fold2; auto. intros. now apply scaled_min.
  - intros args d vs v _ [M [vs' [M' S]]] Hne Hv. split; [now apply M_call with (vs := vs)|].
    exists (fold_left (max_f64 w) vs' fninf). split; [now apply M_call with (vs := vs')|]. injection Hv as <-.
    inversion S as [|x y l m Hxy Hlm E1 E2]; subst; [congruence|]. cbn [fold_left].
    rewrite !max_inf by apply Hxy. apply scaled_fold2; auto. intros. now apply scaled_max.
  - intros a b d e x y _ [Ma [x' [Ma' Sa]]] _ [Mb [y' [Mb' Sb]]] Hf Hn. split; [now constructor|].
    exists (fmul x' y'). split; [now constructor|]. now apply scaled_mul.
  - intros a b d e x y _ [Ma [x' [Ma' Sa]]] _ [Mb [y' [Mb' Sb]]] Hz Hf Hn. split; [now constructor|].
    exists (fdiv x' y'). split; [now constructor|]. now apply scaled_div.
  - intros a d x _ [Ma [x' [Ma' Sa]]] Hz Hf Hn.
    split; [apply M_call with (vs := [x]); [constructor; auto; constructor|reflexivity]|].
    exists (frecip x'). split; [apply M_call with (vs := [x']); [constructor; auto; constructor|reflexivity]|]. now apply scaled_recip.
  - intros a d x _ [Ma [x' [Ma' Sa]]] Hp.
    split; [apply M_call with (vs := [x]); [constructor; auto; constructor|reflexivity]|].
    exists (fsqrt x'). split; [apply M_call with (vs := [x']); [constructor; auto; constructor|reflexivity]|]. now apply scaled_sqrt.
  - intros a d x _ [Ma [x' [Ma' Sa]]]. split; [now constructor|]. exists x'. split; [now constructor|exact Sa].
  - intros a d x _ [Ma [x' [Ma' Sa]]]. split; [now constructor|]. exists (fneg x'). split; [now constructor|now apply scaled_neg].
  - intros a d x _ [Ma [x' [Ma' Sa]]].
    split; [apply M_call with (vs := [x]); [constructor; auto; constructor|reflexivity]|].
    exists (fabs x'). split; [apply M_call with (vs := [x']); [constructor; auto; constructor|reflexivity]|]. now apply scaled_abs.
  - intros a b x y _ [Ma [x' [Ma' Sa]]] _ [Mb [y' [Mb' Sb]]] F. rewrite Z.mul_0_r in *. apply scaled_0 in Sa, Sb. subst x' y'.
    split; [now constructor|]. exists (l_powf w x y). split; [now constructor|now apply scaled_same].
  - intros a x _ [Ma [x' [Ma' Sa]]] F. rewrite Z.mul_0_r in *. apply scaled_0 in Sa. subst x'.
    split; [now constructor|]. exists (factorial x). split; [now constructor|now apply scaled_same].
  - intros f args vs v _ [M [vs' [M' S]]] Hv F. rewrite Z.mul_0_r in *. apply scaled_0_all in S. subst vs'.
    split; [now apply M_call with (vs := vs)|]. exists v. split; [now apply M_call with (vs := vs)|now apply scaled_same].
  - intros d. split; [constructor|]. exists []. split; constructor.
  - intros a args d v vs _ [Ma [v' [Ma' Sa]]] _ [M [vs' [M' S]]]. split; [now constructor|]. exists (v' :: vs'). split; now constructor.
Qed.

(** ** C81 *)
(** When the values of the variables are changed by powers of 2^k according to
    their degrees, the value of an expression of degree d changes by exactly
    (2^k)^d. *)
Theorem C81_change_of_unit : forall w x k degree_of rho rho' d v,
  scales w k degree_of (lookup rho) (root x) d v ->
  rescaled k degree_of (lookup rho) (lookup rho') ->
  eval w x rho = Val (Eval_ok v) /\
  exists v', eval w x rho' = Val (Eval_ok v') /\ scaled (k * d) v v'.
Proof.
  intros w x k deg rho rho' d v H Hr. destruct (proj1 (scales_means w k deg _ _ Hr) _ _ _ H) as [M [v' [M' S]]].
  split; [now apply C21_eval_is_meaning|]. exists v'. split; [now apply C21_eval_is_meaning|exact S].
Qed.

(** In particular an expression of degree 0 keeps its value. *)
Theorem C81_pure_number : forall w x k degree_of rho rho' v,
  scales w k degree_of (lookup rho) (root x) 0 v ->
  rescaled k degree_of (lookup rho) (lookup rho') ->
  eval w x rho' = eval w x rho.
Proof.
  intros w x k deg rho rho' v H Hr. destruct (C81_change_of_unit _ _ _ _ _ _ _ _ H Hr) as [E [v' [E' S]]].
  rewrite Z.mul_0_r in S. rewrite E, E', (scaled_0 _ _ S). reflexivity.
Qed.

(** ** Examples *)
Definition between (lo hi : Z) (v : f64) : Prop := is_finite v = true /\ bpow radix2 lo <= Rabs (B2R v) <= bpow radix2 hi.
Lemma round_between : forall lo hi r, (-1022 <= lo)%Z -> (hi <= 1023)%Z -> bpow radix2 lo <= Rabs r <= bpow radix2 hi ->
  bpow radix2 lo <= Rabs (rnd64 r) <= bpow radix2 hi.
Proof.
  intros lo hi r Hl Hh [L H].
  assert (G : forall e, (-1022 <= e)%Z -> generic_format radix2 fexp64 (bpow radix2 e)).
  { intros e He. apply generic_format_bpow. rewrite fexp64_FLT. unfold FLT_exp. lia. }
  assert (lo <= hi)%Z by (apply (le_bpow radix2); lra).
  split; [apply abs_round_ge_generic|apply abs_round_le_generic]; try typeclasses eauto; auto; apply G; lia.
Qed.
Lemma below_max : forall hi x, (hi <= 1023)%Z -> x <= bpow radix2 hi -> x < bpow radix2 1024.
Proof. intros hi x Hh H. apply Rle_lt_trans with (1 := H). apply bpow_lt. lia. Qed.
Lemma mul_between : forall l h l' h' a b, between l h a -> between l' h' b -> (-1022 <= l + l')%Z -> (h + h' <= 1023)%Z ->
  between (l + l') (h + h') (fmul a b) /\ B2R (fmul a b) = rnd64 (B2R a * B2R b).
Proof.
  intros l h l' h' a b [Fa [La Ha]] [Fb [Lb Hb]] Hl Hh.
  assert (B : bpow radix2 (l + l') <= Rabs (B2R a * B2R b) <= bpow radix2 (h + h')).
  { rewrite Rabs_mult, !bpow_plus. pose proof (bpow_gt_0 radix2 l). pose proof (bpow_gt_0 radix2 l').
    split; apply Rmult_le_compat; lra || apply Rabs_pos. }
  apply round_between in B; auto.
  pose proof (Bmult_correct prec64 emax64 Hprec64 Hmax64 mode_NE a b) as H. fold (fmul a b) in H.
  rewrite Rlt_bool_true in H by (apply (below_max (h + h')); auto; apply B).
  destruct H as [HR [HF _]]. split; [|exact HR]. split; [rewrite HF, Fa, Fb; reflexivity|]. rewrite HR. exact B.
Qed.
Lemma div_between : forall l h l' h' a b, between l h a -> between l' h' b -> (-1022 <= l - h')%Z -> (h - l' <= 1023)%Z ->
  between (l - h') (h - l') (fdiv a b).
Proof.
  intros l h l' h' a b [Fa [La Ha]] [Fb [Lb Hb]] Hl Hh.
  assert (Pl : 0 < Rabs (B2R b)) by (apply Rlt_le_trans with (2 := Lb); apply bpow_gt_0).
  assert (Z : B2R b <> 0) by (intro Z; rewrite Z, Rabs_R0 in Pl; lra).
  assert (B : bpow radix2 (l - h') <= Rabs (B2R a / B2R b) <= bpow radix2 (h - l')).
  { unfold Rdiv, Zminus. rewrite Rabs_mult, Rabs_inv, !bpow_plus, !bpow_opp.
    pose proof (bpow_gt_0 radix2 l). pose proof (bpow_gt_0 radix2 l'). pose proof (bpow_gt_0 radix2 h').
    split; apply Rmult_le_compat; try apply Rabs_pos; try (apply Rlt_le, Rinv_0_lt_compat; lra); try lra; apply Rinv_le_contravar; lra. }
  apply round_between in B; auto.
  pose proof (Bdiv_correct prec64 emax64 Hprec64 Hmax64 mode_NE a b Z) as H. fold (fdiv a b) in H.
  rewrite Rlt_bool_true in H by (apply (below_max (h - l')); auto; apply B).
  destruct H as [HR [HF _]]. split; [congruence|]. rewrite HR. exact B.
Qed.
Lemma add_between : forall l h a b, between l h a -> between l h b -> 0 <= B2R a -> 0 <= B2R b -> (-1022 <= l)%Z -> (h + 1 <= 1023)%Z ->
  between l (h + 1) (fadd a b) /\ 0 <= B2R (fadd a b).
Proof.
  intros l h a b [Fa [La Ha]] [Fb [Lb Hb]] Pa Pb Hl Hh. rewrite Rabs_pos_eq in * by auto.
  assert (B : bpow radix2 l <= Rabs (B2R a + B2R b) <= bpow radix2 (h + 1)).
  { rewrite Rabs_pos_eq, bpow_plus by lra. change (bpow radix2 1) with 2. lra. }
  apply round_between in B; auto.
  pose proof (Bplus_correct prec64 emax64 Hprec64 Hmax64 mode_NE a b Fa Fb) as H. fold (fadd a b) in H.
  rewrite Rlt_bool_true in H by (apply (below_max (h + 1)); auto; apply B).
  destruct H as [HR [HF _]]. split; [split; auto; now rewrite HR|]. rewrite HR, <- rnd64_0. apply round_le; try typeclasses eauto. lra.
Qed.
Lemma sqrt_between : forall l h a, between (2 * l) (2 * h) a -> 0 <= B2R a -> (-1022 <= l)%Z -> (h <= 1023)%Z -> between l h (fsqrt a).
Proof.
  intros l h a [F [L H]] P Hl Hh. rewrite Rabs_pos_eq in * by auto.
  destruct (Bsqrt_correct prec64 emax64 Hprec64 Hmax64 mode_NE a) as [HR [HF _]]. fold (fsqrt a) in *.
  assert (B : bpow radix2 l <= Rabs (sqrt (B2R a)) <= bpow radix2 h).
  { rewrite Rabs_pos_eq by apply sqrt_pos. replace (2 * l)%Z with (l + l)%Z in L by ring. replace (2 * h)%Z with (h + h)%Z in H by ring.
    rewrite bpow_plus in L, H. split; [rewrite <- (sqrt_square (bpow radix2 l)) by apply bpow_ge_0|rewrite <- (sqrt_square (bpow radix2 h)) by apply bpow_ge_0];
    apply sqrt_le_1_alt; assumption. }
  apply round_between in B; auto. split; [|rewrite HR; exact B].
  rewrite HF. destruct a as [s|s| |s m e Bo]; try discriminate F; [reflexivity|]. destruct s; [|reflexivity]. exfalso.
  pose proof (F2R_lt_0 radix2 (Float radix2 (Zneg m) e) eq_refl). cbn in P. lra.
Qed.
Lemma between_fits : forall k d l h v, between l h v -> (h + k * d <= 1023)%Z -> fits k d v.
Proof.
  intros k d l h v [F [L H]] Hh. split; [exact F|]. apply (below_max (h + k * d)); auto. rewrite bpow_plus.
  apply Rmult_le_compat_r; [apply bpow_ge_0|exact H].
Qed.
Lemma between_normal : forall k d l h v, between l h v -> (-1022 < l)%Z -> (-1022 < l + k * d)%Z -> normal k d v.
Proof.
  intros k d l h v [F [L H]] H1 H2. split.
  - apply Rlt_le_trans with (2 := L). apply bpow_lt. exact H1.
  - apply Rlt_le_trans with (bpow radix2 (l + k * d)); [apply bpow_lt; exact H2|]. rewrite bpow_plus.
    apply Rmult_le_compat_r; [apply bpow_ge_0|exact L].
Qed.

(** The cosine of the direction of (x, y) does not depend on the unit. *)
Theorem C81_example_for_all_values : exists e,
  parse plain_config w0 ctx_default "x / sqrt(x*x + y*y)" = Parse_ok e /\
  forall w k vx vy vx' vy', (-100 <= k <= 100)%Z ->
    is_finite vx = true -> bpow radix2 (-100) <= Rabs (B2R vx) <= bpow radix2 100 ->
    is_finite vy = true -> bpow radix2 (-100) <= Rabs (B2R vy) <= bpow radix2 100 ->
    scaled k vx vx' -> scaled k vy vy' ->
    eval w e [("x"%string, vx'); ("y"%string, vy')] = eval w e [("x"%string, vx); ("y"%string, vy)].
Proof.
  set (tq := BinOp Plus (BinOp Times (Var "x") (Var "x")) (BinOp Times (Var "y") (Var "y"))).
  set (te := BinOp Divide (Var "x") (call B_SQRT [tq])).
  destruct (parses_to (parse plain_config w0 ctx_default "x / sqrt(x*x + y*y)") te) as [e [Hp Hr]]; [vm_compute; reflexivity|].
  exists e. split; [exact Hp|]. clear Hp. intros w k vx vy vx' vy' Hk Fx Bx Fy By Sx Sy.
  set (rho := [("x"%string, vx); ("y"%string, vy)]). set (deg := fun _ : string => 1%Z).
  assert (Nx : between (-100) 100 vx) by (split; auto). assert (Ny : between (-100) 100 vy) by (split; auto).
  destruct (mul_between _ _ _ _ _ _ Nx Nx) as [Nxx Exx]; [lia|lia|]. destruct (mul_between _ _ _ _ _ _ Ny Ny) as [Nyy Eyy]; [lia|lia|].
  assert (P : forall r, 0 <= rnd64 (r * r)).
  { intro r. rewrite <- rnd64_0. apply round_le; try typeclasses eauto. apply Rle_0_sqr. }
  assert (Pxx : 0 <= B2R (fmul vx vx)) by (rewrite Exx; apply P). assert (Pyy : 0 <= B2R (fmul vy vy)) by (rewrite Eyy; apply P).
  destruct (add_between _ _ _ _ Nxx Nyy Pxx Pyy) as [Nq Pq]; [lia|lia|].
  assert (Ns : between (-100) 101 (fsqrt (fadd (fmul vx vx) (fmul vy vy)))).
  { apply sqrt_between; try lia; auto. destruct Nq as [F [L H]]. split; auto. split; [exact L|]. apply Rle_trans with (1 := H). apply bpow_le. lia. }
  assert (Nd := div_between _ _ _ _ _ _ Nx Ns ltac:(lia) ltac:(lia)).
  assert (X : scales w k deg (lookup rho) (Var "x") 1 vx) by (apply (S_var w k deg (lookup rho) "x" vx eq_refl Fx)).
  assert (Y : scales w k deg (lookup rho) (Var "y") 1 vy) by (apply (S_var w k deg (lookup rho) "y" vy eq_refl Fy)).
  apply C81_pure_number with (k := k) (degree_of := deg) (v := fdiv vx (fsqrt (fadd (fmul vx vx) (fmul vy vy)))).
  - rewrite Hr. apply (S_divide w k deg (lookup rho) (Var "x") (call B_SQRT [tq]) 1 1).
    + exact X.
    + apply S_sqrt; [|exact Pq]. apply S_plus.
      * apply (S_times w k deg (lookup rho) (Var "x") (Var "x") 1 1); auto; [eapply between_fits; eauto; lia|].
        right. right. eapply between_normal; eauto; lia.
      * apply (S_times w k deg (lookup rho) (Var "y") (Var "y") 1 1); auto; [eapply between_fits; eauto; lia|].
        right. right. eapply between_normal; eauto; lia.
      * eapply between_fits; eauto. lia.
    + intro Z. destruct Ns as [_ [L _]]. rewrite Z, Rabs_R0 in L. pose proof (bpow_gt_0 radix2 (-100)). lra.
    + eapply between_fits; eauto. lia.
    + right. eapply between_normal; eauto; lia.
  - intros z v. unfold rho. cbn [lookup]. unfold deg. rewrite Z.mul_1_r.
    destruct (String.eqb z "x" || String.eqb "x" z)%bool eqn:Ex.
    + assert (z = "x"%string) as -> by (apply orb_prop in Ex as [E|E]; apply String.eqb_eq in E; auto). 
      cbn. intros [= <-] _. exists vx'. auto.
    + destruct (String.eqb z "y" || String.eqb "y" z)%bool eqn:Ey.
      * assert (z = "y"%string) as -> by (apply orb_prop in Ey as [E|E]; apply String.eqb_eq in E; auto).
        cbn. intros [= <-] _. exists vy'. auto.
      * apply orb_false_elim in Ex, Ey. destruct Ex as [E1 E2], Ey as [E3 E4]. cbn. rewrite ?E1, ?E2, ?E3, ?E4. discriminate.
Qed.

(** Other factors than powers of two, or results below the normal range, are no
    exact changes of unit. *)
Theorem C81_other_units_refuted : Forall counterexample
  [ ("3*x + 3*y", "3 * (x + y)", [("x", lit "0.1"); ("y", lit "0.3")]);
    ("(1024*x) * (1024*y)", "1048576 * (x * y)", [("x", lit "3e-162"); ("y", lit "1e-162")]) ]%string.
Proof.
  apply Forall_forall. intros t Ht. apply counter_check_spec. revert t Ht. apply forallb_forall. vm_compute. reflexivity.
Qed.
