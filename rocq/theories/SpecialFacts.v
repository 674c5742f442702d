(** * Overflow and invalid operations *)
From Coq Require Import ZArith NArith List String Ascii Bool Lia Reals Lra.
From Flocq Require Import Core BinarySingleNaN.
From Verif Require Import F64 Syntax Factorial Builtins Context Element Parser Xprs.
From Verif Require Import SpecTree SpecApi SpecMonotone SpecSpecial FloatFacts TreeFacts PropertiesNumeric PropertiesArith MonotoneFacts.
Import ListNotations.
Local Open Scope R_scope.

(** ** The limit *)
Definition largest : R := bpow radix2 1024 - bpow radix2 971.
Lemma limit_middle : largest + bpow radix2 970 = limit /\ limit + bpow radix2 970 = bpow radix2 1024.
Proof.
  unfold largest, limit. assert (E : bpow radix2 971 = 2 * bpow radix2 970) by (change 971%Z with (1 + 970)%Z; rewrite bpow_plus; reflexivity).
  rewrite E. lra.
Qed.
Lemma largest_F2R : largest = F2R (Float radix2 (2 ^ 53 - 1) 971).
Proof.
  unfold largest, F2R. cbn [Fnum Fexp]. rewrite minus_IZR. change (2 ^ 53)%Z with (radix2 ^ 53)%Z. rewrite IZR_Zpower by lia.
  change 1024%Z with (53 + 971)%Z at 1. rewrite bpow_plus. ring.
Qed.
Lemma largest_format : generic_format radix2 fexp64 largest.
Proof. rewrite largest_F2R. apply format_small; vm_compute; [reflexivity|discriminate]. Qed.
Lemma big_format : generic_format radix2 fexp64 (bpow radix2 1024).
Proof. apply generic_format_bpow. vm_compute. discriminate. Qed.
Lemma cexp_limit : cexp radix2 fexp64 limit = 971%Z.
Proof.
  unfold cexp. rewrite (mag_unique radix2 limit 1024); [reflexivity|]. rewrite Rabs_pos_eq.
  - unfold limit. change (1024 - 1)%Z with 1023%Z. assert (E : bpow radix2 1024 = 2 * bpow radix2 1023) by (change 1024%Z with (1 + 1023)%Z; rewrite bpow_plus; reflexivity).
    pose proof (bpow_lt radix2 970 1023 ltac:(lia)). pose proof (bpow_gt_0 radix2 970). lra.
  - unfold limit. pose proof (bpow_lt radix2 970 1024 ltac:(lia)). lra.
Qed.
Lemma scaled_limit : scaled_mantissa radix2 fexp64 limit = IZR (2 ^ 53 - 1) + / 2.
Proof.
  unfold scaled_mantissa. rewrite cexp_limit. unfold limit. rewrite Rmult_minus_distr_r, <- !bpow_plus.
  change (1024 + - (971))%Z with 53%Z. change (970 + - (971))%Z with (-1)%Z. rewrite minus_IZR. change (2 ^ 53)%Z with (radix2 ^ 53)%Z. rewrite IZR_Zpower by lia.
  change (bpow radix2 (-1)) with (/ 2). lra.
Qed.
Lemma rnd_limit : rnd64 limit = bpow radix2 1024.
Proof.
  assert (F : Zfloor (scaled_mantissa radix2 fexp64 limit) = (2 ^ 53 - 1)%Z) by (rewrite scaled_limit; apply Zfloor_imp; rewrite plus_IZR; lra).
  assert (C : Zceil (scaled_mantissa radix2 fexp64 limit) = (2 ^ 53)%Z).
  { rewrite scaled_limit. apply Zceil_imp. replace (2 ^ 53 - 1)%Z with (2 ^ 53 + - 1)%Z by lia. rewrite plus_IZR. lra. }
  assert (DN : round radix2 fexp64 Zfloor limit = largest).
  { unfold round. rewrite F, cexp_limit. symmetry. apply largest_F2R. }
  assert (UP : round radix2 fexp64 Zceil limit = bpow radix2 1024).
  { unfold round. rewrite C, cexp_limit. unfold F2R. cbn [Fnum Fexp]. change (2 ^ 53)%Z with (radix2 ^ 53)%Z. rewrite IZR_Zpower by lia. now rewrite <- bpow_plus. }
  change (round_mode mode_NE) with (Znearest (fun n => negb (Z.even n))). rewrite round_N_middle; [|rewrite DN, UP; destruct limit_middle; lra].
  rewrite F, UP. reflexivity.
Qed.
Lemma rnd_below : forall r, r < limit -> rnd64 r <= largest.
Proof.
  intros r L. destruct (Rle_or_lt r largest) as [H|H].
  - rewrite <- (round_generic radix2 fexp64 (round_mode mode_NE) largest largest_format). now apply rnd64_le.
  - destruct limit_middle as [M1 M2].
    destruct (Rle_or_lt (rnd64 r) largest) as [?|G]; auto. exfalso.
    destruct (round_N_pt radix2 fexp64 (fun n => negb (Z.even n)) r) as [Fr Nr]. specialize (Nr largest largest_format).
    change (round radix2 fexp64 (Znearest (fun n => negb (Z.even n))) r) with (rnd64 r) in *.
    rewrite (Rabs_left1 (largest - r)) in Nr by lra.
    assert (U : rnd64 r < bpow radix2 1024) by (pose proof (Rle_abs (rnd64 r - r)); lra).
    (* nothing between largest and 2^1024 *)
    assert (Q : rnd64 r <= pred radix2 fexp64 (bpow radix2 1024)) by (apply pred_ge_gt; auto; [typeclasses eauto|apply big_format]).
    rewrite pred_bpow in Q. change (fexp64 1024) with 971%Z in Q. unfold largest in G. lra.
Qed.
Lemma rnd_overflow : forall r, bpow radix2 1024 <= Rabs (rnd64 r) <-> limit <= Rabs r.
Proof.
  assert (P : forall r, 0 <= r -> (bpow radix2 1024 <= rnd64 r <-> limit <= r)).
  { intros r Hr. split; intro H.
    - destruct (Rle_or_lt limit r); auto. exfalso. pose proof (rnd_below r H0). unfold largest in H1. pose proof (bpow_gt_0 radix2 971). lra.
    - rewrite <- rnd_limit. now apply rnd64_le. }
  intro r. destruct (Rle_or_lt 0 r) as [H|H].
  - rewrite (Rabs_pos_eq r) by auto. rewrite Rabs_pos_eq by (apply rnd64_abs_sign; auto). auto.
  - rewrite (Rabs_left r) by auto. rewrite Rabs_left1 by (apply rnd64_neg_sign; lra). rewrite <- rnd64_opp. apply P. lra.
Qed.

(** ** Overflow of the four operations on finite numbers *)
Lemma infinite_toR : forall v, is_nan v = false -> (infinite v <-> big <= Rabs (toR v)).
Proof.
  intros v N. split.
  - intros [s ->]. pose proof big_pos. destruct s; cbn [toR]; fold big; [rewrite Rabs_left by lra|rewrite Rabs_pos_eq by lra]; lra.
  - intro H. destruct (finite_or_inf v N) as [F|[s ->]]; [|now exists s]. exfalso. pose proof (finite_range v F). revert H. apply Rlt_not_le. apply Rabs_def1; lra.
Qed.
Lemma clamp_overflow : forall v r, is_nan v = false -> toR v = clamp (rnd64 r) -> (infinite v <-> limit <= Rabs r).
Proof.
  intros v r N E. rewrite infinite_toR, E, <- rnd_overflow by auto. change (bpow radix2 1024) with big. pose proof big_pos.
  unfold clamp. unfold Rmax, Rmin. repeat destruct (Rle_dec _ _); split; intro H0; unfold Rabs in *; repeat destruct (Rcase_abs _); lra.
Qed.
Lemma finite_add_nan : forall a b, is_finite a = true -> is_finite b = true -> is_nan (fadd a b) = false.
Proof.
  intros a b Fa Fb. pose proof (Bplus_correct prec64 emax64 Hprec64 Hmax64 mode_NE a b Fa Fb) as H. fold (fadd a b) in H.
  destruct (Rlt_bool _ _); [apply finite_not_nan; tauto|]. destruct H as [H _]. apply overflow_infinity in H. now rewrite H.
Qed.
Lemma add_overflow : forall a b, is_finite a = true -> is_finite b = true -> (infinite (fadd a b) <-> limit <= Rabs (B2R a + B2R b)).
Proof. intros a b Fa Fb. apply clamp_overflow; [now apply finite_add_nan|now apply toR_add]. Qed.
Lemma finite_sub_nan : forall a b, is_finite a = true -> is_finite b = true -> is_nan (fsub a b) = false.
Proof. intros a b Fa Fb. rewrite fsub_fneg. apply finite_add_nan; auto. now rewrite fin_fneg. Qed.
Lemma sub_overflow : forall a b, is_finite a = true -> is_finite b = true -> (infinite (fsub a b) <-> limit <= Rabs (B2R a - B2R b)).
Proof. intros a b Fa Fb. rewrite fsub_fneg, add_overflow; auto; [now rewrite B2R_fneg|now rewrite fin_fneg]. Qed.
Lemma finite_mul_nan : forall a b, is_finite a = true -> is_finite b = true -> is_nan (fmul a b) = false.
Proof.
  intros a b Fa Fb. pose proof (Bmult_correct prec64 emax64 Hprec64 Hmax64 mode_NE a b) as H. fold (fmul a b) in H.
  destruct (Rlt_bool _ _); [apply finite_not_nan; destruct H as [_ [H _]]; now rewrite H, Fa, Fb|]. apply overflow_infinity in H. now rewrite H.
Qed.
Lemma mul_overflow : forall a b, is_finite a = true -> is_finite b = true -> (infinite (fmul a b) <-> limit <= Rabs (B2R a * B2R b)).
Proof. intros a b Fa Fb. apply clamp_overflow; [now apply finite_mul_nan|now apply toR_mul]. Qed.
Lemma div_overflow : forall a b, is_finite a = true -> is_finite b = true -> B2R b <> 0 -> (infinite (fdiv a b) <-> limit <= Rabs (B2R a / B2R b)).
Proof. intros a b Fa Fb Nb. apply clamp_overflow; [now apply div_nan_finite|now apply toR_div]. Qed.

(** ** NaN results *)
Lemma not_infinite : forall v : f64, ~ infinite v -> is_finite v = true \/ is_nan v = true.
Proof. intros [s|s| |s m e B] H; auto. exfalso. apply H. now exists s. Qed.
Lemma add_nan_iff : forall a b, is_nan a = false -> is_nan b = false ->
  (is_nan (fadd a b) = true <-> exists s, a = B754_infinity s /\ b = B754_infinity (negb s)).
Proof.
  intros a b Na Nb. split.
  - intro H. destruct (finite_or_inf a Na) as [Fa|[s ->]], (finite_or_inf b Nb) as [Fb|[t ->]].
    + rewrite finite_add_nan in H; auto. discriminate H.
    + destruct a; discriminate.
    + destruct b; discriminate.
    + exists s. split; auto. destruct s, t; try discriminate; reflexivity.
  - intros [s [-> ->]]. now destruct s.
Qed.
Lemma sub_nan_iff : forall a b, is_nan a = false -> is_nan b = false ->
  (is_nan (fsub a b) = true <-> exists s, a = B754_infinity s /\ b = B754_infinity s).
Proof.
  intros a b Na Nb. rewrite fsub_fneg, add_nan_iff; auto; [|now rewrite nan_fneg].
  split; intros [s [-> E]]; exists s; split; auto; [|rewrite E; reflexivity].
  rewrite <- (fneg_fneg b), E. cbn. now rewrite negb_involutive.
Qed.
Lemma mul_nan_iff : forall a b, is_nan a = false -> is_nan b = false ->
  (is_nan (fmul a b) = true <-> (a_zero a /\ infinite b) \/ (infinite a /\ a_zero b)).
Proof.
  intros a b Na Nb. split.
  - intro H. destruct a as [s|s| |s m e B], b as [t|t| |t n f C]; try discriminate.
    + left. split; eexists; eauto.
    + right. split; eexists; eauto.
    + rewrite finite_mul_nan in H; auto. discriminate H.
  - intros [[[s ->] [t ->]]|[[s ->] [t ->]]]; reflexivity.
Qed.
Lemma div_nan_iff : forall a b, is_nan a = false -> is_nan b = false ->
  (is_nan (fdiv a b) = true <-> (a_zero a /\ a_zero b) \/ (infinite a /\ infinite b)).
Proof.
  intros a b Na Nb. split.
  - intro H. destruct a as [s|s| |s m e B], b as [t|t| |t n f C]; try discriminate.
    + left. split; eexists; eauto.
    + right. split; eexists; eauto.
    + rewrite div_nan_finite in H; auto; [discriminate H|apply finite_nonzero].
  - intros [[[s ->] [t ->]]|[[s ->] [t ->]]]; reflexivity.
Qed.
Lemma rem_nan_iff : forall a b, is_nan a = false -> is_nan b = false ->
  (is_nan (frem a b) = true <-> infinite a \/ a_zero b).
Proof.
  intros a b Na Nb. split.
  - intro H. destruct a as [s|s| |s m e B], b as [t|t| |t n f C]; try discriminate; try (right; eexists; reflexivity); try (left; eexists; reflexivity).
    exfalso. destruct (frem_correct (B754_finite s m e B) (B754_finite t n f C)) as [_ [F _]]; auto; [apply finite_nonzero|].
    apply finite_not_nan in F. congruence.
  - intros [[s ->]|[t ->]]; [now destruct b|now destruct a].
Qed.
Lemma rem_not_infinite : forall a b, ~ infinite a -> ~ infinite (frem a b).
Proof.
  intros a b Ha [u Hu]. destruct a as [s|s| |s m e B], b as [t|t| |t n f C]; try (cbn [frem] in Hu; discriminate Hu).
  - destruct (frem_correct (B754_finite s m e B) (B754_finite t n f C)) as [_ [F _]]; auto; [apply finite_nonzero|]. rewrite Hu in F. discriminate F.
Qed.

(** ** Functions of one argument *)
Lemma sqrt_nan_iff : forall a, is_nan a = false -> (is_nan (fsqrt a) = true <-> below a fzero).
Proof.
  intros a N. unfold below. destruct (Bsqrt_correct prec64 emax64 Hprec64 Hmax64 mode_NE a) as [_ [F S0]].
  fold (fsqrt a) in F, S0. destruct a as [s|s| |s m e B].
  - split; intro H; [discriminate H|destruct s; discriminate H].
  - destruct s; split; intro H; try discriminate H; reflexivity.
  - discriminate N.
  - destruct s.
    + split; reflexivity.
    + split; intro H; [|discriminate H]. exfalso. apply finite_not_nan in F. rewrite F in H. discriminate H.
Qed.
Lemma sqrt_not_infinite : forall a, ~ infinite a -> ~ infinite (fsqrt a).
Proof.
  intros a H [t E]. destruct (Bsqrt_correct prec64 emax64 Hprec64 Hmax64 mode_NE a) as [_ [F _]]. fold (fsqrt a) in F. rewrite E in F.
  destruct a as [s|s| |[] m e B]; try discriminate. apply H. now exists s.
Qed.
Lemma nearbyint_nan : forall md a, is_nan (Bnearbyint md a : f64) = is_nan a.
Proof.
  intros md a. destruct (Bnearbyint_correct prec64 emax64 Hmax64 md a) as [_ [F _]].
  destruct a as [s|s| |s m e B]; try reflexivity. cbn [is_finite] in F. now apply finite_not_nan.
Qed.
Lemma nearbyint_not_infinite : forall md (a : f64), ~ infinite a -> ~ infinite (Bnearbyint md a : f64).
Proof.
  intros md a H [t E]. destruct (Bnearbyint_correct prec64 emax64 Hmax64 md a) as [_ [F _]]. rewrite E in F.
  destruct a as [s|s| |s m e B]; try discriminate. apply H. now exists s.
Qed.
Lemma abs_not_infinite : forall a, ~ infinite a -> ~ infinite (fabs a).
Proof. intros a H [t E]. destruct a as [s|s| |s m e B]; try discriminate. apply H. now exists s. Qed.
Lemma fract_nan_iff : forall a, is_nan a = false -> (is_nan (ffract a) = true <-> infinite a).
Proof.
  intros a N. unfold ffract. destruct (ftrunc_correct a) as [_ F]. rewrite sub_nan_iff; [|auto|unfold ftrunc; now rewrite nearbyint_nan].
  split; [intros [s [-> _]]; now exists s|]. intros [s ->]. exists s. split; reflexivity.
Qed.
Lemma limit_large : 1 < limit.
Proof.
  unfold limit. assert (E : bpow radix2 1024 = 2 * bpow radix2 1023) by (change 1024%Z with (1 + 1023)%Z; rewrite bpow_plus; reflexivity).
  pose proof (bpow_lt radix2 970 1023 ltac:(lia)). pose proof (bpow_lt radix2 0 1023 ltac:(lia)) as H1. change (bpow radix2 0) with 1 in H1. lra.
Qed.
Lemma fract_not_infinite : forall a, ~ infinite a -> ~ infinite (ffract a).
Proof.
  intros a H. destruct (not_infinite a H) as [F|N].
  - destruct (ftrunc_correct a) as [E Ft]. unfold ffract. rewrite sub_overflow; auto; [|rewrite <- F; exact Ft]. rewrite E.
    pose proof (trunc_frac_bound (B2R a)). pose proof limit_large. lra.
  - destruct a; try discriminate N. intros [s E]. discriminate E.
Qed.
Lemma fone_shape : exists m e B, fone = B754_finite false m e B.
Proof.
  assert (E : B2R fone = 1) by (apply Bone_correct). assert (S0 : Bsign fone = false) by apply Bsign_Bone. assert (F : is_finite fone = true) by apply is_finite_Bone.
  revert E S0 F. destruct fone as [s|s| |s m e B]; intros E S0 F; try discriminate F; [exfalso; cbn in E; lra|]. cbn in S0. subst s. eauto.
Qed.
Lemma recip_nan_iff : forall a, is_nan a = false -> is_nan (frecip a) = false.
Proof.
  intros a N. unfold frecip. destruct (is_nan (fdiv fone a)) eqn:E; auto. apply div_nan_iff in E; auto. exfalso.
  destruct fone_shape as [m [e [B O]]]. rewrite O in E. destruct E as [[[s E] _]|[[s E] _]]; discriminate E.
Qed.
Lemma recip_infinite_iff : forall a, ~ infinite a ->
  (infinite (frecip a) <-> a_zero a \/ (is_finite a = true /\ B2R a <> 0 /\ limit <= Rabs (/ B2R a))).
Proof.
  intros a H. destruct (not_infinite a H) as [F|N].
  - destruct a as [s|s| |s m e B]; try discriminate.
    + split; [intros _; left; now exists s|]. intros _. unfold frecip. destruct fone_shape as [m [e [B O]]]. rewrite O. exists s. destruct s; reflexivity.
    + unfold frecip. rewrite div_overflow; [|apply is_finite_Bone|reflexivity|apply finite_nonzero]. unfold fone. rewrite Bone_correct. unfold Rdiv. rewrite Rmult_1_l.
      split; [intro L; right; auto using finite_nonzero|]. intros [[t E]|[_ [_ L]]]; [discriminate E|auto].
  - destruct a; try discriminate N. split; [intros [s E]; discriminate E|]. intros [[t E]|[E _]]; discriminate E.
Qed.
Lemma factorial_nan_iff : forall a, is_nan a = false -> (is_nan (factorial a) = true <-> no_factorial a).
Proof.
  intros a N. unfold factorial, no_factorial, whole. destruct (C36_factorial_cases a) as [H1 [H2 [H3 [H4 [H5 [H6 H7]]]]]]. split.
  - intro H. destruct (finite_or_inf _ N) as [Fa|[[] ->]]; [|left; reflexivity|rewrite H2 in H by auto; discriminate H].
    destruct (Req_dec (B2R a) (IZR (Ztrunc (B2R a)))) as [Hi|Hi].
    + set (n := Ztrunc (B2R a)) in *. destruct (Z_lt_le_dec n 0) as [Hn|Hn].
      * left. apply below_toR. split; auto. split; auto. rewrite toR_finite by auto. rewrite Hi. change (toR fzero) with 0. now apply IZR_lt.
      * exfalso. destruct (Z_lt_le_dec 170 n) as [Hg|Hg]; [rewrite (H6 n) in H by auto; discriminate H|].
        destruct (H7 n) as [v [Hv E]]; auto. rewrite E in H. clear -Hv H.
        assert (A : forallb (fun v : f64 => negb (is_nan v)) FACTORIALS = true) by (vm_compute; reflexivity).
        rewrite forallb_forall in A. specialize (A v (nth_error_In _ _ Hv)). rewrite H in A. discriminate A.
    + right. split; auto. intros [n E]. apply Hi. rewrite E, Ztrunc_IZR. reflexivity.
  - intros [L|[F W]].
    + apply below_toR in L. destruct L as [_ [_ L]]. change (toR fzero) with 0 in L. destruct (finite_or_inf _ N) as [Fa|[[] ->]].
      * rewrite H4; auto. rewrite toR_finite in L; auto.
      * now rewrite H3.
      * pose proof big_pos. change (toR (B754_infinity false)) with big in L. lra.
    + rewrite H5; auto. intros n E. apply W. now exists n.
Qed.
Lemma factorial_of_nan : forall a, is_nan a = true -> is_nan (factorial a) = true.
Proof. intros a N. destruct a; try discriminate. reflexivity. Qed.
Lemma factorial_infinite_iff : forall a, ~ infinite a -> (infinite (factorial a) <-> is_finite a = true /\ whole a /\ 170 < B2R a).
Proof.
  intros a H. split.
  - intros [s E]. assert (N : is_nan (factorial a) = false) by (rewrite E; reflexivity).
    destruct (factorial_values a N) as [[-> _]|[[n [F [En [G _]]]]|[n [F [En [G T]]]]]].
    + exfalso. apply H. now exists false.
    + split; auto. split; [now exists n|]. rewrite En. now apply IZR_lt.
    + exfalso. rewrite E in T.
      assert (A : forallb (fun v : f64 => is_finite v) FACTORIALS = true) by (vm_compute; reflexivity).
      rewrite forallb_forall in A. specialize (A _ (nth_error_In _ _ T)). discriminate A.
  - intros [F [[n En] L]]. unfold factorial. destruct (C36_factorial_cases a) as [_ [_ [_ [_ [_ [H6 _]]]]]].
    rewrite (H6 n); auto; [now exists false|]. rewrite En in L. now apply lt_IZR.
Qed.

(** ** Sums *)
Definition start (w : world) : f64 := if sum_neg_zero w then fnzero else fzero.
Lemma start_finite : forall w, is_finite (start w) = true.
Proof. intro w. unfold start. now destruct (sum_neg_zero w). Qed.
Lemma sums_to_fold : forall w vs t, sums_to w vs t <-> fold_left fadd vs (start w) = t.
Proof. intros w vs t. unfold sums_to. cbn. unfold sum_f64. fold (start w). split; intro H; [now injection H|now rewrite H]. Qed.
Lemma fold_nan : forall l a, is_nan a = true -> is_nan (fold_left fadd l a) = true.
Proof.
  intros l a H. destruct (is_nan (fold_left fadd l a)) eqn:E; auto. apply fold_fadd_nan in E. congruence.
Qed.
Lemma fold_in_nan : forall l a v, In v l -> is_nan v = true -> is_nan (fold_left fadd l a) = true.
Proof.
  induction l as [|x l IH]; [intros a v []|]. intros a v [-> |H] N; cbn [fold_left].
  - apply fold_nan. destruct (is_nan (fadd a v)) eqn:E; auto. apply fadd_nan_l in E. destruct E. congruence.
  - eauto.
Qed.
Lemma fold_clash : forall l a, is_nan a = false -> Forall (fun v => is_nan v = false) l ->
  (is_nan (fold_left fadd l a) = true <->
   exists l1 s l2, l = l1 ++ B754_infinity s :: l2 /\ fold_left fadd l1 a = B754_infinity (negb s)).
Proof.
  induction l as [|x l IH]; intros a Na Nl.
  - cbn [fold_left]. split; [congruence|]. intros [[|y l1] [s [l2 [E _]]]]; discriminate E.
  - inversion Nl as [|? ? Nx Nl']; subst. cbn [fold_left]. destruct (is_nan (fadd a x)) eqn:E.
    + split; intros _; [|now apply fold_nan]. apply add_nan_iff in E; auto. destruct E as [s [-> ->]].
      exists [], (negb s), l. split; auto. cbn. now rewrite negb_involutive.
    + rewrite (IH _ E Nl'). split.
      * intros [l1 [s [l2 [-> H]]]]. exists (x :: l1), s, l2. auto.
      * intros [[|y l1] [s [l2 [H G]]]]; cbn in H; injection H as -> ->.
        -- cbn in G. subst a. destruct s; discriminate E.
        -- exists l1, s, l2. auto.
Qed.
Lemma clash_iff : forall w vs, Forall (fun v => is_nan v = false) vs -> (is_nan (sum_f64 w vs) = true <-> infinities_clash w vs).
Proof.
  intros w vs H. unfold sum_f64, infinities_clash. fold (start w). rewrite fold_clash; [|apply finite_not_nan, start_finite|auto].
  split; intros [l1 [s [l2 [E G]]]]; exists l1, s, l2; split; auto; now apply sums_to_fold.
Qed.
Lemma fold_keeps_infinity : forall l a s, a = B754_infinity s -> Forall (fun v => ~ infinite v) l ->
  fold_left fadd l a = B754_infinity s \/ is_nan (fold_left fadd l a) = true.
Proof.
  induction l as [|x l IH]; intros a s -> H; [now left|]. inversion H as [|? ? Hx Hl]; subst. cbn [fold_left].
  destruct (not_infinite x Hx) as [F|N].
  - apply IH; auto. destruct x; try discriminate F; reflexivity.
  - right. apply fold_nan. destruct x; try discriminate N; reflexivity.
Qed.
Lemma fold_overflow : forall l a, is_finite a = true -> Forall (fun v => is_nan v = false) l -> Forall (fun v => ~ infinite v) l ->
  (infinite (fold_left fadd l a) <->
   exists l1 x l2 t, l = l1 ++ x :: l2 /\ fold_left fadd l1 a = t /\ is_finite t = true /\ is_finite x = true /\ limit <= Rabs (B2R t + B2R x)).
Proof.
  induction l as [|x l IH]; intros a Fa Nl Il.
  - cbn [fold_left]. split; [intros [s ->]; discriminate Fa|]. intros [[|y l1] [z [l2 [t [E _]]]]]; discriminate E.
  - inversion Nl as [|? ? Nx Nl']; subst. inversion Il as [|? ? Ix Il']; subst.
    assert (Fx : is_finite x = true) by (destruct (not_infinite x Ix); congruence).
    cbn [fold_left]. destruct (is_finite (fadd a x)) eqn:E.
    + rewrite (IH _ E Nl' Il'). split.
      * intros [l1 [y [l2 [t [-> H]]]]]. exists (x :: l1), y, l2, t. auto.
      * intros [[|y l1] [z [l2 [t [H [G [Ft [Fz L]]]]]]]]; cbn in H; injection H as -> ->.
        -- cbn in G. subst t. apply add_overflow in L; auto. destruct L as [s L]. rewrite L in E. discriminate E.
        -- exists l1, z, l2, t. auto.
    + assert (Inf : infinite (fadd a x)) by (destruct (finite_or_inf _ (finite_add_nan a x Fa Fx)) as [F|Inf]; [congruence|exact Inf]).
      split; intros _.
      * exists [], x, l, a. repeat split; auto. now apply add_overflow.
      * destruct Inf as [s Inf]. destruct (fold_keeps_infinity l _ s Inf Il') as [H|H]; [now exists s|].
        exfalso. apply fold_clash in H; auto; [|rewrite Inf; reflexivity]. destruct H as [l1 [u [l2 [-> _]]]].
        rewrite Forall_forall in Il'. apply (Il' (B754_infinity u)); [apply in_elt|now exists u].
Qed.
Lemma overflow_iff : forall w vs, Forall (fun v => is_nan v = false) vs -> Forall (fun v => ~ infinite v) vs ->
  (infinite (sum_f64 w vs) <-> total_overflows w vs).
Proof.
  intros w vs H I. unfold sum_f64, total_overflows. fold (start w). rewrite fold_overflow; [|apply start_finite|auto|auto].
  split; intros [l1 [x [l2 [t [E [G Q]]]]]]; exists l1, x, l2, t; split; auto; split; auto; now apply sums_to_fold.
Qed.

(** ** min and max *)
Lemma min_start : forall w l a, is_nan a = false -> is_nan (fold_left (min_f64 w) l a) = false.
Proof.
  induction l as [|x l IH]; intros a N; cbn [fold_left]; auto. apply IH. unfold min_f64, fis_nan. rewrite N.
  destruct (is_nan x) eqn:Nx; auto. destruct (flt a x), (flt x a), (minmax_second w); auto.
Qed.
Lemma max_start : forall w l a, is_nan a = false -> is_nan (fold_left (max_f64 w) l a) = false.
Proof.
  induction l as [|x l IH]; intros a N; cbn [fold_left]; auto. apply IH. unfold max_f64, fis_nan. rewrite N.
  destruct (is_nan x) eqn:Nx; auto. destruct (flt a x), (flt x a), (minmax_second w); auto.
Qed.
Lemma min_finite : forall w l a, is_finite a = true -> Forall (fun v => ~ infinite v) l -> is_finite (fold_left (min_f64 w) l a) = true.
Proof.
  induction l as [|x l IH]; intros a F H; cbn [fold_left]; auto. inversion H; subst. apply IH; auto. unfold min_f64, fis_nan. rewrite (finite_not_nan a F).
  destruct (not_infinite x H2) as [Fx|Nx]; [rewrite (finite_not_nan x Fx)|now rewrite Nx]. destruct (flt a x), (flt x a), (minmax_second w); auto.
Qed.
Lemma max_finite : forall w l a, is_finite a = true -> Forall (fun v => ~ infinite v) l -> is_finite (fold_left (max_f64 w) l a) = true.
Proof.
  induction l as [|x l IH]; intros a F H; cbn [fold_left]; auto. inversion H; subst. apply IH; auto. unfold max_f64, fis_nan. rewrite (finite_not_nan a F).
  destruct (not_infinite x H2) as [Fx|Nx]; [rewrite (finite_not_nan x Fx)|now rewrite Nx]. destruct (flt a x), (flt x a), (minmax_second w); auto.
Qed.
Lemma min_infinite_iff : forall w l, Forall (fun v => ~ infinite v) l ->
  (infinite (fold_left (min_f64 w) l finf) <-> Forall (fun v => is_nan v = true) l).
Proof.
  intros w l H. induction H as [|x l Hx Hl IH]; [split; [constructor|intros _; now exists false]|]. cbn [fold_left].
  destruct (not_infinite x Hx) as [Fx|Nx].
  - assert (E : min_f64 w finf x = x).
    { unfold min_f64, fis_nan. rewrite (finite_not_nan x Fx). destruct x as [s|s| |[] m e B]; try discriminate Fx; reflexivity. }
    rewrite E. split; [intros [s G]|].
    + pose proof (min_finite w l x Fx Hl) as Q. rewrite G in Q. discriminate Q.
    + intro G. inversion G; subst. rewrite (finite_not_nan x Fx) in H1. discriminate H1.
  - assert (E : min_f64 w finf x = finf) by (destruct x; try discriminate Nx; reflexivity).
    rewrite E, IH. split; [constructor; auto|intro G; now inversion G].
Qed.
Lemma max_infinite_iff : forall w l, Forall (fun v => ~ infinite v) l ->
  (infinite (fold_left (max_f64 w) l fninf) <-> Forall (fun v => is_nan v = true) l).
Proof.
  intros w l H. induction H as [|x l Hx Hl IH]; [split; [constructor|intros _; now exists true]|]. cbn [fold_left].
  destruct (not_infinite x Hx) as [Fx|Nx].
  - assert (E : max_f64 w fninf x = x).
    { unfold max_f64, fis_nan. rewrite (finite_not_nan x Fx). destruct x as [s|s| |[] m e B]; try discriminate Fx; reflexivity. }
    rewrite E. split; [intros [s G]|].
    + pose proof (max_finite w l x Fx Hl) as Q. rewrite G in Q. discriminate Q.
    + intro G. inversion G; subst. rewrite (finite_not_nan x Fx) in H1. discriminate H1.
  - assert (E : max_f64 w fninf x = fninf) by (destruct x; try discriminate Nx; reflexivity).
    rewrite E, IH. split; [constructor; auto|intro G; now inversion G].
Qed.
