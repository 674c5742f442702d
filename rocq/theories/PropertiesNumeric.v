(** * Properties of the numeric built-ins (C36, C37, C46, C48, C49) *)
From Coq Require Import ZArith NArith List String Ascii Bool Lia Reals Lra Psatz Permutation.
From Coq Require Arith.Factorial.
From Flocq Require Import Core BinarySingleNaN.
From Verif Require Import F64 Syntax Factorial Builtins FloatFacts TestWorld.
Import ListNotations.
Local Open Scope R_scope.

(** ** C36: the factorial function *)
Lemma Btrunc_int : forall x n, B2R (x : f64) = IZR n -> Btrunc x = n.
Proof.
  intros x n H. pose proof (Btrunc_correct prec64 emax64 Hmax64 x) as Hb.
  rewrite Ztrunc_round, H, Ztrunc_IZR in Hb. now apply eq_IZR.
Qed.

Lemma table_length : List.length FACTORIALS = 171%nat.
Proof. unfold FACTORIALS. rewrite map_length. reflexivity. Qed.

Theorem C36_factorial_cases : forall x,
  (is_nan x = true -> factorial_full x = FVal fnan) /\
  (x = finf -> factorial_full x = FVal finf) /\
  (x = fninf -> factorial_full x = FVal fnan) /\
  (is_finite x = true -> B2R x < 0 -> factorial_full x = FVal fnan) /\
  (is_finite x = true -> (forall n, B2R x <> IZR n) -> factorial_full x = FVal fnan) /\
  (forall n, is_finite x = true -> B2R x = IZR n -> (170 < n)%Z -> factorial_full x = FVal finf) /\
  (forall n, is_finite x = true -> B2R x = IZR n -> (0 <= n <= 170)%Z ->
     exists v, nth_error FACTORIALS (Z.to_nat n) = Some v /\ factorial_full x = FVal v).
Proof.
  intro x.
  assert (H170 := f64_of_Z_small 170 ltac:(lia)). destruct H170 as [E170 F170].
  assert (Hneg : is_finite x = true -> (flt x fzero = true <-> B2R x < 0)).
  { intro Hf. unfold flt. rewrite Bltb_correct; auto. cbn [fzero B2R].
    destruct (Rlt_bool_spec (B2R x) 0); split; intro; auto; try lra; discriminate. }
  assert (Hninf : is_finite x = true -> fis_infinite x = false) by (destruct x; try discriminate; auto).
  repeat split.
  - destruct x; try discriminate. intros _. reflexivity.
  - intros ->. reflexivity.
  - intros ->. reflexivity.
  - intros Hf Hx. unfold factorial_full. apply Hneg in Hx; auto. rewrite Hx. reflexivity.
  - intros Hf Hx. unfold factorial_full. destruct (flt x fzero); auto.
    rewrite Hninf by auto. destruct (feq (ffract x) fzero) eqn:E; auto.
    apply ffract_zero in E; auto. destruct E as [n Hn]. now elim (Hx n).
  - intros n Hf Hn Hg. unfold factorial_full.
    assert (flt x fzero = false) as ->.
    { apply not_true_iff_false. intro E. apply Hneg in E; auto. rewrite Hn in E.
      apply lt_IZR in E. lia. }
    rewrite Hninf by auto. rewrite (proj2 (ffract_zero x Hf)) by eauto. cbn [negb].
    assert (flt (f64_of_Z 170) x = true) as ->; auto.
    unfold flt. rewrite Bltb_correct by auto. rewrite E170, Hn. apply Rlt_bool_true. now apply IZR_lt.
  - intros n Hf Hn Hr. unfold factorial_full.
    assert (flt x fzero = false) as ->.
    { apply not_true_iff_false. intro E. apply Hneg in E; auto. rewrite Hn in E.
      apply lt_IZR in E. lia. }
    rewrite Hninf by auto. rewrite (proj2 (ffract_zero x Hf)) by eauto. cbn [negb].
    assert (flt (f64_of_Z 170) x = false) as ->.
    { unfold flt. rewrite Bltb_correct by auto. rewrite E170, Hn. apply Rlt_bool_false. apply IZR_le. lia. }
    unfold to_int_unchecked_usize. unfold fis_finite. rewrite Hf, (Btrunc_int x n Hn).
    assert ((0 <=? n)%Z && (n <? 2 ^ 64)%Z = true) as ->.
    { apply andb_true_iff. split; [apply Z.leb_le; lia|]. apply Z.ltb_lt.
      apply Z.le_lt_trans with 170%Z; [lia|reflexivity]. }
    destruct (nth_error FACTORIALS (Z.to_nat n)) as [v|] eqn:E; [eauto|].
    apply nth_error_None in E. rewrite table_length in E. lia.
Qed.

(** No undefined behaviour and no out-of-range index, for any argument. *)
Theorem C36_factorial_safe : forall x, exists v, factorial_full x = FVal v.
Proof.
  intro x. destruct (C36_factorial_cases x) as [H1 [H2 [H3 [H4 [H5 [H6 H7]]]]]].
  destruct x as [s|[]| |s m e B] eqn:E; eauto.
  - destruct (H7 0%Z) as [v [_ Hv]]; eauto; try reflexivity. lia.
  - rewrite <- E in *. assert (Hf : is_finite x = true) by (rewrite E; reflexivity).
    destruct (Req_dec (B2R x) (IZR (Ztrunc (B2R x)))) as [Hi|Hi].
    + set (n := Ztrunc (B2R x)) in *. destruct (Z_lt_le_dec n 0) as [Hn|Hn].
      * eexists. apply H4; auto. rewrite Hi. now apply IZR_lt.
      * destruct (Z_lt_le_dec 170 n) as [Hg|Hg].
        -- eexists. eapply H6; eauto.
        -- destruct (H7 n) as [v [_ Hv]]; eauto.
    + eexists. apply H5; auto. intros n Hn. apply Hi. rewrite Hn, Ztrunc_IZR. reflexivity.
Qed.

Example C36_witness :
  factorial_full fnzero = FVal fone /\
  factorial_full (lit "2.5") = FVal fnan /\ factorial_full (lit "171") = FVal finf.
Proof.
  repeat split.
  - destruct (C36_factorial_cases fnzero) as [_ [_ [_ [_ [_ [_ H]]]]]].
    destruct (H 0%Z) as [v [Hv ->]]; try reflexivity; [lia|]. f_equal. apply same_f64_eq.
    cbn in Hv. injection Hv as <-. vm_compute. reflexivity.
Qed.

(** ** C37: accuracy of the table *)
Fixpoint zfact (n : nat) : Z := match n with O => 1%Z | S k => (Z.of_nat (S k) * zfact k)%Z end.

Lemma zfact_fact : forall n, Z.of_nat (Factorial.fact n) = zfact n.
Proof.
  induction n; [reflexivity|]. change (Factorial.fact (S n)) with (S n * Factorial.fact n)%nat.
  rewrite Nat2Z.inj_mul, IHn. reflexivity.
Qed.

(** each entry is the previous one times its index, rounded *)
Fixpoint recurrence_ok (prev : f64) (n : Z) (l : list f64) : bool :=
  match l with
  | [] => true
  | v :: l' => same_f64 v (fmul prev (f64_of_Z n)) && recurrence_ok v (n + 1) l'
  end.

(** |v - f| * 2^53 <= 7 f for a positive finite v, in integers *)
Definition close_ok (v : f64) (f : Z) : bool :=
  match v with
  | B754_finite false m e _ =>
      if (0 <=? e)%Z then (Z.abs (Zpos m * 2 ^ e - f) * 2 ^ 53 <=? 7 * f)%Z
      else (Z.abs (Zpos m - f * 2 ^ (- e)) * 2 ^ 53 <=? 7 * f * 2 ^ (- e))%Z
  | _ => false
  end.
Fixpoint table_close (n : Z) (f : Z) (l : list f64) : bool :=
  match l with
  | [] => true
  | v :: l' => close_ok v f && table_close (n + 1) (f * (n + 1)) l'
  end.

Lemma close_ok_spec : forall v f, close_ok v f = true ->
  is_finite v = true /\ Rabs (B2R v - IZR f) * bpow radix2 53 <= 7 * IZR f.
Proof.
  intros v f H. destruct v as [| | |[] m e B]; try discriminate. split; [reflexivity|].
  assert (B53 : bpow radix2 53 = IZR (2 ^ 53)) by (change (2 ^ 53)%Z with (radix2 ^ 53)%Z; rewrite IZR_Zpower; [reflexivity|lia]).
  unfold close_ok in H. cbn [B2R cond_Zopp]. unfold F2R. cbn [Fnum Fexp].
  destruct (0 <=? e)%Z eqn:E.
  - apply Z.leb_le in E. apply Z.leb_le in H. apply IZR_le in H.
    rewrite !mult_IZR, abs_IZR, minus_IZR, mult_IZR in H. rewrite B53.
    rewrite <- (IZR_Zpower radix2) by lia. exact H.
  - apply Z.leb_gt in E. apply Z.leb_le in H. apply IZR_le in H.
    rewrite !mult_IZR, abs_IZR, minus_IZR, mult_IZR in H. rewrite B53.
    assert (P : IZR (2 ^ - e) = bpow radix2 (- e)) by (change (2 ^ (- e))%Z with (radix2 ^ (- e))%Z; apply IZR_Zpower; lia).
    rewrite P in H.
    assert (Q : bpow radix2 e * bpow radix2 (- e) = 1) by (rewrite <- bpow_plus, Z.add_opp_diag_r; reflexivity).
    assert (Hp : 0 < bpow radix2 (- e)) by apply bpow_gt_0.
    apply (Rmult_le_reg_r (bpow radix2 (- e))); auto.
    replace (Rabs (IZR (Z.pos m) * bpow radix2 e - IZR f) * IZR (2 ^ 53) * bpow radix2 (- e))
      with (Rabs (IZR (Z.pos m) - IZR f * bpow radix2 (- e)) * IZR (2 ^ 53)); [lra|].
    replace (IZR (Z.pos m) - IZR f * bpow radix2 (- e)) with ((IZR (Z.pos m) * bpow radix2 e - IZR f) * bpow radix2 (- e)).
    + rewrite Rabs_mult, (Rabs_right (bpow radix2 (- e))) by lra. ring.
    + rewrite Rmult_minus_distr_r, Rmult_assoc, Q. ring.
Qed.

Lemma table_close_spec : forall l n k f v, table_close n f l = true -> f = zfact (Z.to_nat n) -> (0 <= n)%Z ->
  nth_error l k = Some v -> close_ok v (zfact (Z.to_nat n + k)) = true.
Proof.
  induction l as [|u l IH]; intros n k f v H Hf Hn Hk; [destruct k; discriminate|].
  cbn [table_close] in H. apply andb_true_iff in H. destruct H as [H1 H2].
  destruct k as [|k].
  - cbn in Hk. injection Hk as <-. rewrite Nat.add_0_r, <- Hf. exact H1.
  - replace (Z.to_nat n + S k)%nat with (Z.to_nat (n + 1) + k)%nat by lia.
    eapply IH; eauto; [|lia]. replace (Z.to_nat (n + 1)) with (S (Z.to_nat n)) by lia.
    cbn [zfact]. rewrite <- Hf. rewrite Z.mul_comm. f_equal. lia.
Qed.

Lemma recurrence_ok_spec : forall l prev n k a b, recurrence_ok prev n l = true ->
  nth_error (prev :: l) k = Some a -> nth_error (prev :: l) (S k) = Some b ->
  b = fmul a (f64_of_Z (n + Z.of_nat k)).
Proof.
  induction l as [|u l IH]; intros prev n k a b H Ha Hb.
  - cbn in Hb. destruct k; discriminate.
  - cbn [recurrence_ok] in H. apply andb_true_iff in H. destruct H as [H1 H2].
    destruct k as [|k].
    + cbn in Ha, Hb. injection Ha as <-. injection Hb as <-. apply same_f64_eq in H1.
      rewrite H1. now rewrite Z.add_0_r.
    + cbn [nth_error] in Ha. replace (n + Z.of_nat (S k))%Z with (n + 1 + Z.of_nat k)%Z by lia.
      eapply IH; eauto.
Qed.

Lemma table_recurrence_check : match FACTORIALS with
  | a :: l => same_f64 a fone && recurrence_ok a 1 l | [] => false end = true.
Proof. vm_compute. reflexivity. Qed.
Lemma table_close_check : table_close 0 1 FACTORIALS = true.
Proof. vm_compute. reflexivity. Qed.

(** The table: T(0) = 1 and T(n+1) is T(n) * (n+1) rounded to nearest. *)
Theorem C37_table_recurrence : nth_error FACTORIALS 0 = Some fone /\
  forall n a b, nth_error FACTORIALS n = Some a -> nth_error FACTORIALS (S n) = Some b ->
    b = fmul a (f64_of_Z (Z.of_nat (S n))).
Proof.
  pose proof table_recurrence_check as H.
  destruct FACTORIALS as [|a l]; [discriminate|]. apply andb_true_iff in H. destruct H as [H1 H2].
  apply same_f64_eq in H1. split; [now rewrite H1|].
  intros n x y Hx Hy. rewrite (recurrence_ok_spec _ _ _ _ _ _ H2 Hx Hy). do 2 f_equal. lia.
Qed.

(** The value of [factorial n] is n! up to a relative error of 7 * 2^-53. *)
Theorem C37_factorial_accuracy : forall x n, is_finite x = true -> B2R x = INR n -> (n <= 170)%nat ->
  is_finite (factorial x) = true /\
  Rabs (B2R (factorial x) - INR (Factorial.fact n)) <= 7 * bpow radix2 (-53) * INR (Factorial.fact n).
Proof.
  intros x n Hf Hn Hr. rewrite INR_IZR_INZ in Hn.
  destruct (C36_factorial_cases x) as [_ [_ [_ [_ [_ [_ H]]]]]].
  destruct (H _ Hf Hn) as [v [Hv Hfull]]; [lia|]. unfold factorial. rewrite Hfull.
  rewrite Nat2Z.id in Hv.
  pose proof (table_close_spec FACTORIALS 0 n 1 v table_close_check eq_refl ltac:(lia) Hv) as Hc.
  apply close_ok_spec in Hc. cbn [Z.to_nat Nat.add] in Hc. destruct Hc as [Hc1 Hc2]. split; auto.
  rewrite INR_IZR_INZ, zfact_fact.
  assert (P : bpow radix2 53 * bpow radix2 (-53) = 1) by (rewrite <- bpow_plus; reflexivity).
  assert (Hp : 0 < bpow radix2 53) by apply bpow_gt_0.
  apply (Rmult_le_reg_r (bpow radix2 53)); auto.
  replace (7 * bpow radix2 (-53) * IZR (zfact n) * bpow radix2 53) with (7 * IZR (zfact n) * (bpow radix2 53 * bpow radix2 (-53))) by ring.
  rewrite P. lra.
Qed.

(** The entries are not always the nearest f64: 28! is one unit off. *)
Theorem C37_not_always_nearest : exists v, nth_error FACTORIALS 28 = Some v /\
  same_f64 v (f64_of_Z (zfact 28)) = false.
Proof.
  destruct (nth_error FACTORIALS 28) as [v|] eqn:E.
  - exists v. split; auto.
    assert (match nth_error FACTORIALS 28 with Some v => same_f64 v (f64_of_Z (zfact 28)) | None => true end = false) as H
      by (vm_compute; reflexivity).
    now rewrite E in H.
  - apply nth_error_None in E. rewrite table_length in E. lia.
Qed.

(** ** C46: variadic built-ins *)
Definition call_named (w : world) (b : builtin) (args : list f64) : out f64 :=
  call_function w (builtin_function b) args.

(** adding anything but a negative zero to a zero changes nothing *)
Lemma fadd_zero : forall s a, a <> fnzero -> fadd (B754_zero s) a = a.
Proof.
  intros s a Ha. destruct a as [[]|t| |t m e B]; try reflexivity.
  - now elim Ha.
  - destruct s; reflexivity.
Qed.

Theorem C46_sum_is_left_fold : forall w a args, exists v,
  call_named w B_SUM (a :: args) = Val v /\
  (v = fold_left fadd args a \/ v = fzero /\ fold_left fadd args a = fnzero).
Proof.
  intros w a args. eexists. split; [reflexivity|]. unfold sum_f64. cbn [fold_left].
  assert (H : forall l, fold_left fadd l fzero = fold_left fadd l fnzero \/
                        fold_left fadd l fzero = fzero /\ fold_left fadd l fnzero = fnzero).
  { induction l as [|b l IH]; [right; auto|]. cbn [fold_left].
    destruct (same_f64 b fnzero) eqn:E.
    - apply same_f64_eq in E. subst b. exact IH.
    - assert (b <> fnzero) by (intros ->; discriminate). unfold fzero, fnzero. rewrite !fadd_zero by auto. auto. }
  destruct (same_f64 a fnzero) eqn:E.
  - apply same_f64_eq in E. subst a. destruct (sum_neg_zero w); [left; reflexivity|]. apply H.
  - assert (a <> fnzero) by (intros ->; discriminate). left.
    destruct (sum_neg_zero w); unfold fzero, fnzero; now rewrite fadd_zero.
Qed.

Theorem C46_mean_is_sum_over_count : forall w args s, call_named w B_SUM args = Val s ->
  call_named w B_MEAN args = Val (fdiv s (f64_of_Z (Z.of_nat (List.length args)))).
Proof. intros w args s H. injection H as <-. reflexivity. Qed.

Lemma min_step : forall w a b, fis_nan a = false ->
  let r := min_f64 w a b in
  fis_nan r = false /\ toR r <= toR a /\ (fis_nan b = false -> toR r <= toR b) /\ (r = a \/ r = b /\ fis_nan b = false).
Proof.
  intros w a b Ha. cbv zeta. unfold min_f64. rewrite Ha.
  destruct (fis_nan b) eqn:Hb; [repeat split; auto; try lra; discriminate|].
  pose proof (flt_toR a b Ha Hb) as H1. pose proof (flt_toR b a Hb Ha) as H2.
  destruct (flt a b).
  - assert (toR a < toR b) by tauto. repeat split; auto; lra.
  - assert (~ toR a < toR b) by (intro; assert (false = true) by tauto; discriminate).
    destruct (flt b a).
    + assert (toR b < toR a) by tauto. repeat split; auto; lra.
    + assert (~ toR b < toR a) by (intro; assert (false = true) by tauto; discriminate).
      destruct (minmax_second w); repeat split; auto; lra.
Qed.
Lemma max_step : forall w a b, fis_nan a = false ->
  let r := max_f64 w a b in
  fis_nan r = false /\ toR a <= toR r /\ (fis_nan b = false -> toR b <= toR r) /\ (r = a \/ r = b /\ fis_nan b = false).
Proof.
  intros w a b Ha. cbv zeta. unfold max_f64. rewrite Ha.
  destruct (fis_nan b) eqn:Hb; [repeat split; auto; try lra; discriminate|].
  pose proof (flt_toR a b Ha Hb) as H1. pose proof (flt_toR b a Hb Ha) as H2.
  destruct (flt a b).
  - assert (toR a < toR b) by tauto. repeat split; auto; lra.
  - assert (~ toR a < toR b) by (intro; assert (false = true) by tauto; discriminate).
    destruct (flt b a).
    + assert (toR b < toR a) by tauto. repeat split; auto; lra.
    + assert (~ toR b < toR a) by (intro; assert (false = true) by tauto; discriminate).
      destruct (minmax_second w); repeat split; auto; lra.
Qed.

Lemma min_fold : forall w args a, fis_nan a = false ->
  let r := fold_left (min_f64 w) args a in
  fis_nan r = false /\ toR r <= toR a /\ (forall b, In b args -> fis_nan b = false -> toR r <= toR b) /\
  (r = a \/ In r args).
Proof.
  induction args as [|b args IH]; intros a Ha; cbn [fold_left].
  - repeat split; auto; try lra. intros b [].
  - destruct (min_step w a b Ha) as [S1 [S2 [S3 S4]]].
    destruct (IH _ S1) as [I1 [I2 [I3 I4]]]. cbv zeta in *. repeat split; auto; try lra.
    + intros c [<-|Hc] Hn; [|auto]. specialize (S3 Hn). lra.
    + destruct I4 as [->|I4]; [|right; now right]. destruct S4 as [->|[-> _]]; [auto|right; now left].
Qed.
Lemma max_fold : forall w args a, fis_nan a = false ->
  let r := fold_left (max_f64 w) args a in
  fis_nan r = false /\ toR a <= toR r /\ (forall b, In b args -> fis_nan b = false -> toR b <= toR r) /\
  (r = a \/ In r args).
Proof.
  induction args as [|b args IH]; intros a Ha; cbn [fold_left].
  - repeat split; auto; try lra. intros b [].
  - destruct (max_step w a b Ha) as [S1 [S2 [S3 S4]]].
    destruct (IH _ S1) as [I1 [I2 [I3 I4]]]. cbv zeta in *. repeat split; auto; try lra.
    + intros c [<-|Hc] Hn; [|auto]. specialize (S3 Hn). lra.
    + destruct I4 as [->|I4]; [|right; now right]. destruct S4 as [->|[-> _]]; [auto|right; now left].
Qed.

Lemma not_flt : forall a b, fis_nan a = false -> fis_nan b = false -> toR a <= toR b -> flt b a = false.
Proof.
  intros a b Ha Hb H. destruct (flt b a) eqn:E; auto. apply flt_toR in E; auto. lra.
Qed.

Lemma toR_inf_only : forall r, fis_nan r = false -> bpow radix2 emax64 <= toR r -> r = finf.
Proof.
  intros r Hn H. pose proof (finite_bound r) as Hb. apply Rabs_lt_inv in Hb.
  pose proof (bpow_gt_0 radix2 emax64).
  destruct r as [s|[]| |s m e B]; try discriminate; auto; cbn [toR] in H; lra.
Qed.
Lemma toR_ninf_only : forall r, fis_nan r = false -> toR r <= - bpow radix2 emax64 -> r = fninf.
Proof.
  intros r Hn H. pose proof (finite_bound r) as Hb. apply Rabs_lt_inv in Hb.
  pose proof (bpow_gt_0 radix2 emax64).
  destruct r as [s|[]| |s m e B]; try discriminate; auto; cbn [toR] in H; lra.
Qed.
Lemma toR_range : forall r, fis_nan r = false -> - bpow radix2 emax64 <= toR r <= bpow radix2 emax64.
Proof.
  intros r Hn. pose proof (finite_bound r) as Hb. apply Rabs_lt_inv in Hb.
  pose proof (bpow_gt_0 radix2 emax64).
  destruct r as [s|[]| |s m e B]; try discriminate; cbn [toR]; lra.
Qed.

(** min: one of the arguments, not NaN, and no argument is smaller. *)
Theorem C46_min : forall w args, (exists a, In a args /\ is_nan a = false) ->
  exists m, call_named w B_MIN args = Val m /\ In m args /\ is_nan m = false /\
            forall b, In b args -> flt b m = false.
Proof.
  intros w args [a [Ha Hna]]. eexists. split; [reflexivity|].
  destruct (min_fold w args finf eq_refl) as [M1 [M2 [M3 M4]]]. cbv zeta in *.
  set (m := fold_left (min_f64 w) args finf) in *. split; [|split; [exact M1|]].
  - destruct M4 as [M4|M4]; auto. specialize (M3 a Ha Hna). rewrite M4 in M3 |- *.
    cbn [toR finf] in M3. apply toR_inf_only in M3; auto. now rewrite <- M3.
  - intros b Hb. destruct (fis_nan b) eqn:E; [apply flt_nan; auto|]. apply not_flt; auto.
Qed.

(** max: likewise. *)
Theorem C46_max : forall w args, (exists a, In a args /\ is_nan a = false) ->
  exists m, call_named w B_MAX args = Val m /\ In m args /\ is_nan m = false /\
            forall b, In b args -> flt m b = false.
Proof.
  intros w args [a [Ha Hna]]. eexists. split; [reflexivity|].
  destruct (max_fold w args fninf eq_refl) as [M1 [M2 [M3 M4]]]. cbv zeta in *.
  set (m := fold_left (max_f64 w) args fninf) in *. split; [|split; [exact M1|]].
  - destruct M4 as [M4|M4]; auto. specialize (M3 a Ha Hna). rewrite M4 in M3 |- *.
    cbn [toR fninf] in M3. apply toR_ninf_only in M3; auto. now rewrite <- M3.
  - intros b Hb. destruct (fis_nan b) eqn:E; [apply flt_nan; auto|]. apply not_flt; auto.
Qed.

(** If every argument is NaN the answers are the infinities, not NaN. *)
Theorem C46_min_max_of_nans : forall w args, (forall a, In a args -> is_nan a = true) ->
  call_named w B_MIN args = Val finf /\ call_named w B_MAX args = Val fninf.
Proof.
  intros w args H. cbn. split; f_equal.
  - assert (Hf : forall acc, acc = finf -> fold_left (min_f64 w) args acc = finf); [|auto].
    induction args as [|a args IH]; intros acc ->; auto. cbn [fold_left].
    apply IH; [intros; apply H; now right|]. unfold min_f64. cbn [fis_nan is_nan finf].
    unfold fis_nan. rewrite (H a (or_introl eq_refl)). reflexivity.
  - assert (Hf : forall acc, acc = fninf -> fold_left (max_f64 w) args acc = fninf); [|auto].
    induction args as [|a args IH]; intros acc ->; auto. cbn [fold_left].
    apply IH; [intros; apply H; now right|]. unfold max_f64. cbn [fis_nan is_nan fninf].
    unfold fis_nan. rewrite (H a (or_introl eq_refl)). reflexivity.
Qed.

Example C46_witness : call_named w0 B_MIN [lit "3"; fnan; fneg fone; finf] = Val (fneg fone) /\
  call_named w0 B_SUM [fnzero] = Val fzero.
Proof. split; apply is_val_eq; vm_compute; reflexivity. Qed.

(** ** C48: rounding functions *)
(** round half away from zero *)
Definition round_away (r : R) : Z := if Rle_dec 0 r then Zfloor (r + / 2) else Zceil (r - / 2).

Lemma ZnearestA_round_away : forall r, Znearest (Zle_bool 0) r = round_away r.
Proof.
  intro r. unfold round_away. destruct (Rle_dec 0 r) as [H|H].
  - apply Znearest_imp2 || idtac. symmetry.
    pose proof (Znearest_half (Zle_bool 0) r) as Hh. apply Rabs_le_inv in Hh.
    apply Zfloor_imp. rewrite plus_IZR.
    split; [lra|].
    destruct (Req_dec (r - IZR (Znearest (Zle_bool 0) r)) (/ 2)) as [E|E]; [|lra].
    exfalso. assert (Hfl : Zfloor r = Znearest (Zle_bool 0) r) by (apply Zfloor_imp; rewrite plus_IZR; lra).
    pose proof E as E0. unfold Znearest in E at 1. rewrite Rcompare_Eq in E by (rewrite Hfl; lra).
    assert (0 <= Zfloor r)%Z by (apply Zfloor_lub; lra).
    rewrite (Zle_imp_le_bool _ _ H0) in E.
    rewrite Zceil_floor_neq in E by (rewrite Hfl; intro; lra). rewrite plus_IZR in E.
    pose proof (Zfloor_ub r). lra.
  - symmetry. pose proof (Znearest_half (Zle_bool 0) r) as Hh. apply Rabs_le_inv in Hh.
    apply Zceil_imp. rewrite minus_IZR. split; [|lra].
    destruct (Req_dec (r - IZR (Znearest (Zle_bool 0) r)) (- / 2)) as [E|E]; [|lra].
    exfalso. assert (Hfl : Zfloor r = (Znearest (Zle_bool 0) r - 1)%Z).
    { apply Zfloor_imp. rewrite plus_IZR, minus_IZR. lra. }
    pose proof E as E0. unfold Znearest in E at 1. rewrite Rcompare_Eq in E by (rewrite Hfl, minus_IZR; lra).
    assert (Zfloor r < 0)%Z by (apply lt_IZR; pose proof (Zfloor_lb r); lra).
    assert (0 <=? Zfloor r = false)%Z as Hb by (apply Z.leb_gt; auto). rewrite Hb in E.
    pose proof (Zfloor_lb r). lra.
Qed.

Theorem C48_rounding_functions : forall w x, is_finite x = true ->
  (exists v, call_named w B_FLOOR [x] = Val v /\ is_finite v = true /\ B2R v = IZR (Zfloor (B2R x))) /\
  (exists v, call_named w B_CEIL [x] = Val v /\ is_finite v = true /\ B2R v = IZR (Zceil (B2R x))) /\
  (exists v, call_named w B_TRUNC [x] = Val v /\ is_finite v = true /\ B2R v = IZR (Ztrunc (B2R x))) /\
  (exists v, call_named w B_ROUND [x] = Val v /\ is_finite v = true /\ B2R v = IZR (round_away (B2R x))) /\
  (exists v, call_named w B_ABS [x] = Val v /\ is_finite v = true /\ B2R v = Rabs (B2R x)).
Proof.
  intros w x Hx. repeat split; eexists; (split; [reflexivity|]).
  - destruct (Bnearbyint_correct prec64 emax64 Hmax64 mode_DN x) as [H1 [H2 _]].
    cbn [round_mode] in H1. rewrite round_FIX0 in H1. split; [now rewrite <- Hx, <- H2|exact H1].
  - destruct (Bnearbyint_correct prec64 emax64 Hmax64 mode_UP x) as [H1 [H2 _]].
    cbn [round_mode] in H1. rewrite round_FIX0 in H1. split; [now rewrite <- Hx, <- H2|exact H1].
  - destruct (ftrunc_correct x) as [H1 H2]. split; [unfold fis_finite in H2; now rewrite H2|exact H1].
  - destruct (Bnearbyint_correct prec64 emax64 Hmax64 mode_NA x) as [H1 [H2 _]].
    cbn [round_mode] in H1. rewrite round_FIX0, ZnearestA_round_away in H1.
    split; [now rewrite <- Hx, <- H2|exact H1].
  - split; [unfold fabs; now rewrite is_finite_Babs|]. unfold fabs. apply B2R_Babs.
Qed.

(** The fractional part is x - trunc(x), exactly. *)
Lemma frac_format : forall x : f64, is_finite x = true ->
  generic_format radix2 fexp64 (B2R x - IZR (Ztrunc (B2R x))).
Proof.
  intros x Hx. destruct x as [s| | |s m e B]; try discriminate.
  - cbn [B2R]. rewrite (Ztrunc_IZR 0), Rminus_0_r. apply generic_format_0.
  - destruct (bounded_inv _ _ B) as [Hm He].
    destruct (Z_le_gt_dec 0 e) as [Hp|Hn].
    + (* an integer *)
      assert (exists n, B2R (B754_finite s m e B : f64) = IZR n) as [n Hn].
      { exists (cond_Zopp s (Zpos m) * 2 ^ e)%Z. cbn [B2R]. unfold F2R. cbn [Fnum Fexp].
        rewrite mult_IZR. f_equal. rewrite <- (IZR_Zpower radix2) by lia. reflexivity. }
      rewrite Hn, Ztrunc_IZR. replace (IZR n - IZR n) with 0 by lra. apply generic_format_0.
    + (* |x - trunc x| <= |x| has the same exponent *)
      set (D := (2 ^ (- e))%Z).
      assert (HD : (0 < D)%Z) by (apply Z.pow_pos_nonneg; lia).
      assert (HDR : IZR D = bpow radix2 (- e)) by (unfold D; change (2 ^ (- e))%Z with (radix2 ^ (- e))%Z; apply IZR_Zpower; lia).
      assert (Hpe : 0 < bpow radix2 e) by apply bpow_gt_0.
      assert (Hinv : IZR D * bpow radix2 e = 1) by (rewrite HDR, <- bpow_plus, Z.add_opp_diag_l; reflexivity).
      assert (HD0 : 0 < IZR D) by (apply IZR_lt; auto).
      assert (Hfl : Zfloor (IZR (Zpos m) * bpow radix2 e) = (Zpos m / D)%Z).
      { apply Zfloor_imp. rewrite plus_IZR.
        pose proof (Z.div_mod (Zpos m) D ltac:(lia)) as Hdm.
        pose proof (Z.mod_pos_bound (Zpos m) D HD) as Hmod.
        assert (IZR (Zpos m) = IZR D * IZR (Zpos m / D) + IZR (Zpos m mod D)) as Hr
          by (rewrite <- mult_IZR, <- plus_IZR; f_equal; auto).
        assert (0 <= IZR (Zpos m mod D) < IZR D) as Hmr by (split; [apply IZR_le|apply IZR_lt]; lia).
        rewrite Hr, Rmult_plus_distr_r. replace (IZR D * IZR (Z.pos m / D) * bpow radix2 e) with (IZR (Z.pos m / D) * (IZR D * bpow radix2 e)) by ring.
        rewrite Hinv. split; [nra|]. assert (IZR (Z.pos m mod D) * bpow radix2 e < IZR D * bpow radix2 e) by nra. lra. }
      assert (Hval : B2R (B754_finite s m e B : f64) - IZR (Ztrunc (B2R (B754_finite s m e B : f64))) =
                     F2R (Float radix2 (cond_Zopp s (Zpos m mod D)) e)).
      { cbn [B2R]. unfold F2R. cbn [Fnum Fexp].
        assert (Hz : 0 <= IZR (Zpos m) * bpow radix2 e) by (apply Rmult_le_pos; [apply IZR_le; lia|lra]).
        assert (Hmod : IZR (Zpos m mod D) * bpow radix2 e = IZR (Zpos m) * bpow radix2 e - IZR (Zpos m / D)).
        { rewrite (Zmod_eq (Zpos m) D) by lia. rewrite minus_IZR, mult_IZR.
          replace (IZR (Z.pos m / D)) with (IZR (Z.pos m / D) * (IZR D * bpow radix2 e)) at 2 by (rewrite Hinv; ring). ring. }
        destruct s; cbn [cond_Zopp SpecFloat.cond_Zopp].
        - change (IZR (Z.neg m)) with (IZR (- Z.pos m)). rewrite !opp_IZR.
          rewrite <- !Ropp_mult_distr_l. rewrite Ztrunc_opp, Ztrunc_floor, Hfl by auto.
          rewrite opp_IZR. lra.
        - rewrite Ztrunc_floor, Hfl by auto. lra. }
      rewrite Hval. apply format_small; [|lia].
      pose proof (Z.mod_pos_bound (Zpos m) D HD). pose proof (Z.mod_le (Zpos m) D ltac:(lia) HD).
      destruct s; cbn [cond_Zopp]; lia.
Qed.

Theorem C48_fract_is_exact : forall w x, is_finite x = true ->
  exists v, call_named w B_FRACT [x] = Val v /\ is_finite v = true /\
            B2R v = B2R x - IZR (Ztrunc (B2R x)).
Proof.
  intros w x Hx. eexists. split; [reflexivity|]. unfold ffract, fsub.
  destruct (ftrunc_correct x) as [Ht Hf]. unfold fis_finite in Hf. rewrite Hx in Hf.
  pose proof (Bminus_correct prec64 emax64 Hprec64 Hmax64 mode_NE x (ftrunc x) Hx Hf) as H.
  rewrite Ht in H.
  rewrite (round_generic radix2 fexp64 (round_mode mode_NE) _ (frac_format x Hx)) in H.
  rewrite Rlt_bool_true in H.
  - destruct H as [H1 [H2 _]]. auto.
  - eapply Rlt_trans; [apply trunc_frac_bound|]. change 1 with (bpow radix2 0). apply bpow_lt. reflexivity.
Qed.

(** ** C49: the remainder *)
(** [x % y] on finite values with y not zero is exact: x - trunc(x/y)*y, smaller
    than y, with the sign of x. *)
Theorem C49_remainder_is_exact : forall x y, is_finite x = true -> is_finite y = true -> B2R y <> 0 ->
  B2R (frem x y) = B2R x - IZR (Ztrunc (B2R x / B2R y)) * B2R y /\
  is_finite (frem x y) = true /\ Bsign (frem x y) = Bsign x /\
  Rabs (B2R (frem x y)) < Rabs (B2R y).
Proof. exact frem_correct. Qed.

(** The other cases. *)
Theorem C49_remainder_special : forall x y,
  (is_nan x = true \/ is_nan y = true -> frem x y = fnan) /\
  (forall s, frem (B754_infinity s) y = fnan) /\
  (forall s, frem x (B754_zero s) = fnan) /\
  (forall s, is_finite x = true -> frem x (B754_infinity s) = x).
Proof.
  intros x y. repeat split.
  - destruct x, y; intros [H|H]; try discriminate; reflexivity.
  - intros s. destruct y; reflexivity.
  - intros s. destruct x; reflexivity.
  - intros s H. destruct x; try discriminate; reflexivity.
Qed.

Example C48_C49_witness : same_f64 (fround (lit "2.5")) (lit "3") = true /\
  same_f64 (fround (fneg (lit "2.5"))) (fneg (lit "3")) = true /\
  same_f64 (frem (fneg (lit "7.5")) (lit "2")) (fneg (lit "1.5")) = true.
Proof. repeat split; vm_compute; reflexivity. Qed.
