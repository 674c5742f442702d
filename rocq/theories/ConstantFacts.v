(** * The constants pi and e are the nearest f64 to π and e *)
From Coq Require Import ZArith QArith Qpower Qreals List String Bool Lia Reals Lra Ratan Rseries SeqSeries AltSeries.
From Flocq Require Import Core BinarySingleNaN.
From Verif Require Import F64 Syntax SpecNumber FloatFacts NumberFacts TestWorld.
Local Open Scope R_scope.

Fixpoint sumq (f : nat -> Q) (n : nat) : Q :=
  match n with O => f O | S m => Qred (sumq f m + f (S m)) end.

Lemma sumq_R : forall (f : nat -> Q) (g : nat -> R), (forall n, Q2R (f n) = g n) ->
  forall n, Q2R (sumq f n) = sum_f_R0 g n.
Proof.
  intros f g H n. induction n as [|n IH]; cbn [sumq sum_f_R0]; auto.
  rewrite (Qeq_eqR _ _ (Qred_correct _)), Q2R_plus, IH, H. reflexivity.
Qed.

Definition powq (q : Q) (n : nat) : Q := Qpower q (Z.of_nat n).
Lemma powq_R : forall q n, ~ (q == 0)%Q -> Q2R (powq q n) = Q2R q ^ n.
Proof.
  intros q n Hq. unfold powq. induction n as [|n IH].
  - cbn. unfold Q2R. cbn. lra.
  - cbn [pow]. rewrite Nat2Z.inj_succ. rewrite <- IH. rewrite <- Q2R_mult. apply Qeq_eqR.
    unfold Z.succ. rewrite Qpower_plus by auto. change (q ^ 1)%Q with q. ring.
Qed.

Definition invq (n : nat) : Q := / inject_Z (Z.of_nat n).
Lemma invq_R : forall n, n <> O -> Q2R (invq n) = / INR n.
Proof.
  intros n Hn. unfold invq. rewrite Q2R_inv.
  - f_equal. unfold Q2R, inject_Z. cbn [Qnum Qden]. rewrite INR_IZR_INZ. lra.
  - unfold Qeq, inject_Z. cbn [Qnum Qden]. lia.
Qed.

(** π *)
Definition pi_term (i : nat) : Q :=
  (powq (-1 # 1) i * (2 * (powq (1 # 3) (2 * i + 1) * invq (2 * i + 1)) + powq (1 # 7) (2 * i + 1) * invq (2 * i + 1)))%Q.

Lemma pi_term_R : forall n, Q2R (pi_term n) = tg_alt PI_2_3_7_tg n.
Proof.
  intro n. unfold pi_term, tg_alt, PI_2_3_7_tg, Ratan_seq. rewrite Q2R_mult, Q2R_plus, !Q2R_mult.
  rewrite !powq_R by (unfold Qeq; cbn; lia). rewrite !invq_R by lia.
  replace (Q2R (-1 # 1)) with (-1) by (unfold Q2R; cbn; lra).
  replace (Q2R (1 # 3)) with (/ 3) by (unfold Q2R; cbn; lra).
  replace (Q2R (1 # 7)) with (/ 7) by (unfold Q2R; cbn; lra).
  replace (Q2R 2) with 2 by (unfold Q2R; cbn; lra). unfold Rdiv. ring.
Qed.

Lemma Qle_R : forall p q, Qle_bool p q = true -> Q2R p <= Q2R q.
Proof. intros p q H. apply Qle_Rle. now apply Qle_bool_iff. Qed.

Lemma PI_bounds : 31415926535897931 / 10000000000000000 <= PI <= 31415926535897933 / 10000000000000000.
Proof.
  destruct (PI_2_3_7_ineq 9) as [H1 H2]. rewrite <- (sumq_R _ _ pi_term_R) in H1. rewrite <- (sumq_R _ _ pi_term_R) in H2.
  assert (L : Q2R (31415926535897931 # 40000000000000000) <= Q2R (sumq pi_term (S (2 * 9)))) by (apply Qle_R; vm_compute; reflexivity).
  assert (U : Q2R (sumq pi_term (2 * 9)) <= Q2R (31415926535897933 # 40000000000000000)) by (apply Qle_R; vm_compute; reflexivity).
  unfold Q2R at 1 in L. unfold Q2R at 2 in U. cbn [Qnum Qden] in L, U. lra.
Qed.

(** e *)
Fixpoint factz (n : nat) : Z := match n with O => 1 | S m => Z.of_nat n * factz m end%Z.
Lemma factz_fact : forall n, factz n = Z.of_nat (fact n).
Proof. induction n as [|n IH]; auto. cbn [factz]. rewrite IH, <- Nat2Z.inj_mul. reflexivity. Qed.
Definition e_term (i : nat) : Q := (powq (-1 # 1) i * / inject_Z (factz i))%Q.

Lemma e_term_R : forall n, Q2R (e_term n) = tg_alt (fun n => / INR (fact n)) n.
Proof.
  intro n. unfold e_term, tg_alt. rewrite Q2R_mult, powq_R by (unfold Qeq; cbn; lia). rewrite factz_fact.
  replace (Q2R (-1 # 1)) with (-1) by (unfold Q2R; cbn; lra). f_equal. apply invq_R. apply fact_neq_0.
Qed.

Lemma exp_m1_series : Un_cv (fun n => sum_f_R0 (tg_alt (fun n => / INR (fact n))) n) (exp (-1)).
Proof.
  unfold exp. destruct (exist_exp (-1)) as [l Hl]. cbn [proj1_sig]. unfold exp_in, infinite_sum in Hl. intros eps He.
  destruct (Hl eps He) as [N HN]. exists N. intros n Hn. specialize (HN n Hn).
  replace (sum_f_R0 (tg_alt (fun n => / INR (fact n))) n) with (sum_f_R0 (fun i => / INR (fact i) * (-1) ^ i) n); auto.
  apply sum_eq. intros i _. unfold tg_alt. ring.
Qed.

Lemma inv_fact_decreasing : Un_decreasing (fun n => / INR (fact n)).
Proof.
  intro n. apply Rinv_le_contravar; [apply INR_fact_lt_0|]. apply le_INR. cbn. lia.
Qed.

Lemma inv_fact_cv : Un_cv (fun n => / INR (fact n)) 0.
Proof.
  pose proof (cv_speed_pow_fact 1) as H. intros eps He. destruct (H eps He) as [N HN]. exists N. intros n Hn. specialize (HN n Hn).
  rewrite pow1 in HN. unfold Rdiv in HN. now rewrite Rmult_1_l in HN.
Qed.

Lemma e_bounds : 27182818284590450 / 10000000000000000 <= exp 1 <= 27182818284590453 / 10000000000000000.
Proof.
  destruct (alternated_series_ineq _ _ 10 inv_fact_decreasing inv_fact_cv exp_m1_series) as [H1 H2].
  rewrite <- (sumq_R _ _ e_term_R) in H1. rewrite <- (sumq_R _ _ e_term_R) in H2.
  assert (L : Q2R (10000000000000000 # 27182818284590453) <= Q2R (sumq e_term (S (2 * 10)))) by (apply Qle_R; vm_compute; reflexivity).
  assert (U : Q2R (sumq e_term (2 * 10)) <= Q2R (10000000000000000 # 27182818284590450)) by (apply Qle_R; vm_compute; reflexivity).
  unfold Q2R at 1 in L. unfold Q2R at 2 in U. cbn [Qnum Qden] in L, U.
  assert (E : exp 1 = / exp (-1)). { replace (-1) with (- (1)) by lra. rewrite exp_Ropp. now rewrite Rinv_involutive by (apply Rgt_not_eq, exp_pos). }
  assert (Hp := exp_pos (-1)). rewrite E. split.
  - apply Rle_trans with (/ (10000000000000000 * / 27182818284590450)).
    + apply Req_le. field.
    + apply Rinv_le_contravar; auto. lra.
  - apply Rle_trans with (/ (10000000000000000 * / 27182818284590453)).
    + apply Rinv_le_contravar; lra.
    + apply Req_le. field.
Qed.

Lemma squeeze : forall (v : f64) r lo hi, 0 <= lo -> lo <= r <= hi -> r < overflow_threshold ->
  hi < overflow_threshold -> correctly_rounded lo v -> correctly_rounded hi v -> correctly_rounded r v.
Proof.
  intros v r lo hi H0 [H1 H2] Hr Hh Hlo Hhi.
  apply (correctly_rounded_iff lo v) in Hlo; [|lra|lra]. apply (correctly_rounded_iff hi v) in Hhi; [|lra|lra].
  apply correctly_rounded_iff; [lra|lra|]. destruct Hlo as [A [B C]], Hhi as [_ [_ D]]. split; auto. split; auto.
  apply Rle_antisym.
  - rewrite C. apply round_le; try typeclasses eauto. auto.
  - rewrite D. apply round_le; try typeclasses eauto. auto.
Qed.

Lemma small_threshold : forall r, r <= 10 -> r < overflow_threshold.
Proof.
  intros r H. apply Rle_lt_trans with (1 := H). unfold overflow_threshold.
  rewrite <- !(bpow_powerRZ radix2). change (bpow radix2 1024) with (bpow radix2 (54 + 970)). rewrite bpow_plus.
  assert (1 <= bpow radix2 970) by (change 1 with (bpow radix2 0); apply bpow_le; lia).
  assert (bpow radix2 54 = 18014398509481984) by reflexivity. nra.
Qed.

Lemma dec_rounded : forall m e v, same_f64 (f64_of_dec m e) v = true -> correctly_rounded (IZR (Z.of_N m) * powerRZ 10 e) v.
Proof. intros m e v H. apply same_f64_eq in H. rewrite <- H. apply f64_of_dec_correct. Qed.

Lemma scale16 : forall m, IZR m * powerRZ 10 (-16) = IZR m / 10000000000000000.
Proof. intro m. unfold Rdiv. f_equal. rewrite powerRZ_neg_Z by lia. reflexivity. Qed.

Theorem pi_nearest : correctly_rounded PI f64_PI.
Proof.
  pose proof PI_bounds as H. apply squeeze with (31415926535897931 / 10000000000000000) (31415926535897933 / 10000000000000000); auto;
    try (apply small_threshold); try lra.
  - rewrite <- (scale16 31415926535897931). apply (dec_rounded 31415926535897931). vm_compute. reflexivity.
  - rewrite <- (scale16 31415926535897933). apply (dec_rounded 31415926535897933). vm_compute. reflexivity.
Qed.

Theorem e_nearest : correctly_rounded (exp 1) f64_E.
Proof.
  pose proof e_bounds as H. apply squeeze with (27182818284590450 / 10000000000000000) (27182818284590453 / 10000000000000000); auto;
    try (apply small_threshold); try lra.
  - rewrite <- (scale16 27182818284590450). apply (dec_rounded 27182818284590450). vm_compute. reflexivity.
  - rewrite <- (scale16 27182818284590453). apply (dec_rounded 27182818284590453). vm_compute. reflexivity.
Qed.
