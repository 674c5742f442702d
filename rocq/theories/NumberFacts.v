(** * Decimal literals: correct rounding *)
From Coq Require Import ZArith NArith List String Ascii Bool Lia Reals Lra Psatz.
From Flocq Require Import Core BinarySingleNaN.
From Verif Require Import F64 FloatFacts SpecNumber.
Import ListNotations.
Local Open Scope R_scope.

Global Instance exists_NE_64 : Exists_NE radix2 fexp64.
Proof. right. intro e. rewrite !fexp64_FLT. unfold FLT_exp. lia. Qed.

(** ** overflow *)
Definition max_f64_R : R := F2R (Float radix2 (2 ^ 53 - 1) 971).

Lemma mag_max : (mag radix2 max_f64_R : Z) = 1024%Z.
Proof.
  unfold max_f64_R. rewrite (mag_F2R radix2 (2 ^ 53 - 1) 971) by lia.
  replace (mag radix2 (IZR (2 ^ 53 - 1)) : Z) with 53%Z; [reflexivity|].
  symmetry. apply mag_unique_pos. rewrite <- !IZR_Zpower by lia. split; [apply IZR_le|apply IZR_lt]; vm_compute; congruence.
Qed.
Lemma max_format : generic_format radix2 fexp64 max_f64_R.
Proof. apply generic_format_F2R. intros _. cbn [Fnum Fexp]. unfold cexp. fold max_f64_R. rewrite mag_max. vm_compute. congruence. Qed.

Lemma threshold_F2R : overflow_threshold = F2R (Float radix2 (2 ^ 54 - 1) 970).
Proof.
  unfold overflow_threshold, F2R. cbn [Fnum Fexp]. rewrite minus_IZR.
  change (IZR (2 ^ 54)) with (IZR (Zpower radix2 54)). rewrite IZR_Zpower by lia.
  rewrite Rmult_minus_distr_r, Rmult_1_l, <- bpow_plus.
  rewrite <- !(bpow_powerRZ radix2). reflexivity.
Qed.

Lemma round_threshold : bpow radix2 emax64 <= rnd64 overflow_threshold.
Proof.
  rewrite threshold_F2R.
  pose proof (binary_normalize_correct prec64 emax64 Hprec64 Hmax64 mode_NE (2 ^ 54 - 1) 970 false) as H.
  destruct (Rlt_bool_spec (Rabs (rnd64 (F2R (Float radix2 (2 ^ 54 - 1) 970)))) (bpow radix2 emax64)) as [Hlt|Hge].
  - cbv zeta in H. rewrite Rlt_bool_true in H by exact Hlt. destruct H as [_ [H _]].
    assert (E : is_finite (binary_normalize prec64 emax64 Hprec64 Hmax64 mode_NE (2 ^ 54 - 1) 970 false) = false) by (vm_compute; reflexivity).
    congruence.
  - rewrite Rabs_pos_eq in Hge; auto. rewrite <- rnd64_0 at 1. apply round_le; try typeclasses eauto.
    apply F2R_ge_0. cbn. lia.
Qed.

Lemma round_below : forall d, 0 <= d -> d < overflow_threshold -> Rabs (rnd64 d) < bpow radix2 emax64.
Proof.
  intros d Hd H. rewrite Rabs_pos_eq.
  2:{ rewrite <- rnd64_0 at 1. apply round_le; try typeclasses eauto. auto. }
  apply Rle_lt_trans with max_f64_R.
  - change (round_mode mode_NE) with (Znearest (fun x => negb (Z.even x))).
    apply round_N_le_midp; [typeclasses eauto|apply max_format|]. rewrite succ_eq_pos by (apply F2R_ge_0; cbn; lia).
    rewrite ulp_neq_0 by (apply F2R_neq_0; cbn; lia). unfold cexp. rewrite mag_max.
    change (fexp64 1024) with 971%Z.
    rewrite threshold_F2R in H. unfold max_f64_R, F2R in *. cbn [Fnum Fexp] in *.
    change (bpow radix2 971) with (bpow radix2 (1 + 970)). rewrite bpow_plus. change (bpow radix2 1) with 2.
    rewrite minus_IZR in *. change (2 ^ 54)%Z with (2 * 2 ^ 53)%Z in H. rewrite mult_IZR in H. lra.
  - unfold max_f64_R, F2R. cbn [Fnum Fexp]. change emax64 with (53 + 971)%Z. rewrite bpow_plus.
    apply Rmult_lt_compat_r; [apply bpow_gt_0|]. rewrite <- IZR_Zpower by lia. apply IZR_lt. vm_compute. reflexivity.
Qed.

Lemma round_above : forall d, overflow_threshold <= d -> bpow radix2 emax64 <= rnd64 d.
Proof. intros d H. eapply Rle_trans; [apply round_threshold|]. apply round_le; try typeclasses eauto. auto. Qed.

(** ** nearest, ties to even *)
Lemma f64_even : forall v : f64, fis_finite v = true -> Bsign v = false ->
  even_significand v -> exists g : float radix2, B2R v = F2R g /\ canonical radix2 fexp64 g /\ Z.even (Fnum g) = true.
Proof.
  intros [s|s| |s m e H] Hf Hs He; try discriminate Hf; cbn in *.
  - exists (Float radix2 0 (fexp64 (mag radix2 0))). split; [now rewrite F2R_0|]. split; auto.
    unfold canonical. cbn. f_equal. now rewrite F2R_0.
  - exists (Float radix2 (cond_Zopp s (Zpos m)) e). split; auto. split.
    + now apply canonical_bounded.
    + subst s. exact He.
Qed.

Lemma even_f64 : forall (v : f64) g, fis_finite v = true ->
  B2R v = F2R g -> canonical radix2 fexp64 g -> Z.even (Fnum g) = true -> even_significand v.
Proof.
  intros [s|s| |s m e H] g Hf E Hc He; try discriminate Hf; cbn in *; auto.
  assert (Hv : canonical radix2 fexp64 (Float radix2 (cond_Zopp s (Zpos m)) e)) by now apply canonical_bounded.
  assert (Eg := canonical_unique _ _ _ _ Hv Hc E). subst g. cbn in He. destruct s; exact He.
Qed.

Lemma f64_of_format : forall r, generic_format radix2 fexp64 r -> Rabs r < bpow radix2 emax64 ->
  exists y : f64, fis_finite y = true /\ B2R y = r.
Proof.
  intros r Hr Hb.
  pose proof (binary_normalize_correct prec64 emax64 Hprec64 Hmax64 mode_NE (Ztrunc (scaled_mantissa radix2 fexp64 r)) (cexp radix2 fexp64 r) false) as H.
  cbv zeta in H. change (F2R _) with (F2R (Float radix2 (Ztrunc (scaled_mantissa radix2 fexp64 r)) (cexp radix2 fexp64 r))) in H.
  rewrite <- Hr in H. rewrite round_generic in H by (try typeclasses eauto; auto).
  rewrite Rlt_bool_true in H by auto. destruct H as [H1 [H2 _]]. eauto.
Qed.

Lemma big_format_excluded : forall d g, 0 <= d -> d < overflow_threshold -> Rnd_N_pt (generic_format radix2 fexp64) d g ->
  Rabs g < bpow radix2 emax64.
Proof.
  intros d g Hd Ht Hg.
  assert (H0 : 0 <= g). { eapply Rnd_N_pt_ge_0; eauto. apply generic_format_0. }
  rewrite Rabs_pos_eq by auto. destruct (Rlt_or_le g (bpow radix2 emax64)) as [|Hge]; auto. exfalso.
  pose proof (round_below d Hd Ht) as Hb. rewrite Rabs_pos_eq in Hb by (rewrite <- rnd64_0 at 1; apply round_le; try typeclasses eauto; auto).
  (* max_f64_R is nearer than 2^1024 *)
  assert (HF : generic_format radix2 fexp64 (rnd64 d)) by (apply generic_format_round; typeclasses eauto).
  assert (HM : rnd64 d <= max_f64_R).
  { destruct (f64_of_format _ HF) as [y [Hy Ey]].
    - rewrite Rabs_pos_eq; auto. rewrite <- rnd64_0 at 1. apply round_le; try typeclasses eauto. auto.
    - rewrite <- Ey. apply Rle_trans with (Rabs (B2R y)); [apply Rle_abs|]. destruct y as [s|s| |s m e H]; try discriminate Hy; cbn.
      + rewrite Rabs_R0. apply F2R_ge_0. cbn. lia.
      + rewrite F2R_cond_Zopp, abs_cond_Ropp, Rabs_pos_eq by (apply F2R_ge_0; cbn; lia).
        pose proof (bounded_inv m e H) as Hb'. unfold max_f64_R, F2R. cbn [Fnum Fexp].
        apply Rmult_le_compat; [apply IZR_le; lia|apply bpow_ge_0| |apply bpow_le]; [apply IZR_le|]; lia. }
  destruct Hg as [_ Hn].
  specialize (Hn max_f64_R max_format).
  assert (Em : max_f64_R = bpow radix2 emax64 - 2 * bpow radix2 970).
  { unfold max_f64_R, F2R. cbn [Fnum Fexp]. rewrite minus_IZR. change (IZR (2 ^ 53)) with (IZR (Zpower radix2 53)).
    rewrite IZR_Zpower by lia. rewrite Rmult_minus_distr_r, Rmult_1_l, <- bpow_plus. 
    change (bpow radix2 971) with (bpow radix2 (1 + 970)). rewrite (bpow_plus radix2 1 970). reflexivity. }
  assert (Et : overflow_threshold = bpow radix2 emax64 - bpow radix2 970).
  { unfold overflow_threshold. rewrite <- !(bpow_powerRZ radix2). reflexivity. }
  assert (0 < bpow radix2 970) by apply bpow_gt_0.
  rewrite (Rabs_pos_eq (g - d)) in Hn by lra. unfold Rabs in Hn. destruct (Rcase_abs _); lra.
Qed.

Lemma correctly_rounded_iff : forall d (v : f64), 0 <= d -> d < overflow_threshold ->
  (correctly_rounded d v <-> fis_finite v = true /\ Bsign v = false /\ B2R v = rnd64 d).
Proof.
  intros d v Hd Ht.
  assert (HNE : forall g, Rnd_NE_pt radix2 fexp64 d g <-> g = rnd64 d).
  { intro g. assert (Hr : Rnd_NE_pt radix2 fexp64 d (rnd64 d)) by (apply round_NE_pt; typeclasses eauto).
    split; [|intros ->; auto]. intro H.
    apply Rle_antisym; [apply (Rnd_NE_pt_monotone radix2 fexp64 d d)|apply (Rnd_NE_pt_monotone radix2 fexp64 d d)]; auto; lra. }
  split.
  - intros [[_ [Hf [Hs [Hn He]]]]|[H _]]; [|lra]. split; auto. split; auto. apply HNE.
    assert (HN : Rnd_N_pt (generic_format radix2 fexp64) d (B2R v)).
    { split; [apply format_f64|]. intros g Hg.
      destruct (Rlt_or_le (Rabs (rnd64 d - d)) (Rabs (B2R v - d))) as [Hlt|Hle].
      - exfalso. assert (HF : generic_format radix2 fexp64 (rnd64 d)) by (apply generic_format_round; typeclasses eauto).
        destruct (f64_of_format _ HF (round_below d Hd Ht)) as [y [Hy Ey]]. specialize (Hn y Hy). rewrite Ey in Hn. lra.
      - eapply Rle_trans; [exact Hle|]. assert (HR : Rnd_N_pt (generic_format radix2 fexp64) d (rnd64 d)) by (apply round_N_pt; typeclasses eauto).
        apply HR. auto. }
    destruct (Req_dec (rnd64 d) (B2R v)) as [E|E]; [apply HNE; auto|].
    split; auto. left. apply f64_even; auto.
    assert (HF : generic_format radix2 fexp64 (rnd64 d)) by (apply generic_format_round; typeclasses eauto).
    destruct (f64_of_format _ HF (round_below d Hd Ht)) as [y [Hy Ey]].
    apply (He y Hy); [|congruence]. rewrite Ey. apply Rle_antisym.
    + assert (HR : Rnd_N_pt (generic_format radix2 fexp64) d (rnd64 d)) by (apply round_N_pt; typeclasses eauto).
      apply HR. apply format_f64.
    + rewrite <- Ey. now apply Hn.
  - intros [Hf [Hs Hv]]. left. split; auto. split; auto. split; auto.
    assert (HR : Rnd_NE_pt radix2 fexp64 d (B2R v)) by (apply HNE; auto).
    destruct HR as [HN HE]. split.
    + intros y Hy. apply HN. apply format_f64.
    + intros y Hy Ey Hne. destruct HE as [[g [Eg [Hc Hg]]]|HU].
      * eapply even_f64; eauto.
      * exfalso. apply Hne. apply HU. split; [apply format_f64|]. intros g Hg. rewrite Ey. now apply HN.
Qed.

Lemma correctly_rounded_unique : forall d v v', 0 <= d ->
  correctly_rounded d v -> correctly_rounded d v' -> v = v'.
Proof.
  intros d v v' Hd H H'. destruct (Rlt_or_le d overflow_threshold) as [Ht|Ht].
  - apply (correctly_rounded_iff d _ Hd Ht) in H, H'. destruct H as [H1 [H2 H3]], H' as [H1' [H2' H3']].
    apply B2R_Bsign_inj; auto; congruence.
  - destruct H as [[? _]|[_ ->]]; [lra|]. destruct H' as [[? _]|[_ ->]]; [lra|]. reflexivity.
Qed.

(** ** [f64_of_dec] *)
Lemma round_nonneg : forall d, 0 <= d -> 0 <= rnd64 d.
Proof. intros d H. rewrite <- rnd64_0 at 1. apply round_le; try typeclasses eauto. auto. Qed.

Lemma powerRZ_neg_Z : forall e, (e < 0)%Z -> powerRZ 10 e = / IZR (10 ^ (- e)).
Proof.
  intros [|p|p] He; try lia. cbn [powerRZ Z.opp]. f_equal. rewrite (pow_IZR 10). now rewrite positive_nat_Z.
Qed.
Lemma powerRZ_pos_Z : forall e, (0 <= e)%Z -> powerRZ 10 e = IZR (10 ^ e).
Proof.
  intros [|p|p] He; try lia; [reflexivity|]. cbn [powerRZ]. rewrite (pow_IZR 10). now rewrite positive_nat_Z.
Qed.

Lemma overflow_NE : forall v : f64, B2SF v = binary_overflow prec64 emax64 mode_NE false -> v = finf.
Proof. intros [[]|[]| |[] m e H] E; cbn in E; try discriminate E; reflexivity. Qed.

Lemma f64_of_dec_correct : forall m e, correctly_rounded (IZR (Z.of_N m) * powerRZ 10 e) (f64_of_dec m e).
Proof.
  intros m e. set (d := IZR (Z.of_N m) * powerRZ 10 e).
  assert (Hd : 0 <= d). { apply Rmult_le_pos; [apply IZR_le; lia|]. apply powerRZ_le. lra. }
  assert (H : if Rlt_bool (Rabs (rnd64 d)) (bpow radix2 emax64)
              then B2R (f64_of_dec m e) = rnd64 d /\ fis_finite (f64_of_dec m e) = true /\ Bsign (f64_of_dec m e) = false
              else f64_of_dec m e = finf).
  { destruct m as [|p].
    - assert (Ed : d = 0) by (unfold d; cbn; lra). rewrite Ed, rnd64_0, Rabs_R0, Rlt_bool_true by apply bpow_gt_0.
      cbn. auto.
    - cbn [f64_of_dec]. destruct (0 <=? e)%Z eqn:Ee.
      + apply Z.leb_le in Ee. unfold f64_of_Z.
        pose proof (binary_normalize_correct prec64 emax64 Hprec64 Hmax64 mode_NE (Zpos p * 10 ^ e) 0 false) as H.
        cbv zeta in H. assert (Ed : F2R (Float radix2 (Zpos p * 10 ^ e) 0) = d).
        { unfold F2R, d. cbn [Fnum Fexp]. rewrite mult_IZR, powerRZ_pos_Z by auto. cbn. lra. }
        rewrite Ed in H. destruct (Rlt_bool _ _).
        * destruct H as [H1 [H2 H3]]. split; auto. split; auto. rewrite H3.
          rewrite Rcompare_Gt; auto. unfold d. apply Rmult_lt_0_compat; [apply IZR_lt; lia|apply powerRZ_lt; lra].
        * apply overflow_NE. rewrite H. f_equal. apply Rlt_bool_false. auto.
      + apply Z.leb_gt in Ee.
        pose proof (proj2 (Bdiv_correct_aux prec64 emax64 Hprec64 Hmax64 mode_NE false p 0 false (Z.to_pos (10 ^ (- e))) 0)) as H.
        generalize (proj1 (Bdiv_correct_aux prec64 emax64 Hprec64 Hmax64 mode_NE false p 0 false (Z.to_pos (10 ^ (- e))) 0)).
        intro Hv.
        cbn [cond_Zopp] in H. assert (Ed : F2R (Float radix2 (Zpos p) 0) / F2R (Float radix2 (Zpos (Z.to_pos (10 ^ (- e)))) 0) = d).
        { unfold F2R, d. cbn [Fnum Fexp bpow]. rewrite Z2Pos.id by (apply Z.pow_pos_nonneg; lia).
          rewrite powerRZ_neg_Z by auto. cbn [Z.of_N]. rewrite !Rmult_1_r. reflexivity. }
        rewrite Ed in H. destruct (Rlt_bool _ _).
        * destruct H as [H1 [H2 H3]]. rewrite B2R_SF2B. unfold fis_finite. rewrite is_finite_SF2B, Bsign_SF2B. auto.
        * apply overflow_NE. rewrite B2SF_SF2B. exact H. }
  destruct (Rlt_or_le d overflow_threshold) as [Ht|Ht].
  - apply correctly_rounded_iff; auto. rewrite Rlt_bool_true in H by now apply round_below. tauto.
  - right. split; auto. rewrite Rlt_bool_false in H; auto. rewrite Rabs_pos_eq by now apply round_nonneg. now apply round_above.
Qed.

(** ** reading decimal texts *)
Definition no_digit (l : list ascii) : Prop := match l with c :: _ => digit_of c = None | [] => True end.
Definition dvals (l : list ascii) : list N := map (fun c => N_of_ascii c - 48)%N l.

Lemma digit_of_iff : forall c n, digit_of c = Some n <-> decimal_digit c /\ n = (N_of_ascii c - 48)%N.
Proof.
  intros c n. unfold digit_of, decimal_digit. destruct ((48 <=? N_of_ascii c) && (N_of_ascii c <=? 57))%N eqn:E.
  - apply andb_true_iff in E. destruct E as [E1 E2]. apply N.leb_le in E1, E2. split; [intros [= <-]; auto|intros [_ ->]; auto].
  - split; [discriminate|]. intros [[H1 H2] _]. apply N.leb_le in H1, H2. rewrite H1, H2 in E. discriminate.
Qed.

Lemma take_digits_all : forall l r, all_digits l -> no_digit r -> take_digits (l ++ r) = (dvals l, r).
Proof.
  intros l r Hl Hr. induction Hl as [|c l Hc Hl IH]; cbn [app].
  - destruct r as [|c r]; auto. cbn in *. now rewrite Hr.
  - cbn [take_digits]. rewrite (proj2 (digit_of_iff c _) (conj Hc eq_refl)). now rewrite IH.
Qed.

Lemma take_digits_inv : forall s ds r, take_digits s = (ds, r) ->
  exists l, s = l ++ r /\ all_digits l /\ ds = dvals l /\ no_digit r.
Proof.
  induction s as [|c s IH]; intros ds r H; cbn in H.
  - injection H as <- <-. exists []. repeat split; constructor.
  - destruct (digit_of c) as [d|] eqn:E.
    + destruct (take_digits s) as [ds' r'] eqn:Et. injection H as <- <-. destruct (IH _ _ eq_refl) as [l [-> [Hl [-> Hr]]]].
      apply digit_of_iff in E. destruct E as [E ->]. exists (c :: l). repeat split; auto. constructor; auto.
    + injection H as <- <-. exists []. repeat split; auto. constructor.
Qed.

Lemma dec_value_digits : forall l, all_digits l -> Z.of_N (dec_value (dvals l)) = digits_value l.
Proof.
  intros l Hl. unfold dec_value, dvals.
  assert (H : forall a, Z.of_N (fold_left (fun a d => 10 * a + d)%N (map (fun c => N_of_ascii c - 48)%N l) a) =
    (Z.of_N a * 10 ^ Z.of_nat (List.length l) + digits_value l)%Z).
  { induction Hl as [|c l Hc Hl IH]; intro a; cbn [map fold_left List.length digits_value]; [rewrite Z.mul_1_r; lia|].
    rewrite IH. unfold decimal_digit in Hc. rewrite Nat2Z.inj_succ, Z.pow_succ_r by lia. rewrite N2Z.inj_add, N2Z.inj_mul, N2Z.inj_sub by lia. cbn [Z.of_N]. ring. }
  now rewrite H.
Qed.

Lemma dvals_app : forall a b, dvals (a ++ b) = (dvals a ++ dvals b)%list.
Proof. intros. apply map_app. Qed.
Lemma dvals_nil : forall l, is_nil (dvals l) = true -> l = [].
Proof. intros [|c l]; [auto|discriminate]. Qed.
Lemma dvals_not_nil : forall l, l <> [] -> is_nil (dvals l) = false.
Proof. intros [|c l]; [congruence|auto]. Qed.

Lemma exp_char : forall c, (Ascii.eqb c "e" || Ascii.eqb c "E")%char = true <-> (c = "e" \/ c = "E")%char.
Proof.
  intro c. rewrite orb_true_iff, !Ascii.eqb_eq. tauto.
Qed.

Lemma digit_not_sign : forall c, decimal_digit c -> Ascii.eqb c "-" = false /\ Ascii.eqb c "+" = false.
Proof.
  intros c [H1 H2]. split; apply Ascii.eqb_neq; intros ->; cbn in H1; lia.
Qed.

Lemma parse_exponent_iff : forall s x, parse_exponent s = Some x <-> exponent s x.
Proof.
  intros s x. split.
  - intro H. destruct s as [|c s1]; cbn [parse_exponent] in H; [injection H as <-; constructor|].
    destruct (Ascii.eqb c "e" || Ascii.eqb c "E")%char eqn:Ec; [|discriminate H]. apply exp_char in Ec.
    assert (Hgo : forall neg s2, (let '(ds, s3) := take_digits s2 in
        if is_nil ds || negb (is_nil s3) then None else Some (cond_Zopp neg (Z.of_N (dec_value ds)))) = Some x ->
        all_digits s2 /\ s2 <> [] /\ x = cond_Zopp neg (digits_value s2)).
    { intros neg s2 Hs. destruct (take_digits s2) as [ds s3] eqn:Et. apply take_digits_inv in Et.
      destruct Et as [l [-> [Hl [-> Hr]]]]. destruct s3 as [|c3 s3]; [|rewrite orb_true_r in Hs; discriminate Hs].
      destruct l as [|d l]; [discriminate Hs|]. rewrite app_nil_r. cbn [is_nil dvals map orb negb] in Hs. injection Hs as <-.
      change ((N_of_ascii d - 48)%N :: map (fun c : ascii => (N_of_ascii c - 48)%N) l) with (dvals (d :: l)).
      rewrite dec_value_digits by auto. repeat split; auto. discriminate. }
    destruct s1 as [|d s']; [apply (Hgo false []) in H; destruct H as [_ [H _]]; congruence|].
    destruct (Ascii.eqb d "-") eqn:Em; [|destruct (Ascii.eqb d "+") eqn:Ep].
    + apply Ascii.eqb_eq in Em. subst d. apply Hgo in H. destruct H as [H1 [H2 ->]]. now apply X_minus.
    + apply Ascii.eqb_eq in Ep. subst d. apply Hgo in H. destruct H as [H1 [H2 ->]]. now apply X_plus.
    + apply Hgo in H. destruct H as [H1 [H2 ->]]. now apply X_bare.
  - intro H. destruct H as [|c ds Hc Hd Hn|c ds Hc Hd Hn|c ds Hc Hd Hn]; auto; cbn [parse_exponent];
      rewrite (proj2 (exp_char c) Hc).
    + destruct ds as [|d ds]; [congruence|]. assert (Hd0 := Hd). inversion Hd0; subst.
      destruct (digit_not_sign d) as [-> ->]; auto.
      pose proof (take_digits_all (d :: ds) [] Hd I) as Et. rewrite app_nil_r in Et. rewrite Et.
      cbn [is_nil dvals map orb negb]. change ((N_of_ascii d - 48)%N :: map _ ds) with (dvals (d :: ds)).
      now rewrite dec_value_digits.
    + pose proof (take_digits_all ds [] Hd I) as Et. rewrite app_nil_r in Et. cbn [Ascii.eqb Bool.eqb]. rewrite Et.
      rewrite dvals_not_nil by auto. cbn [is_nil negb orb cond_Zopp]. now rewrite dec_value_digits.
    + pose proof (take_digits_all ds [] Hd I) as Et. rewrite app_nil_r in Et. cbn [Ascii.eqb Bool.eqb]. rewrite Et.
      rewrite dvals_not_nil by auto. cbn [is_nil negb orb cond_Zopp]. now rewrite dec_value_digits.
Qed.

Lemma exponent_head : forall b x, exponent b x -> no_digit b /\ match b with c :: _ => Ascii.eqb c "." = false | [] => True end.
Proof.
  intros b x [|c ds Hc Hd Hn|c ds Hc Hd Hn|c ds Hc Hd Hn]; cbn; auto; destruct Hc as [-> | ->]; split; reflexivity.
Qed.

Definition decimal_list (l : list ascii) (m : Z) (e : Z) : Prop :=
  exists a b k x, l = a ++ b /\ mantissa a m k /\ exponent b x /\ e = (x - Z.of_nat k)%Z.

Lemma parse_f64_reads : forall l v, parse_f64 l = Some v <->
  exists m e, decimal_list l (Z.of_N m) e /\ v = f64_of_dec m e.
Proof.
  intros l v. split.
  - unfold parse_f64. intro H. destruct (take_digits l) as [ip s1] eqn:Ei. apply take_digits_inv in Ei.
    destruct Ei as [i [-> [Hi [-> Hs1]]]].
    assert (Hc : (exists f s2, s1 = "."%char :: f ++ s2 /\ all_digits f /\
        match s1 with c :: s' => if Ascii.eqb c "." then take_digits s' else ([], s1) | [] => ([], s1) end = (dvals f, s2)) \/
      match s1 with c :: s' => if Ascii.eqb c "." then take_digits s' else ([], s1) | [] => ([], s1) end = ([], s1)).
    { destruct s1 as [|c s1]; [auto|]. destruct (Ascii.eqb c ".") eqn:Ec; [|auto]. apply Ascii.eqb_eq in Ec. subst c.
      destruct (take_digits s1) as [fp s2] eqn:Ef. apply take_digits_inv in Ef. destruct Ef as [f [-> [Hf [-> _]]]]. left. eauto. }
    destruct Hc as [[f [s2 [-> [Hf E]]]]|E]; rewrite E in H.
    + destruct (is_nil (dvals i) && is_nil (dvals f)) eqn:En; [discriminate H|].
      destruct (parse_exponent s2) as [x|] eqn:Ex; [|discriminate H]. apply parse_exponent_iff in Ex. injection H as <-.
      exists (dec_value (dvals i ++ dvals f)), (x - Z.of_nat (List.length f))%Z. split; [|unfold dvals; now rewrite (map_length _ f)].
      exists (i ++ "."%char :: f), s2, (List.length f), x. split; [now rewrite <- app_assoc|]. split; [|auto].
      rewrite <- dvals_app, dec_value_digits by (apply Forall_app; auto). apply M_point; auto.
      intro E'. apply app_eq_nil in E'. destruct E' as [-> ->]. discriminate En.
    + destruct (is_nil (dvals i) && is_nil []) eqn:En; [discriminate H|].
      destruct (parse_exponent s1) as [x|] eqn:Ex; [|discriminate H]. apply parse_exponent_iff in Ex. injection H as <-.
      exists (dec_value (dvals i ++ [])), (x - 0)%Z. split; [|reflexivity]. exists i, s1, 0%nat, x. split; auto. split; [|auto].
      rewrite app_nil_r, dec_value_digits by auto. apply M_integer; auto. intros ->. discriminate En.
  - intros [m [e [[a [b [k [x [-> [Hm [Hx ->]]]]]]] ->]]]. destruct (exponent_head b x Hx) as [Hb Hp].
    inversion Hm as [i Hi Hn Ea Em Ek|i f Hi Hf Hn Ea Em Ek]; subst a; unfold parse_f64.
    + rewrite (take_digits_all i b Hi Hb).
      assert (E : match b with c :: s' => if Ascii.eqb c "." then take_digits s' else ([], b) | [] => ([], b) end = ([], b)).
      { destruct b; auto. now rewrite Hp. }
      rewrite E, dvals_not_nil by auto. cbn [andb]. apply parse_exponent_iff in Hx. rewrite Hx. f_equal. f_equal.
      rewrite app_nil_r. apply N2Z.inj. now rewrite dec_value_digits.
    + replace ((i ++ "."%char :: f) ++ b) with (i ++ "."%char :: f ++ b) by now rewrite <- app_assoc.
      rewrite (take_digits_all i _ Hi) by reflexivity. cbn [Ascii.eqb Bool.eqb]. rewrite (take_digits_all f b Hf Hb).
      assert (En : is_nil (dvals i) && is_nil (dvals f) = false).
      { destruct (is_nil (dvals i) && is_nil (dvals f)) eqn:En; auto. exfalso. apply andb_true_iff in En. destruct En as [E1 E2].
        apply dvals_nil in E1, E2. subst. apply Hn. reflexivity. }
      rewrite En. apply parse_exponent_iff in Hx. rewrite Hx. f_equal. f_equal.
      * apply N2Z.inj. rewrite <- dvals_app, dec_value_digits; auto. apply Forall_app; auto.
      * unfold dvals. now rewrite map_length.
Qed.

Lemma digits_value_nonneg : forall l, all_digits l -> (0 <= digits_value l)%Z.
Proof. intros l H. rewrite <- dec_value_digits by auto. lia. Qed.

(** The literal parser computes the correctly rounded value, and accepts
    exactly the decimal texts. *)
Theorem parse_f64_correct : forall text v,
  parse_f64 (strip_underscores (list_ascii_of_string text)) = Some v <->
  exists d, decimal text d /\ correctly_rounded d v.
Proof.
  intros text v. rewrite parse_f64_reads. split.
  - intros [m [e [[a [b [k [x [E [Hm [Hx ->]]]]]]] ->]]]. eexists. split; [|apply f64_of_dec_correct].
    exists a, b, (Z.of_N m), k, x. auto.
  - intros [d [[a [b [m [k [x [E [Hm [Hx ->]]]]]]]] Hr]].
    assert (Hp : (0 <= m)%Z).
    { inversion Hm; subst; apply digits_value_nonneg; auto. apply Forall_app; auto. }
    exists (Z.to_N m), (x - Z.of_nat k)%Z. rewrite Z2N.id by auto. split; [exists a, b, k, x; auto|].
    eapply correctly_rounded_unique; [|exact Hr|].
    + apply Rmult_le_pos; [now apply IZR_le|]. apply powerRZ_le. lra.
    + pose proof (f64_of_dec_correct (Z.to_N m) (x - Z.of_nat k)) as H. now rewrite Z2N.id in H by auto.
Qed.
