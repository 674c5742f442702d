(** * C55-C56: arithmetic against the real numbers *)
From Coq Require Import ZArith NArith List String Bool Lia Reals Lra.
From Flocq Require Import Core BinarySingleNaN.
From Verif Require Import F64 Syntax Factorial Builtins Context Element Parser Xprs.
From Verif Require Import SpecTree SpecNumber FloatFacts NumberFacts PropertiesEval PropertiesNumeric TestWorld.
Import ListNotations.
Local Open Scope R_scope.

(** ** Specification *)
(** [v] is the f64 nearest to the real [d] (ties to even, overflow to an infinity),
    with the sign of [d] even if it is rounded to a zero. *)
Definition nearest_f64 (d : R) (v : f64) : Prop :=
  correctly_rounded (Rabs d) (fabs v) /\ (d < 0 -> Bsign v = true) /\ (0 < d -> Bsign v = false).

(** the exact result of an operator on reals, where it has one *)
Definition exact (op : operator) (a b : R) (d : R) : Prop :=
  match op with
  | Plus => d = a + b
  | Minus => d = a - b
  | Times => d = a * b
  | Divide => b <> 0 /\ d = a / b
  | _ => False
  end.

(** ** Proofs *)
Lemma nearest_from_round : forall d (v : f64), fis_nan v = false ->
  (if Rlt_bool (Rabs (rnd64 d)) (bpow radix2 emax64)
   then B2R v = rnd64 d /\ fis_finite v = true
   else exists s, v = B754_infinity s) ->
  (d < 0 -> Bsign v = true) -> (0 < d -> Bsign v = false) ->
  nearest_f64 d v.
Proof.
  intros d v Hn H Hneg Hpos. split; [|auto].
  assert (Ha : rnd64 (Rabs d) = Rabs (rnd64 d)).
  { change (round_mode mode_NE) with ZnearestE. apply round_NE_abs. typeclasses eauto. }
  destruct (Rlt_or_le (Rabs d) overflow_threshold) as [Ht|Ht].
  - assert (Hb := round_below (Rabs d) (Rabs_pos d) Ht). rewrite Ha, Rabs_Rabsolu in Hb.
    rewrite Rlt_bool_true in H by exact Hb. destruct H as [HR Hf].
    apply (correctly_rounded_iff (Rabs d) (fabs v) (Rabs_pos d) Ht). unfold fabs, fis_finite in *.
    rewrite is_finite_Babs, B2R_Babs, HR, Ha. split; auto. split; [apply Bsign_Babs; exact Hn|reflexivity].
  - right. split; auto. assert (Hb := round_above (Rabs d) Ht). rewrite Ha in Hb.
    rewrite Rlt_bool_false in H by exact Hb. destruct H as [s ->]. reflexivity.
Qed.

Lemma overflow_infinity : forall (v : f64) s, B2SF v = binary_overflow prec64 emax64 mode_NE s -> v = B754_infinity s.
Proof. intros [s'|s'| |s' m e H] s E; cbn in E; try discriminate E. now injection E as ->. Qed.

Lemma sign_ge : forall x : f64, is_finite x = true -> Bsign x = false -> 0 <= B2R x.
Proof.
  intros [s|s| |s m e H] Hf Hs; try discriminate Hf; cbn in *; [lra|]. subst s. cbn. apply Rlt_le. now apply F2R_gt_0.
Qed.
Lemma sign_le : forall x : f64, is_finite x = true -> Bsign x = true -> B2R x <= 0.
Proof.
  intros [s|s| |s m e H] Hf Hs; try discriminate Hf; cbn in *; [lra|]. subst s. cbn. apply Rlt_le. now apply F2R_lt_0.
Qed.

Lemma finite_not_nan : forall x : f64, is_finite x = true -> is_nan x = false.
Proof. intros [] H; try discriminate H; reflexivity. Qed.

Lemma fadd_nearest : forall a b, is_finite a = true -> is_finite b = true -> nearest_f64 (B2R a + B2R b) (fadd a b).
Proof.
  intros a b Ha Hb. pose proof (Bplus_correct prec64 emax64 Hprec64 Hmax64 mode_NE a b Ha Hb) as H. fold (fadd a b) in H.
  destruct (Rlt_bool (Rabs (rnd64 (B2R a + B2R b))) (bpow radix2 emax64)) eqn:E.
  - destruct H as [HR [Hf Hs]]. apply nearest_from_round.
    + now apply finite_not_nan.
    + rewrite E. auto.
    + intro Hd. rewrite Hs, Rcompare_Lt by exact Hd. reflexivity.
    + intro Hd. rewrite Hs, Rcompare_Gt by exact Hd. reflexivity.
  - destruct H as [HS Hs]. apply overflow_infinity in HS. apply nearest_from_round; rewrite HS.
    + reflexivity.
    + rewrite E. eauto.
    + intro Hd. cbn. destruct (Bsign a) eqn:Sa; auto. symmetry in Hs.
      pose proof (sign_ge a Ha Sa). pose proof (sign_ge b Hb Hs). lra.
    + intro Hd. cbn. destruct (Bsign a) eqn:Sa; auto. symmetry in Hs.
      pose proof (sign_le a Ha Sa). pose proof (sign_le b Hb Hs). lra.
Qed.

Lemma fsub_nearest : forall a b, is_finite a = true -> is_finite b = true -> nearest_f64 (B2R a - B2R b) (fsub a b).
Proof.
  intros a b Ha Hb. pose proof (Bminus_correct prec64 emax64 Hprec64 Hmax64 mode_NE a b Ha Hb) as H. fold (fsub a b) in H.
  destruct (Rlt_bool (Rabs (rnd64 (B2R a - B2R b))) (bpow radix2 emax64)) eqn:E.
  - destruct H as [HR [Hf Hs]]. apply nearest_from_round.
    + now apply finite_not_nan.
    + rewrite E. auto.
    + intro Hd. rewrite Hs, Rcompare_Lt by exact Hd. reflexivity.
    + intro Hd. rewrite Hs, Rcompare_Gt by exact Hd. reflexivity.
  - destruct H as [HS Hs]. apply overflow_infinity in HS. apply nearest_from_round; rewrite HS.
    + reflexivity.
    + rewrite E. eauto.
    + intro Hd. cbn. destruct (Bsign a) eqn:Sa; auto. assert (Sb : Bsign b = true) by (destruct (Bsign b); auto).
      pose proof (sign_ge a Ha Sa). pose proof (sign_le b Hb Sb). lra.
    + intro Hd. cbn. destruct (Bsign a) eqn:Sa; auto. assert (Sb : Bsign b = false) by (destruct (Bsign b); auto; discriminate Hs).
      pose proof (sign_le a Ha Sa). pose proof (sign_ge b Hb Sb). lra.
Qed.

Lemma mul_sign : forall a b : f64, is_finite a = true -> is_finite b = true ->
  (B2R a * B2R b < 0 -> xorb (Bsign a) (Bsign b) = true) /\ (0 < B2R a * B2R b -> xorb (Bsign a) (Bsign b) = false).
Proof.
  intros a b Ha Hb.
  assert (Pa : if Bsign a then B2R a <= 0 else 0 <= B2R a) by (destruct (Bsign a) eqn:S; [now apply sign_le|now apply sign_ge]).
  assert (Pb : if Bsign b then B2R b <= 0 else 0 <= B2R b) by (destruct (Bsign b) eqn:S; [now apply sign_le|now apply sign_ge]).
  destruct (Bsign a), (Bsign b); cbn; split; intro H; auto; nra.
Qed.

Lemma fmul_nearest : forall a b, is_finite a = true -> is_finite b = true -> nearest_f64 (B2R a * B2R b) (fmul a b).
Proof.
  intros a b Ha Hb. destruct (mul_sign a b Ha Hb) as [Sn Sp].
  pose proof (Bmult_correct prec64 emax64 Hprec64 Hmax64 mode_NE a b) as H. fold (fmul a b) in H. rewrite Ha, Hb in H.
  destruct (Rlt_bool (Rabs (rnd64 (B2R a * B2R b))) (bpow radix2 emax64)) eqn:E.
  - destruct H as [HR [Hf Hs]]. specialize (Hs (finite_not_nan _ Hf)). apply nearest_from_round.
    + now apply finite_not_nan.
    + rewrite E. auto.
    + rewrite Hs. exact Sn.
    + rewrite Hs. exact Sp.
  - apply overflow_infinity in H. apply nearest_from_round; rewrite H; auto. rewrite E. eauto.
Qed.

Lemma fdiv_nearest : forall a b, is_finite a = true -> is_finite b = true -> B2R b <> 0 -> nearest_f64 (B2R a / B2R b) (fdiv a b).
Proof.
  intros a b Ha Hb Hz. destruct (mul_sign a b Ha Hb) as [Sn Sp].
  assert (Sq : 0 < B2R b * B2R b) by nra.
  assert (Ed : B2R a * B2R b = (B2R a / B2R b) * (B2R b * B2R b)) by (field; exact Hz).
  assert (Sn' : B2R a / B2R b < 0 -> xorb (Bsign a) (Bsign b) = true) by (intro; apply Sn; rewrite Ed; nra).
  assert (Sp' : 0 < B2R a / B2R b -> xorb (Bsign a) (Bsign b) = false) by (intro; apply Sp; rewrite Ed; nra).
  pose proof (Bdiv_correct prec64 emax64 Hprec64 Hmax64 mode_NE a b Hz) as H. fold (fdiv a b) in H. rewrite Ha in H.
  destruct (Rlt_bool (Rabs (rnd64 (B2R a / B2R b))) (bpow radix2 emax64)) eqn:E.
  - destruct H as [HR [Hf Hs]]. specialize (Hs (finite_not_nan _ Hf)). apply nearest_from_round.
    + now apply finite_not_nan.
    + rewrite E. auto.
    + rewrite Hs. exact Sn'.
    + rewrite Hs. exact Sp'.
  - apply overflow_infinity in H. apply nearest_from_round; rewrite H; auto. rewrite E. eauto.
Qed.

(** ** C55: + - * / in an expression *)
Theorem C55_operators_correctly_rounded : forall w rho vars op l r a b d,
  eval w {| root := l; vars := vars |} rho = Val (Eval_ok a) ->
  eval w {| root := r; vars := vars |} rho = Val (Eval_ok b) ->
  fis_finite a = true -> fis_finite b = true -> exact op (B2R a) (B2R b) d ->
  exists v, eval w {| root := BinOp op l r; vars := vars |} rho = Val (Eval_ok v) /\ nearest_f64 d v.
Proof.
  intros w rho vars op l r a b d Hl Hr Ha Hb Hd. apply C21_eval_is_meaning in Hl, Hr. cbn [root] in *.
  destruct op; cbn in Hd; try contradiction;
    [exists (fadd a b)|exists (fsub a b)|exists (fmul a b)|exists (fdiv a b)];
    (split; [apply C21_eval_is_meaning; cbn [root]; constructor; auto|]).
  - subst d. now apply fadd_nearest.
  - subst d. now apply fsub_nearest.
  - subst d. now apply fmul_nearest.
  - destruct Hd as [Hz ->]. now apply fdiv_nearest.
Qed.

(** ** C49 in an expression *)
(** The value of % is the exact remainder of the values of its operands. *)
Theorem C49_remainder_in_expressions : forall w rho vars l r a b,
  eval w {| root := l; vars := vars |} rho = Val (Eval_ok a) ->
  eval w {| root := r; vars := vars |} rho = Val (Eval_ok b) ->
  exists v, eval w {| root := BinOp Modulo l r; vars := vars |} rho = Val (Eval_ok v) /\
    (is_finite a = true -> is_finite b = true -> B2R b <> 0 ->
       B2R v = B2R a - IZR (Ztrunc (B2R a / B2R b)) * B2R b /\ is_finite v = true /\ Bsign v = Bsign a /\ Rabs (B2R v) < Rabs (B2R b)) /\
    (is_nan a = true \/ is_nan b = true \/ is_finite a = false \/ (is_finite b = true /\ B2R b = 0) -> v = fnan) /\
    (is_finite a = true -> is_finite b = false -> is_nan b = false -> v = a).
Proof.
  intros w rho vars l r a b Hl Hr. apply C21_eval_is_meaning in Hl, Hr. cbn [root] in *. exists (frem a b).
  split; [apply C21_eval_is_meaning; cbn [root]; constructor; auto|].
  split; [intros Ha Hb Hz; now apply C49_remainder_is_exact|]. destruct (C49_remainder_special a b) as [S1 [S2 [S3 S4]]]. split.
  - intros [H|[H|[H|[H1 H2]]]]; auto.
    + destruct a as [s|s| |s m e Hm]; try discriminate H; [apply S2|now apply S1; left].
    + destruct b as [s|s| |s m e Hm]; try discriminate H1; [apply S3|]. exfalso. cbn in H2. revert H2. apply F2R_neq_0. destruct s; discriminate.
  - intros Ha Hb Hn. destruct b as [s|s| |s m e Hm]; try discriminate Hb; [|discriminate Hn]. now apply S4.
Qed.

(** The results no real number explains: NaN, infinities and the signs of zeros. *)
Definition inf (s : bool) : f64 := B754_infinity s.
Definition zero (s : bool) : f64 := B754_zero s.

(** The value of [a op b] for operands outside the previous theorem, IEEE-754 section 6. *)
Inductive special : operator -> f64 -> f64 -> f64 -> Prop :=
| S_nan_l : forall op b, special op fnan b fnan
| S_nan_r : forall op a, special op a fnan fnan
| S_add_inf_l : forall s b, fis_finite b = true -> special Plus (inf s) b (inf s)
| S_add_inf_r : forall s a, fis_finite a = true -> special Plus a (inf s) (inf s)
| S_add_inf : forall s, special Plus (inf s) (inf s) (inf s)
| S_add_inf_nan : forall s, special Plus (inf s) (inf (negb s)) fnan
| S_add_cancel : forall a b, fis_finite a = true -> fis_finite b = true -> B2R a + B2R b = 0 ->
    special Plus a b (zero (Bsign a && Bsign b))
| S_sub : forall a b v, special Plus a (fneg b) v -> special Minus a b v
| S_mul_inf_l : forall s b, fis_nan b = false -> (fis_finite b = true -> B2R b <> 0) -> special Times (inf s) b (inf (xorb s (Bsign b)))
| S_mul_inf_r : forall s a, fis_nan a = false -> (fis_finite a = true -> B2R a <> 0) -> special Times a (inf s) (inf (xorb (Bsign a) s))
| S_mul_inf_zero : forall s t, special Times (inf s) (zero t) fnan
| S_mul_zero_inf : forall s t, special Times (zero s) (inf t) fnan
| S_mul_zero : forall a b, fis_finite a = true -> fis_finite b = true -> B2R a * B2R b = 0 ->
    special Times a b (zero (xorb (Bsign a) (Bsign b)))
| S_div_inf : forall s b, fis_finite b = true -> special Divide (inf s) b (inf (xorb s (Bsign b)))
| S_div_by_inf : forall s a, fis_finite a = true -> special Divide a (inf s) (zero (xorb (Bsign a) s))
| S_div_inf_inf : forall s t, special Divide (inf s) (inf t) fnan
| S_div_by_zero : forall a t, fis_finite a = true -> B2R a <> 0 -> special Divide a (zero t) (inf (xorb (Bsign a) t))
| S_div_zero_zero : forall s t, special Divide (zero s) (zero t) fnan
| S_div_zero : forall s b, fis_finite b = true -> B2R b <> 0 -> special Divide (zero s) b (zero (xorb s (Bsign b))).

Definition the_value (op : operator) (a b : f64) : f64 :=
  match op with Plus => fadd a b | Minus => fsub a b | Times => fmul a b | _ => fdiv a b end.

Lemma finite_zero : forall x : f64, is_finite x = true -> B2R x = 0 -> x = B754_zero (Bsign x).
Proof.
  intros [s|s| |s m e H] Hf HR; try discriminate Hf; auto. exfalso. cbn in HR.
  apply eq_0_F2R in HR. cbn in HR. destruct s; discriminate HR.
Qed.

Lemma fsub_fneg : forall a b, fsub a b = fadd a (fneg b).
Proof. intros a b. unfold fsub, fadd, fneg, Bminus. destruct a as [[]|[]| |[] m e H], b as [[]|[]| |[] m' e' H']; try reflexivity. Qed.

Lemma special_sound : forall op a b v, op = Plus \/ op = Minus \/ op = Times \/ op = Divide -> special op a b v -> the_value op a b = v.
Proof.
  intros op a b v Hop H. induction H; cbn [the_value]; unfold inf, zero, fis_finite, fis_nan in *.
  - destruct op; try reflexivity; destruct Hop as [?|[?|[?|?]]]; discriminate.
  - destruct op; destruct a; try reflexivity; destruct Hop as [?|[?|[?|?]]]; discriminate.
  - destruct b; try discriminate; reflexivity.
  - destruct a; try discriminate; reflexivity.
  - destruct s; reflexivity.
  - destruct s; reflexivity.
  - pose proof (Bplus_correct prec64 emax64 Hprec64 Hmax64 mode_NE a b H H0) as HC. fold (fadd a b) in HC.
    rewrite H1, rnd64_0, Rabs_R0, Rlt_bool_true in HC by apply bpow_gt_0. destruct HC as [HR [Hf Hs]].
    rewrite Rcompare_Eq in Hs by reflexivity. rewrite (finite_zero _ Hf HR), Hs. reflexivity.
  - rewrite fsub_fneg. apply IHspecial. auto.
  - destruct b as [t|t| |t m e Hm]; try discriminate; try reflexivity. elim (H0 eq_refl). reflexivity.
  - destruct a as [t|t| |t m e Hm]; try discriminate; try reflexivity. elim (H0 eq_refl). reflexivity.
  - reflexivity.
  - reflexivity.
  - assert (Hz : is_finite (fmul a b) = true /\ B2R (fmul a b) = 0 /\ Bsign (fmul a b) = xorb (Bsign a) (Bsign b)).
    { pose proof (Bmult_correct prec64 emax64 Hprec64 Hmax64 mode_NE a b) as HC. fold (fmul a b) in HC.
      rewrite H1, rnd64_0, Rabs_R0, Rlt_bool_true, H, H0 in HC by apply bpow_gt_0. destruct HC as [HR [Hf Hs]].
      split; auto. split; auto. apply Hs. now apply finite_not_nan. }
    destruct Hz as [Hf [HR Hs]]. rewrite (finite_zero _ Hf HR), Hs. reflexivity.
  - destruct b; try discriminate; reflexivity.
  - destruct a; try discriminate; reflexivity.
  - reflexivity.
  - destruct a as [t'|t'| |t' m e Hm]; try discriminate; try reflexivity. elim H0. reflexivity.
  - reflexivity.
  - destruct b as [t'|t'| |t' m e Hm]; try discriminate; try reflexivity. elim H0. reflexivity.
Qed.

Theorem C55_special_values : forall w rho vars op l r a b v,
  eval w {| root := l; vars := vars |} rho = Val (Eval_ok a) ->
  eval w {| root := r; vars := vars |} rho = Val (Eval_ok b) ->
  op = Plus \/ op = Minus \/ op = Times \/ op = Divide -> special op a b v ->
  eval w {| root := BinOp op l r; vars := vars |} rho = Val (Eval_ok v).
Proof.
  intros w rho vars op l r a b v Hl Hr Hop Hs. apply C21_eval_is_meaning in Hl, Hr. cbn [root] in *.
  apply (special_sound _ _ _ _ Hop) in Hs. subst v. apply C21_eval_is_meaning. cbn [root].
  destruct Hop as [-> | [-> | [-> | ->]]]; constructor; auto.
Qed.

(** Nothing is left out: every pair of operands falls under one of the two. *)
Theorem C55_all_operands_covered : forall op a b, op = Plus \/ op = Minus \/ op = Times \/ op = Divide ->
  (exists v, special op a b v) \/ (fis_finite a = true /\ fis_finite b = true /\ exists d, exact op (B2R a) (B2R b) d /\ d <> 0).
Proof.
  assert (Hadd : forall a b, (exists v, special Plus a b v) \/ (fis_finite a = true /\ fis_finite b = true /\ B2R a + B2R b <> 0)).
  { intros a b. destruct (is_nan a) eqn:Na. { destruct a; try discriminate. left. eexists. apply S_nan_l. }
    destruct (is_nan b) eqn:Nb. { destruct b; try discriminate. left. eexists. apply S_nan_r. }
    destruct (is_finite a) eqn:Fa, (is_finite b) eqn:Fb.
    - destruct (Req_dec (B2R a + B2R b) 0) as [E|E]; [left; eexists; now apply S_add_cancel|right; auto].
    - left. destruct b as [|t| |]; try discriminate. eexists. now apply S_add_inf_r.
    - left. destruct a as [|t| |]; try discriminate. eexists. now apply S_add_inf_l.
    - left. destruct a as [|t| |], b as [|t'| |]; try discriminate.
      destruct (Bool.bool_dec t' t) as [-> |E]; [eexists; apply S_add_inf|].
      assert (t' = negb t) as -> by (destruct t, t'; cbn; congruence || (elim E; reflexivity)). eexists. apply S_add_inf_nan. }
  intros op a b [-> | [-> | [-> | ->]]].
  - destruct (Hadd a b) as [H|[Ha [Hb H]]]; [auto|]. right. split; auto. split; auto. eexists. split; [reflexivity|exact H].
  - destruct (Hadd a (fneg b)) as [[v H]|[Ha [Hb H]]]; [left; exists v; now apply S_sub|]. right. split; auto.
    unfold fneg, fis_finite in *. rewrite is_finite_Bopp in Hb. rewrite B2R_Bopp in H. split; auto.
    eexists. split; [reflexivity|]. exact H.
  - destruct (is_nan a) eqn:Na. { destruct a; try discriminate. left. eexists. apply S_nan_l. }
    destruct (is_nan b) eqn:Nb. { destruct b; try discriminate. left. eexists. apply S_nan_r. }
    destruct (is_finite a) eqn:Fa, (is_finite b) eqn:Fb.
    + destruct (Req_dec (B2R a * B2R b) 0) as [E|E]; [left; eexists; now apply S_mul_zero|right].
      split; auto. split; auto. eexists. split; [reflexivity|exact E].
    + left. destruct b as [|t| |]; try discriminate. destruct (Req_dec (B2R a) 0) as [E|E].
      * rewrite (finite_zero a Fa E). eexists. apply S_mul_zero_inf.
      * eexists. now apply S_mul_inf_r.
    + left. destruct a as [|t| |]; try discriminate. destruct (Req_dec (B2R b) 0) as [E|E].
      * rewrite (finite_zero b Fb E). eexists. apply S_mul_inf_zero.
      * eexists. now apply S_mul_inf_l.
    + left. destruct a as [|t| |]; try discriminate. eexists. apply S_mul_inf_l; auto. unfold fis_finite. rewrite Fb. discriminate.
  - destruct (is_nan a) eqn:Na. { destruct a; try discriminate. left. eexists. apply S_nan_l. }
    destruct (is_nan b) eqn:Nb. { destruct b; try discriminate. left. eexists. apply S_nan_r. }
    destruct (is_finite a) eqn:Fa, (is_finite b) eqn:Fb.
    + destruct (Req_dec (B2R b) 0) as [E|E].
      * left. rewrite (finite_zero b Fb E). destruct (Req_dec (B2R a) 0) as [E'|E'].
        -- rewrite (finite_zero a Fa E'). eexists. apply S_div_zero_zero.
        -- eexists. now apply S_div_by_zero.
      * destruct (Req_dec (B2R a) 0) as [E'|E'].
        -- left. rewrite (finite_zero a Fa E'). eexists. now apply S_div_zero.
        -- right. split; auto. split; auto. eexists. split; [split; [exact E|reflexivity]|].
           intro H. apply E'. unfold Rdiv in H. apply Rmult_integral in H. destruct H as [H|H]; auto.
           apply Rinv_neq_0_compat in E. contradiction.
    + left. destruct b as [|t| |]; try discriminate. eexists. now apply S_div_by_inf.
    + left. destruct a as [|t| |]; try discriminate. eexists. now apply S_div_inf.
    + left. destruct a as [|t| |], b as [|t'| |]; try discriminate. eexists. apply S_div_inf_inf.
Qed.

(** 0.1 + 0.2 is not 0.3 but is the nearest f64; the largest f64 doubled overflows. *)
Example C55_witness : exists x y,
  parse default_config w0 ctx_default "a + b" = Parse_ok x /\ parse default_config w0 ctx_default "a / b" = Parse_ok y /\
  (exists l r, root x = BinOp Plus l r /\
    eval w0 {| root := l; vars := [] |} [("a", lit "0.1"); ("b", lit "0.2")]%string = Val (Eval_ok (lit "0.1")) /\
    eval w0 {| root := r; vars := [] |} [("a", lit "0.1"); ("b", lit "0.2")]%string = Val (Eval_ok (lit "0.2")) /\
    fis_finite (lit "0.1") = true /\ fis_finite (lit "0.2") = true) /\
  special Divide fone fzero finf /\ special Minus finf finf fnan.
Proof.
  destruct (parse default_config w0 ctx_default "a + b") as [x| | |] eqn:Ex; try (vm_compute in Ex; discriminate Ex).
  destruct (parse default_config w0 ctx_default "a / b") as [y| | |] eqn:Ey; try (vm_compute in Ey; discriminate Ey).
  exists x, y. split; auto. split; auto. split.
  - exists (Var "a"), (Var "b"). vm_compute in Ex. injection Ex as <-. split; [reflexivity|].
    split; [apply C21_eval_is_meaning; constructor; reflexivity|].
    split; [apply C21_eval_is_meaning; constructor; reflexivity|]. split; vm_compute; reflexivity.
  - split; [apply (S_div_by_zero fone false); [reflexivity|]|apply S_sub; apply (S_add_inf_nan false)].
    unfold fone. rewrite Bone_correct. lra.
Qed.

(** ** C56: sqrt and recip *)
Theorem C56_sqrt : forall w x,
  exists v, call_function w (builtin_function B_SQRT) [x] = Val v /\
    (fis_finite x = true -> 0 < B2R x -> nearest_f64 (sqrt (B2R x)) v) /\
    (fis_finite x = true -> B2R x < 0 -> v = fnan) /\
    (fis_finite x = true -> B2R x = 0 -> v = x) /\
    (x = finf -> v = finf) /\ (x = fninf -> v = fnan) /\ (fis_nan x = true -> v = fnan).
Proof.
  intros w x. exists (fsqrt x). split; [reflexivity|]. unfold fis_finite, fis_nan.
  destruct (Bsqrt_correct prec64 emax64 Hprec64 Hmax64 mode_NE x) as [HR [Hf Hs]]. fold (fsqrt x) in *.
  split; [|split; [|split; [|split; [|split]]]].
  - intros Hx Hp. destruct x as [s|s| |s m e H] eqn:Ex; try discriminate Hx; [cbn in Hp; lra|].
    destruct s. { cbn in Hp. pose proof (F2R_lt_0 radix2 (Float radix2 (Zneg m) e) eq_refl). lra. }
    rewrite <- Ex in *. assert (Hn : is_nan (fsqrt x) = false) by now apply finite_not_nan. specialize (Hs Hn).
    apply nearest_from_round; [exact Hn| | |].
    + assert (Hb : Rabs (rnd64 (sqrt (B2R x))) < bpow radix2 emax64) by (rewrite <- HR; apply abs_B2R_lt_emax).
      rewrite Rlt_bool_true by exact Hb. split; [exact HR|exact Hf].
    + intro Hd. pose proof (sqrt_pos (B2R x)). lra.
    + intros _. rewrite Hs, Ex. reflexivity.
  - intros Hx Hn. destruct x as [s|s| |s m e H]; try discriminate Hx; [cbn in Hn; lra|].
    destruct s; [|cbn in Hn; pose proof (F2R_gt_0 radix2 (Float radix2 (Zpos m) e) eq_refl); lra]. reflexivity.
  - intros Hx Hz. rewrite (finite_zero x Hx Hz). reflexivity.
  - intros ->. reflexivity.
  - intros ->. reflexivity.
  - destruct x; try discriminate. reflexivity.
Qed.

Theorem C56_recip : forall w x,
  exists v, call_function w (builtin_function B_RECIP) [x] = Val v /\
    (fis_finite x = true -> B2R x <> 0 -> nearest_f64 (/ B2R x) v) /\
    (forall s, x = zero s -> v = inf s) /\ (forall s, x = inf s -> v = zero s) /\ (fis_nan x = true -> v = fnan).
Proof.
  intros w x. exists (frecip x). split; [reflexivity|]. split; [|split; [|split]].
  - intros Hx Hz. replace (/ B2R x) with (B2R fone / B2R x) by (unfold fone; rewrite Bone_correct; field; exact Hz).
    apply fdiv_nearest; auto.
  - intros s ->. destruct s; reflexivity.
  - intros s ->. destruct s; reflexivity.
  - destruct x; try discriminate. reflexivity.
Qed.

Example C56_witness : fis_finite (lit "2") = true /\ 0 < B2R (lit "2") /\ B2R (lit "2") <> 0.
Proof.
  assert (E : lit "2" = f64_of_Z 2) by (apply same_f64_eq; vm_compute; reflexivity). rewrite E.
  destruct (f64_of_Z_small 2 ltac:(lia)) as [H1 H2]. split; auto. rewrite H1. split; lra.
Qed.
