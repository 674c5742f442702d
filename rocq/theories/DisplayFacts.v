(** * Facts about printing numbers *)
From Coq Require Import ZArith NArith List String Ascii Bool Lia Reals Lra.
From Flocq Require Import Core BinarySingleNaN.
From Verif Require Import F64 Syntax Parser Xprs SpecNumber SpecTokens SpecGrammar FloatFacts NumberFacts Display.
Import ListNotations.
Local Open Scope Z_scope.

(** ** digits *)
Lemma digit_char_digit : forall d, (d < 10)%N -> decimal_digit (digit_char d) /\ Z.of_N (N_of_ascii (digit_char d)) - 48 = Z.of_N d.
Proof.
  intros d H. assert (Hd : (d = 0 \/ d = 1 \/ d = 2 \/ d = 3 \/ d = 4 \/ d = 5 \/ d = 6 \/ d = 7 \/ d = 8 \/ d = 9)%N) by lia.
  repeat destruct Hd as [->|Hd]; try subst d; (split; [unfold decimal_digit; cbn; lia|reflexivity]).
Qed.

Lemma digits_from_spec : forall fuel n acc, (n < 2 ^ N.of_nat fuel)%N -> (0 < fuel)%nat -> all_digits acc ->
  all_digits (digits_from fuel n acc) /\ digits_from fuel n acc <> [] /\
  digits_value (digits_from fuel n acc) = Z.of_N n * 10 ^ Z.of_nat (List.length acc) + digits_value acc.
Proof.
  induction fuel as [|fuel IH]; intros n acc Hn Hf Ha; [lia|]. cbn [digits_from].
  destruct (digit_char_digit (n mod 10)) as [Hd Hv]; [apply N.mod_lt; lia|].
  assert (E : digits_value (digit_char (n mod 10) :: acc) =
    Z.of_N (n mod 10) * 10 ^ Z.of_nat (List.length acc) + digits_value acc) by (cbn [digits_value]; now rewrite Hv).
  assert (Hc : all_digits (digit_char (n mod 10) :: acc)) by (constructor; auto).
  destruct (N.ltb_spec n 10) as [Hlt|Hge].
  - split; [exact Hc|]. split; [discriminate|]. rewrite E. now rewrite N.mod_small by lia.
  - pose proof (N.div_mod n 10 ltac:(lia)) as Hdm.
    assert (Hq : (n / 10 < 2 ^ N.of_nat fuel)%N).
    { rewrite Nat2N.inj_succ, N.pow_succ_r in Hn by lia. pose proof (N.mod_lt n 10 ltac:(lia)). lia. }
    assert (Hf' : (0 < fuel)%nat). { destruct fuel; [|lia]. exfalso. change (2 ^ N.of_nat 0)%N with 1%N in Hq. lia. }
    destruct (IH (n / 10)%N _ Hq Hf' Hc) as [H1 [H2 H3]]. split; [exact H1|]. split; [exact H2|].
    rewrite H3, E. cbn [List.length]. rewrite Nat2Z.inj_succ, Z.pow_succ_r by lia.
    replace (Z.of_N n) with (10 * Z.of_N (n / 10) + Z.of_N (n mod 10)) by lia. ring.
Qed.

Lemma size_bound : forall n, (n < 2 ^ N.of_nat (N.size_nat n))%N.
Proof.
  intros [|p]; [reflexivity|]. cbn [N.size_nat]. induction p as [p IH|p IH|]; cbn [Pos.size_nat]; try reflexivity;
    rewrite Nat2N.inj_succ, N.pow_succ_r by lia; lia.
Qed.

Lemma digits_of_spec : forall n, all_digits (digits_of n) /\ digits_of n <> [] /\ digits_value (digits_of n) = Z.of_N n.
Proof.
  intro n. unfold digits_of. destruct (digits_from_spec (S (N.size_nat n)) n []) as [H1 [H2 H3]].
  - rewrite Nat2N.inj_succ, N.pow_succ_r by lia. pose proof (size_bound n). lia.
  - lia.
  - constructor.
  - split; auto. split; auto. rewrite H3. cbn [List.length digits_value]. change (10 ^ Z.of_nat 0) with 1. lia.
Qed.

Lemma digits_from_head : forall fuel n acc, (n < 2 ^ N.of_nat fuel)%N -> (0 < n)%N -> (0 < fuel)%nat ->
  exists d l, digits_from fuel n acc = d :: l /\ d <> "0"%char.
Proof.
  induction fuel as [|fuel IH]; intros n acc Hn Hp Hf; [lia|]. cbn [digits_from].
  destruct (N.ltb_spec n 10) as [Hlt|Hge].
  - exists (digit_char (n mod 10)), acc. split; [reflexivity|]. rewrite N.mod_small by lia.
    intro E. apply (f_equal N_of_ascii) in E. unfold digit_char in E. rewrite N_ascii_embedding in E by lia. change (N_of_ascii "0") with 48%N in E. lia.
  - pose proof (N.div_mod n 10 ltac:(lia)) as Hdm. pose proof (N.mod_lt n 10 ltac:(lia)) as Hml.
    set (q := (n / 10)%N) in *. set (r := (n mod 10)%N) in *. clearbody q r.
    assert (Hq : (q < 2 ^ N.of_nat fuel)%N).
    { rewrite Nat2N.inj_succ, N.pow_succ_r in Hn by lia. generalize dependent (2 ^ N.of_nat fuel)%N. intros. lia. }
    apply IH; [exact Hq| |].
    + lia.
    + destruct fuel; [|lia]. exfalso. change (2 ^ N.of_nat 0)%N with 1%N in Hq. lia.
Qed.

Lemma digits_of_head : forall n, (0 < n)%N -> exists d l, digits_of n = d :: l /\ d <> "0"%char.
Proof.
  intros n Hn. apply digits_from_head; [|exact Hn|lia].
  rewrite Nat2N.inj_succ, N.pow_succ_r by lia. pose proof (size_bound n). lia.
Qed.

Lemma digits_value_app : forall a b, digits_value (a ++ b) = digits_value a * 10 ^ Z.of_nat (List.length b) + digits_value b.
Proof.
  induction a as [|c a IH]; intro b; cbn [app digits_value]; [lia|].
  rewrite IH, app_length, Nat2Z.inj_add, Z.pow_add_r by lia. ring.
Qed.
Lemma digits_value_zeros : forall n, digits_value (repeat "0"%char n) = 0.
Proof. induction n; cbn [repeat digits_value]; [reflexivity|]. rewrite IHn. cbn. lia. Qed.
Lemma zeros_digits : forall n, all_digits (repeat "0"%char n).
Proof. induction n; constructor; auto. unfold decimal_digit. cbn. lia. Qed.

(** ** positional notation *)
Definition plain_char (c : ascii) : Prop := decimal_digit c \/ c = "."%char.

Lemma positional_spec : forall c p, 0 <= c ->
  exists m k, mantissa (positional c p) m k /\ (IZR m * powerRZ 10 (- Z.of_nat k) = IZR c * powerRZ 10 p)%R.
Proof.
  intros c p Hc. unfold positional. destruct (digits_of_spec (Z.to_N c)) as [Hd [Hn Hv]]. rewrite Z2N.id in Hv by auto.
  set (ds := digits_of (Z.to_N c)) in *. destruct (Z.leb_spec 0 p) as [Hp|Hp].
  - exists (digits_value (ds ++ repeat "0"%char (Z.to_nat p))), 0%nat. split.
    + apply M_integer; [apply Forall_app; split; [exact Hd|apply zeros_digits]|]. intro E. apply app_eq_nil in E. tauto.
    + rewrite digits_value_app, digits_value_zeros, repeat_length, Hv, Z2Nat.id, Z.add_0_r, mult_IZR by auto.
      rewrite (powerRZ_pos_Z p) by exact Hp. cbn. ring.
  - set (k := Z.to_nat (- p)).
    assert (Hk : - Z.of_nat k = p) by (unfold k; lia).
    destruct (Nat.leb_spec (List.length ds) k) as [Hl|Hl].
    + exists (digits_value (["0"%char] ++ (repeat "0"%char (k - List.length ds) ++ ds))), k. split.
      * replace k with (List.length (repeat "0"%char (k - List.length ds) ++ ds)) at 3 by (rewrite app_length, repeat_length; lia).
        apply (M_point ["0"%char]); [repeat constructor; unfold decimal_digit; cbn; lia|apply Forall_app; split; [apply zeros_digits|auto]|discriminate].
      * rewrite !digits_value_app, digits_value_zeros, Hv, Hk. cbn [digits_value]. reflexivity.
    + exists (digits_value (firstn (List.length ds - k) ds ++ skipn (List.length ds - k) ds)), k. split.
      * replace k with (List.length (skipn (List.length ds - k) ds)) at 5 by (rewrite skipn_length; lia).
        apply M_point.
        -- apply Forall_forall. intros x Hx. eapply Forall_forall; [exact Hd|]. rewrite <- (firstn_skipn (List.length ds - k) ds). apply in_or_app. auto.
        -- apply Forall_forall. intros x Hx. eapply Forall_forall; [exact Hd|]. rewrite <- (firstn_skipn (List.length ds - k) ds). apply in_or_app. auto.
        -- rewrite firstn_skipn. exact Hn.
      * rewrite firstn_skipn, Hv, Hk. reflexivity.
Qed.

Lemma mantissa_chars : forall l m k, mantissa l m k -> Forall plain_char l.
Proof.
  intros l m k H. inversion H; subst.
  - eapply Forall_impl; [|eassumption]. intros c Hc. now left.
  - apply Forall_app. split; [eapply Forall_impl; [|eassumption]; intros c Hc; now left|].
    constructor; [now right|]. eapply Forall_impl; [|eassumption]; intros c Hc; now left.
Qed.

Lemma positional_head : forall c p, exists d l, positional c p = d :: l /\ decimal_digit d.
Proof.
  intros c p. unfold positional. destruct (digits_of_spec (Z.to_N c)) as [Hd [Hn _]].
  destruct (digits_of (Z.to_N c)) as [|d ds]; [congruence|]. inversion Hd as [|? ? Hd0 _]; subst.
  destruct (0 <=? p); [cbn; eauto|].
  destruct (Nat.leb_spec (List.length (d :: ds)) (Z.to_nat (- p))) as [Hl|Hl].
  - eexists _, _. split; [reflexivity|]. unfold decimal_digit. cbn. lia.
  - destruct (List.length (d :: ds) - Z.to_nat (- p))%nat eqn:E; [lia|]. cbn. eauto.
Qed.

(** ** reading back *)
Local Open Scope R_scope.
Lemma f64_of_dec_reads : forall (v : f64) c p, (0 <= c)%Z ->
  (f64_of_dec (Z.to_N c) p = v <-> correctly_rounded (IZR c * powerRZ 10 p) v).
Proof.
  intros v c p Hc. pose proof (f64_of_dec_correct (Z.to_N c) p) as H. rewrite Z2N.id in H by auto. split.
  - intros <-. exact H.
  - intro Hv. eapply correctly_rounded_unique; [|exact H|exact Hv].
    apply Rmult_le_pos; [now apply IZR_le|]. apply powerRZ_le. lra.
Qed.

Lemma reads_iff : forall (v : f64) c p, (0 <= c)%Z -> 0 < B2R v ->
  (reads v c p = true <-> correctly_rounded (IZR c * powerRZ 10 p) v).
Proof.
  intros v c p Hc Hv. rewrite <- f64_of_dec_reads by auto. unfold reads. rewrite feq_cases. split.
  - intros [[H _]|[_ [s Hz]]]; [exact H|]. rewrite Hz in Hv. cbn in Hv. lra.
  - intros ->. left. split; auto. destruct v; cbn in *; try reflexivity; lra.
Qed.

Lemma exact_rounded : forall v : f64, fis_finite v = true -> Bsign v = false -> correctly_rounded (B2R v) v.
Proof.
  intros v Hf Hs. assert (H0 : 0 <= B2R v).
  { destruct v as [s|s| |s m e H]; cbn in *; subst; try lra. apply F2R_ge_0. cbn. lia. }
  assert (Ht : B2R v < overflow_threshold).
  { destruct (Rlt_or_le (B2R v) overflow_threshold) as [|Hge]; auto. exfalso.
    apply round_above in Hge. rewrite round_generic in Hge; try typeclasses eauto; [|apply generic_format_B2R].
    pose proof (abs_B2R_lt_emax _ _ v) as Hb. rewrite Rabs_pos_eq in Hb by auto. lra. }
  apply correctly_rounded_iff; auto. split; auto. split; auto. symmetry. apply round_generic; try typeclasses eauto. apply generic_format_B2R.
Qed.

(** what lies between a real that rounds to v and v rounds to v *)
Lemma squeeze_below : forall (v : f64) d d', 0 <= d' -> d' <= d -> d <= B2R v -> fis_finite v = true ->
  correctly_rounded d' v -> correctly_rounded d v.
Proof.
  intros v d d' H0 H1 H2 Hf H.
  assert (Hs : Bsign v = false). { destruct H as [[_ [_ [H _]]]|[_ ->]]; [exact H|discriminate Hf]. }
  pose proof (exact_rounded v Hf Hs) as Hv.
  assert (Ht : B2R v < overflow_threshold). { destruct Hv as [[Hv _]|[_ Hv]]; [exact Hv|]. rewrite Hv in Hf. discriminate Hf. }
  apply correctly_rounded_iff in H; [|lra|lra]. apply correctly_rounded_iff in Hv; [|lra|lra].
  apply correctly_rounded_iff; [lra|lra|]. split; auto. split; auto. destruct H as [_ [_ H]], Hv as [_ [_ Hv]].
  apply Rle_antisym.
  - rewrite H at 1. apply round_le; [typeclasses eauto|typeclasses eauto|exact H1].
  - rewrite Hv. apply round_le; [typeclasses eauto|typeclasses eauto|exact H2].
Qed.
Lemma squeeze_above : forall (v : f64) d d', 0 <= B2R v -> B2R v <= d -> d <= d' -> fis_finite v = true ->
  correctly_rounded d' v -> correctly_rounded d v.
Proof.
  intros v d d' H0 H1 H2 Hf H.
  assert (Hs : Bsign v = false). { destruct H as [[_ [_ [H _]]]|[_ ->]]; [exact H|discriminate Hf]. }
  assert (Ht : d' < overflow_threshold). { destruct H as [[H _]|[_ H]]; [exact H|]. rewrite H in Hf. discriminate Hf. }
  pose proof (exact_rounded v Hf Hs) as Hv.
  apply correctly_rounded_iff in H; [|lra|lra]. apply correctly_rounded_iff in Hv; [|lra|lra].
  apply correctly_rounded_iff; [lra|lra|]. split; auto. split; auto. destruct H as [_ [_ H]], Hv as [_ [_ Hv]].
  apply Rle_antisym.
  - rewrite Hv at 1. apply round_le; [typeclasses eauto|typeclasses eauto|exact H1].
  - rewrite H. apply round_le; [typeclasses eauto|typeclasses eauto|exact H2].
Qed.

Lemma powerRZ_10_pos : forall p, 0 < powerRZ 10 p.
Proof. intro p. apply powerRZ_lt. lra. Qed.

Lemma split_at_spec : forall num den p q r s, (0 <= num)%Z -> (0 < den)%Z -> split_at num den p = (q, r, s) ->
  (0 <= q)%Z /\ (0 <= r < s)%Z /\ IZR num / IZR den = (IZR q + IZR r / IZR s) * powerRZ 10 p.
Proof.
  intros num den p q r s Hn Hd H. unfold split_at in H. destruct (Z.leb_spec 0 p) as [Hp|Hp]; injection H as <- <- <-.
  - assert (Hs : (0 < den * 10 ^ p)%Z) by (apply Z.mul_pos_pos; auto; apply Z.pow_pos_nonneg; lia).
    split; [apply Z.div_pos; lia|]. split; [apply Z.mod_pos_bound; lia|].
    rewrite powerRZ_pos_Z by auto. pose proof (Z.div_mod num (den * 10 ^ p) ltac:(lia)) as E.
    assert (E' : IZR num = IZR (den * 10 ^ p) * IZR (num / (den * 10 ^ p)) + IZR (num mod (den * 10 ^ p))).
    { rewrite <- mult_IZR, <- plus_IZR. f_equal. exact E. }
    rewrite E' at 1. rewrite mult_IZR. field. split; apply not_0_IZR; lia.
  - split; [apply Z.div_pos; try lia; apply Z.mul_nonneg_nonneg; auto; apply Z.pow_nonneg; lia|]. split; [apply Z.mod_pos_bound; lia|].
    rewrite powerRZ_neg_Z by auto. set (N := (num * 10 ^ (- p))%Z). pose proof (Z.div_mod N den ltac:(lia)) as E.
    assert (E' : IZR num * IZR (10 ^ (- p)) = IZR den * IZR (N / den) + IZR (N mod den)).
    { rewrite <- !mult_IZR, <- plus_IZR. f_equal. exact E. }
    assert (Hz : IZR (10 ^ - p) <> 0). { apply not_0_IZR. pose proof (Z.pow_pos_nonneg 10 (- p)). lia. }
    assert (Hz' : IZR den <> 0) by (apply not_0_IZR; lia).
    apply Rmult_eq_reg_r with (IZR (10 ^ - p) * IZR den); [|apply Rmult_integral_contrapositive_currified; auto].
    transitivity (IZR num * IZR (10 ^ - p)); [field; auto|]. rewrite E'. field. auto.
Qed.

(** the search *)
Section Search.
  Variable v : f64.
  Variable num den : Z.
  Hypothesis Hnum : (0 < num)%Z.
  Hypothesis Hden : (0 < den)%Z.
  Hypothesis Hv : B2R v = IZR num / IZR den.
  Hypothesis Hfin : fis_finite v = true.
  Hypothesis Hsign : Bsign v = false.

  Lemma v_pos : 0 < B2R v.
  Proof. rewrite Hv. apply Rdiv_lt_0_compat; now apply IZR_lt. Qed.

  Definition none_above (p : Z) : Prop :=
    forall c' p', (0 < c')%Z -> correctly_rounded (IZR c' * powerRZ 10 p') v -> (p' <= p)%Z.

  Definition best (c p : Z) : Prop :=
    (0 < c)%Z /\ correctly_rounded (IZR c * powerRZ 10 p) v /\ none_above p /\
    (forall c', (0 < c')%Z -> correctly_rounded (IZR c' * powerRZ 10 p) v ->
       Rabs (IZR c * powerRZ 10 p - B2R v) <= Rabs (IZR c' * powerRZ 10 p - B2R v)).

  Lemma zero_unread : forall p, ~ correctly_rounded (IZR 0 * powerRZ 10 p) v.
  Proof.
    intros p H. pose proof v_pos as Hp. rewrite Rmult_0_l in H.
    assert (H0 : correctly_rounded 0 fzero). { exact (exact_rounded fzero eq_refl eq_refl). }
    pose proof (correctly_rounded_unique 0 _ _ (Rle_refl 0) H H0) as E. rewrite E in Hp. cbn in Hp. lra.
  Qed.

  Lemma shortest_best : forall fuel p, none_above p ->
    (forall q r s, split_at num den (p - Z.of_nat fuel) = (q, r, s) -> r = 0%Z) ->
    let '(c, p1) := shortest fuel v num den p in best c p1.
  Proof.
    pose proof v_pos as Hpos.
    induction fuel as [|fuel IH]; intros p Hna Hex; cbn [shortest].
    - destruct (split_at num den p) as [[q r] s] eqn:E.
      change (p - Z.of_nat 0)%Z with (p - 0)%Z in Hex. rewrite Z.sub_0_r in Hex. pose proof (Hex _ _ _ E) as ->.
      destruct (split_at_spec _ _ _ _ _ _ (Z.lt_le_incl _ _ Hnum) Hden E) as [Hq [_ Hs]].
      assert (Ev : B2R v = IZR q * powerRZ 10 p). { rewrite Hv, Hs. unfold Rdiv. rewrite Rmult_0_l, Rplus_0_r. reflexivity. }
      assert (Hc : correctly_rounded (IZR q * powerRZ 10 p) v) by (rewrite <- Ev; now apply exact_rounded).
      assert (Hq0 : (0 < q)%Z). { assert (q <> 0%Z); [|lia]. intros ->. now apply zero_unread in Hc. }
      split; [exact Hq0|]. split; [exact Hc|]. split; [exact Hna|].
      intros c' _ _. rewrite <- Ev, Rminus_diag_eq, Rabs_R0 by auto. apply Rabs_pos.
    - destruct (split_at num den p) as [[q r] s] eqn:E.
      destruct (split_at_spec _ _ _ _ _ _ (Z.lt_le_incl _ _ Hnum) Hden E) as [Hq [Hr Hs]]. rewrite <- Hv in Hs.
      set (T := powerRZ 10 p) in *. assert (HT : 0 < T) by apply powerRZ_10_pos.
      set (t := IZR r / IZR s) in *.
      assert (Hsp : 0 < IZR s) by (apply IZR_lt; lia).
      assert (Ht : 0 <= t < 1).
      { unfold t. split; [apply Rmult_le_pos; [apply IZR_le; lia|left; now apply Rinv_0_lt_compat]|].
        apply Rmult_lt_reg_r with (IZR s); auto. unfold Rdiv. rewrite Rmult_assoc, Rinv_l, Rmult_1_r, Rmult_1_l by lra. apply IZR_lt. lia. }
      assert (Dl : forall c', (c' <= q)%Z -> Rabs (IZR c' * T - B2R v) = (IZR q + t - IZR c') * T).
      { intros c' Hc'. apply IZR_le in Hc'. rewrite Rabs_left1; rewrite Hs; [ring|]. nra. }
      assert (Dr : forall c', (q + 1 <= c')%Z -> Rabs (IZR c' * T - B2R v) = (IZR c' - IZR q - t) * T).
      { intros c' Hc'. apply IZR_le in Hc'. rewrite plus_IZR in Hc'. rewrite Rabs_pos_eq; rewrite Hs; [ring|]. nra. }
      assert (Hlow : forall c', (0 <= c')%Z -> (c' <= q)%Z -> correctly_rounded (IZR c' * T) v -> correctly_rounded (IZR q * T) v).
      { intros c' H0 H1 H2. apply IZR_le in H0, H1. eapply squeeze_below; [| | |exact Hfin|exact H2]; rewrite ?Hs; nra. }
      assert (Hhigh : forall c', (q + 1 <= c')%Z -> correctly_rounded (IZR c' * T) v -> correctly_rounded (IZR (q + 1) * T) v).
      { intros c' H1 H2. apply IZR_le in H1. eapply squeeze_above; [left; exact Hpos| | |exact Hfin|exact H2];
          rewrite ?Hs, plus_IZR in *; nra. }
      pose proof (reads_iff v q p Hq Hpos) as R1. pose proof (reads_iff v (q + 1) p ltac:(lia) Hpos) as R2. fold T in R1, R2.
      assert (Hlc : (2 * r < s)%Z -> t < 1 - t).
      { intro H. apply IZR_lt in H. rewrite mult_IZR in H. assert (IZR r = t * IZR s) by (unfold t; field; lra). nra. }
      assert (Hrc : ~ (2 * r < s)%Z -> 1 - t <= t).
      { intro H. assert (H' : (s <= 2 * r)%Z) by lia. apply IZR_le in H'. rewrite mult_IZR in H'. assert (IZR r = t * IZR s) by (unfold t; field; lra). nra. }
      assert (Q0 : correctly_rounded (IZR q * T) v -> (0 < q)%Z).
      { intro H. assert (q <> 0%Z); [|lia]. intros ->. now apply zero_unread in H. }
      destruct (reads v q p) eqn:E1, (reads v (q + 1) p) eqn:E2.
      + pose proof (proj1 R1 eq_refl) as C1. pose proof (proj1 R2 eq_refl) as C2.
        destruct (Z.ltb_spec (2 * r) s) as [Hc|Hc].
        * split; [auto|]. split; [exact C1|]. split; [exact Hna|]. intros c' H0 _. fold T.
          destruct (Z_le_gt_dec c' q) as [Hle|Hgt]; [|assert (Hge : (q + 1 <= c')%Z) by lia].
          -- rewrite !Dl by lia. apply IZR_le in Hle. nra.
          -- rewrite (Dl q), Dr by lia. apply IZR_le in Hge. rewrite plus_IZR in Hge. specialize (Hlc Hc). nra.
        * split; [lia|]. split; [exact C2|]. split; [exact Hna|]. intros c' H0 _. fold T.
          specialize (Hrc ltac:(lia)). rewrite (Dr (q + 1)%Z) by lia. rewrite plus_IZR.
          destruct (Z_le_gt_dec c' q) as [Hle|Hgt]; [|assert (Hge : (q + 1 <= c')%Z) by lia].
          -- rewrite Dl by lia. apply IZR_le in Hle. nra.
          -- rewrite Dr by lia. apply IZR_le in Hge. rewrite plus_IZR in Hge. nra.
      + pose proof (proj1 R1 eq_refl) as C1.
        split; [auto|]. split; [exact C1|]. split; [exact Hna|]. intros c' H0 H. fold T in H |- *.
        destruct (Z_le_gt_dec c' q) as [Hle|Hgt]; [|assert (Hge : (q + 1 <= c')%Z) by lia].
        * rewrite !Dl by lia. apply IZR_le in Hle. nra.
        * apply Hhigh, R2 in H; [discriminate H|exact Hge].
      + pose proof (proj1 R2 eq_refl) as C2.
        split; [lia|]. split; [exact C2|]. split; [exact Hna|]. intros c' H0 H. fold T in H |- *.
        destruct (Z_le_gt_dec c' q) as [Hle|Hgt]; [|assert (Hge : (q + 1 <= c')%Z) by lia].
        * apply Hlow, R1 in H; [discriminate H|lia|exact Hle].
        * rewrite !Dr by lia. apply IZR_le in Hge. rewrite plus_IZR in *. nra.
      + apply IH.
        * intros c' p' H0 H. pose proof (Hna c' p' H0 H) as Hle. assert (p' <> p); [|lia]. intros ->. fold T in H.
          destruct (Z_le_gt_dec c' q) as [Hle'|Hgt]; [|assert (Hge : (q + 1 <= c')%Z) by lia].
          -- apply Hlow, R1 in H; [discriminate H|lia|exact Hle'].
          -- apply Hhigh, R2 in H; [discriminate H|exact Hge].
        * intros q' r' s' E'. apply (Hex q' r' s'). replace (p - Z.of_nat (S fuel))%Z with (p - 1 - Z.of_nat fuel)%Z by lia. exact E'.
  Qed.
End Search.

Lemma bounded_facts : forall m e, SpecFloat.bounded prec64 emax64 m e = true -> (Zpos m < 2 ^ 53)%Z /\ (-1074 <= e)%Z.
Proof.
  intros m e H. unfold SpecFloat.bounded, SpecFloat.canonical_mantissa in H. apply andb_true_iff in H. destruct H as [H _].
  apply Zeq_bool_eq in H. unfold SpecFloat.fexp, SpecFloat.emin, prec64, emax64 in H. split; [|lia].
  rewrite Digits.Zpos_digits2_pos in H. pose proof (Digits.Zdigits_correct radix2 (Zpos m)) as [_ Hd]. cbn [Z.abs] in Hd.
  eapply Z.lt_le_trans; [exact Hd|]. change (radix_val radix2) with 2%Z. apply Z.pow_le_mono_r; lia.
Qed.

Lemma shortest_decimal_best : forall m e H, let v : f64 := B754_finite false m e H in
  let '(c, p) := shortest_decimal v m e in best v c p.
Proof.
  intros m e H v. destruct (bounded_facts m e H) as [Hm He]. unfold shortest_decimal.
  set (num := (if (0 <=? e)%Z then Zpos m * 2 ^ e else Zpos m)%Z). set (den := (if (0 <=? e)%Z then 1 else 2 ^ (- e))%Z).
  set (top := Z.max 0 ((e + 53) / 3 + 1)). set (bottom := Z.min e 0).
  assert (Hn : (0 < num)%Z). { unfold num. destruct (Z.leb_spec 0 e); [|lia]. pose proof (Z.pow_pos_nonneg 2 e). lia. }
  assert (Hd : (0 < den)%Z). { unfold den. destruct (Z.leb_spec 0 e); [lia|]. pose proof (Z.pow_pos_nonneg 2 (- e)). lia. }
  assert (Hv : B2R v = IZR num / IZR den).
  { unfold v, num, den. cbn [B2R SpecFloat.cond_Zopp cond_Zopp]. unfold F2R. cbn [Fnum Fexp]. destruct (Z.leb_spec 0 e) as [Hp|Hp].
    - rewrite mult_IZR. change 2%Z with (radix_val radix2). rewrite IZR_Zpower by auto. field.
    - change 2%Z with (radix_val radix2). rewrite IZR_Zpower by lia. rewrite bpow_opp. unfold Rdiv. rewrite Rinv_inv. reflexivity. }
  assert (Ht : (bottom <= 0 <= top)%Z) by (unfold bottom, top; lia).
  apply (shortest_best v num den Hn Hd Hv eq_refl eq_refl).
  - (* nothing above the top *)
    intros c' p' Hc Hr. destruct (Z_le_gt_dec p' top) as [|Hp]; auto. exfalso.
    assert (Hbig : (bpow radix2 (e + 53) <= IZR c' * powerRZ 10 p')%R).
    { assert (H10 : (2 ^ Z.max 0 (e + 53) <= 10 ^ p')%Z).
      { apply Z.le_trans with (10 ^ top)%Z; [|apply Z.pow_le_mono_r; lia].
        apply Z.le_trans with (2 ^ (3 * top))%Z; [apply Z.pow_le_mono_r; [lia|]|].
        - unfold top. pose proof (Z.div_mod (e + 53) 3 ltac:(lia)). pose proof (Z.mod_pos_bound (e + 53) 3 ltac:(lia)). lia.
        - rewrite Z.pow_mul_r by lia. change (2 ^ 3)%Z with 8%Z. apply Z.pow_le_mono_l. lia. }
      rewrite powerRZ_pos_Z by lia. apply IZR_le in H10. change 2%Z with (radix_val radix2) in H10. rewrite IZR_Zpower in H10 by lia.
      pose proof (bpow_le radix2 (e + 53) (Z.max 0 (e + 53)) ltac:(lia)).
      assert (1 <= IZR c') by (apply IZR_le; lia). pose proof (bpow_gt_0 radix2 (e + 53)). nra. }
    assert (Hlt : B2R v < bpow radix2 (e + 53)).
    { unfold v. cbn [B2R cond_Zopp]. unfold F2R. cbn [Fnum Fexp]. rewrite Z.add_comm, bpow_plus.
      apply Rmult_lt_compat_r; [apply bpow_gt_0|]. rewrite <- IZR_Zpower by lia. apply IZR_lt. exact Hm. }
    pose proof (bpow_gt_0 radix2 (e + 53)) as Hb.
    assert (Hth : IZR c' * powerRZ 10 p' < overflow_threshold). { destruct Hr as [[Hr _]|[_ Hr]]; [exact Hr|discriminate Hr]. }
    apply correctly_rounded_iff in Hr; [|lra|exact Hth]. destruct Hr as [_ [_ Hr]].
    assert (bpow radix2 (e + 53) <= B2R v); [|lra]. rewrite Hr.
    apply round_ge_generic; [typeclasses eauto|typeclasses eauto| |exact Hbig].
    apply generic_format_bpow. unfold SpecFloat.fexp, SpecFloat.emin, prec64, emax64. lia.
  - (* the number is a multiple of the last power *)
    intros q r s E. rewrite Z2Nat.id in E by lia. replace (top - (top - bottom))%Z with bottom in E by lia.
    unfold split_at, num, den, bottom in E. destruct (Z.leb_spec 0 e) as [Hp|Hp].
    + rewrite Z.min_r in E by lia. cbn in E. injection E as _ <- _. apply Z.mod_1_r.
    + rewrite Z.min_l in E by lia. destruct (Z.leb_spec 0 e); [lia|].
      apply (f_equal (fun t => snd (fst t))) in E. cbn [fst snd] in E. rewrite <- E.
      assert (E10 : (10 ^ (- e) = 5 ^ (- e) * 2 ^ (- e))%Z) by (rewrite <- Z.pow_mul_l; reflexivity).
      rewrite E10, Z.mul_assoc. apply Z.mod_mul. pose proof (Z.pow_pos_nonneg 2 (- e)). lia.
Qed.

(** fewest digits *)
Lemma best_fewest : forall (v : f64) c p, fis_finite v = true -> 0 < B2R v -> best v c p -> forall c' p' n, (0 < c')%Z -> (0 <= n)%Z ->
  correctly_rounded (IZR c' * powerRZ 10 p') v -> (c' < 10 ^ n)%Z -> (c < 10 ^ n)%Z.
Proof.
  intros v c p Hf Hv [Hc [Hr [Hna _]]] c' p' n Hc' Hn Hr' Hlt. destruct (Z_lt_ge_dec c (10 ^ n)) as [|Hge]; auto. exfalso.
  pose proof (Hna c' p' Hc' Hr') as Hp.
  (* 10^(n+p) lies between the two *)
  assert (H1 : IZR c' * powerRZ 10 p' <= powerRZ 10 (n + p)).
  { rewrite powerRZ_add by lra. rewrite (powerRZ_pos_Z n) by auto. apply Rmult_le_compat.
    - apply IZR_le. lia.
    - left. apply powerRZ_10_pos.
    - apply IZR_le. lia.
    - replace p with (p' + (p - p'))%Z by lia. rewrite powerRZ_add by lra. rewrite (powerRZ_pos_Z (p - p')) by lia.
      pose proof (powerRZ_10_pos p'). assert (1 <= IZR (10 ^ (p - p'))); [|nra]. apply IZR_le. pose proof (Z.pow_pos_nonneg 10 (p - p')). lia. }
  assert (H2 : powerRZ 10 (n + p) <= IZR c * powerRZ 10 p).
  { rewrite powerRZ_add by lra. rewrite (powerRZ_pos_Z n) by auto. apply Rmult_le_compat_r; [left; apply powerRZ_10_pos|]. apply IZR_le. lia. }
  assert (H3 : correctly_rounded (IZR 1 * powerRZ 10 (n + p)) v).
  { rewrite Rmult_1_l. destruct (Rle_or_lt (powerRZ 10 (n + p)) (B2R v)) as [Hle|Hgt].
    - eapply squeeze_below; [| |exact Hle|exact Hf|exact Hr']; [|exact H1].
      apply Rmult_le_pos; [apply IZR_le; lia|left; apply powerRZ_10_pos].
    - eapply squeeze_above; [left; exact Hv|left; exact Hgt|exact H2|exact Hf|exact Hr]. }
  apply Hna in H3; [|lia]. assert (n = 0)%Z by lia. subst n. cbn in Hlt. lia.
Qed.

(** ** printing and reading *)
Lemma no_underscore : forall l, Forall plain_char l -> filter (fun c => negb (Ascii.eqb c "_")) l = l.
Proof.
  intros l H. induction H as [|c l Hc Hl IH]; cbn; auto.
  assert (E : Ascii.eqb c "_" = false). { apply Ascii.eqb_neq. intros ->. destruct Hc as [[_ Hc]|Hc]; [cbn in Hc; lia|discriminate Hc]. }
  rewrite E. cbn. now rewrite IH.
Qed.

Lemma las_sol : forall l, list_ascii_of_string (string_of_list_ascii l) = l.
Proof. apply list_ascii_of_string_of_list_ascii. Qed.

Lemma positional_decimal : forall c p, (0 <= c)%Z ->
  decimal (string_of_list_ascii (positional c p)) (IZR c * powerRZ 10 p).
Proof.
  intros c p Hc. destruct (positional_spec c p Hc) as [m [k [Hm He]]].
  exists (positional c p), [], m, k, 0%Z. rewrite las_sol. split; [|split; [exact Hm|split; [constructor|]]].
  - rewrite app_nil_r. apply no_underscore. eapply mantissa_chars; eauto.
  - rewrite <- He. reflexivity.
Qed.

(** a number that is printed without sign *)
Definition unsigned (v : f64) : Prop := fis_finite v = true /\ Bsign v = false.

Lemma display_unsigned : forall v, unsigned v -> exists c p, (0 <= c)%Z /\
  display_f64 v = string_of_list_ascii (positional c p) /\ f64_of_dec (Z.to_N c) p = v /\
  (0 < B2R v -> best v c p).
Proof.
  intros [s|s| |s m e H] [Hf Hs]; try discriminate Hf; cbn in Hs; subst s.
  - exists 0%Z, 0%Z. split; [lia|]. split; [reflexivity|]. split; [reflexivity|]. cbn. lra.
  - pose proof (shortest_decimal_best m e H) as Hb. cbv zeta in Hb. cbn [display_f64 fabs Babs].
    destruct (shortest_decimal (B754_finite false m e H) m e) as [c p]. exists c, p.
    destruct Hb as [Hc [Hr Hrest]]. split; [lia|]. split; [reflexivity|]. split.
    + apply f64_of_dec_reads; [lia|exact Hr].
    + intros _. split; [exact Hc|]. split; [exact Hr|exact Hrest].
Qed.

Lemma display_reads : forall v, unsigned v -> literal_value (display_f64 v) = Some v.
Proof.
  intros v Hv. destruct (display_unsigned v Hv) as [c [p [Hc [-> [Hr _]]]]].
  apply parse_f64_correct. exists (IZR c * powerRZ 10 p). split; [now apply positional_decimal|].
  now apply f64_of_dec_reads.
Qed.

Lemma display_signed : forall v, fis_finite v = true -> Bsign v = true ->
  display_f64 v = ("-" ++ display_f64 (fneg v))%string /\ unsigned (fneg v).
Proof.
  intros [s|s| |s m e H] Hf Hs; try discriminate Hf; cbn in Hs; subst s.
  - split; [reflexivity|]. split; reflexivity.
  - split; [|split; reflexivity]. cbn [display_f64 fneg Bopp fabs Babs negb]. destruct (shortest_decimal _ m e) as [c p]. reflexivity.
Qed.
