(** * Simplification preserves values on the regular domain *)
From Coq Require Import ZArith NArith Reals List String Ascii Bool Lia Lra.
From Flocq Require Import Core BinarySingleNaN.
From Verif Require Import F64 Syntax Factorial Builtins Context Element Parser Xprs Order.
From Verif Require Import SpecParse SpecTree TreeFacts SpecRewrite SimplifyFacts SpecApi ParserResults FloatFacts.
From Verif Require Import TestWorld PropertiesParse PropertiesEval PropertiesEq SpecRegular.
Import ListNotations.

(** ** f64 identities behind the rules *)
Lemma fsub_fadd : forall a b, fsub a b = fadd a (fneg b).
Proof. intros a b; unfold fsub, fadd, fneg; destruct a, b; reflexivity. Qed.

Lemma fneg_fneg : forall a, fneg (fneg a) = a.
Proof. intro a. apply Bopp_involutive. Qed.

Lemma same_sym : forall x y, same_value x y -> same_value y x.
Proof. intros x y. rewrite !same_value_iff. intros [->|[H1 H2]]; auto. Qed.
Lemma same_trans : forall x y z, same_value x y -> same_value y z -> same_value x z.
Proof. intros x y z. rewrite !same_value_iff. intros [->|[H1 H2]] [->|[H3 H4]]; auto. Qed.

Lemma same_zero : forall x, is_zero x -> same_value x fzero.
Proof. intros x H. apply same_value_iff. right. split; auto. now exists false. Qed.

Lemma same_finite : forall x y, same_value x y -> finite x -> finite y.
Proof. intros x y H F. apply same_value_iff in H. destruct H as [->|[_ [s ->]]]; auto. reflexivity. Qed.
Lemma same_not_zero : forall x y, same_value x y -> ~ is_zero x -> ~ is_zero y.
Proof. intros x y H N. apply same_value_iff in H. destruct H as [->|[H _]]; auto. Qed.

Lemma fadd_zero_l : forall x y, is_zero x -> same_value (fadd x y) y.
Proof.
  intros x y [s ->]. apply same_value_iff. destruct y as [t|t| |t m e B]; cbn; auto.
  right. destruct s, t; split; eexists; reflexivity.
Qed.
Lemma fadd_zero_r : forall x y, is_zero y -> same_value (fadd x y) x.
Proof. intros. rewrite fadd_comm. now apply fadd_zero_l. Qed.

Lemma fneg_zero : forall x, is_zero x -> is_zero (fneg x).
Proof. intros x [s ->]. eexists. reflexivity. Qed.
Lemma fneg_finite : forall x, finite x -> finite (fneg x).
Proof. intros x H. unfold finite, fneg. now rewrite is_finite_Bopp. Qed.
Lemma fneg_not_zero : forall x, ~ is_zero (fneg x) -> ~ is_zero x.
Proof. intros x H C. apply H. now apply fneg_zero. Qed.

Lemma fsub_self : forall x, finite x -> is_zero (fsub x x).
Proof.
  intros x F. pose proof (Bminus_correct prec64 emax64 Hprec64 Hmax64 mode_NE x x F F) as H.
  replace (B2R x - B2R x)%R with 0%R in H by lra. rewrite round_0 in H by typeclasses eauto.
  rewrite Rabs_R0, Rlt_bool_true in H by apply bpow_gt_0. destruct H as [H1 [H2 _]].
  unfold fsub. destruct (Bminus mode_NE x x) as [s|s| |s m e B]; try discriminate.
  - now exists s.
  - exfalso. cbn in H1. revert H1.
    pose proof (F2R_neq_0 radix2 (Float radix2 (cond_Zopp s (Zpos m)) e)) as Hn.
    cbn in Hn. destruct s; apply Hn; discriminate.
Qed.

Lemma fadd_neg_self : forall x, finite x -> is_zero (fadd (fneg x) x).
Proof. intros x F. rewrite fadd_comm, <- fsub_fadd. now apply fsub_self. Qed.

Lemma fmul_zero_l : forall x y, is_zero x -> finite y -> is_zero (fmul x y).
Proof. intros x y [s ->] F. destruct y; try discriminate; eexists; reflexivity. Qed.
Lemma fmul_zero_r : forall x y, is_zero y -> finite x -> is_zero (fmul x y).
Proof. intros. rewrite fmul_comm. now apply fmul_zero_l. Qed.

Lemma B2R_fone : B2R fone = 1%R.
Proof. apply Bone_correct. Qed.

Lemma finite_lt_emax : forall x : f64, Rlt_bool (Rabs (B2R x)) (bpow radix2 emax64) = true.
Proof. intro x. apply Rlt_bool_true. apply finite_bound. Qed.

Lemma fmul_one_r : forall x, finite x -> fmul x fone = x.
Proof.
  intros x F. pose proof (Bmult_correct prec64 emax64 Hprec64 Hmax64 mode_NE x fone) as H.
  rewrite B2R_fone, Rmult_1_r, round_generic in H by (try typeclasses eauto; apply format_f64).
  rewrite finite_lt_emax in H. destruct H as [H1 [H2 H3]]. rewrite F in H2.
  assert (Fm : is_finite (fmul x fone) = true) by (unfold fmul; rewrite H2; reflexivity).
  apply B2R_Bsign_inj; auto. unfold fmul. rewrite H3.
  - unfold fone. rewrite Bsign_Bone. apply xorb_false_r.
  - unfold fmul in Fm. destruct (Bmult mode_NE x fone); auto; discriminate.
Qed.
Lemma fmul_one_l : forall x, finite x -> fmul fone x = x.
Proof. intros. rewrite fmul_comm. now apply fmul_one_r. Qed.

Lemma fdiv_one : forall x, finite x -> fdiv x fone = x.
Proof.
  intros x F. assert (N : B2R fone <> 0%R) by (rewrite B2R_fone; lra).
  pose proof (Bdiv_correct prec64 emax64 Hprec64 Hmax64 mode_NE x fone N) as H.
  rewrite B2R_fone in H. unfold Rdiv in H. rewrite Rinv_1, Rmult_1_r, round_generic in H by (try typeclasses eauto; apply format_f64).
  rewrite finite_lt_emax in H. destruct H as [H1 [H2 H3]]. rewrite F in H2.
  apply B2R_Bsign_inj; auto. unfold fdiv. rewrite H3.
  - unfold fone. rewrite Bsign_Bone. apply xorb_false_r.
  - destruct (Bdiv mode_NE x fone); auto; discriminate.
Qed.

Lemma finite_nonzero_R : forall x, finite x -> ~ is_zero x -> B2R x <> 0%R.
Proof.
  intros x F N H. destruct x as [s|s| |s m e B]; try discriminate.
  - apply N. now exists s.
  - cbn in H. revert H. pose proof (F2R_neq_0 radix2 (Float radix2 (cond_Zopp s (Zpos m)) e)) as Hn.
    cbn in Hn. destruct s; apply Hn; discriminate.
Qed.

Lemma fdiv_self : forall x, finite x -> ~ is_zero x -> fdiv x x = fone.
Proof.
  intros x F N. pose proof (finite_nonzero_R x F N) as NR.
  pose proof (Bdiv_correct prec64 emax64 Hprec64 Hmax64 mode_NE x x NR) as H.
  unfold Rdiv in H. rewrite Rinv_r in H by exact NR. rewrite <- B2R_fone in H.
  rewrite round_generic in H by (try typeclasses eauto; apply format_f64).
  rewrite finite_lt_emax in H. destruct H as [H1 [H2 H3]]. rewrite F in H2.
  apply B2R_Bsign_inj; auto. unfold fdiv. rewrite H3.
  - rewrite xorb_nilpotent. unfold fone. now rewrite Bsign_Bone.
  - destruct (Bdiv mode_NE x x); auto; discriminate.
Qed.

Lemma fdiv_zero_l : forall x y, is_zero x -> finite y -> ~ is_zero y -> is_zero (fdiv x y).
Proof.
  intros x y [s ->] F N. destruct y as [t|t| |t m e B]; try discriminate.
  - elim N. now exists t.
  - eexists. reflexivity.
Qed.

Lemma fdiv_neg_neg : forall x y, fdiv (fneg x) (fneg y) = fdiv x y.
Proof.
  intros x y. destruct x as [s|s| |s m e B], y as [t|t| |t m' e' B']; try reflexivity;
    try (cbn; rewrite xorb_negb_negb; reflexivity).
  apply B2SF_inj. unfold fdiv, fneg. cbn [Bopp Bdiv]. rewrite !B2SF_SF2B. now rewrite xorb_negb_negb.
Qed.
Lemma fmul_neg_neg : forall x y, fmul (fneg x) (fneg y) = fmul x y.
Proof.
  intros x y. destruct x as [s|s| |s m e B], y as [t|t| |t m' e' B']; try reflexivity;
    try (cbn; rewrite xorb_negb_negb; reflexivity).
  apply B2SF_inj. unfold fmul, fneg. cbn [Bopp Bmult]. rewrite !B2SF_SF2B. now rewrite xorb_negb_negb.
Qed.

Lemma frem_zero_l : forall x y, is_zero x -> finite y -> ~ is_zero y -> is_zero (frem x y).
Proof.
  intros x y [s ->] F N. destruct y as [t|t| |t m e B]; try discriminate.
  - elim N. now exists t.
  - eexists. reflexivity.
Qed.

Lemma frem_self : forall x, finite x -> ~ is_zero x -> is_zero (frem x x).
Proof.
  intros x F N. destruct x as [s|s| |s m e B]; try discriminate.
  - elim N. now exists s.
  - cbn [frem]. rewrite Z.min_id, Z.sub_diag, Z.mul_1_r, Z.mod_same by discriminate.
    destruct s; eexists; reflexivity.
Qed.

Lemma lit_zero : forall x, feq x fzero = true -> is_zero x.
Proof. intros x H. apply feq_cases in H. destruct H as [[-> _]|[H _]]; auto. now exists false. Qed.
Lemma lit_one : forall x, feq x fone = true -> x = fone.
Proof. intros x H. apply feq_cases in H. destruct H as [[-> _]|[_ [s H]]]; auto. discriminate. Qed.

(** ** The operations respect equality up to the sign of zero *)
Lemma regular_operands_same : forall w op a b a' b', regular_operands w op a b ->
  same_value a a' -> same_value b b' ->
  regular_operands w op a' b' /\ same_value (operation w op a b) (operation w op a' b').
Proof.
  intros w op a b a' b' H Ha Hb. destruct op; cbn [regular_operands operation] in *; try easy;
    repeat match goal with H : _ /\ _ |- _ => destruct H end.
  - split; [split; eauto using same_finite|now apply fadd_same].
  - split; [split; eauto using same_finite|now apply fsub_same].
  - split; [split; eauto using same_finite|now apply fmul_same].
  - assert (b = b') as <- by now apply same_nonzero.
    split; [|now apply fdiv_same]. eauto using same_finite.
  - assert (b = b') as <- by now apply same_nonzero. apply same_value_iff in Ha. destruct Ha as [<-|[Za Za']].
    + split; auto. apply same_value_refl.
    + split; [|apply same_value_iff; right; auto]. split; [assumption|]. split; [auto|]. intros _ N. now elim N.
  - assert (b = b') as <- by now apply same_nonzero.
    split; [|now apply frem_same]. repeat split; eauto using same_finite.
    intros E. assert (Z : is_zero (frem a fone)) by auto.
    pose proof (frem_same a fone a' fone Ha (same_value_refl _)) as S. apply same_value_iff in S.
    destruct S as [S|[_ S]]; [now rewrite <- S|exact S].
Qed.

Lemma zero_dec : forall a : f64, is_zero a \/ ~ is_zero a.
Proof. intros [s|s| |s m e B]; [left; eexists; reflexivity|..]; right; intros [z Z]; discriminate Z. Qed.
Lemma zeros_dec : forall vs : list f64, Exists is_zero vs \/ Forall (fun a => ~ is_zero a) vs.
Proof.
  induction vs as [|v vs [H|H]]; [right; constructor|left; now right|].
  destruct (zero_dec v); [left; now left|right; now constructor].
Qed.
Lemma same_all_nonzero : forall vs vs', Forall2 same_value vs vs' -> Forall (fun a => ~ is_zero a) vs -> vs' = vs.
Proof. induction 1 as [|a b l m S _ IH]; intro F; [reflexivity|]. inversion F; subst. rewrite <- (same_nonzero _ _ S) by assumption. f_equal. auto. Qed.
Lemma equal_or_zeros_all : forall vs vs', Forall2 same_value vs vs' <-> Forall2 equal_or_zeros vs vs'.
Proof. intros vs vs'. split; induction 1; constructor; auto; now apply same_value_iff. Qed.
Lemma same_exists_zero : forall vs vs', Forall2 same_value vs vs' -> Exists is_zero vs' -> Exists is_zero vs.
Proof.
  induction 1 as [|a b l m S _ IH]; intro E; inversion E; subst; [|right; auto].
  left. apply same_value_iff in S. destruct S as [->|[Z _]]; assumption.
Qed.
Lemma same_all_sym : forall vs vs', Forall2 same_value vs vs' -> Forall2 same_value vs' vs.
Proof. induction 1; constructor; auto using same_sym. Qed.
Lemma same_all_trans : forall a b, Forall2 same_value a b -> forall c, Forall2 same_value b c -> Forall2 same_value a c.
Proof. induction 1; intros c H'; inversion H'; subst; constructor; eauto using same_trans. Qed.

(** calls respect equality up to the sign of zero where it is asked for *)
Lemma call_same : forall w f vs v vs', Forall2 same_value vs vs' ->
  (Exists is_zero vs -> same_for_both_zeros w f vs) -> call_function w f vs = Val v ->
  (Exists is_zero vs' -> same_for_both_zeros w f vs') /\ exists v', call_function w f vs' = Val v' /\ same_value v v'.
Proof.
  intros w f vs v vs' S Z C. destruct (zeros_dec vs) as [E|N].
  - pose proof (Z E) as B. destruct (B vs' v) as [v' [C' S']]; [now apply equal_or_zeros_all|exact C|]. split.
    + intros _ us u Su Cu. assert (u = v') as -> by congruence.
      destruct (B us v) as [u [Eu Sv]]; [|exact C|].
      * apply equal_or_zeros_all. apply equal_or_zeros_all in Su. eapply same_all_trans; eauto.
      * exists u. split; [exact Eu|]. apply same_value_iff. apply same_value_iff in S'. apply same_value_iff in Sv. eapply same_trans; [apply same_sym|]; eauto.
    + exists v'. split; [exact C'|now apply same_value_iff].
  - rewrite (same_all_nonzero _ _ S N). split; [exact Z|]. exists v. split; [exact C|apply same_value_refl].
Qed.
Lemma no_zero_arguments : forall (w : world) (f : function) (vs : list f64) (P : Prop), Forall (fun a => ~ is_zero a) vs -> Exists is_zero vs -> P.
Proof. intros w f vs P F E. exfalso. induction E as [a l H|a l _ IH]; inversion F; subst; auto. Qed.

Scheme regular_ind2 := Induction for regular Sort Prop
with regular_all_ind2 := Induction for regular_all Sort Prop.
Combined Scheme regular_mutind from regular_ind2, regular_all_ind2.

Scheme simplified_ind2 := Induction for simplified_from Sort Prop
with simplified_all_ind2 := Induction for simplified_all Sort Prop.
Combined Scheme simplified_mutind from simplified_ind2, simplified_all_ind2.

Section R.
  Variable w : world.
  Variable rho : string -> option f64.

  Lemma regular_means_both :
    (forall e v, regular w rho e v -> means w rho e v) /\
    (forall l vs, regular_all w rho l vs -> means_all w rho l vs).
  Proof.
    apply regular_mutind; intros; try (econstructor; eauto; fail).
    destruct op; cbn [operation]; try (now constructor). easy.
  Qed.
  Lemma regular_means : forall e v, regular w rho e v -> means w rho e v.
  Proof. apply regular_means_both. Qed.

  Lemma regular_det : forall e v v', regular w rho e v -> regular w rho e v' -> v = v'.
  Proof. intros e v v' H H'. apply regular_means in H, H'. eapply means_det; eauto. Qed.

  Lemma regular_no_bf_both :
    (forall e v, regular w rho e v -> no_bf e) /\
    (forall l vs, regular_all w rho l vs -> Forall no_bf l).
  Proof.
    apply regular_mutind; intros; try (cbn; auto; fail).
    - cbn. destruct op; easy.
    - now apply no_bf_call.
  Qed.
  Lemma regular_no_bf : forall e v, regular w rho e v -> no_bf e.
  Proof. apply regular_no_bf_both. Qed.

  Lemma regular_sub_both :
    (forall e v, regular w rho e v -> forall s, sub s e -> exists u, regular w rho s u) /\
    (forall l vs, regular_all w rho l vs -> forall a s, In a l -> sub s a -> exists u, regular w rho s u).
  Proof.
    apply regular_mutind; intros;
      try (match goal with H : In _ (_ :: _) |- _ => destruct H as [<- | H]; eauto end; fail);
      try (match goal with H : In _ [] |- _ => easy end);
      (match goal with H : sub _ _ |- _ => inversion H; subst; eauto using regular end).
  Qed.

  (** expressions equal for [==] have the same value *)
  Lemma equal_regular :
    (forall a b, equal_exprs a b -> forall v, regular w rho a v -> exists v', regular w rho b v' /\ same_value v v') /\
    (forall l m, equal_lists l m -> forall vs, regular_all w rho l vs -> exists vs', regular_all w rho m vs' /\ Forall2 same_value vs vs').
  Proof.
    apply equal_mutind.
    - intros x y H v Hv. inversion Hv; subst. exists y. split; [constructor|now left].
    - intros x v Hv. exists v. split; [exact Hv|apply same_value_refl].
    - intros op a b _ IH v Hv. inversion Hv; subst;
        match goal with H : regular w rho a _ |- _ => destruct (IH _ H) as [v' [Hm Hs]] end;
        (eexists; split; [econstructor; eauto|]); auto using fneg_same, factorial_same.
    - intros op l r l' r' _ _ IHl _ IHr v Hv. inversion Hv as [| |o1 l1 r1 a b H4 H5 H7| | | |]; subst.
      destruct (IHl _ H4) as [a' [Ra Sa]]. destruct (IHr _ H5) as [b' [Rb Sb]].
      destruct (regular_operands_same _ _ _ _ _ _ H7 Sa Sb) as [H8 H9].
      eexists. split; [now constructor; eauto|]. exact H9.
    - intros op l r l' r' Hop _ IHl _ IHr v Hv. inversion Hv as [| |o1 l1 r1 a b H4 H5 H7| | | |]; subst.
      destruct (IHl _ H4) as [a' [Ra Sa]]. destruct (IHr _ H5) as [b' [Rb Sb]].
      destruct (regular_operands_same _ _ _ _ _ _ H7 Sa Sb) as [H8 H9].
      exists (operation w op b' a'). split; [constructor; auto|]; destruct Hop as [-> | ->]; cbn in *.
      + tauto.
      + tauto.
      + now rewrite (fadd_comm b' a').
      + now rewrite (fmul_comm b' a').
    - intros f args args' _ IH v Hv. inversion Hv as [| | | | | |f1 args1 vs v1 H2 H4 H6]; subst. destruct (IH _ H2) as [vs' [Rs Ss]].
      destruct (call_same _ _ _ _ _ Ss H4 H6) as [Z' [v' [C' S']]]. exists v'. split; [econstructor; eauto|exact S'].
    - intros vs H. inversion H; subst. exists []. split; constructor.
    - intros a b l m _ IHa _ IHl vs H. inversion H as [|a0 l0 v0 vs0 Ha Hl]; subst.
      destruct (IHa _ Ha) as [v' [Hm Hs]]. destruct (IHl _ Hl) as [vs' [Hm' Hs']]. exists (v' :: vs'). split; constructor; auto.
  Qed.
  Lemma el_eq_same : forall a b va vb, el_eq a b = Val true -> regular w rho a va -> regular w rho b vb ->
    same_value va vb.
  Proof.
    intros a b va vb He Ha Hb. apply (el_eq_equal _ _ (regular_no_bf _ _ Ha)) in He.
    destruct (proj1 equal_regular _ _ He _ Ha) as [v' [Hm Hs]]. now rewrite (regular_det _ _ _ Hb Hm).
  Qed.

  Lemma regular_number : forall n v, regular w rho (Number n) v -> v = n.
  Proof. intros n v H. now inversion H. Qed.

  Definition preserves (e e' : element) : Prop :=
    forall v, regular w rho e v -> exists v', regular w rho e' v' /\ same_value v v'.

  Lemma preserves_refl : forall e, preserves e e.
  Proof. intros e v H. exists v. split; auto. apply same_value_refl. Qed.
  Lemma preserves_trans : forall a b c, preserves a b -> preserves b c -> preserves a c.
  Proof.
    intros a b c H1 H2 v H. destruct (H1 v H) as [v1 [A1 S1]]. destruct (H2 v1 A1) as [v2 [A2 S2]].
    exists v2. split; auto. eapply same_trans; eauto.
  Qed.
  Lemma preserves_bin : forall op l r l' r', preserves l l' -> preserves r r' ->
    preserves (BinOp op l r) (BinOp op l' r').
  Proof.
    intros op l r l' r' Hl Hr v H. inversion H as [| |o1 l1 r1 a b H4 H5 H7| | | |]; subst.
    destruct (Hl _ H4) as [a' [Ra Sa]]. destruct (Hr _ H5) as [b' [Rb Sb]].
    destruct (regular_operands_same _ _ _ _ _ _ H7 Sa Sb) as [H8 H9].
    eexists. split; [now constructor; eauto|]. exact H9.
  Qed.
  Lemma preserves_un : forall op e e', preserves e e' -> preserves (UnOp op e) (UnOp op e').
  Proof.
    intros op e e' He v H. inversion H; subst;
      match goal with H : regular w rho e _ |- _ => destruct (He _ H) as [a' [Ra Sa]] end;
      (eexists; split; [now econstructor; eauto|]); auto using fneg_same, factorial_same.
  Qed.
  Lemma preserves_call : forall f args args', Forall2 preserves args args' ->
    preserves (Call f args) (Call f args').
  Proof.
    intros f args args' HA v H. inversion H as [| | | | | |f1 args1 vs v1 H2 H4 H6]; subst.
    assert (exists vs', regular_all w rho args' vs' /\ Forall2 same_value vs vs') as [vs' [Rs Ss]].
    { clear H H6 H4. revert vs H2. induction HA as [|a a' l l' Ha HA IH]; intros vs Hr; inversion Hr as [|a0 l0 v0 vs0 Hv Hl]; subst.
      - exists []. split; constructor.
      - destruct (Ha _ Hv) as [v' [Rv Sv]]. destruct (IH _ Hl) as [vs' [Rs Ss]]. exists (v' :: vs'). split; constructor; auto. }
    destruct (call_same _ _ _ _ _ Ss H4 H6) as [Z' [v' [C' S']]]. exists v'. split; [econstructor; eauto|exact S'].
  Qed.

  Lemma rewrites_preserves : forall cfg op l r e, rewrites cfg w op l r e -> preserves (BinOp op l r) e.
  Proof.
    intros cfg op l r e Hrw v H. inversion H as [| |op' l' r' a b Hl Hr Hop| | | |]; subst. clear H.
    assert (L0 : lit_eq l fzero -> is_zero a).
    { intros [x [-> Hx]]. apply regular_number in Hl. subst. now apply lit_zero. }
    assert (R0 : lit_eq r fzero -> is_zero b).
    { intros [x [-> Hx]]. apply regular_number in Hr. subst. now apply lit_zero. }
    assert (L1 : lit_eq l fone -> a = fone).
    { intros [x [-> Hx]]. apply regular_number in Hl. subst. now apply lit_one. }
    assert (R1 : lit_eq r fone -> b = fone).
    { intros [x [-> Hx]]. apply regular_number in Hr. subst. now apply lit_one. }
    destruct Hrw; cbn [operation regular_operands] in *;
      repeat match goal with H : _ /\ _ |- _ => destruct H end.
    - exists b. split; auto using fadd_zero_l.
    - exists a. split; auto using fadd_zero_r.
    - (* -a + r *) inversion Hl as [| | | |e1 a1 H5| |]; subst. exists fzero. split; [constructor|].
      pose proof (el_eq_same _ _ _ _ H0 H5 Hr) as S.
      eapply same_trans; [apply fadd_same; [apply same_value_refl|apply same_sym; exact S]|].
      apply same_zero, fadd_neg_self. apply (same_finite b); auto using same_sym.
    - inversion Hr as [| | | |e1 a1 H5| |]; subst. exists fzero. split; [constructor|].
      pose proof (el_eq_same _ _ _ _ H0 Hl H5) as S. rewrite <- fsub_fadd.
      eapply same_trans; [apply fsub_same; [exact S|apply same_value_refl]|].
      apply same_zero, fsub_self. eapply same_finite; eauto.
    - exists (fneg b). split; [now constructor|]. rewrite fsub_fadd. auto using fadd_zero_l.
    - exists a. split; auto. rewrite fsub_fadd. auto using fadd_zero_r, fneg_zero.
    - exists fzero. split; [constructor|].
      pose proof (el_eq_same _ _ _ _ H Hl Hr) as S.
      eapply same_trans; [apply fsub_same; [exact S|apply same_value_refl]|].
      apply same_zero, fsub_self. eapply same_finite; eauto.
    - inversion Hr as [| | | |e1 a1 H5| |]; subst. exists (fadd a a1). split.
      + apply (RG_bin w rho Plus); auto. split; auto.
        rewrite <- (fneg_fneg a1). now apply fneg_finite.
      + rewrite fsub_fadd, fneg_fneg. apply same_value_refl.
    - exists fzero. split; [constructor|]. apply same_zero. auto using fmul_zero_l.
    - exists fzero. split; [constructor|]. apply same_zero. auto using fmul_zero_r.
    - exists b. split; auto. rewrite (L1 H), fmul_one_l by auto. apply same_value_refl.
    - exists a. split; auto. rewrite (R1 H), fmul_one_r by auto. apply same_value_refl.
    - inversion Hl as [| | | |e1 a1 H5| |]; subst. inversion Hr as [| | | |e2 a2 H6| |]; subst. exists (fmul a1 a2). split.
      + apply (RG_bin w rho Times); auto. split; [rewrite <- (fneg_fneg a1)|rewrite <- (fneg_fneg a2)]; now apply fneg_finite.
      + rewrite fmul_neg_neg. apply same_value_refl.
    - exfalso; auto.
    - exists fzero. split; [constructor|]. apply same_zero. auto using fdiv_zero_l.
    - exfalso; auto.
    - exists a. split; auto. rewrite (R1 H), fdiv_one by auto. apply same_value_refl.
    - exists fone. split; [constructor|].
      pose proof (el_eq_same _ _ _ _ H0 Hl Hr) as S. apply same_sym in S.
      rewrite (same_nonzero _ _ S) by auto. rewrite fdiv_self; auto.
      + apply same_value_refl.
      + eapply same_not_zero; eauto.
    - inversion Hl as [| | | |e1 a1 H5| |]; subst. inversion Hr as [| | | |e2 a2 H6| |]; subst. exists (fdiv a1 a2). split.
      + apply (RG_bin w rho Divide); auto. split; [|split]; [rewrite <- (fneg_fneg a1)|rewrite <- (fneg_fneg a2)|];
          try (now apply fneg_finite). now apply fneg_not_zero.
      + rewrite fdiv_neg_neg. apply same_value_refl.
    - exfalso; auto.
    - exists fzero. split; [constructor|]. apply same_zero. auto.
    - exists a. split; auto. pose proof (R1 H) as ->.
      assert (D : is_zero a \/ ~ is_zero a) by (destruct a; [left; eexists; reflexivity|..]; right; intros [z Z]; discriminate Z).
      destruct D as [D|D]; [|rewrite H2 by auto; apply same_value_refl]. apply same_value_iff. right. auto.
    - exfalso; auto.
    - exists fzero. split; [constructor|]. apply same_zero. auto using frem_zero_l.
    - exfalso; auto.
    - exists fzero. split; [constructor|]. pose proof (R1 H) as ->. apply same_zero. auto.
    - exists fzero. split; [constructor|].
      pose proof (el_eq_same _ _ _ _ H0 Hl Hr) as S. apply same_sym in S.
      rewrite (same_nonzero _ _ S) by auto. apply same_zero, frem_self; auto.
      eapply same_not_zero; eauto.
    - apply regular_number in Hl, Hr. subst. exists (operation w op x y). split; [|apply same_value_refl].
      destruct op; cbn in H, Hop; try easy; injection H as <-; constructor.
    - eexists. split; [now constructor; eauto|]. apply same_value_refl.
  Qed.

  Lemma simplify_unop_preserves : forall op e e', simplify_unop op e = Val e' -> preserves (UnOp op e) e'.
  Proof.
    intros op e e' H v Hv. destruct op; cbn in H; try discriminate.
    - injection H as <-. inversion Hv; subst. eauto using same_value_refl.
    - inversion Hv; subst. destruct e; injection H as <-; (eexists; split; [|apply same_value_refl]); auto.
      match goal with H : regular w rho (Number _) _ |- _ => inversion H; subst end. constructor.
    - inversion Hv; subst. destruct e; injection H as <-; (eexists; split; [|apply same_value_refl]); auto.
      match goal with H : regular w rho (Number _) _ |- _ => inversion H; subst end. constructor.
  Qed.

  Lemma number_values_regular : forall args vs, regular_all w rho args vs ->
    List.length (number_values args) = List.length args -> vs = number_values args.
  Proof.
    induction args as [|a args IH]; intros vs H E; inversion H; subst; auto.
    destruct a; cbn in E; try (pose proof (number_values_length args); lia).
    cbn. inversion H2; subst. f_equal. apply IH; auto.
  Qed.

  Lemma simplify_call_preserves : forall f args e', simplify_call w f args = Val e' -> preserves (Call f args) e'.
  Proof.
    intros f args e' H v Hv. unfold simplify_call in H.
    destruct (Nat.eqb _ _) eqn:E.
    - apply Nat.eqb_eq in E. inversion Hv as [| | | | | |f1 args1 vs v1 H2 H4 H6]; subst.
      rewrite <- (number_values_regular _ _ H2 E), H6 in H. cbn in H. injection H as <-.
      exists v. split; [constructor|apply same_value_refl].
    - injection H as <-. exists v. split; auto. apply same_value_refl.
  Qed.

  Lemma map_out_Forall2 : forall A B (f : A -> out B) l l', map_out f l = Val l' -> Forall2 (fun a b => f a = Val b) l l'.
  Proof.
    intros A B f. induction l as [|a l IH]; cbn; intros l' H.
    - injection H as <-. constructor.
    - destruct (f a) eqn:E; cbn in H; [|discriminate]. destruct (map_out f l) eqn:E2; cbn in H; [|discriminate].
      injection H as <-. constructor; auto.
  Qed.

  Lemma simplify_preserves : forall cfg e e', simplify cfg w e = Val e' -> preserves e e'.
  Proof.
    intros cfg. induction e as [n|op l r IHl IHr|op a IH|f args IH|y] using element_ind'; intros e' H; cbn in H.
    - injection H as <-. apply preserves_refl.
    - destruct (simplify cfg w l) eqn:El; cbn in H; [|discriminate].
      destruct (simplify cfg w r) eqn:Er; cbn in H; [|discriminate].
      apply simplify_binop_rewrites in H. eapply preserves_trans; [|eapply rewrites_preserves; eauto].
      apply preserves_bin; auto.
    - destruct (simplify cfg w a) eqn:Ea; cbn in H; [|discriminate].
      eapply preserves_trans; [|eapply simplify_unop_preserves; eauto]. apply preserves_un; auto.
    - destruct (map_out (simplify cfg w) args) eqn:Ea; cbn in H; [|discriminate].
      eapply preserves_trans; [|eapply simplify_call_preserves; eauto]. apply preserves_call.
      apply map_out_Forall2 in Ea. clear H. induction Ea; constructor; inversion IH; subst; auto.
    - injection H as <-. apply preserves_refl.
  Qed.

  (** any number of simplifications of parts *)
  Lemma simplified_from_preserves : forall cfg,
    (forall e e', simplified_from cfg w e e' -> preserves e e') /\
    (forall l l', simplified_all cfg w l l' -> Forall2 preserves l l').
  Proof.
    intro cfg. apply simplified_mutind; intros; auto using preserves_refl, preserves_bin, preserves_un, preserves_call.
    eapply preserves_trans; eauto using simplify_preserves.
  Qed.
End R.

Lemma regular_ext_both : forall w rho rho', (forall y, rho y = rho' y) ->
  (forall e v, regular w rho e v -> regular w rho' e v) /\
  (forall l vs, regular_all w rho l vs -> regular_all w rho' l vs).
Proof.
  intros w rho rho' E. apply regular_mutind; intros; try (econstructor; eauto; fail).
  constructor. now rewrite <- E.
Qed.
Lemma regular_ext : forall w rho rho' e v, (forall y, rho y = rho' y) -> regular w rho e v -> regular w rho' e v.
Proof. intros w rho rho' e v E. apply (regular_ext_both w rho rho' E). Qed.

Section S.
  Variable w : world.
  Variable rho : string -> option f64.
  Variable x : string.
  Variable c : f64.
  Let rho' := given rho x c.

  Definition specialises (e e' : element) : Prop :=
    forall v, regular w rho' e v -> exists v', regular w rho e' v' /\ same_value v v'.

  Lemma specialises_preserves : forall a b c, specialises a b -> preserves w rho b c -> specialises a c.
  Proof.
    intros a b d H1 H2 v H. destruct (H1 v H) as [v1 [A1 S1]]. destruct (H2 v1 A1) as [v2 [A2 S2]].
    exists v2. split; auto. eapply same_trans; eauto.
  Qed.

  Lemma specialises_el : forall cfg e e', el_simplify_for cfg w x c e = Val e' -> specialises e e'.
  Proof.
    intros cfg. induction e as [n|op l r IHl IHr|op a IH|f args IH|y] using element_ind'; intros e' H; cbn -[simplify] in H.
    - injection H as <-. intros v Hv. inversion Hv; subst. eexists; split; [constructor|apply same_value_refl].
    - destruct (el_simplify_for cfg w x c l) eqn:El; cbn -[simplify] in H; [|discriminate].
      destruct (el_simplify_for cfg w x c r) eqn:Er; cbn -[simplify] in H; [|discriminate].
      eapply specialises_preserves; [|eapply simplify_preserves; eauto].
      intros v Hv. inversion Hv as [| |o1 l1 r1 u1 u2 H3 H4 H6| | | |]; subst.
      destruct (IHl _ eq_refl _ H3) as [a' [Ra Sa]]. destruct (IHr _ eq_refl _ H4) as [b' [Rb Sb]].
      destruct (regular_operands_same _ _ _ _ _ _ H6 Sa Sb) as [H8 H9].
      eexists. split; [now constructor; eauto|]. exact H9.
    - destruct (el_simplify_for cfg w x c a) eqn:Ea; cbn -[simplify] in H; [|discriminate].
      eapply specialises_preserves; [|eapply simplify_preserves; eauto].
      intros v Hv. inversion Hv; subst;
      match goal with H : regular _ _ a _ |- _ => destruct (IH _ eq_refl _ H) as [a' [Ra Sa]] end;
      (eexists; split; [now econstructor; eauto|]); auto using fneg_same, factorial_same.
    - destruct (map_out _ args) as [margs|] eqn:Ea; cbn -[simplify] in H; [|discriminate].
      eapply specialises_preserves; [|eapply simplify_preserves; eauto].
      apply map_out_Forall2 in Ea. clear H. intros v Hv. inversion Hv as [| | | | | |f1 args1 vs v1 H1 H3 H5]; subst.
      assert (exists vs', regular_all w rho margs vs' /\ Forall2 same_value vs vs') as [vs' [Rs Ss]].
      { clear Hv H5 H3. revert vs H1. induction Ea as [|a a' l l' Ha HA IHA]; intros vs Hr; inversion Hr as [|a0 l0 v0 vs0 Hv Hl]; subst.
        - exists []. split; constructor.
        - inversion IH as [|? ? Ia Il]; subst. destruct (Ia _ Ha _ Hv) as [v' [Rv Sv]]. destruct (IHA Il _ Hl) as [vs' [Rs Ss]].
          exists (v' :: vs'). split; constructor; auto. }
      destruct (call_same _ _ _ _ _ Ss H3 H5) as [Z' [v' [C' S']]]. exists v'. split; [econstructor; eauto|exact S'].
    - intros v Hv. inversion Hv; subst. unfold rho', given in H1.
      destruct (String.eqb y x); injection H as <-.
      + injection H1 as <-. eexists; split; [constructor|apply same_value_refl].
      + eexists; split; [now constructor; eauto|apply same_value_refl].
  Qed.
End S.
