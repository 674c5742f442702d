(** * C65: integer arithmetic is exact up to 2^53 *)
From Coq Require Import ZArith NArith List String Ascii Bool Lia Reals Lra Arith.
From Flocq Require Import Core BinarySingleNaN.
From Verif Require Import F64 Syntax Factorial Builtins Context Element Parser Xprs.
From Verif Require Import SpecTokens SpecTree SpecRewrite SpecRegular SpecInteger FloatFacts NumberFacts RegularFacts SimplifyFacts.
From Verif Require Import ParserResults PropertiesParse SpecApi SpecGrammar SpecParse TreeFacts LexExec BindFacts PropertiesEval PropertiesEq PropertiesNumeric PropertiesArith PropertiesGrammar PropertiesSimplify PropertiesOptimise PropertiesDefault TestWorld.
Import ListNotations.
Local Open Scope Z_scope.

(** ** Exactness of each operation *)
Lemma small_exact : forall z, small z ->
  rnd64 (IZR z) = IZR z /\ Rlt_bool (Rabs (rnd64 (IZR z))) (bpow radix2 emax64) = true.
Proof.
  intros z Hz. destruct (f64_of_Z_small z Hz) as [E _].
  assert (R : rnd64 (IZR z) = IZR z) by (rewrite <- E; apply round_generic; [typeclasses eauto|apply format_f64]).
  split; [exact R|]. rewrite R, <- E. apply Rlt_bool_true, finite_bound.
Qed.

Lemma fadd_int : forall a b x y, is_int a x -> is_int b y -> small (x + y) -> is_int (fadd a b) (x + y).
Proof.
  intros a b x y [Fa Ra] [Fb Rb] S. destruct (small_exact _ S) as [R L].
  pose proof (Bplus_correct prec64 emax64 Hprec64 Hmax64 mode_NE a b Fa Fb) as H.
  rewrite Ra, Rb, <- plus_IZR, L, R in H. destruct H as [H1 [H2 _]]. now split.
Qed.
Lemma fsub_int : forall a b x y, is_int a x -> is_int b y -> small (x - y) -> is_int (fsub a b) (x - y).
Proof.
  intros a b x y [Fa Ra] [Fb Rb] S. destruct (small_exact _ S) as [R L].
  pose proof (Bminus_correct prec64 emax64 Hprec64 Hmax64 mode_NE a b Fa Fb) as H.
  rewrite Ra, Rb, <- minus_IZR, L, R in H. destruct H as [H1 [H2 _]]. now split.
Qed.
Lemma fmul_int : forall a b x y, is_int a x -> is_int b y -> small (x * y) -> is_int (fmul a b) (x * y).
Proof.
  intros a b x y [Fa Ra] [Fb Rb] S. destruct (small_exact _ S) as [R L].
  pose proof (Bmult_correct prec64 emax64 Hprec64 Hmax64 mode_NE a b) as H.
  rewrite Ra, Rb, <- mult_IZR, L, R, Fa, Fb in H. destruct H as [H1 [H2 _]]. now split.
Qed.
Lemma small_quotient : forall q b, small (q * b) -> b <> 0 -> small q.
Proof. intros q b S Hb. unfold small in *. assert (1 <= Z.abs b) by lia. nia. Qed.
Lemma fdiv_int : forall a b q y, is_int a (q * y) -> is_int b y -> y <> 0 -> small q -> is_int (fdiv a b) q.
Proof.
  intros a b q y [Fa Ra] [Fb Rb] Hy S. destruct (small_exact _ S) as [R L].
  assert (Hz : B2R b <> 0%R) by (rewrite Rb; now apply not_0_IZR).
  pose proof (Bdiv_correct prec64 emax64 Hprec64 Hmax64 mode_NE a b Hz) as H.
  assert (E : (B2R a / B2R b = IZR q)%R).
  { rewrite Ra, Rb, mult_IZR. field. now apply not_0_IZR. }
  rewrite E, L, R, Fa in H. destruct H as [H1 [H2 _]]. now split.
Qed.
Lemma Ztrunc_quot : forall a b, b <> 0 -> Ztrunc (IZR a / IZR b) = Z.quot a b.
Proof.
  intros a b Hb.
  assert (P : forall a b, 0 <= a -> 0 < b -> Ztrunc (IZR a / IZR b) = Z.quot a b).
  { clear. intros a b Ha Hb. rewrite Ztrunc_floor.
    - rewrite Z.quot_div_nonneg by lia. apply Zfloor_div. lia.
    - apply Rmult_le_pos; [now apply IZR_le|]. apply Rlt_le, Rinv_0_lt_compat. now apply IZR_lt. }
  destruct (Z_le_gt_dec 0 a), (Z_le_gt_dec 0 b).
  - apply P; lia.
  - replace b with (- (- b)) by lia. rewrite (opp_IZR (- b)), Z.quot_opp_r by lia.
    replace (IZR a / - IZR (- b))%R with (- (IZR a / IZR (- b)))%R by (field; apply not_0_IZR; lia).
    rewrite Ztrunc_opp, P by lia. reflexivity.
  - replace a with (- (- a)) by lia. rewrite (opp_IZR (- a)), Z.quot_opp_l by lia.
    replace (- IZR (- a) / IZR b)%R with (- (IZR (- a) / IZR b))%R by (field; apply not_0_IZR; lia).
    rewrite Ztrunc_opp, P by lia. reflexivity.
  - replace a with (- (- a)) by lia. replace b with (- (- b)) by lia.
    rewrite (opp_IZR (- a)), (opp_IZR (- b)), Z.quot_opp_opp by lia.
    replace (- IZR (- a) / - IZR (- b))%R with (IZR (- a) / IZR (- b))%R by (field; apply not_0_IZR; lia).
    apply P; lia.
Qed.
Lemma frem_int : forall a b x y, is_int a x -> is_int b y -> y <> 0 -> is_int (frem a b) (Z.rem x y).
Proof.
  intros a b x y [Fa Ra] [Fb Rb] Hy.
  assert (Hz : B2R b <> 0%R) by (rewrite Rb; now apply not_0_IZR).
  destruct (frem_correct a b Fa Fb Hz) as [H1 [H2 _]]. split; [exact H2|].
  rewrite H1, Ra, Rb, Ztrunc_quot, <- mult_IZR, <- minus_IZR by exact Hy. f_equal.
  pose proof (Z.quot_rem' x y). lia.
Qed.
Lemma fneg_int : forall a x, is_int a x -> is_int (fneg a) (- x).
Proof. intros a x [Fa Ra]. split; [unfold fneg; now rewrite is_finite_Bopp|]. unfold fneg. now rewrite B2R_Bopp, Ra, opp_IZR. Qed.
Lemma small_rem : forall a b, small a -> b <> 0 -> small (Z.rem a b).
Proof.
  intros a b S Hb. unfold small in *. pose proof (Z.rem_bound_abs a b Hb).
  destruct (Z_le_gt_dec 0 a).
  - pose proof (Z.rem_nonneg a b Hb ltac:(lia)). pose proof (Z.rem_le a (Z.abs b) ltac:(lia) ltac:(lia)). rewrite Z.rem_abs_r in H1 by lia. lia.
  - pose proof (Z.rem_nonpos a b Hb ltac:(lia)).
    pose proof (Z.rem_le (- a) (Z.abs b) ltac:(lia) ltac:(lia)). rewrite Z.rem_abs_r, Z.rem_opp_l in H1 by lia. lia.
Qed.

(** the factorial table holds the exact factorials as long as they are small *)
Lemma fact_pos : forall n, 1 <= Z.of_nat (fact n).
Proof. intro n. pose proof (lt_O_fact n). lia. Qed.
Lemma small_fact_arg : forall n, small (Z.of_nat (fact n)) -> (n <= 18)%nat.
Proof.
  intros n S. destruct (le_lt_dec n 18) as [H|H]; [exact H|exfalso].
  assert (G : Z.of_nat (fact 19) <= Z.of_nat (fact n)).
  { apply inj_le. apply fact_le. lia. }
  unfold small in S.
  assert (E : Z.of_nat (fact 19) = 121645100408832000).
  { rewrite zfact_fact. reflexivity. }
  lia.
Qed.

Lemma table_int : forall n v, nth_error FACTORIALS n = Some v -> small (Z.of_nat (fact n)) -> is_int v (Z.of_nat (fact n)).
Proof.
  destruct C37_table_recurrence as [T0 TS].
  induction n as [|n IH]; intros v Hv Sm.
  - assert (v = fone) by congruence. subst v. split; [reflexivity|]. exact B2R_fone.
  - assert (L : (S n < List.length FACTORIALS)%nat) by (apply nth_error_Some; congruence).
    destruct (nth_error FACTORIALS n) as [a|] eqn:Ea; [|apply nth_error_None in Ea; lia].
    assert (Sn : small (Z.of_nat (fact n))).
    { unfold small in *. pose proof (fact_pos n). pose proof (fact_pos (S n)).
      assert (fact n <= fact (S n))%nat by (apply fact_le; lia). lia. }
    rewrite (TS n a v Ea Hv). pose proof (small_fact_arg _ Sm) as Hn.
    change (fact (S n)) with (S n * fact n)%nat in *. rewrite Nat2Z.inj_mul, Z.mul_comm in *.
    apply fmul_int; auto. assert (Sk : small (Z.of_nat (S n))) by (unfold small; lia).
    destruct (f64_of_Z_small _ Sk). now split.
Qed.
Lemma factorial_int : forall a n, is_int a (Z.of_nat n) -> small (Z.of_nat (fact n)) -> is_int (factorial a) (Z.of_nat (fact n)).
Proof.
  intros a n [Fa Ra] S. pose proof (small_fact_arg _ S) as Hn.
  destruct (C36_factorial_cases a) as [_ [_ [_ [_ [_ [_ H]]]]]].
  destruct (H _ Fa Ra) as [v [Hv Hf]]; [lia|]. rewrite Nat2Z.id in Hv.
  unfold factorial. rewrite Hf. now apply table_int.
Qed.

(** ** Calls *)
Lemma fold_min_spec : forall l a, In (fold_left Z.min l a) (a :: l) /\ forall b, In b (a :: l) -> fold_left Z.min l a <= b.
Proof.
  induction l as [|b l IH]; intro a; cbn [fold_left]; [split; [now left|intros b [<-|[]]; lia]|].
  destruct (IH (Z.min a b)) as [I L]. split.
  - destruct I as [<-|I]; [|right; now right]. destruct (Z.min_spec a b) as [[_ ->]|[_ ->]]; [now left|right; now left].
  - pose proof (L _ (or_introl eq_refl)). intros c [<-|[<-|H']]; [lia|lia|]. apply L. now right.
Qed.
Lemma fold_max_spec : forall l a, In (fold_left Z.max l a) (a :: l) /\ forall b, In b (a :: l) -> b <= fold_left Z.max l a.
Proof.
  induction l as [|b l IH]; intro a; cbn [fold_left]; [split; [now left|intros b [<-|[]]; lia]|].
  destruct (IH (Z.max a b)) as [I L]. split.
  - destruct I as [<-|I]; [|right; now right]. destruct (Z.max_spec a b) as [[_ ->]|[_ ->]]; [right; now left|now left].
  - pose proof (L _ (or_introl eq_refl)). intros c [<-|[<-|H']]; [lia|lia|]. apply L. now right.
Qed.

Lemma int_not_nan : forall v z, is_int v z -> is_nan v = false.
Proof. intros v z [H _]. now apply finite_not_nan. Qed.
Lemma in_ints : forall vs zs, Forall2 is_int vs zs -> forall v, In v vs -> exists z, In z zs /\ is_int v z.
Proof.
  intros vs zs H. induction H as [|v z vs zs Hv H IH]; intros u [].
  - subst u. exists z. split; [now left|exact Hv].
  - destruct (IH u H0) as [y [Y1 Y2]]. exists y. split; [now right|exact Y2].
Qed.
Lemma in_ints_back : forall vs zs, Forall2 is_int vs zs -> forall z, In z zs -> exists v, In v vs /\ is_int v z.
Proof.
  intros vs zs H. induction H as [|v z vs zs Hv H IH]; intros u [].
  - subst u. exists v. split; [now left|exact Hv].
  - destruct (IH u H0) as [y [Y1 Y2]]. exists y. split; [now right|exact Y2].
Qed.
Lemma flt_int : forall a b x y, is_int a x -> is_int b y -> flt a b = false -> y <= x.
Proof.
  intros a b x y [Fa Ra] [Fb Rb] H. unfold flt in H. rewrite Bltb_correct, Ra, Rb in H by assumption.
  apply le_IZR. destruct (Rlt_bool_spec (IZR x) (IZR y)) as [|G]; [discriminate H|exact G].
Qed.

Lemma fold_sum : forall l vs a x, is_int a x -> Forall2 is_int vs l -> (forall k, small (total x (firstn k l))) ->
  is_int (fold_left fadd vs a) (total x l).
Proof.
  induction l as [|z l IH]; intros vs a x Ha Hl S; inversion Hl as [|v ? vs' ? Hv Hl']; subst; [exact Ha|].
  cbn [fold_left]. unfold total. cbn [fold_left]. apply (IH vs' (fadd a v) (x + z)).
  - apply fadd_int; auto. exact (S 1%nat).
  - exact Hl'.
  - intro k. exact (S (Datatypes.S k)).
Qed.
Lemma total_small : forall a l, (forall k, small (total a (firstn k l))) -> small (total a l).
Proof. intros a l H. specialize (H (List.length l)). now rewrite firstn_all in H. Qed.

Lemma sum_int : forall w vs a l, Forall2 is_int vs (a :: l) -> (forall k, small (total a (firstn k l))) -> is_int (sum_f64 w vs) (total a l).
Proof.
  intros w vs a l H S. inversion H as [|v ? vs' ? Hv Hl]; subst. unfold sum_f64. cbn [fold_left].
  apply fold_sum; auto. change (is_int (fadd (if sum_neg_zero w then fnzero else fzero) v) (0 + a)). apply fadd_int; auto.
  - destruct (sum_neg_zero w); split; reflexivity.
  - exact (S 0%nat).
Qed.

Lemma round_away_int : forall z, round_away (IZR z) = z.
Proof.
  intro z. unfold round_away. destruct (Rle_dec 0 (IZR z)).
  - apply Zfloor_imp. rewrite plus_IZR. lra.
  - apply Zceil_imp. rewrite minus_IZR. lra.
Qed.

Lemma call_int : forall w b vs zs z, Forall2 is_int vs zs -> int_call b zs z -> Forall small zs ->
  small z /\ exists v, call_function w (builtin_function b) vs = Val v /\ is_int v z.
Proof.
  intros w b vs zs z H Hc Hs. inversion Hc; subst.
  1-8: inversion H as [|v ? vs' ? Hv Hn]; subst; inversion Hn; subst; inversion Hs as [|? ? Sa _]; subst.
  1-5: destruct Hv as [Fv Rv]; destruct (C48_rounding_functions w v Fv) as [[u1 K1] [[u2 K2] [[u3 K3] [[u4 K4] [u5 K5]]]]].
  - destruct K5 as [E [F R]]. split; [unfold small in *; lia|]. exists u5. split; [exact E|]. split; [exact F|]. rewrite R, Rv. symmetry. apply abs_IZR.
  - destruct K1 as [E [F R]]. split; [exact Sa|]. exists u1. split; [exact E|]. split; [exact F|]. now rewrite R, Rv, Zfloor_IZR.
  - destruct K2 as [E [F R]]. split; [exact Sa|]. exists u2. split; [exact E|]. split; [exact F|]. now rewrite R, Rv, Zceil_IZR.
  - destruct K4 as [E [F R]]. split; [exact Sa|]. exists u4. split; [exact E|]. split; [exact F|]. now rewrite R, Rv, round_away_int.
  - destruct K3 as [E [F R]]. split; [exact Sa|]. exists u3. split; [exact E|]. split; [exact F|]. now rewrite R, Rv, Ztrunc_IZR.
  - split; [easy|]. exists (ffract v). split; [reflexivity|]. unfold ffract. destruct Hv as [Fv Rv].
    destruct (ftrunc_correct v) as [R F]. replace 0 with (a - a) by lia. apply fsub_int; [now split| |unfold small; rewrite Z.sub_diag; easy].
    split; [unfold fis_finite in F; now rewrite F|]. now rewrite R, Rv, Ztrunc_IZR.
  - assert (Sq : small z) by (unfold small in *; nia). split; [exact Sq|]. exists (fsqrt v). split; [reflexivity|].
    destruct Hv as [Fv Rv].
    destruct (Bsqrt_correct prec64 emax64 Hprec64 Hmax64 mode_NE v) as [R [F _]]. fold (fsqrt v) in *.
    rewrite Rv, mult_IZR, sqrt_square in R by now apply IZR_le. rewrite (proj1 (small_exact z Sq)) in R. split; [|exact R].
    rewrite F. destruct v as [s|s| |s m e B]; try discriminate Fv; auto. destruct s; auto. exfalso. cbn in Rv.
    pose proof (F2R_lt_0 radix2 (Float radix2 (Zneg m) e) eq_refl) as N. rewrite Rv in N. apply lt_IZR in N. nia.
  - split; [assumption|]. exists (factorial v). split; [reflexivity|]. now apply factorial_int.
  - destruct (fold_min_spec l a) as [I L]. split.
    { eapply (proj1 (Forall_forall _ _)); [exact Hs|exact I]. }
    inversion H as [|v ? vs' ? Hv Hl]; subst.
    destruct (C46_min w (v :: vs')) as [m [E [Im [_ Lm]]]]. { exists v. split; [now left|eapply int_not_nan; eauto]. }
    exists m. split; [exact E|]. destruct (in_ints _ _ H m Im) as [y [Iy Hy]].
    assert (Ey : y = fold_left Z.min l a); [|now rewrite <- Ey].
    destruct (in_ints_back _ _ H _ I) as [u [Iu Hu]]. pose proof (flt_int _ _ _ _ Hu Hy (Lm u Iu)). pose proof (L y Iy). lia.
  - destruct (fold_max_spec l a) as [I L]. split.
    { eapply (proj1 (Forall_forall _ _)); [exact Hs|exact I]. }
    inversion H as [|v ? vs' ? Hv Hl]; subst.
    destruct (C46_max w (v :: vs')) as [m [E [Im [_ Lm]]]]. { exists v. split; [now left|eapply int_not_nan; eauto]. }
    exists m. split; [exact E|]. destruct (in_ints _ _ H m Im) as [y [Iy Hy]].
    assert (Ey : y = fold_left Z.max l a); [|now rewrite <- Ey].
    destruct (in_ints_back _ _ H _ I) as [u [Iu Hu]]. pose proof (flt_int _ _ _ _ Hy Hu (Lm u Iu)). pose proof (L y Iy). lia.
  - split; [now apply total_small|]. exists (sum_f64 w vs). split; [reflexivity|]. now apply sum_int.
  - assert (Hlen : List.length vs = List.length (a :: l)) by (clear - H; induction H; cbn; auto).
    assert (Sz : small z). { eapply small_quotient; [rewrite <- H1; now apply total_small|]. cbn [List.length]. lia. }
    split; [exact Sz|]. eexists. split; [reflexivity|]. rewrite Hlen.
    apply (fdiv_int _ _ z (Z.of_nat (List.length (a :: l)))); auto.
    + rewrite <- H1. now apply sum_int.
    + destruct (f64_of_Z_small _ H2). now split.
    + cbn [List.length]. lia.
Qed.

(** ** Expressions *)
Scheme int_value_ind2 := Minimality for int_value Sort Prop
  with int_values_ind2 := Minimality for int_values Sort Prop.
Combined Scheme int_mutind from int_value_ind2, int_values_ind2.

(** the f64s given for the variables are the integers *)
Definition integer_values (rho : string -> option f64) (zs : string -> option Z) : Prop :=
  forall x z, zs x = Some z -> small z -> exists v, rho x = Some v /\ is_int v z.

Section Exact.
  Variable w : world.
  Variable zs : string -> option Z.

  Lemma ints_small : (forall e z, int_value zs e z -> small z) /\ (forall l l', int_values zs l l' -> Forall small l').
  Proof.
    apply int_mutind; intros; auto; try (unfold small in *; lia).
    - now apply small_rem.
    - assert (E : exists vs, Forall2 is_int vs zs0).
      { clear - H0. induction H0 as [|z l Hz _ [vs IH]]; [now exists []|].
        destruct (f64_of_Z_small z Hz). exists (f64_of_Z z :: vs). constructor; auto. now split. }
      destruct E as [vs Hvs]. destruct (call_int w b vs zs0 z Hvs H1 H0). assumption.
  Qed.

  Lemma ints_mean : forall rho, integer_values rho zs ->
    (forall e z, int_value zs e z -> exists v, means w rho e v /\ is_int v z) /\
    (forall l l', int_values zs l l' -> exists vs, means_all w rho l vs /\ Forall2 is_int vs l').
  Proof.
    intros rho Hr. apply int_mutind.
    - intros n z Hn _. exists n. split; [constructor|exact Hn].
    - intros x z Hx S. destruct (Hr x z Hx S) as [v [E V]]. exists v. split; [now constructor|exact V].
    - intros l r a b _ [u [Mu Iu]] _ [v [Mv Iv]] S. exists (fadd u v). split; [now constructor|now apply fadd_int].
    - intros l r a b _ [u [Mu Iu]] _ [v [Mv Iv]] S. exists (fsub u v). split; [now constructor|now apply fsub_int].
    - intros l r a b _ [u [Mu Iu]] _ [v [Mv Iv]] S. exists (fmul u v). split; [now constructor|now apply fmul_int].
    - intros l r q b Hl [u [Mu Iu]] _ [v [Mv Iv]] Hb. exists (fdiv u v). split; [now constructor|].
      eapply fdiv_int; eauto. eapply small_quotient; eauto. eapply ints_small; eauto.
    - intros l r a b _ [u [Mu Iu]] _ [v [Mv Iv]] Hb. exists (frem u v). split; [now constructor|now apply frem_int].
    - intros e a _ [u [Mu Iu]]. exists u. split; [now constructor|exact Iu].
    - intros e a _ [u [Mu Iu]]. exists (fneg u). split; [now constructor|now apply fneg_int].
    - intros e n _ [u [Mu Iu]] S. exists (factorial u). split; [now constructor|now apply factorial_int].
    - intros b args l z Hl [vs [Mvs Ivs]] Hc.
      destruct (call_int w b vs l z Ivs Hc (proj2 ints_small _ _ Hl)) as [_ [v [E V]]].
      exists v. split; [econstructor; eauto|exact V].
    - exists []. split; constructor.
    - intros a args z l _ [u [Mu Iu]] _ [vs [Mvs Ivs]]. exists (u :: vs). split; constructor; auto.
  Qed.

  Lemma int_det : forall e a b, int_value zs e a -> int_value zs e b -> a = b.
  Proof.
    set (rho := fun x => option_map f64_of_Z (zs x)).
    assert (Hr : integer_values rho zs).
    { intros x z Hx Hs. exists (f64_of_Z z). unfold rho. rewrite Hx. split; [reflexivity|]. destruct (f64_of_Z_small z Hs). now split. }
    intros e a b Ha Hb. destruct (proj1 (ints_mean rho Hr) _ _ Ha) as [u [Mu [_ Ru]]]. destruct (proj1 (ints_mean rho Hr) _ _ Hb) as [v [Mv [_ Rv]]].
    pose proof (means_det _ _ _ _ _ Mu Mv). subst v. apply eq_IZR. congruence.
  Qed.

  (** *** Simplification keeps integer values *)
  Definition keeps (e e' : element) : Prop := forall z, int_value zs e z -> int_value zs e' z.

  Lemma keeps_bin : forall op l r l' r', keeps l l' -> keeps r r' -> keeps (BinOp op l r) (BinOp op l' r').
  Proof. intros op l r l' r' Hl Hr z H. inversion H; subst; econstructor; eauto. Qed.
  Lemma keeps_un : forall op e e', keeps e e' -> keeps (UnOp op e) (UnOp op e').
  Proof. intros op e e' He z H. inversion H; subst; econstructor; eauto. Qed.
  Lemma keeps_all : forall l l', Forall2 keeps l l' -> forall ns, int_values zs l ns -> int_values zs l' ns.
  Proof. intros l l' H. induction H; intros ns Hn; inversion Hn; subst; constructor; auto. Qed.
  Lemma keeps_call : forall f args args', Forall2 keeps args args' -> keeps (Call f args) (Call f args').
  Proof. intros f args args' H z Hz. inversion Hz; subst. econstructor; eauto. eapply keeps_all; eauto. Qed.

  Lemma int_no_bf : (forall e z, int_value zs e z -> no_bf e) /\ (forall l l', int_values zs l l' -> Forall no_bf l).
  Proof.
    apply int_mutind; intros; cbn [no_bf]; auto; try (split; [discriminate|auto]).
    apply (proj2 (no_bf_call (builtin_function b) args)). assumption.
  Qed.

  Lemma is_int_feq : forall x y z, feq x y = true -> is_int x z -> is_int y z.
  Proof.
    intros x y z H [Fx Rx]. apply feq_cases in H. destruct H as [[<- _]|[[s ->] [t ->]]]; [now split|].
    split; [reflexivity|]. exact Rx.
  Qed.
  Lemma equal_keeps : (forall a b, equal_exprs a b -> keeps a b) /\
    (forall l m, equal_lists l m -> Forall2 keeps l m).
  Proof.
    apply equal_mutind.
    - intros x y H z Hz. inversion Hz; subst. constructor; auto. eapply is_int_feq; eauto.
    - intros x z Hz. exact Hz.
    - intros op a b _ IH. now apply keeps_un.
    - intros op l r l' r' _ _ IH1 _ IH2. now apply keeps_bin.
    - intros op l r l' r' Hop _ IH1 _ IH2 z Hz. inversion Hz; subst; try (destruct Hop; discriminate).
      + rewrite Z.add_comm in *. constructor; auto.
      + rewrite Z.mul_comm in *. constructor; auto.
    - intros f args args' _ IH. now apply keeps_call.
    - constructor.
    - intros a b l m _ IH _ IHl. now constructor.
  Qed.
  Lemma eq_int : forall l r a b, el_eq l r = Val true -> int_value zs l a -> int_value zs r b -> a = b.
  Proof.
    intros l r a b E Hl Hr. apply (el_eq_equal _ _ (proj1 int_no_bf _ _ Hl)) in E.
    exact (int_det r a b (proj1 equal_keeps _ _ E _ Hl) Hr).
  Qed.

  Lemma lit_int : forall e v n z, lit_eq e v -> is_int v n -> int_value zs e z -> z = n.
  Proof.
    intros e v n z [x [-> Hx]] Hv Hz. inversion Hz; subst. apply (is_int_feq _ _ _ Hx) in H0.
    destruct Hv as [_ Rv], H0 as [_ R]. apply eq_IZR. congruence.
  Qed.
  Lemma zero_int : is_int fzero 0. Proof. now split. Qed.
  Lemma one_int : is_int fone 1. Proof. split; [reflexivity|exact B2R_fone]. Qed.
  Lemma zero_value : int_value zs (Number fzero) 0. Proof. constructor; [apply zero_int|easy]. Qed.
  Lemma one_value : int_value zs (Number fone) 1. Proof. constructor; [apply one_int|easy]. Qed.

  (** a folded operation on literals *)
  Lemma literal_value : forall e v z, int_value zs e z -> (forall rho, means w rho e v) -> int_value zs (Number v) z.
  Proof.
    intros e v z H M. constructor; [|eapply ints_small; eauto].
    set (rho := fun x => option_map f64_of_Z (zs x)).
    assert (Hr : integer_values rho zs).
    { intros x n Hx Hs. exists (f64_of_Z n). unfold rho. rewrite Hx. split; [reflexivity|]. destruct (f64_of_Z_small n Hs). now split. }
    destruct (proj1 (ints_mean rho Hr) _ _ H) as [u [Mu Iu]]. now rewrite (means_det _ _ _ _ _ (M rho) Mu).
  Qed.

  Local Ltac same := match goal with E : el_eq ?l ?r = Val true, A : int_value zs ?l ?a, B : int_value zs ?r ?b |- _ =>
    pose proof (eq_int _ _ _ _ E A B) end.

  Lemma rewrites_keeps : forall cfg op l r e, rewrites cfg w op l r e -> keeps (BinOp op l r) e.
  Proof.
    intros cfg op l r e Hrw z H.
    assert (L0 : forall a, int_value zs l a -> lit_eq l fzero -> a = 0) by (intros a Ha K; eapply lit_int; eauto using zero_int).
    assert (R0 : forall a, int_value zs r a -> lit_eq r fzero -> a = 0) by (intros a Ha K; eapply lit_int; eauto using zero_int).
    assert (L1 : forall a, int_value zs l a -> lit_eq l fone -> a = 1) by (intros a Ha K; eapply lit_int; eauto using one_int).
    assert (R1 : forall a, int_value zs r a -> lit_eq r fone -> a = 1) by (intros a Ha K; eapply lit_int; eauto using one_int).
    destruct Hrw; try exact H.
    - inversion H; subst. now rewrite (L0 a).
    - inversion H; subst. now rewrite (R0 b), Z.add_0_r.
    - inversion H as [| |? ? m b Hl Hr S| | | | | | | |]; subst. inversion Hl; subst.
      same. subst. rewrite Z.add_opp_diag_l. exact zero_value.
    - inversion H as [| |? ? m b Hl Hr S| | | | | | | |]; subst. inversion Hr; subst.
      same. subst. rewrite Z.add_opp_diag_r. exact zero_value.
    - inversion H; subst. rewrite (L0 a), Z.sub_0_l by assumption. now constructor.
    - inversion H; subst. now rewrite (R0 b), Z.sub_0_r.
    - inversion H; subst. same. subst. rewrite Z.sub_diag. exact zero_value.
    - inversion H as [| | |? ? m b Hl Hr S| | | | | | |]; subst. inversion Hr; subst. rewrite Z.sub_opp_r in *. now constructor.
    - inversion H; subst. rewrite (L0 a), Z.mul_0_l by assumption. exact zero_value.
    - inversion H; subst. rewrite (R0 b), Z.mul_0_r by assumption. exact zero_value.
    - inversion H; subst. now rewrite (L1 a), Z.mul_1_l.
    - inversion H; subst. now rewrite (R1 b), Z.mul_1_r.
    - inversion H as [| | | |? ? m b' Hl Hr S| | | | | |]; subst. inversion Hl; inversion Hr; subst. rewrite Z.mul_opp_opp in *. now constructor.
    - inversion H; subst. exfalso. eauto.
    - inversion H; subst. assert (E : z * b = 0) by eauto. assert (z = 0) by nia. subst z. exact zero_value.
    - inversion H; subst. exfalso. eauto.
    - inversion H; subst. assert (b = 1) by eauto. subst b. rewrite Z.mul_1_r in *. assumption.
    - inversion H; subst. same. assert (z = 1) by nia. subst z. exact one_value.
    - inversion H as [| | | | |? ? q m Hl Hr S| | | | |]; subst. inversion Hl; inversion Hr; subst.
      apply IV_divide with a1; [|assumption|lia]. replace (z * a1) with a0 by lia. assumption.
    - inversion H.
    - inversion H.
    - inversion H.
    - inversion H; subst. exfalso. eauto.
    - inversion H; subst. rewrite (L0 a), Z.rem_0_l by assumption. exact zero_value.
    - inversion H; subst. exfalso. eauto.
    - inversion H; subst. rewrite (R1 b), Z.rem_1_r by assumption. exact zero_value.
    - inversion H; subst. same. subst. rewrite Z.rem_same by assumption. exact zero_value.
    - eapply literal_value; [exact H|]. intro rho. inversion H; subst; cbn in H0; injection H0 as <-; repeat constructor.
  Qed.

  Lemma simplify_unop_keeps : forall op e e', simplify_unop op e = Val e' -> keeps (UnOp op e) e'.
  Proof.
    intros op e e' H z Hz. destruct op; cbn in H; try discriminate.
    - injection H as <-. inversion Hz; subst. assumption.
    - destruct e; injection H as <-; auto. eapply literal_value; [exact Hz|]. intro rho. repeat constructor.
    - destruct e; injection H as <-; auto. eapply literal_value; [exact Hz|]. intro rho. repeat constructor.
  Qed.

  Lemma number_args_mean : forall rho args, List.length (number_values args) = List.length args -> means_all w rho args (number_values args).
  Proof.
    intro rho. induction args as [|a args IH]; intro E; [constructor|].
    destruct a; cbn in E; try (pose proof (number_values_length args); lia). cbn. constructor; [constructor|]. apply IH. lia.
  Qed.
  Lemma simplify_call_keeps : forall f args e', simplify_call w f args = Val e' -> keeps (Call f args) e'.
  Proof.
    intros f args e' H z Hz. unfold simplify_call in H. destruct (Nat.eqb _ _) eqn:E; [|now injection H as <-].
    apply Nat.eqb_eq in E. destruct (call_function w f (number_values args)) as [v|] eqn:Ev; cbn in H; [|discriminate]. injection H as <-.
    eapply literal_value; [exact Hz|]. intro rho. econstructor; [|exact Ev]. now apply number_args_mean.
  Qed.

  Lemma simplify_keeps : forall cfg e e', simplify cfg w e = Val e' -> keeps e e'.
  Proof.
    intros cfg. induction e as [n|op l r IHl IHr|op a IH|f args IH|y] using element_ind'; intros e' H z Hz; cbn in H.
    - now injection H as <-.
    - destruct (simplify cfg w l) eqn:El; cbn in H; [|discriminate].
      destruct (simplify cfg w r) eqn:Er; cbn in H; [|discriminate].
      apply simplify_binop_rewrites in H. eapply rewrites_keeps; [exact H|].
      eapply keeps_bin; [exact (IHl _ eq_refl)|exact (IHr _ eq_refl)|exact Hz].
    - destruct (simplify cfg w a) eqn:Ea; cbn in H; [|discriminate].
      eapply simplify_unop_keeps; [exact H|]. eapply keeps_un; [exact (IH _ eq_refl)|exact Hz].
    - destruct (map_out (simplify cfg w) args) as [args'|] eqn:Ea; cbn in H; [|discriminate].
      eapply simplify_call_keeps; [exact H|]. eapply keeps_call; [|exact Hz].
      apply map_out_Forall2 in Ea. clear - IH Ea. induction Ea; constructor; inversion IH; subst; auto.
    - now injection H as <-.
  Qed.

  Lemma simplified_keeps : forall cfg,
    (forall e e', simplified_from cfg w e e' -> keeps e e') /\
    (forall l l', simplified_all cfg w l l' -> Forall2 keeps l l').
  Proof.
    intro cfg. apply simplified_mutind; intros; auto using keeps_bin, keeps_un, keeps_call.
    - intros z Hz. exact Hz.
    - intros z Hz. exact Hz.
    - intros z Hz. eapply simplify_keeps; eauto.
  Qed.
End Exact.

Lemma int_ext_both : forall zs zs', (forall y, zs y = zs' y) ->
  (forall e z, int_value zs e z -> int_value zs' e z) /\ (forall l ns, int_values zs l ns -> int_values zs' l ns).
Proof. intros zs zs' E. apply int_mutind; intros; try (econstructor; eauto; fail). constructor; [now rewrite <- E|assumption]. Qed.
Lemma int_ext : forall zs zs' e z, (forall y, zs y = zs' y) -> int_value zs e z -> int_value zs' e z.
Proof. intros zs zs' e z E. apply (int_ext_both zs zs' E). Qed.

(** *** Partial evaluation *)
Section Given.
  Variable w : world.
  Variable zs : string -> option Z.
  Variables (x : string) (c : f64) (n : Z).
  Hypothesis Hc : is_int c n.
  Let zs' := fun y => if String.eqb y x then Some n else zs y.

  Lemma simplify_for_keeps : forall cfg e e', el_simplify_for cfg w x c e = Val e' ->
    forall z, int_value zs' e z -> int_value zs e' z.
  Proof.
    intros cfg. induction e as [m|op l r IHl IHr|op a IH|f args IH|y] using element_ind'; intros e' H z Hz; cbn -[simplify] in H.
    - injection H as <-. inversion Hz; subst. now constructor.
    - destruct (el_simplify_for cfg w x c l) eqn:El; cbn -[simplify] in H; [|discriminate].
      destruct (el_simplify_for cfg w x c r) eqn:Er; cbn -[simplify] in H; [|discriminate].
      eapply simplify_keeps; [exact H|]. inversion Hz; subst; econstructor; eauto.
    - destruct (el_simplify_for cfg w x c a) eqn:Ea; cbn -[simplify] in H; [|discriminate].
      eapply simplify_keeps; [exact H|]. inversion Hz; subst; econstructor; eauto.
    - destruct (map_out _ args) eqn:Ea; cbn -[simplify] in H; [|discriminate].
      eapply simplify_keeps; [exact H|]. apply map_out_Forall2 in Ea. inversion Hz as [| | | | | | | | | |b args1 ns z1 Hns Hcall]; subst.
      econstructor; [|exact Hcall]. clear Hz Hcall H. revert ns Hns.
      induction Ea as [|a a' l l' Ha HA IHA]; intros ns Hns; inversion Hns; subst; [constructor|].
      inversion IH; subst. constructor; eauto.
    - inversion Hz as [|y1 z1 Hy Hs| | | | | | | | |]; subst. unfold zs' in Hy.
      destruct (String.eqb y x); injection H as <-; [injection Hy as <-|]; now constructor.
  Qed.
End Given.

(** ** C65 *)
Theorem C65_integers_exact : forall w x rho zs z,
  (forall y n, zs y = Some n -> exists v, sget y rho = Some v /\ is_int v n) ->
  int_value zs (root x) z ->
  exists v, eval w x rho = Val (Eval_ok v) /\ is_int v z.
Proof.
  intros w x rho zs z Hr Hz.
  assert (Hr' : integer_values (lookup rho) zs) by (intros y n Hy _; now apply Hr).
  destruct (proj1 (ints_mean w zs (lookup rho) Hr') _ _ Hz) as [v [M V]].
  exists v. split; [now apply C21_eval_is_meaning|exact V].
Qed.

(** For texts, in every configuration: [t] is what the text says, and the parsed
    expression, simplified or not, evaluates exactly. *)
Theorem C65_texts_exact : forall cfg w ctx input ts t,
  fair_order w -> context_functions_return w ctx ->
  tokens_of input ts -> clear_tokens ctx ts -> sentence (pejmdas cfg) ctx ts t -> declared ctx t ->
  exists x, parse cfg w ctx input = Parse_ok x /\
    forall rho zs z, (forall y n, zs y = Some n -> exists v, sget y rho = Some v /\ is_int v n) ->
      int_value zs t z -> exists v, eval w x rho = Val (Eval_ok v) /\ is_int v z.
Proof.
  intros cfg w ctx input ts t Hf Hcf Hts Hcl Hs Hd. destruct (optimize cfg) eqn:Ho.
  - destruct (C05_default_sentences_are_accepted cfg w ctx input ts t Ho Hf Hcf Hts Hcl Hs Hd) as [x [Hx [Z _]]].
    exists x. split; [exact Hx|]. intros rho zs z Hr Hz.
    apply (C65_integers_exact w x rho zs z Hr). now apply (proj1 (simplified_keeps w zs cfg) _ _ Z).
  - destruct (C05_sentences_are_accepted cfg w ctx input ts t Ho Hf Hts Hs Hd) as [x [Hx <-]].
    exists x. split; [exact Hx|]. intros rho zs z Hr Hz. now apply (C65_integers_exact w x rho zs z).
Qed.

(** Partial evaluation does not disturb it. *)
Theorem C65_simplify_for_exact : forall cfg w x name c n x' rho zs z,
  simplify_for cfg w x (name, c) = Val x' -> is_int c n ->
  (forall y m, y <> name -> zs y = Some m -> exists v, sget y rho = Some v /\ is_int v m) -> zs name = Some n ->
  int_value zs (root x) z ->
  exists v, eval w x' rho = Val (Eval_ok v) /\ is_int v z.
Proof.
  intros cfg w x name c n x' rho zs z Hs Hc Hr Hn Hz. apply simplify_for_inv in Hs. destruct Hs as [Hs _]. cbn [fst snd] in Hs.
  set (zs0 := fun y => if String.eqb y name then None else zs y).
  apply (C65_integers_exact w x' rho zs0).
  - intros y m Hy. unfold zs0 in Hy. destruct (String.eqb_spec y name); [discriminate|]. now apply Hr.
  - apply (simplify_for_keeps w zs0 name c n Hc cfg _ _ Hs).
    eapply int_ext; [|exact Hz]. intro y. unfold zs0. destruct (String.eqb_spec y name) as [->|]; [exact Hn|reflexivity].
Qed.

(** *** Witnesses *)
Lemma lit_is : forall s z, small z -> same_f64 (lit s) (f64_of_Z z) = true -> is_int (lit s) z.
Proof. intros s z S H. apply same_f64_eq in H. rewrite H. destruct (f64_of_Z_small z S). now split. Qed.

Local Open Scope string_scope.
Definition whole : string := "(2x+7)*(x-3)/5 + max(x,10)%7 + 5!".
Definition whole_tokens : list token :=
  ([TSym "("; TNum "2"; TId "x"; TSym "+"; TNum "7"; TSym ")"; TSym "*"; TSym "("; TId "x"; TSym "-"; TNum "3"; TSym ")";
   TSym "/"; TNum "5"; TSym "+"; TId "max"; TSym "("; TId "x"; TSym ","; TNum "10"; TSym ")"; TSym "%"; TNum "7"; TSym "+"; TNum "5"; TSym "!"])%list.
Definition whole_tree : element :=
  BinOp Plus
    (BinOp Plus
      (BinOp Divide (BinOp Times (BinOp Plus (BinOp Times (Number (lit "2")) (Var "x")) (Number (lit "7")))
                                 (BinOp Minus (Var "x") (Number (lit "3")))) (Number (lit "5")))
      (BinOp Modulo (Call (builtin_function B_MAX) [Var "x"; Number (lit "10")]) (Number (lit "7"))))
    (UnOp Factorial (Number (lit "5"))).
Local Open Scope Z_scope.
Definition at13 : string -> option Z := fun y => if String.eqb y "x" then Some 13 else None.

Ltac number := apply IV_number; [apply lit_is; [unfold small; lia|vm_compute; reflexivity]|unfold small; lia].
Lemma whole_value : int_value at13 whole_tree 192.
Proof.
  assert (Sm : forall z, Z.abs z <= 1000 -> small z) by (unfold small; lia).
  assert (X : int_value at13 (Var "x") 13) by (apply IV_var; [reflexivity|apply Sm; lia]).
  change 192 with ((66 + 6) + Z.of_nat (fact 5)). apply IV_plus; [apply IV_plus| |].
  - apply IV_divide with 5; [|number|lia]. change (66 * 5) with ((2 * 13 + 7) * (13 - 3)).
    apply IV_times; [apply IV_plus; [apply IV_times|number|]|apply IV_minus|]; try exact X; try number; apply Sm; lia.
  - change 6 with (Z.rem 13 7). apply IV_modulo; [|number|lia].
    apply IV_call with [13; 10]; [|exact (IC_max 13 [10])]. constructor; [exact X|constructor; [number|constructor]].
  - apply Sm. lia.
  - apply IV_factorial; [number|]. apply Sm. cbn. lia.
  - apply Sm. cbn. lia.
Qed.

Example C65_witness : exists x v, parse default_config w0 ctx_default whole = Parse_ok x /\
  root x <> whole_tree /\ eval w0 x [("x"%string, f64_of_Z 13)] = Val (Eval_ok v) /\ is_int v 192.
Proof.
  assert (Hts : tokens_of whole whole_tokens) by (apply tokens_check; vm_compute; reflexivity).
  assert (Hcl : clear_tokens ctx_default whole_tokens) by (apply clear_check; vm_compute; reflexivity).
  assert (Hp : exists p, parse (plain default_config) w0 ctx_default whole = Parse_ok p /\ root p = whole_tree)
    by (apply parses_to; vm_compute; reflexivity).
  apply (C05_parser_decides_grammar (plain default_config) w0 ctx_default whole whole_tokens whole_tree
           eq_refl w0_fair Hts Hcl) in Hp. destruct Hp as [Hs Hd].
  destruct (C65_texts_exact default_config w0 ctx_default whole whole_tokens whole_tree w0_fair (default_context_returns w0)
              Hts Hcl Hs Hd) as [x [Hx K]].
  destruct (K [("x"%string, f64_of_Z 13)] at13 192) as [v [E V]].
  - intros y n Hy. unfold at13 in Hy. destruct (String.eqb_spec y "x") as [->|]; [injection Hy as <-|discriminate].
    exists (f64_of_Z 13). split; [reflexivity|]. destruct (f64_of_Z_small 13 ltac:(lia)). now split.
  - exact whole_value.
  - exists x, v. split; [exact Hx|]. split; [|now split]. intro R.
    assert (H : ok_and (parse default_config w0 ctx_default whole) (fun x => negb (same_tree (root x) whole_tree)) = true) by (vm_compute; reflexivity).
    rewrite Hx in H. cbn [ok_and] in H. rewrite R in H. vm_compute in H. discriminate H.
Qed.

(** Partial evaluation of the same expression at x = 13 leaves a closed one with the same value. *)
Example C65_simplify_for_witness : exists x x' v, parse (plain default_config) w0 ctx_default whole = Parse_ok x /\
  simplify_for default_config w0 x ("x"%string, f64_of_Z 13) = Val x' /\
  eval w0 x' [] = Val (Eval_ok v) /\ is_int v 192.
Proof.
  destruct (parses_to (parse (plain default_config) w0 ctx_default whole) whole_tree) as [x [Hx R]]; [vm_compute; reflexivity|].
  destruct (simplify_for default_config w0 x ("x"%string, f64_of_Z 13)) as [x'|p] eqn:Hs.
  - destruct (C65_simplify_for_exact default_config w0 x "x" (f64_of_Z 13) 13 x' [] at13 192 Hs) as [v [E V]].
    + destruct (f64_of_Z_small 13 ltac:(lia)). now split.
    + intros y m Hy Hm. unfold at13 in Hm. destruct (String.eqb_spec y "x"); [contradiction|discriminate].
    + reflexivity.
    + rewrite R. exact whole_value.
    + exists x, x', v. auto.
  - exfalso. unfold simplify_for, simplify_for_in_place in Hs. cbn [fst snd] in Hs. rewrite R in Hs.
    assert (K : match el_simplify_for default_config w0 "x" (f64_of_Z 13) whole_tree with Val _ => true | Boom _ => false end = true) by (vm_compute; reflexivity).
    destruct (el_simplify_for default_config w0 "x" (f64_of_Z 13) whole_tree); [discriminate Hs|discriminate K].
Qed.

(** The bound is needed: 2^53 + 1 is not representable. *)
Theorem C65_bound_needed : exists x, parse (plain default_config) w0 ctx_default "9007199254740992+1" = Parse_ok x /\
  exists v, eval w0 x [] = Val (Eval_ok v) /\ is_int v (2 ^ 53).
Proof.
  destruct (parses_to (parse (plain default_config) w0 ctx_default "9007199254740992+1")
    (BinOp Plus (Number (lit "9007199254740992")) (Number (lit "1")))) as [x [Hx R]]; [vm_compute; reflexivity|].
  exists x. split; [exact Hx|]. exists (f64_of_Z (2 ^ 53)). split.
  - unfold eval. rewrite R. apply eval_check. vm_compute. reflexivity.
  - destruct (f64_of_Z_small (2 ^ 53)) as [E F]; [lia|]. now split.
Qed.
