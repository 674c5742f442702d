(** * C70: rising and falling expressions *)
From Coq Require Import ZArith NArith List String Ascii Bool Lia Reals Lra.
From Flocq Require Import Core BinarySingleNaN.
From Verif Require Import F64 Syntax Factorial Builtins Context Element Parser Xprs.
From Verif Require Import SpecParse SpecTree SpecApi SpecMonotone FloatFacts TreeFacts PropertiesEval PropertiesArith PropertiesNumeric PropertiesOptimise MonotoneFacts TestWorld.
Import ListNotations.
Local Open Scope R_scope.

(** ** Inversion of [means] *)
Section Inv.
  Variables (w : world) (rho : string -> option f64).
  Lemma means_var : forall x v, means w rho (Var x) v -> rho x = Some v.
  Proof. intros x v H. now inversion H. Qed.
  Lemma means_call : forall f args v, means w rho (Call f args) v -> exists vs, means_all w rho args vs /\ call_function w f vs = Val v.
  Proof. intros f args v H. inversion H; subst. eauto. Qed.
  Lemma means_call1 : forall f g a v, means w rho (Call f [a]) v -> (forall u, call_function w f [u] = Val (g u)) ->
    exists u, means w rho a u /\ v = g u.
  Proof.
    intros f g a v H Hg. destruct (means_call _ _ _ H) as [vs [Ms Hc]]. inversion Ms; subst. inversion H4; subst.
    rewrite Hg in Hc. injection Hc as <-. eauto.
  Qed.
  Lemma means_all_in : forall args vs, means_all w rho args vs -> forall v, In v vs -> exists a, In a args /\ means w rho a v.
  Proof.
    induction args as [|a args IH]; intros vs H v Hv; inversion H; subst; [destruct Hv|].
    destruct Hv as [<-|Hv]; [exists a; split; [now left|auto]|]. destruct (IH _ H4 _ Hv) as [b [Hb Mb]]. exists b. split; [now right|auto].
  Qed.
  Lemma no_nan_sub : forall a e, no_nan w rho e -> sub a e -> no_nan w rho a.
  Proof.
    intros a e H S0 b v Sb. apply H. clear H. induction S0; auto.
    - now apply sub_binl.
    - now apply sub_binr.
    - now apply sub_un.
    - eapply sub_arg; eauto.
  Qed.
End Inv.

Ltac part := first [apply sub_refl | apply sub_binl, sub_refl | apply sub_binr, sub_refl | apply sub_un, sub_refl].

(** ** Signs *)
Section Signs.
  Variables (w : world) (known : string -> option (way * bool)) (rho : string -> option f64).
  Hypothesis K : as_known known rho.

  Lemma side : forall v s b, is_nan v = false -> positive b (sR s (toR v)) -> on_side v s b.
  Proof. intros v s b N P. apply on_side_toR. auto. Qed.
  Lemma nonneg_of : forall b r, positive b r -> 0 <= r.
  Proof. intros [] r H; cbn in H; lra. Qed.

  Lemma add_side : forall a b c s p q, is_nan c = false -> c = fadd a b -> on_side a s p -> on_side b s q -> on_side c s (p || q).
  Proof.
    intros a b c s p q N -> Ha Hb. apply on_side_toR in Ha, Hb. destruct Ha as [Na Pa], Hb as [Nb Pb]. apply side; auto.
    assert (Za : is_nan (fadd fzero b) = false) by (destruct b as [[]|[]| |[]]; try discriminate; reflexivity).
    assert (Zb : is_nan (fadd a fzero) = false) by (destruct a as [[]|[]| |[]]; try discriminate; reflexivity).
    assert (Ea : toR (fadd fzero b) = toR b) by (destruct b as [[]|[]| |[]]; try discriminate; reflexivity).
    assert (Eb : toR (fadd a fzero) = toR a) by (destruct a as [[]|[]| |[]]; try discriminate; reflexivity).
    pose proof (nonneg_of _ _ Pa) as La. pose proof (nonneg_of _ _ Pb) as Lb.
    assert (L1 : sR s (toR b) <= sR s (toR (fadd a b))).
    { rewrite <- Ea. apply (add_ord s fzero b a b); auto; unfold ord; try lra. change (toR fzero) with 0. replace (sR s 0) with 0 by (destruct s; cbn; lra). lra. }
    assert (L2 : sR s (toR a) <= sR s (toR (fadd a b))).
    { rewrite <- Eb. apply (add_ord s a fzero a b); auto; unfold ord; try lra. change (toR fzero) with 0. replace (sR s 0) with 0 by (destruct s; cbn; lra). lra. }
    destruct p, q; cbn in *; lra.
  Qed.
  Lemma neg_side : forall a s p, on_side a s p -> on_side (fneg a) (opposite s) p.
  Proof.
    intros a s p H. apply on_side_toR in H. destruct H as [N P]. apply side; [now rewrite nan_fneg|].
    rewrite toR_fneg, sR_opposite, sR_opp, Ropp_involutive. exact P.
  Qed.
  Lemma sub_side : forall a b s p q, is_nan (fsub a b) = false -> on_side a s p -> on_side b (opposite s) q -> on_side (fsub a b) s (p || q).
  Proof.
    intros a b s p q N Ha Hb. rewrite fsub_fneg in *. apply (add_side a (fneg b)); auto. apply neg_side in Hb. now destruct s.
  Qed.
  Lemma mul_side : forall a b s t p q, is_nan (fmul a b) = false -> on_side a s p -> on_side b t q -> on_side (fmul a b) (turn s t) false.
  Proof.
    intros a b s t p q N Ha Hb. apply on_side_toR in Ha, Hb. destruct Ha as [Na Pa], Hb as [Nb Pb]. apply side; auto. cbn.
    rewrite sR_turn, <- (proj1 (mul_sv s t a b)). apply mul_nonneg.
    - now rewrite (proj2 (mul_sv s t a b)).
    - rewrite toR_sv. now apply nonneg_of in Pa.
    - rewrite toR_sv. now apply nonneg_of in Pb.
  Qed.
  Lemma square_side : forall a, is_nan (fmul a a) = false -> on_side (fmul a a) Up false.
  Proof.
    intros a N. destruct (fmul_nan _ _ N) as [Na _]. destruct (Rle_or_lt 0 (toR a)).
    - apply (mul_side a a Up Up false false N); apply side; auto; cbn; lra.
    - apply (mul_side a a Down Down false false N); apply side; auto; cbn; lra.
  Qed.
  Lemma div_side : forall a b s t p, is_nan (fdiv a b) = false -> on_side a s p -> on_side b t true -> on_side (fdiv a b) (turn s t) false.
  Proof.
    intros a b s t p N Ha Hb. apply on_side_toR in Ha, Hb. destruct Ha as [Na Pa], Hb as [Nb Pb]. apply side; auto. cbn.
    rewrite sR_turn, <- (proj1 (div_sv s t a b)). apply div_nonneg.
    - now rewrite (proj2 (div_sv s t a b)).
    - rewrite toR_sv. now apply nonneg_of in Pa.
    - rewrite toR_sv. exact Pb.
  Qed.
  Lemma sum_side : forall s vs acc, (forall v, In v vs -> on_side v s false) -> is_nan (fold_left fadd vs acc) = false ->
    on_side acc s false -> on_side (fold_left fadd vs acc) s false.
  Proof.
    intros s. induction vs as [|v vs IH]; intros acc H N Ha; cbn [fold_left] in *; auto.
    apply IH; auto. { intros u Hu. apply H. now right. }
    apply (add_side acc v _ s false false); auto. { now apply fold_fadd_nan in N. } apply H. now left.
  Qed.
  Lemma extremum_side : forall f s b vs v, f = B_MIN \/ f = B_MAX -> vs <> [] -> (forall u, In u vs -> on_side u s b) ->
    call_builtin w f vs = Val v -> on_side v s b.
  Proof.
    intros f s b vs v Hf Hn H Hc.
    assert (A : forall u, In u vs -> is_nan u = false) by (intros u Hu; specialize (H u Hu); apply on_side_toR in H; tauto).
    assert (E : exists u, In u vs /\ is_nan u = false).
    { destruct vs as [|u vs]; [now elim Hn|]. exists u. split; [now left|]. apply A. now left. }
    destruct Hf as [-> | ->].
    - destruct (C46_min w vs E) as [m [Hm [Im _]]]. change (call_builtin w B_MIN vs = Val m) in Hm. rewrite Hm in Hc. injection Hc as <-. auto.
    - destruct (C46_max w vs E) as [m [Hm [Im _]]]. change (call_builtin w B_MAX vs = Val m) in Hm. rewrite Hm in Hc. injection Hc as <-. auto.
  Qed.

  Lemma signed_side : forall e s b, signed known e s b -> no_nan w rho e -> forall v, means w rho e v -> on_side v s b.
  Proof.
    assert (top : forall e v, no_nan w rho e -> means w rho e v -> is_nan v = false) by (intros e v H M; apply (H e v); [apply sub_refl|auto]).
    induction 1 as [u s b H|x s b H|e s H IH|l r s b c Hl IHl Hr IHr|l r s b c Hl IHl Hr IHr|l r s t b c Hl IHl Hr IHr|e|l r s t b Hl IHl Hr IHr
      |e s b H IH|e s b H IH|e|e|e s H IH|e|f args s b Hf Hn H IH|args s H IH]; intros N v M; pose proof (top _ _ N M) as Nv.
    - inversion M; subst. exact H.
    - eapply K; eauto. now apply means_var in M.
    - specialize (IH N v M). apply on_side_toR in IH. destruct IH as [_ P]. apply side; auto. cbn in *. lra.
    - inversion M; subst. eapply add_side; eauto; [apply IHl|apply IHr]; auto; eapply no_nan_sub; eauto; part.
    - inversion M; subst. eapply sub_side; auto; [apply IHl|apply IHr]; auto; eapply no_nan_sub; eauto; part.
    - inversion M; subst. eapply mul_side; eauto; [apply IHl|apply IHr]; auto; eapply no_nan_sub; eauto; part.
    - inversion M; subst. match goal with H1 : means w rho e ?a, H2 : means w rho e ?b |- _ => rewrite (means_det _ _ _ _ _ H1 H2) in * end. now apply square_side.
    - inversion M; subst. eapply div_side; eauto; [apply IHl|apply IHr]; auto; eapply no_nan_sub; eauto; part.
    - inversion M; subst. apply IH; auto. eapply no_nan_sub; eauto; part.
    - inversion M; subst. apply neg_side, IH; auto. eapply no_nan_sub; eauto; part.
    - inversion M; subst. apply side; auto. cbn. now apply factorial_positive.
    - destruct (means_call1 _ _ _ fabs _ _ M) as [u [Mu ->]]; [reflexivity|]. apply side; auto. cbn. rewrite toR_fabs. apply Rabs_pos.
    - destruct (means_call1 _ _ _ fabs _ _ M) as [u [Mu ->]]; [reflexivity|]. apply side; auto. cbn. rewrite toR_fabs.
      assert (Su : on_side u s true) by (apply IH; auto; eapply no_nan_sub; eauto; eapply sub_arg; [now left|apply sub_refl]).
      apply on_side_toR in Su. destruct Su as [_ P]. apply Rabs_pos_lt. destruct s; cbn in P; lra.
    - destruct (means_call1 _ _ _ fsqrt _ _ M) as [u [Mu ->]]; [reflexivity|]. apply side; auto. cbn. now apply sqrt_nonneg.
    - destruct (means_call _ _ _ _ _ M) as [vs [Ms Hc]].
      apply (extremum_side f s b vs v Hf); auto.
      + destruct args; [now elim Hn|]. inversion Ms; subst. discriminate.
      + intros u Hu. destruct (means_all_in _ _ _ _ Ms u Hu) as [a [Ia Ma]]. apply (IH a); auto. eapply no_nan_sub; eauto. eapply sub_arg; [eauto|apply sub_refl].
    - destruct (means_call _ _ _ _ _ M) as [vs [Ms Hc]]. injection Hc as <-. apply sum_side; auto.
      + intros u Hu. destruct (means_all_in _ _ _ _ Ms u Hu) as [a [Ia Ma]]. apply (IH a); auto. eapply no_nan_sub; eauto. eapply sub_arg; [eauto|apply sub_refl].
      + apply side; [now destruct (sum_neg_zero w)|]. destruct (sum_neg_zero w), s; cbn; lra.
  Qed.
End Signs.

(** ** Movement *)
Section Moves.
  Variables (w : world) (known : string -> option (way * bool)) (go : string -> option way) (rho rho' : string -> option f64).
  Hypotheses (K : as_known known rho) (K' : as_known known rho') (G : as_moved go rho rho').

  Lemma steady_same : forall e v v', steady go e -> means w rho e v -> means w rho' e v' -> v = v'.
  Proof.
    intros e v v' H M M'. apply (means_det w rho' e); [|exact M']. apply means_local with (2 := M).
    intros y Hy. apply free_iff in Hy. specialize (G y). now rewrite (H y Hy) in G.
  Qed.
  Lemma ord_refl : forall d v, ord d v v. Proof. intros d v. unfold ord. lra. Qed.
  Lemma side_R : forall v s b, on_side v s b -> 0 <= sR s (toR v).
  Proof. intros v s b H. apply on_side_toR in H. destruct H as [_ H]. now apply nonneg_of in H. Qed.
  Lemma side_R_strict : forall v s, on_side v s true -> 0 < sR s (toR v).
  Proof. intros v s H. apply on_side_toR in H. exact (proj2 H). Qed.

  Lemma list_pairs : forall d args, (forall a, In a args -> forall v v', means w rho a v -> means w rho' a v' -> is_nan v = false /\ is_nan v' = false /\ ord d v v') ->
    forall vs vs', means_all w rho args vs -> means_all w rho' args vs' ->
    match d with Up => all2 go2 vs vs' | Down => all2 go2 vs' vs end /\ List.length vs = List.length args /\ List.length vs' = List.length args.
  Proof.
    intros d. induction args as [|a args IH]; intros H vs vs' M M'; inversion M; inversion M'; subst.
    - destruct d; repeat split; constructor.
    - destruct (IH (fun b Hb => H b (or_intror Hb)) _ _ H4 H9) as [A [L L']]. destruct (H a (or_introl eq_refl) _ _ H2 H7) as [N [N' O]].
      rewrite ord_up in O. destruct d; cbn [List.length]; (split; [constructor; auto; repeat split; auto|split; congruence]).
  Qed.

  Lemma count_positive : forall n, (0 < n)%nat -> 0 < toR (f64_of_Z (Z.of_nat n)) /\ is_nan (f64_of_Z (Z.of_nat n)) = false.
  Proof.
    intros n Hn. unfold f64_of_Z.
    pose proof (binary_normalize_correct prec64 emax64 Hprec64 Hmax64 mode_NE (Z.of_nat n) 0 false) as H. cbv zeta in H.
    assert (E : F2R (Float radix2 (Z.of_nat n) 0) = INR n) by (unfold F2R; cbn [Fnum Fexp bpow]; rewrite INR_IZR_INZ; ring).
    rewrite E in H. assert (P : 1 <= INR n) by (change 1 with (INR 1); apply le_INR; lia).
    assert (Q : 1 <= rnd64 (INR n)).
    { apply round_ge_generic; try typeclasses eauto; [apply one_format|exact P]. }
    destruct (Rlt_bool _ _).
    - destruct H as [H1 [H2 _]]. split; [rewrite toR_finite, H1 by auto; lra|now apply finite_not_nan].
    - apply overflow_infinity in H. rewrite H. rewrite Rlt_bool_false by lra. split; [apply big_pos|reflexivity].
  Qed.

  Lemma parts_bin : forall r0 op l r, no_nan w r0 (BinOp op l r) -> no_nan w r0 l /\ no_nan w r0 r.
  Proof. intros r0 op l r H. split; eapply no_nan_sub; eauto; part. Qed.
  Lemma parts_un : forall r0 op e, no_nan w r0 (UnOp op e) -> no_nan w r0 e.
  Proof. intros r0 op e H. eapply no_nan_sub; eauto; part. Qed.
  Lemma parts_arg : forall r0 f args a, no_nan w r0 (Call f args) -> In a args -> no_nan w r0 a.
  Proof. intros r0 f args a H Ha. eapply no_nan_sub; eauto. eapply sub_arg; [eauto|apply sub_refl]. Qed.
  Lemma s1 : forall e s b v, signed known e s b -> no_nan w rho e -> means w rho e v -> 0 <= sR s (toR v).
  Proof. intros e s b v S0 N M. apply (side_R v s b). exact (signed_side w known rho K e s b S0 N v M). Qed.
  Lemma s2 : forall e s b v, signed known e s b -> no_nan w rho' e -> means w rho' e v -> 0 <= sR s (toR v).
  Proof. intros e s b v S0 N M. apply (side_R v s b). exact (signed_side w known rho' K' e s b S0 N v M). Qed.
  Lemma t1 : forall e s v, signed known e s true -> no_nan w rho e -> means w rho e v -> 0 < sR s (toR v).
  Proof. intros e s v S0 N M. apply (side_R_strict v s). exact (signed_side w known rho K e s true S0 N v M). Qed.
  Lemma t2 : forall e s v, signed known e s true -> no_nan w rho' e -> means w rho' e v -> 0 < sR s (toR v).
  Proof. intros e s v S0 N M. apply (side_R_strict v s). exact (signed_side w known rho' K' e s true S0 N v M). Qed.
  Lemma bin_values : forall op l r v v', means w rho (BinOp op l r) v -> means w rho' (BinOp op l r) v' ->
    forall g, (op = Plus /\ g = fadd) \/ (op = Minus /\ g = fsub) \/ (op = Times /\ g = fmul) \/ (op = Divide /\ g = fdiv) ->
    exists a b a' b', means w rho l a /\ means w rho r b /\ means w rho' l a' /\ means w rho' r b' /\ v = g a b /\ v' = g a' b'.
  Proof.
    intros op l r v v' M M' g Hg. destruct Hg as [[-> ->]|[[-> ->]|[[-> ->]|[-> ->]]]]; inversion M; inversion M'; subst; do 4 eexists; repeat split; eauto.
  Qed.

  Lemma moving_ord : forall e d, moving known go e d -> no_nan w rho e -> no_nan w rho' e ->
    forall v v', means w rho e v -> means w rho' e v' -> ord d v v'.
  Proof.
    assert (top : forall r e v, no_nan w r e -> means w r e v -> is_nan v = false) by (intros r e v H M; apply (H e v); [apply sub_refl|auto]).
    induction 1 as [e d H|x d H|l r d Hl IHl Hr IHr|l r d Hl IHl Hr IHr|l r s t b c d Sl Sr Hl IHl Hr IHr|l r s b d Hs Sl Hr IHr|l r t c d Hs Sr Hl IHl
      |l r s t b d Sl Sr Hl IHl Hr IHr|l r t d Hs Sr Hl IHl|e d H IH|e d H IH|e d H IH|f a d Hf H IH|a s b d Sa H IH|a s d Sa H IH|f args d Hf H IH];
      intros N N' v v' M M'; pose proof (top _ _ _ N M) as Nv; pose proof (top _ _ _ N' M') as Nv'.
    - rewrite (steady_same e v v' H M M'). apply ord_refl.
    - apply means_var in M, M'. specialize (G x). rewrite H in G. specialize (G _ _ M M'). apply step_toR in G. exact (proj2 (proj2 G)).
    - destruct (parts_bin _ _ _ _ N) as [N1 N2], (parts_bin _ _ _ _ N') as [N1' N2'].
      destruct (bin_values _ _ _ _ _ M M' fadd ltac:(auto)) as [a1 [b1 [a2 [b2 [A1 [B1 [A2 [B2 [-> ->]]]]]]]]].
      apply add_ord; auto.
    - destruct (parts_bin _ _ _ _ N) as [N1 N2], (parts_bin _ _ _ _ N') as [N1' N2'].
      destruct (bin_values _ _ _ _ _ M M' fsub ltac:(auto)) as [a1 [b1 [a2 [b2 [A1 [B1 [A2 [B2 [-> ->]]]]]]]]].
      apply sub_ord; auto.
    - destruct (parts_bin _ _ _ _ N) as [N1 N2], (parts_bin _ _ _ _ N') as [N1' N2'].
      destruct (bin_values _ _ _ _ _ M M' fmul ltac:(auto)) as [a1 [b1 [a2 [b2 [A1 [B1 [A2 [B2 [-> ->]]]]]]]]].
      apply (mul_ord d s t); auto; [exact (s1 _ _ _ _ Sl N1 A1)|exact (s2 _ _ _ _ Sl N1' A2)|exact (s1 _ _ _ _ Sr N2 B1)|exact (s2 _ _ _ _ Sr N2' B2)].
    - destruct (parts_bin _ _ _ _ N) as [N1 N2], (parts_bin _ _ _ _ N') as [N1' N2'].
      destruct (bin_values _ _ _ _ _ M M' fmul ltac:(auto)) as [a1 [b1 [a2 [b2 [A1 [B1 [A2 [B2 [-> ->]]]]]]]]].
      rewrite <- (steady_same _ _ _ Hs A1 A2) in *. apply (scale_ord d s); auto. exact (s1 _ _ _ _ Sl N1 A1).
    - destruct (parts_bin _ _ _ _ N) as [N1 N2], (parts_bin _ _ _ _ N') as [N1' N2'].
      destruct (bin_values _ _ _ _ _ M M' fmul ltac:(auto)) as [a1 [b1 [a2 [b2 [A1 [B1 [A2 [B2 [-> ->]]]]]]]]].
      rewrite <- (steady_same _ _ _ Hs B1 B2) in *. rewrite (PropertiesEq.fmul_comm a1 b1), (PropertiesEq.fmul_comm a2 b1) in *.
      apply (scale_ord d t); auto. exact (s1 _ _ _ _ Sr N2 B1).
    - destruct (parts_bin _ _ _ _ N) as [N1 N2], (parts_bin _ _ _ _ N') as [N1' N2'].
      destruct (bin_values _ _ _ _ _ M M' fdiv ltac:(auto)) as [a1 [b1 [a2 [b2 [A1 [B1 [A2 [B2 [-> ->]]]]]]]]].
      apply (div_ord d s t); auto; [exact (s1 _ _ _ _ Sl N1 A1)|exact (s2 _ _ _ _ Sl N1' A2)|exact (t1 _ _ _ Sr N2 B1)|exact (t2 _ _ _ Sr N2' B2)].
    - destruct (parts_bin _ _ _ _ N) as [N1 N2], (parts_bin _ _ _ _ N') as [N1' N2'].
      destruct (bin_values _ _ _ _ _ M M' fdiv ltac:(auto)) as [a1 [b1 [a2 [b2 [A1 [B1 [A2 [B2 [-> ->]]]]]]]]].
      rewrite <- (steady_same _ _ _ Hs B1 B2) in *. apply (div_by_ord d t); auto. exact (t1 _ _ _ Sr N2 B1).
    - apply parts_un in N, N'. inversion M; inversion M'; subst. auto.
    - apply parts_un in N, N'. inversion M; inversion M'; subst. apply neg_ord. auto.
    - apply parts_un in N, N'. inversion M; inversion M'; subst. apply rises_ord; eauto. apply rises_factorial.
    - pose proof (parts_arg _ _ _ a N ltac:(now left)) as Na. pose proof (parts_arg _ _ _ a N' ltac:(now left)) as Na'.
      assert (E : exists g, rises g /\ forall u, call_function w (builtin_function f) [u] = Val (g u)).
      { destruct Hf as [-> |[-> |[-> |[-> |[-> | ->]]]]].
        - exists fsqrt. split; [apply rises_sqrt|reflexivity].
        - exists ffloor. split; [apply rises_nearbyint|reflexivity].
        - exists fceil. split; [apply rises_nearbyint|reflexivity].
        - exists fround. split; [apply rises_nearbyint|reflexivity].
        - exists ftrunc. split; [apply rises_nearbyint|reflexivity].
        - exists factorial. split; [apply rises_factorial|reflexivity]. }
      destruct E as [g [Rg Eg]]. destruct (means_call1 _ _ _ g _ _ M Eg) as [u [Mu ->]]. destruct (means_call1 _ _ _ g _ _ M' Eg) as [u' [Mu' ->]].
      apply rises_ord; eauto.
    - pose proof (parts_arg _ _ _ a N ltac:(now left)) as Na. pose proof (parts_arg _ _ _ a N' ltac:(now left)) as Na'.
      destruct (means_call1 _ _ _ fabs _ _ M) as [u [Mu ->]]; [reflexivity|]. destruct (means_call1 _ _ _ fabs _ _ M') as [u' [Mu' ->]]; [reflexivity|].
      apply (abs_ord d s); auto; [exact (s1 _ _ _ _ Sa Na Mu)|exact (s2 _ _ _ _ Sa Na' Mu')].
    - pose proof (parts_arg _ _ _ a N ltac:(now left)) as Na. pose proof (parts_arg _ _ _ a N' ltac:(now left)) as Na'.
      destruct (means_call1 _ _ _ frecip _ _ M) as [u [Mu ->]]; [reflexivity|]. destruct (means_call1 _ _ _ frecip _ _ M') as [u' [Mu' ->]]; [reflexivity|].
      assert (P1 : 0 <= sR Up (toR fone)) by (cbn [sR]; rewrite toR_finite by reflexivity; unfold fone; rewrite Bone_correct; lra).
      apply (div_ord d Up s); auto; [exact (t1 _ _ _ Sa Na Mu)|exact (t2 _ _ _ Sa Na' Mu')|apply ord_refl].
    - destruct (means_call _ _ _ _ _ M) as [vs [Ms Hc]], (means_call _ _ _ _ _ M') as [vs' [Ms' Hc']].
      destruct (list_pairs d args) with (vs := vs) (vs' := vs') as [A [L L']]; auto.
      { intros a Ia u u' Mu Mu'. pose proof (parts_arg _ _ _ a N Ia) as Na. pose proof (parts_arg _ _ _ a N' Ia) as Na'.
        split; [eauto|]. split; [eauto|]. apply (IH a); auto. }
      rewrite ord_up. destruct Hf as [-> |[-> |[-> | ->]]].
      + injection Hc as <-. injection Hc' as <-. assert (Z : go2 finf finf) by (repeat split; apply Rle_refl).
        destruct d; exact (proj2 (proj2 (min_le w _ _ A _ _ Z))).
      + injection Hc as <-. injection Hc' as <-. assert (Z : go2 fninf fninf) by (repeat split; apply Rle_refl).
        destruct d; exact (proj2 (proj2 (max_le w _ _ A _ _ Z))).
      + injection Hc as <-. injection Hc' as <-. destruct d; apply sum_le; auto; apply Rle_refl.
      + injection Hc as <-. injection Hc' as <-. unfold sum_f64 in *. rewrite L' in *. rewrite L in *. destruct args as [|a args].
        { inversion Ms; inversion Ms'; subst. destruct d; apply Rle_refl. }
        destruct (count_positive (List.length (a :: args))) as [P _]; [cbn; lia|]. destruct (fdiv_nan _ _ Nv) as [Q _], (fdiv_nan _ _ Nv') as [Q' _].
        destruct d; apply div_by_le; auto; apply sum_le; auto; apply Rle_refl.
  Qed.
End Moves.

(** ** C70 *)
(** If the rules say that an expression has a sign, its value has it. *)
Theorem C70_signs : forall w x known rho s b v,
  signed known (root x) s b -> as_known known (lookup rho) -> no_nan w (lookup rho) (root x) ->
  eval w x rho = Val (Eval_ok v) -> on_side v s b.
Proof.
  intros w x known rho s b v S0 K N E. apply C21_eval_is_meaning in E. exact (signed_side w known (lookup rho) K _ s b S0 N v E).
Qed.

(** If the rules say that an expression rises (falls), its values rise (fall),
    with all roundings, overflows and signed zeros. *)
Theorem C70_monotone : forall w x known go rho rho' d v v',
  moving known go (root x) d ->
  as_moved go (lookup rho) (lookup rho') -> as_known known (lookup rho) -> as_known known (lookup rho') ->
  no_nan w (lookup rho) (root x) -> no_nan w (lookup rho') (root x) ->
  eval w x rho = Val (Eval_ok v) -> eval w x rho' = Val (Eval_ok v') -> step d v v'.
Proof.
  intros w x known go rho rho' d v v' H G K K' N N' E E'. apply C21_eval_is_meaning in E, E'.
  apply step_toR. split; [exact (N _ _ (sub_refl _) E)|]. split; [exact (N' _ _ (sub_refl _) E')|].
  exact (moving_ord w known go _ _ K K' G _ d H N N' v v' E E').
Qed.

(** In one variable: the values at the ends of an interval enclose the values
    inside it. *)
Theorem C70_enclosure : forall w x known y lo hi a m b vl vm vh,
  moving known (fun z => if String.eqb z y then Some Up else None) (root x) Up ->
  at_most a m -> at_most m b ->
  (forall u, u = a \/ u = m \/ u = b -> as_known known (lookup (lo ++ (y, u) :: hi)) /\ no_nan w (lookup (lo ++ (y, u) :: hi)) (root x)) ->
  sget y lo = None ->
  eval w x (lo ++ (y, a) :: hi) = Val (Eval_ok vl) -> eval w x (lo ++ (y, m) :: hi) = Val (Eval_ok vm) ->
  eval w x (lo ++ (y, b) :: hi) = Val (Eval_ok vh) ->
  at_most vl vm /\ at_most vm vh.
Proof.
  intros w x known y lo hi a m b vl vm vh H Ham Hmb U Hlo El Em Eh.
  assert (G : forall u u', at_most u u' -> as_moved (fun z => if String.eqb z y then Some Up else None) (lookup (lo ++ (y, u) :: hi)) (lookup (lo ++ (y, u') :: hi))).
  { intros u u' L z. destruct (String.eqb_spec z y) as [->|Nz].
    - assert (F : forall u0, lookup (lo ++ (y, u0) :: hi) y = Some u0).
      { intro u0. unfold lookup. clear -Hlo. induction lo as [|[k v] lo IH]; cbn [app sget] in *; [now rewrite String.eqb_refl|].
        destruct (String.eqb y k); [discriminate|]. now apply IH. }
      intros v v' E E'. rewrite F in E, E'. injection E as <-. injection E' as <-. exact L.
    - unfold lookup. clear -Nz. induction lo as [|[k v] lo IH]; cbn [app sget].
      + now rewrite (proj2 (String.eqb_neq z y) Nz).
      + destruct (String.eqb z k); auto. }
  split.
  - refine (C70_monotone w x known _ _ _ Up vl vm H (G _ _ Ham) _ _ _ _ El Em); apply U; auto.
  - refine (C70_monotone w x known _ _ _ Up vm vh H (G _ _ Hmb) _ _ _ _ Em Eh); apply U; auto.
Qed.

(** ** The witness *)
Section Check.
  Variables (w : world) (rho : smap f64).
  Definition not_nan (e : element) : bool := match eval_element_unchecked w rho e with Val v => negb (is_nan v) | Boom _ => false end.
  Fixpoint nan_free (e : element) : bool :=
    (not_nan e && match e with
     | BinOp _ l r => nan_free l && nan_free r
     | UnOp _ a => nan_free a
     | Call _ args => forallb nan_free args
     | _ => true
     end)%bool.
  Lemma nan_free_ok : forall e, nan_free e = true -> no_nan w (lookup rho) e.
  Proof.
    intros e H a v S0. revert H. induction S0 as [|op l r S0 IH|op l r S0 IH|op e S0 IH|f args b Hb S0 IH]; intros H M.
    - assert (E : eval w {| root := a; vars := [] |} rho = Val (Eval_ok v)) by (apply C21_eval_is_meaning; exact M).
      unfold eval in E. cbn [root] in E. assert (Q : not_nan a = true) by (destruct a; cbn [nan_free] in H; apply andb_true_iff in H; apply H).
      unfold not_nan in Q. rewrite unchecked_agrees, E in Q. now destruct (is_nan v).
    - cbn [nan_free] in H. rewrite !andb_true_iff in H. now apply IH.
    - cbn [nan_free] in H. rewrite !andb_true_iff in H. now apply IH.
    - cbn [nan_free] in H. rewrite !andb_true_iff in H. now apply IH.
    - cbn [nan_free] in H. rewrite !andb_true_iff, forallb_forall in H. apply IH; auto. now apply H.
  Qed.
End Check.

(** [x] is known to be positive and rises; [y] is not known and stays. *)
Definition xy_known (z : string) : option (way * bool) := if String.eqb z "x" then Some (Up, true) else None.
Definition x_rises (z : string) : option way := if String.eqb z "x" then Some Up else None.

(** A witness: between x = 0.1 and x = 7 (with y = -4) the hypotheses of
    [C70_monotone] hold for a text with all four operators, a sign, and
    five functions; the values are about -9.0 and 33.3. *)
Definition rising_tree : element :=
  BinOp Plus
    (BinOp Minus (BinOp Times (Call (builtin_function B_SQRT) [Var "x"]) (BinOp Plus (Var "x") (Number (lit "3"))))
                 (BinOp Divide (Number (lit "1")) (Var "x")))
    (Call (builtin_function B_MAX)
       [UnOp Minus (Call (builtin_function B_RECIP) [Call (builtin_function B_ABS) [Var "x"]]);
        Call (builtin_function B_FLOOR) [Var "x"];
        Var "y"]).
Example C70_witness : exists x v v',
  parse plain_config w0 ctx_default "sqrt(x)*(x + 3) - 1/x + max(-recip(abs(x)), floor(x), y)" = Parse_ok x /\
  let rho := [("x"%string, lit "0.1"); ("y"%string, fneg (lit "4"))] in
  let rho' := [("x"%string, lit "7"); ("y"%string, fneg (lit "4"))] in
  moving xy_known x_rises (root x) Up /\
  as_moved x_rises (lookup rho) (lookup rho') /\ as_known xy_known (lookup rho) /\ as_known xy_known (lookup rho') /\
  no_nan w0 (lookup rho) (root x) /\ no_nan w0 (lookup rho') (root x) /\
  eval w0 x rho = Val (Eval_ok v) /\ eval w0 x rho' = Val (Eval_ok v') /\ below v fzero /\ below (lit "25") v'.
Proof.
  destruct (parses_to (parse plain_config w0 ctx_default "sqrt(x)*(x + 3) - 1/x + max(-recip(abs(x)), floor(x), y)") rising_tree) as [x [Hp Hr]]; [vm_compute; reflexivity|].
  set (rho := [("x"%string, lit "0.1"); ("y"%string, fneg (lit "4"))]). set (rho' := [("x"%string, lit "7"); ("y"%string, fneg (lit "4"))]).
  assert (EV : forall r, (exists v, eval w0 x r = Val (Eval_ok v)) \/ not_nan w0 r rising_tree = false).
  { intro r. unfold not_nan. rewrite unchecked_agrees. unfold eval. rewrite Hr. destruct (eval_element w0 r rising_tree) as [[v|e]|p]; eauto. }
  assert (CK : forall r t, (match eval_element_unchecked w0 r rising_tree with Val v => t v | Boom _ => false end) = true ->
    exists v, eval w0 x r = Val (Eval_ok v) /\ t v = true).
  { intros r t. rewrite unchecked_agrees. unfold eval. rewrite Hr. destruct (eval_element w0 r rising_tree) as [[v|e]|p]; intro Q; try discriminate Q; eauto. }
  destruct (CK rho (fun v => Bltb v fzero)) as [v [Ev Lv]]; [vm_compute; reflexivity|].
  destruct (CK rho' (fun v => Bltb (lit "25") v)) as [v' [Ev' Lv']]; [vm_compute; reflexivity|].
  exists x, v, v'. split; [exact Hp|]. cbv zeta. rewrite Hr.
  assert (MX : moving xy_known x_rises (Var "x") Up) by (apply MV_var; reflexivity).
  assert (SX : signed xy_known (Var "x") Up true) by (apply SG_var; reflexivity).
  assert (Sn : forall n d, moving xy_known x_rises (Number n) d) by (intros n d; apply MV_steady; intros z Hz; inversion Hz).
  assert (S3 : signed xy_known (Number (lit "3")) Up false) by (apply SG_number; vm_compute; reflexivity).
  assert (S1 : signed xy_known (Number (lit "1")) Up false) by (apply SG_number; vm_compute; reflexivity).
  assert (KN : forall u r, Bltb fzero u = true -> as_known xy_known (lookup (("x"%string, u) :: r))).
  { intros u r Hu z s b v0 Hk Hz. unfold xy_known in Hk. unfold lookup in Hz. cbn [sget] in Hz. destruct (String.eqb z "x"); [|discriminate Hk].
    injection Hk as <- <-. injection Hz as <-. exact Hu. }
  repeat match goal with |- _ /\ _ => split end; auto.
  - unfold rising_tree. apply MV_plus; [apply MV_minus|].
    + apply (MV_times _ _ _ _ Up Up false true).
      * apply SG_sqrt.
      * exact (SG_plus _ _ _ Up true false SX S3).
      * apply MV_rising_function; auto.
      * apply MV_plus; auto.
    + apply (MV_divide _ _ _ _ Up Up false); auto.
    + apply MV_list; auto. intros a [<- |[<- |[<- |[]]]].
      * apply MV_minus_sign. cbn [opposite]. apply (MV_recip _ _ _ Up); [exact (SG_abs_strict _ _ Up SX)|]. exact (MV_abs _ _ _ Up true Up SX MX).
      * apply MV_rising_function; auto.
      * apply MV_steady. intros z Hz. inversion Hz. reflexivity.
  - intro z. unfold x_rises. destruct (String.eqb_spec z "x") as [->|Nz].
    + intros u u' H H'. injection H as <-. injection H' as <-. vm_compute. reflexivity.
    + unfold lookup, rho, rho'. cbn [sget]. now rewrite (proj2 (String.eqb_neq _ _) Nz).
  - apply KN. vm_compute. reflexivity.
  - apply KN. vm_compute. reflexivity.
  - apply nan_free_ok. vm_compute. reflexivity.
  - apply nan_free_ok. vm_compute. reflexivity.
Qed.

(** The condition on NaN is needed: [max] and [min] pass over a NaN. *)
Theorem C70_without_nan_condition_refuted : exists x v v',
  parse plain_config w0 ctx_default "min(sqrt(x), 5)" = Parse_ok x /\
  moving (fun _ => None) x_rises (root x) Up /\
  as_moved x_rises (lookup [("x"%string, fneg (lit "1"))]) (lookup [("x"%string, lit "4")]) /\
  eval w0 x [("x"%string, fneg (lit "1"))] = Val (Eval_ok v) /\ eval w0 x [("x"%string, lit "4")] = Val (Eval_ok v') /\
  is_nan v = false /\ is_nan v' = false /\ ~ step Up v v'.
Proof.
  destruct (parses_to (parse plain_config w0 ctx_default "min(sqrt(x), 5)")
    (Call (builtin_function B_MIN) [Call (builtin_function B_SQRT) [Var "x"]; Number (lit "5")])) as [x [Hp Hr]]; [vm_compute; reflexivity|].
  exists x, (lit "5"), (lit "2"). split; [exact Hp|]. split.
  { rewrite Hr. apply MV_list; auto. intros a [<- |[<- |[]]].
    - apply MV_rising_function; auto. apply MV_var. reflexivity.
    - apply MV_steady. intros z Hz. inversion Hz. }
  split.
  { intro z. unfold x_rises. destruct (String.eqb_spec z "x") as [->|Nz].
    - intros u u' H H'. injection H as <-. injection H' as <-. vm_compute. reflexivity.
    - unfold lookup. cbn [sget]. now rewrite (proj2 (String.eqb_neq _ _) Nz). }
  unfold eval. rewrite Hr. split; [apply eval_check; vm_compute; reflexivity|]. split; [apply eval_check; vm_compute; reflexivity|].
  split; [vm_compute; reflexivity|]. split; [vm_compute; reflexivity|]. unfold step, at_most. intro Q. assert (Z : Bleb (lit "5") (lit "2") = false) by (vm_compute; reflexivity). rewrite Z in Q. discriminate Q.
Qed.
