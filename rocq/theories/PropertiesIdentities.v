(** * C74: identities that hold for ordinary values *)
From Coq Require Import ZArith List String Bool Reals Lra Lia Permutation.
From Flocq Require Import Core BinarySingleNaN.
From Verif Require Import F64 Syntax Factorial Builtins Context Parser Xprs FloatFacts SpecParse SpecTree SpecApi SpecLaws SpecIdentities.
From Verif Require Import TreeFacts PropertiesEval PropertiesEq RegularFacts PropertiesArith MonotoneFacts SpecialFacts PropertiesOptimise LawsFacts IdentityFacts PropertiesError PropertiesLaws TestWorld.
Import ListNotations.
Local Open Scope R_scope.

Lemma number_den : forall w rho a x, number w rho a x -> exists v, den w rho a = Some v /\ is_finite v = true /\ B2R v = x.
Proof. intros w rho a x [v [M [F E]]]. exists v. split; [now apply den_means|]. auto. Qed.

Lemma den_two : forall w rho b a c g, (forall u v, call_function w (builtin_function b) [u; v] = Val (g u v)) ->
  forall u v, den w rho a = Some u -> den w rho c = Some v -> den w rho (call b [a; c]) = Some (g u v).
Proof. intros w rho b a c g H u v Eu Ev. unfold call. rewrite den_call. cbn [den_all]. rewrite Eu, Ev. cbn [obind]. now rewrite H. Qed.
Lemma den_min : forall w rho a c u v, den w rho a = Some u -> den w rho c = Some v -> is_nan u = false ->
  den w rho (call B_MIN [a; c]) = Some (min_f64 w u v).
Proof.
  intros w rho a c u v Eu Ev N. rewrite (den_two w rho B_MIN a c (fun u v => min_f64 w (min_f64 w finf u) v)) with (u := u) (v := v) by auto.
  now rewrite min_inf_l.
Qed.
Lemma den_max : forall w rho a c u v, den w rho a = Some u -> den w rho c = Some v -> is_nan u = false ->
  den w rho (call B_MAX [a; c]) = Some (max_f64 w u v).
Proof.
  intros w rho a c u v Eu Ev N. rewrite (den_two w rho B_MAX a c (fun u v => max_f64 w (max_f64 w fninf u) v)) with (u := u) (v := v) by auto.
  now rewrite max_inf_l.
Qed.

Ltac num H := let v := fresh "v" in let E := fresh "E" in let F := fresh "F" in let V := fresh "V" in
  apply number_den in H; destruct H as [v [E [F V]]]; subst.
Lemma here_law_den : forall w rho a b, here_law w rho a b -> den w rho a = den w rho b.
Proof.
  intros w rho a b H. destruct H.
  - now apply exact_law_den.
  - num H. cbn [den]. rewrite E. cbn [obind]. f_equal. now apply sub_self.
  - num H. cbn [den]. rewrite E. cbn [obind]. f_equal. rewrite (value_is_one n) by auto. now apply div_self.
  - num H. cbn [den]. rewrite E. cbn [obind]. f_equal.
    destruct v as [s|s| |s m e B]; try discriminate; [cbn in H0; lra|].
    destruct s; [|reflexivity]. pose proof (sign_le (B754_finite true m e B : f64) eq_refl eq_refl). lra.
  - num H. rewrite (den_one w rho B_SQRT _ fsqrt), (den_one w rho B_ABS _ fabs) by reflexivity. cbn [den]. rewrite E. cbn [obind]. f_equal.
    now apply sqrt_square_value.
  - num H. cbn [den]. rewrite E. cbn [obind]. f_equal. now apply (scale_back v n k).
  - num H. num H0. cbn [den]. rewrite E, E0. cbn [obind]. f_equal. now apply near_back.
  - num H. cbn [den]. rewrite (den_one w rho B_TRUNC _ ftrunc), (den_one w rho B_FRACT _ ffract) by reflexivity. rewrite E. cbn [obind]. f_equal.
    now apply trunc_fract_eq.
  - num H. num H0. cbn [den]. rewrite E, E0. cbn [obind]. f_equal. now apply absorb.
  - num H. num H0. cbn [den]. rewrite E, E0. cbn [obind]. f_equal. now apply rem_small.
  - num H. rewrite (den_one w rho B_ABS _ fabs) by reflexivity. rewrite E. cbn [obind]. f_equal. rewrite fabs_cases.
    destruct (Bsign v) eqn:S0; auto. pose proof (sign_le v F S0). lra.
  - num H. rewrite (den_one w rho B_ABS _ fabs) by reflexivity. unfold neg. cbn [den]. rewrite E. cbn [obind]. f_equal. rewrite fabs_cases.
    destruct (Bsign v) eqn:S0; auto. pose proof (sign_ge v F S0). lra.
  - num H0. destruct H1 as [k Hk]. rewrite (den_one w rho f _ (Bnearbyint (md_of f))) by (intro; now apply call_rounding).
    rewrite E. cbn [obind]. f_equal. now apply nearbyint_whole with k.
  - num H. destruct H0 as [k Hk]. rewrite (den_one w rho B_FRACT _ ffract) by reflexivity. rewrite E. cbn [obind den]. f_equal. now apply fract_whole with k.
  - num H. cbn [den]. rewrite (den_one w rho B_FLOOR _ ffloor), (den_one w rho B_CEIL _ fceil) by reflexivity. rewrite E. cbn [obind]. f_equal.
    rewrite (value_is_one n) by auto. apply ceil_floor; auto. intros k Hk. apply H0. now exists k.
  - num H. num H0. rewrite (den_min w rho a b v v0), E by auto using fin_nan. f_equal. now apply min_of.
  - num H. num H0. rewrite (den_max w rho a b v v0), E0 by auto using fin_nan. f_equal. now apply max_of.
  - num H. num H0. rewrite (den_min w rho a b v v0), (den_min w rho b a v0 v) by auto using fin_nan. f_equal.
    destruct (Rlt_dec (B2R v) (B2R v0)); [rewrite min_of, min_of' by auto|rewrite min_of', min_of by (auto; lra)]; reflexivity.
  - num H. rewrite (den_min w rho a a v v), E by auto using fin_nan. f_equal. apply min_self.
  - num H. rewrite (den_max w rho a a v v), E by auto using fin_nan. f_equal. apply max_self.
  - num H. num H0. cbn [den]. rewrite (den_min w rho a b v v0), (den_max w rho a b v v0), E, E0 by auto using fin_nan. cbn [obind]. f_equal.
    destruct (Rlt_dec (B2R v) (B2R v0)); [rewrite min_of, max_of by auto; reflexivity|rewrite min_of', max_of' by (auto; lra); apply fadd_comm].
  - num H. unfold call. rewrite den_call. cbn [den_all]. rewrite E. cbn [obind]. cbn [oval call_function call_ptr builtin_function fn_ptr call_builtin].
    f_equal. now apply sum_one.
  - num H. unfold call. rewrite den_call. cbn [den_all]. rewrite E. cbn [obind]. cbn [oval call_function call_ptr builtin_function fn_ptr call_builtin].
    f_equal. rewrite sum_one by auto. cbn [List.length]. destruct (f64_of_Z_small (Z.of_nat 1) ltac:(lia)) as [E1 F1].
    rewrite (value_is_one (f64_of_Z (Z.of_nat 1))) by (split; [exact F1|exact E1]). apply div_one.
  - num H. unfold call. rewrite den_call. cbn [den_all]. rewrite E. cbn [obind]. cbn [oval call_function call_ptr builtin_function fn_ptr call_builtin].
    f_equal. change (sum_f64 w [v; v]) with (fadd (sum_f64 w [v]) v). rewrite sum_one by auto. cbn [List.length].
    change (Z.of_nat 2) with 2%Z. now apply mean_two.
Qed.

Scheme here_ind2 := Induction for here Sort Prop
with here_all_ind2 := Induction for here_all Sort Prop.
Combined Scheme here_mutind from here_ind2, here_all_ind2.
Lemma here_den : forall w rho,
  (forall a b, here w rho a b -> den w rho a = den w rho b) /\
  (forall l m, here_all w rho l m -> den_all w rho l = den_all w rho m).
Proof.
  intros w rho. apply here_mutind; auto; try congruence.
  - intros a b H. now apply here_law_den.
  - intros op l l' r r' _ H1 _ H2. cbn [den]. now rewrite H1, H2.
  - intros op a a' _ H. cbn [den]. now rewrite H.
  - intros f args args' _ H. now rewrite !den_call, H.
  - intros a a' l l' _ H1 _ H2. cbn [den_all]. now rewrite H1, H2.
Qed.

(** ** C74 *)
(** At values where the side conditions hold, rearranging does not change the
    result, to the last bit. *)
Theorem C74_identity_at_values : forall w x y rho, here w (lookup rho) (root x) (root y) ->
  forall v, eval w x rho = Val (Eval_ok v) <-> eval w y rho = Val (Eval_ok v).
Proof.
  intros w x y rho H v. rewrite !C21_eval_is_meaning, <- !den_means, (proj1 (here_den w (lookup rho)) _ _ H). reflexivity.
Qed.

(** The difference of two numbers within a factor of two of each other is not
    rounded at all. *)
Theorem C74_near_difference_exact : forall w rho a b x y, number w rho a x -> number w rho b y ->
  Rabs (x - y) <= Rabs x -> Rabs (x - y) <= Rabs y -> number w rho (BinOp Minus a b) (x - y).
Proof.
  intros w rho a b x y [u [Mu [Fu Eu]]] [v [Mv [Fv Ev]]] H1 H2. subst. exists (fsub u v).
  split; [now constructor|]. now apply near_exact.
Qed.

(** The mean of two numbers that are not huge lies between them. *)
Theorem C74_mean_of_two_between : forall w rho a b x y, number w rho a x -> number w rho b y ->
  Rabs x <= bpow radix2 1022 -> Rabs y <= bpow radix2 1022 ->
  exists z, number w rho (call B_MEAN [a; b]) z /\ Rmin x y <= z <= Rmax x y.
Proof.
  intros w rho a b x y Ha Hb Bx By. num Ha. num Hb.
  assert (D : exists u, den w rho (call B_MEAN [a; b]) = Some (fdiv (fadd u v0) (f64_of_Z 2)) /\ same_value u v).
  { exists (fadd (if sum_neg_zero w then fnzero else fzero) v). split; [|apply start_add].
    rewrite (den_two w rho B_MEAN a b (fun u v => fdiv (sum_f64 w [u; v]) (f64_of_Z 2))) with (u := v) (v := v0) by auto. reflexivity. }
  destruct D as [u [D S0]].
  assert (Fu : is_finite u = true /\ B2R u = B2R v).
  { apply same_value_iff in S0. destruct S0 as [->|[[s ->] [t ->]]]; auto. }
  destruct Fu as [Fu Eu]. rewrite <- Eu in *. destruct (mean_between u v0) as [Fm Bm]; auto.
  exists (B2R (fdiv (fadd u v0) (f64_of_Z 2))). split; [|exact Bm]. eexists. split; [apply den_means; exact D|]. now split.
Qed.

(** ** A text and its identity *)
Local Open Scope string_scope.
Lemma value_35 : value_is (fneg (lit "3.5")) (-3.5).
Proof.
  destruct (B2R_of (fneg (lit "3.5")) true 7881299347898368 (-51)) as [E F]; [vm_compute; reflexivity|]. split; auto. rewrite E.
  unfold F2R. cbn. lra.
Qed.
Lemma value_7 : value_is (lit "7") 7.
Proof.
  destruct (B2R_of (lit "7") false 7881299347898368 (-50)) as [E F]; [vm_compute; reflexivity|]. split; auto. rewrite E.
  unfold F2R. cbn. lra.
Qed.
Example C74_witness : exists x y,
  parse plain_config w0 ctx_default "sqrt(x * x) - (y - y)" = Parse_ok x /\
  parse plain_config w0 ctx_default "-x" = Parse_ok y /\
  here w0 (lookup [("x", fneg (lit "3.5")); ("y", lit "7")]) (root x) (root y).
Proof.
  destruct (parses_to (parse plain_config w0 ctx_default "sqrt(x * x) - (y - y)")
    (BinOp Minus (call B_SQRT [BinOp Times (Var "x") (Var "x")]) (BinOp Minus (Var "y") (Var "y")))) as [x [Hx Rx]]; [vm_compute; reflexivity|].
  destruct (parses_to (parse plain_config w0 ctx_default "-x") (neg (Var "x"))) as [y [Hy Ry]]; [vm_compute; reflexivity|].
  exists x, y. split; [exact Hx|]. split; [exact Hy|]. rewrite Rx, Ry. clear.
  pose proof value_35 as V3. pose proof value_7 as V7. revert V3 V7. generalize (fneg (lit "3.5")) (lit "7"). intros a b V3 V7.
  assert (Nx : number w0 (lookup [("x", a); ("y", b)]) (Var "x") (-3.5)) by (exists a; split; [now constructor|auto]).
  assert (Ny : number w0 (lookup [("x", a); ("y", b)]) (Var "y") 7) by (exists b; split; [now constructor|auto]).
  eapply HE_trans; [apply HE_bin; [apply HE_law; eapply H_sqrt_square; [exact Nx|]|apply HE_law; eapply H_minus_self; exact Ny]|].
  { rewrite Rabs_left by lra. split.
    - apply Rle_trans with (bpow radix2 0); [apply bpow_le; lia|cbn; lra].
    - apply Rle_trans with (bpow radix2 2); [cbn; lra|apply bpow_le; lia]. }
  eapply HE_trans; [apply HE_law, H_exact, L_minus_zero|]. apply HE_law. eapply H_abs_negative; [exact Nx|lra].
Qed.

(** ** The side conditions cannot be dropped *)
Definition out_of_range : list (string * string * list (string * f64)) :=
  [ ("sqrt(x * x)", "abs(x)", [("x", lit "1e155")]);
    ("sqrt(x * x)", "abs(x)", [("x", lit "1.3e-160")]);
    ("x * 2 / 2", "x", [("x", lit "1e308")]);
    ("x * 0.5 / 0.5", "x", [("x", lit "5e-324")]);
    ("x * 3 / 3", "x", [("x", lit "0.7")]);
    ("(x - y) + y", "x", [("x", lit "0.1"); ("y", lit "1")]);
    ("x + y", "x", [("x", lit "1"); ("y", lit "1.2e-16")]);
    ("x + y", "x", [("x", lit "1"); ("y", fneg (lit "6e-17"))]);
    ("x % y", "x", [("x", lit "5"); ("y", lit "5")]);
    ("1 / (trunc(x) + fract(x))", "1 / x", [("x", fnzero)]);
    ("1 / (0 * x)", "1 / 0", [("x", fneg (lit "2"))]);
    ("abs(x)", "x", [("x", fneg (lit "2"))]);
    ("floor(x)", "x", [("x", lit "2.5")]);
    ("fract(x)", "0", [("x", finf)]);
    ("ceil(x)", "floor(x) + 1", [("x", lit "2")]);
    ("1 / ceil(x)", "1 / (floor(x) + 1)", [("x", fneg (lit "0.5"))]);
    ("min(x, y)", "x", [("x", lit "2"); ("y", lit "1")]);
    ("min(x, y) + max(x, y)", "x + y", [("x", lit "2"); ("y", fnan)]);
    ("mean(x, x)", "x", [("x", lit "1e308")]) ].
Theorem C74_conditions_needed : Forall counterexample out_of_range.
Proof.
  apply Forall_forall. intros t Ht. apply counter_check_spec. revert t Ht. apply forallb_forall. vm_compute. reflexivity.
Qed.

Example C74_between_witness : exists z,
  number w0 (lookup [("x", fneg (lit "3.5")); ("y", lit "7")]) (call B_MEAN [Var "x"; Var "y"]) z /\ -3.5 <= z <= 7.
Proof.
  pose proof value_35 as V3. pose proof value_7 as V7. revert V3 V7. generalize (fneg (lit "3.5")) (lit "7"). intros a b V3 V7.
  assert (Nx : number w0 (lookup [("x", a); ("y", b)]) (Var "x") (-3.5)) by (exists a; split; [now constructor|auto]).
  assert (Ny : number w0 (lookup [("x", a); ("y", b)]) (Var "y") 7) by (exists b; split; [now constructor|auto]).
  assert (B : bpow radix2 3 <= bpow radix2 1022) by (apply bpow_le; lia). cbn [bpow Z.pow_pos Pos.iter] in B. 
  assert (E8 : IZR (Z.pow_pos radix2 3) = 8) by reflexivity.
  destruct (C74_mean_of_two_between _ _ _ _ _ _ Nx Ny) as [z [Hz Bz]].
  - rewrite Rabs_left by lra. apply Rle_trans with 8; [lra|exact B].
  - rewrite Rabs_pos_eq by lra. apply Rle_trans with 8; [lra|exact B].
  - exists z. split; [exact Hz|]. rewrite Rmin_left, Rmax_right in Bz by lra. exact Bz.
Qed.
Example C74_near_witness : number w0 (lookup [("x", lit "7"); ("y", lit "4")]) (BinOp Minus (Var "x") (Var "y")) 3.
Proof.
  pose proof value_4 as V4. pose proof value_7 as V7. revert V4 V7. generalize (lit "4") (lit "7"). intros b a V4 V7.
  replace (bpow radix2 2) with 4 in V4 by (cbn; lra).
  replace 3 with (7 - 4) by lra. apply C74_near_difference_exact.
  - exists a. split; [now constructor|auto].
  - exists b. split; [now constructor|auto].
  - rewrite !Rabs_pos_eq; lra.
  - rewrite !Rabs_pos_eq; lra.
Qed.
