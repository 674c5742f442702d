(** * C83: even and odd expressions *)
From Coq Require Import ZArith List String Bool Reals Lra Lia.
From Flocq Require Import Core BinarySingleNaN.
From Verif Require Import F64 Syntax Factorial Builtins Context Parser Xprs FloatFacts SpecParse SpecTree SpecApi SpecLaws SpecParity.
From Verif Require Import TreeFacts PropertiesEval PropertiesEq RegularFacts MonotoneFacts SpecialFacts PropertiesOptimise LawsFacts PropertiesError TestWorld PropertiesLaws PropertiesArith.
Import ListNotations.
Local Open Scope R_scope.

Definition flip (s : bool) (v : f64) : f64 := if s then fneg v else v.
Lemma a_zero_is : forall v, a_zero v <-> is_zero v.
Proof.
  intro v. split; [intros [-> | ->]; eexists; reflexivity|]. intros [[|] ->]; [right|left]; reflexivity.
Qed.
Lemma mirrored_same : forall s v v', mirrored s v v' <-> same_value v' (flip s v).
Proof.
  intros s v v'. unfold mirrored, flip. rewrite same_value_iff, !a_zero_is. split; (intros [H|[H1 H2]]; [now left|right]).
  - split; [exact H2|]. destruct H1 as [t ->]. destruct s; eexists; reflexivity.
  - split; [|exact H1]. destruct H2 as [t H2]. destruct s; [|now exists t]. exists (negb t).
    rewrite <- (RegularFacts.fneg_fneg v), H2. reflexivity.
Qed.
Lemma same_not_zero : forall x y, same_value x y -> ~ is_zero y -> x = y.
Proof. intros x y H N. apply same_value_iff in H as [H|[_ H]]; [exact H|contradiction]. Qed.
Lemma flip_zero : forall s v, is_zero (flip s v) -> is_zero v.
Proof.
  intros [|] v; unfold flip; auto. intros [t H]. exists (negb t). rewrite <- (RegularFacts.fneg_fneg v), H. reflexivity.
Qed.
Lemma flip_not_zero : forall s v v', same_value v' (flip s v) -> ~ a_zero v -> v' = flip s v.
Proof. intros s v v' H N. apply same_not_zero; [exact H|]. intro Z. apply N, a_zero_is. now apply flip_zero in Z. Qed.

Lemma flip_add : forall s a b, same_value (flip s (fadd a b)) (fadd (flip s a) (flip s b)).
Proof. intros [|] a b; cbn [flip]; [apply add_neg|apply same_value_refl]. Qed.
Lemma flip_sub : forall s a b, same_value (flip s (fsub a b)) (fsub (flip s a) (flip s b)).
Proof. intros s a b. rewrite !fsub_fneg. replace (fneg (flip s b)) with (flip s (fneg b)) by now destruct s. apply flip_add. Qed.
Lemma flip_mul : forall s t a b, fmul (flip s a) (flip t b) = flip (xorb s t) (fmul a b).
Proof. intros [|] [|] a b; cbn [flip xorb]; rewrite ?mul_neg, ?mul_neg_right, ?RegularFacts.fneg_fneg; reflexivity. Qed.
Lemma flip_div : forall s t a b, fdiv (flip s a) (flip t b) = flip (xorb s t) (fdiv a b).
Proof. intros [|] [|] a b; cbn [flip xorb]; rewrite ?div_neg, ?div_by_neg, ?RegularFacts.fneg_fneg; reflexivity. Qed.
Lemma flip_rem : forall s t a b, frem (flip s a) (flip t b) = flip s (frem a b).
Proof. intros [|] [|] a b; cbn [flip]; rewrite ?frem_neg_l, ?frem_neg_r; reflexivity. Qed.

Lemma flip_same : forall s v v', same_value v v' -> same_value (flip s v) (flip s v').
Proof. intros [|]; unfold flip; auto. intros. now apply fneg_same. Qed.
Lemma sum_flip : forall s l l', Forall2 (fun v v' => same_value v' (flip s v)) l l' -> forall a a', same_value a' (flip s a) ->
  same_value (fold_left fadd l' a') (flip s (fold_left fadd l a)).
Proof.
  intros s l l' H. induction H as [|x y l m Hxy H IH]; intros a a' Ha; cbn [fold_left]; [exact Ha|]. apply IH.
  eapply same_trans; [apply fadd_same; eauto|]. apply same_sym, flip_add.
Qed.

(** ** Parts without changed variables *)
Lemma untouched_den : forall w flips rho rho', sign_change flips rho rho' -> forall e, untouched flips e ->
  forall v, den w rho e = Some v -> den w rho' e = Some v.
Proof.
  intros w flips rho rho' Hr. induction e as [n|op l r IHl IHr|op e IHe|f args Hargs|y] using element_ind'; intros U v.
  - auto.
  - cbn [den]. intro H. destruct (den w rho l) as [a|] eqn:El; [|discriminate H]. destruct (den w rho r) as [b|] eqn:Er; [|discriminate H].
    rewrite (IHl (fun z Hz => U z (occ_binl z op l r Hz)) a eq_refl), (IHr (fun z Hz => U z (occ_binr z op l r Hz)) b eq_refl). exact H.
  - cbn [den]. intro H. destruct (den w rho e) as [a|] eqn:El; [|discriminate H].
    rewrite (IHe (fun z Hz => U z (occ_un z op e Hz)) a eq_refl). exact H.
  - rewrite !den_call. intro H. destruct (den_all w rho args) as [vs|] eqn:El; [|discriminate H].
    assert (A : den_all w rho' args = Some vs).
    { assert (U' : forall a, In a args -> untouched flips a) by (intros a Ha z Hz; exact (U z (occ_arg z f args a Ha Hz))).
      clear U H. revert vs El. induction Hargs as [|a l Ha Hl IH]; intros vs El; [exact El|]. cbn [den_all] in *.
      destruct (den w rho a) as [u|] eqn:Ea; [|discriminate El]. destruct (den_all w rho l) as [us|] eqn:Eu; [|discriminate El].
      rewrite (Ha (U' a (or_introl eq_refl)) u eq_refl), (IH (fun b Hb => U' b (or_intror Hb)) us eq_refl). exact El. }
    rewrite A. exact H.
  - cbn [den]. intro H. rewrite (Hr y v H), (U y (occ_var y)). reflexivity.
Qed.

Scheme parity_min := Minimality for parity Sort Prop
with parity_all_min := Minimality for parity_all Sort Prop.
Combined Scheme parity_mutind from parity_min, parity_all_min.

Lemma den_one_arg : forall w rho f a, den w rho (Call f [a]) = obind (den w rho a) (fun v => oval (call_function w f [v])).
Proof. intros. rewrite den_call. cbn [den_all]. destruct (den w rho a); reflexivity. Qed.
Lemma oval_val : forall x v, oval x = Some v <-> x = Val v.
Proof. intros [y|] v; cbn; split; congruence. Qed.

Lemma odd_same : forall (g : f64 -> f64) s v v', (forall x, g (fneg x) = fneg (g x)) ->
  same_value v' (flip s v) -> ~ a_zero v \/ a_zero (g fzero) -> same_value (g v') (flip s (g v)).
Proof.
  intros g s v v' Hg H N.
  assert (E : g (flip s v) = flip s (g v)) by (destruct s; cbn [flip]; auto).
  destruct N as [N|N].
  - rewrite (flip_not_zero s v v' H N), E. apply same_value_refl.
  - apply same_value_iff in H as [->|[Z1 Z2]]; [rewrite E; apply same_value_refl|].
    apply flip_zero in Z2.
    assert (Zg : forall x, is_zero x -> is_zero (g x)).
    { apply a_zero_is in N. intros x [[|] ->]; [|exact N]. change (is_zero (g (fneg fzero))). rewrite Hg. destruct N as [t ->]. eexists. reflexivity. }
    apply same_value_iff. right. split; [now apply Zg|]. destruct (Zg v Z2) as [t ->]. destruct s; eexists; reflexivity.
Qed.

Lemma parity_den : forall w flips rho rho', sign_change flips rho rho' ->
  (forall e s, parity w flips rho e s -> forall v, den w rho e = Some v ->
     exists v', den w rho' e = Some v' /\ same_value v' (flip s v)) /\
  (forall l s, parity_all w flips rho l s -> forall vs, den_all w rho l = Some vs ->
     exists vs', den_all w rho' l = Some vs' /\ Forall2 (fun v v' => same_value v' (flip s v)) vs vs').
Proof.
  intros w flips rho rho' Hr.
  assert (Two : forall s t l r v, (forall v, den w rho l = Some v -> exists v', den w rho' l = Some v' /\ same_value v' (flip s v)) ->
    (forall v, den w rho r = Some v -> exists v', den w rho' r = Some v' /\ same_value v' (flip t v)) ->
    forall op, den w rho (BinOp op l r) = Some v ->
    exists a b a' b', den w rho l = Some a /\ den w rho r = Some b /\ den w rho' l = Some a' /\ den w rho' r = Some b' /\
      same_value a' (flip s a) /\ same_value b' (flip t b)).
  { intros s t l r v Hl Hrr op H. cbn [den] in H. destruct (den w rho l) as [a|] eqn:El; [|discriminate H].
    destruct (den w rho r) as [b|] eqn:Er; [|discriminate H].
    destruct (Hl a eq_refl) as [a' [Ea' Sa]]. destruct (Hrr b eq_refl) as [b' [Eb' Sb]]. exists a, b, a', b'. auto 10. }
  assert (One : forall s a v (f : function), (forall v, den w rho a = Some v -> exists v', den w rho' a = Some v' /\ same_value v' (flip s v)) ->
    den w rho (Call f [a]) = Some v ->
    exists u u', den w rho a = Some u /\ den w rho' a = Some u' /\ same_value u' (flip s u) /\ call_function w f [u] = Val v /\
      den w rho' (Call f [a]) = oval (call_function w f [u'])).
  { intros s a v f Ha H. rewrite den_one_arg in H. destruct (den w rho a) as [u|] eqn:Eu; [|discriminate H].
    destruct (Ha u eq_refl) as [u' [Eu' Su]]. exists u, u'. rewrite den_one_arg, Eu'. apply oval_val in H. auto. }
  assert (NZ : forall e v, not_zero w rho e -> den w rho e = Some v -> ~ a_zero v) by (intros e v N E; apply N; now apply den_means).
  apply parity_mutind.
  - intros e U v H. exists v. split; [exact (untouched_den w flips rho rho' Hr e U v H)|apply same_value_refl].
  - intros z s Z v H. cbn [den] in *. exists v. split; [exact H|]. injection H as <-. apply a_zero_is in Z.
    apply same_value_iff. right. split; [exact Z|]. destruct Z as [t ->]. destruct s; eexists; reflexivity.
  - intros x v H. cbn [den] in *. exists (flip (flips x) v). split; [exact (Hr x v H)|apply same_value_refl].
  - intros a b s _ Ha _ Hb v H. destruct (Two s s a b v Ha Hb Plus H) as (x & y & x' & y' & E1 & E2 & E3 & E4 & S1 & S2).
    cbn [den] in *. rewrite E1, E2 in H. rewrite E3, E4. cbn [obind] in *. injection H as <-. eexists. split; [reflexivity|].
    eapply same_trans; [apply fadd_same; eauto|]. apply same_sym, flip_add.
  - intros a b s _ Ha _ Hb v H. destruct (Two s s a b v Ha Hb Minus H) as (x & y & x' & y' & E1 & E2 & E3 & E4 & S1 & S2).
    cbn [den] in *. rewrite E1, E2 in H. rewrite E3, E4. cbn [obind] in *. injection H as <-. eexists. split; [reflexivity|].
    eapply same_trans; [apply fsub_same; eauto|]. apply same_sym, flip_sub.
  - intros a b s t _ Ha _ Hb v H. destruct (Two s t a b v Ha Hb Times H) as (x & y & x' & y' & E1 & E2 & E3 & E4 & S1 & S2).
    cbn [den] in *. rewrite E1, E2 in H. rewrite E3, E4. cbn [obind] in *. injection H as <-. eexists. split; [reflexivity|].
    rewrite <- flip_mul. now apply fmul_same.
  - intros a b s t _ Ha _ Hb N v H. destruct (Two s t a b v Ha Hb Divide H) as (x & y & x' & y' & E1 & E2 & E3 & E4 & S1 & S2).
    pose proof (flip_not_zero t y y' S2 (NZ b y N E2)) as ->.
    cbn [den] in *. rewrite E1, E2 in H. rewrite E3, E4. cbn [obind] in *. injection H as <-. eexists. split; [reflexivity|].
    rewrite <- flip_div. now apply fdiv_same.
  - intros a b s t _ Ha _ Hb v H. destruct (Two s t a b v Ha Hb Modulo H) as (x & y & x' & y' & E1 & E2 & E3 & E4 & S1 & S2).
    cbn [den] in *. rewrite E1, E2 in H. rewrite E3, E4. cbn [obind] in *. injection H as <-. eexists. split; [reflexivity|].
    rewrite <- (flip_rem s t). now apply frem_same.
  - intros a s _ Ha v H. cbn [den] in *. destruct (den w rho a) as [x|]; [|discriminate H]. cbn [obind] in H. injection H as <-.
    destruct (Ha x eq_refl) as [x' [E S]]. exists x'. rewrite E. auto.
  - intros a s _ Ha v H. cbn [den] in *. destruct (den w rho a) as [x|]; [|discriminate H]. cbn [obind] in H. injection H as <-.
    destruct (Ha x eq_refl) as [x' [E S]]. exists (fneg x'). rewrite E. split; [reflexivity|].
    replace (flip s (fneg x)) with (fneg (flip s x)) by now destruct s. now apply fneg_same.
  - intros a _ Ha v H. cbn [den] in *. destruct (den w rho a) as [x|]; [|discriminate H]. cbn [obind] in H. injection H as <-.
    destruct (Ha x eq_refl) as [x' [E S]]. exists (factorial x'). rewrite E. split; [reflexivity|]. now apply factorial_same.
  - intros a b s y _ Ha U M E v H. apply den_means in M. cbn [den] in *. destruct (den w rho a) as [x|]; [|discriminate H]. rewrite M in H.
    cbn [obind] in H. injection H as <-. destruct (Ha x eq_refl) as [x' [Ex S]].
    exists (l_powf w x' y). rewrite Ex, (untouched_den w flips rho rho' Hr b U y M). split; [reflexivity|]. cbn [flip].
    assert (K : l_powf w (flip s x) y = l_powf w x y) by (destruct s; cbn [flip]; auto).
    apply same_value_iff in S as [->|[Z1 Z2]]; [rewrite K; apply same_value_refl|]. rewrite <- K.
    assert (Zz : forall z, is_zero z -> l_powf w z y = l_powf w fzero y).
    { intros z [[|] ->]; [|reflexivity]. exact (E fzero). }
    rewrite (Zz _ Z1), (Zz _ Z2). apply same_value_refl.
  - intros a b s y _ Ha U M E N v H. apply den_means in M. cbn [den] in *. destruct (den w rho a) as [x|] eqn:Ea; [|discriminate H]. rewrite M in H.
    cbn [obind] in H. injection H as <-. destruct (Ha x eq_refl) as [x' [Ex S]].
    exists (l_powf w x' y). rewrite Ex, (untouched_den w flips rho rho' Hr b U y M). split; [reflexivity|].
    apply (odd_same (fun z => l_powf w z y)); auto. destruct N as [N|N]; [left; exact (NZ a x N Ea)|now right].
  - intros a b _ Ha _ Hb N1 N2 v H. destruct (Two false false a b v Ha Hb Power H) as (x & y & x' & y' & E1 & E2 & E3 & E4 & S1 & S2).
    pose proof (flip_not_zero false x x' S1 (NZ a x N1 E1)) as ->. pose proof (flip_not_zero false y y' S2 (NZ b y N2 E2)) as ->.
    cbn [den] in *. rewrite E1, E2 in H. rewrite E3, E4. cbn [obind flip] in *. exists v. split; [exact H|apply same_value_refl].
  - intros a s _ Ha v H. destruct (One s a v _ Ha H) as (u & u' & E1 & E2 & S & E3 & E4). unfold call. rewrite E4.
    cbn in E3. injection E3 as <-. exists (fabs u'). split; [reflexivity|]. cbn [flip]. rewrite (fabs_same u' (flip s u) S).
    replace (fabs (flip s u)) with (fabs u) by (destruct s; cbn [flip]; [now rewrite fabs_fneg|reflexivity]). apply same_value_refl.
  - intros f a s Hf _ Ha v H. destruct (One s a v _ Ha H) as (u & u' & E1 & E2 & S & E3 & E4). unfold call. rewrite E4.
    destruct f; try discriminate Hf; cbn in E3; injection E3 as <-; eexists; (split; [reflexivity|]).
    + apply odd_same; auto; [apply round_neg|]. right. left. reflexivity.
    + apply odd_same; auto; [apply trunc_neg|]. right. left. reflexivity.
    + eapply same_trans; [apply ffract_same; exact S|]. destruct s; cbn [flip]; [apply fract_neg|apply same_value_refl].
  - intros a s _ Ha N v H. destruct (One s a v _ Ha H) as (u & u' & E1 & E2 & S & E3 & E4). unfold call. rewrite E4.
    change (Val (frecip u) = Val v) in E3. injection E3 as <-. exists (frecip u'). split; [reflexivity|]. apply (odd_same frecip); auto.
    + intro x. exact (div_by_neg fone x).
    + left. exact (NZ a u N E1).
  - intros args s _ Ha v H. unfold call in *. rewrite den_call in *. destruct (den_all w rho args) as [vs|]; [|discriminate H].
    destruct (Ha vs eq_refl) as [vs' [E S]]. rewrite E. cbn in H |- *. injection H as <-. eexists. split; [reflexivity|].
    apply sum_flip; [exact S|]. apply same_value_iff. right. split; [destruct (sum_neg_zero w); eexists; reflexivity|].
    destruct (sum_neg_zero w), s; eexists; reflexivity.
  - intros args s _ Ha v H. unfold call in *. rewrite den_call in *. destruct (den_all w rho args) as [vs|]; [|discriminate H].
    destruct (Ha vs eq_refl) as [vs' [E S]]. rewrite E. cbn [obind oval call_function call_ptr builtin_function fn_ptr call_builtin] in H |- *.
    injection H as <-. eexists. split; [reflexivity|].
    assert (Len : List.length vs' = List.length vs) by (clear - S; induction S; cbn; auto). rewrite Len.
    pose proof (flip_div s false (sum_f64 w vs) (f64_of_Z (Z.of_nat (List.length vs)))) as K. rewrite xorb_false_r in K. cbn [flip] in K. rewrite <- K.
    apply fdiv_same; [|reflexivity]. apply sum_flip; [exact S|]. apply same_value_iff. right. split; [destruct (sum_neg_zero w); eexists; reflexivity|].
    destruct (sum_neg_zero w), s; eexists; reflexivity.
  - intros f a s E _ Ha v H. destruct (One s a v _ Ha H) as (u & u' & E1 & E2 & S & E3 & E4). rewrite E4.
    exists v. split; [|apply same_value_refl]. apply oval_val. rewrite <- E3.
    assert (K : call_function w f [flip s u] = call_function w f [u]) by (destruct s; cbn [flip]; auto).
    apply same_value_iff in S as [->|[Z1 Z2]]; [exact K|]. rewrite <- K.
    assert (Zz : forall z, is_zero z -> call_function w f [z] = call_function w f [fzero]).
    { intros z [[|] ->]; [|reflexivity]. exact (E fzero). }
    now rewrite (Zz _ Z1), (Zz _ Z2).
  - intros f a s E N _ Ha v H. destruct (One s a v _ Ha H) as (u & u' & E1 & E2 & S & E3 & E4). rewrite E4.
    assert (K : call_function w f [flip s u] = Val (flip s v)) by (destruct s; cbn [flip]; auto).
    destruct N as [N|[z [Z0 Z]]].
    + rewrite (flip_not_zero s u u' S (NZ a u N E1)), K. eexists. split; [reflexivity|apply same_value_refl].
    + apply same_value_iff in S as [->|[Z1 Z2]]; [rewrite K; eexists; split; [reflexivity|apply same_value_refl]|].
      apply flip_zero in Z2. apply a_zero_is in Z.
      assert (Zg : forall x, is_zero x -> exists r, call_function w f [x] = Val r /\ is_zero r).
      { intros x [[|] ->]; [|now exists z]. exists (fneg z). split; [exact (E fzero z Z0)|]. destruct Z as [t ->]. eexists. reflexivity. }
      destruct (Zg u' Z1) as [r [Er Zr]]. rewrite Er. exists r. split; [reflexivity|].
      destruct (Zg u Z2) as [r2 [Er2 Zr2]]. rewrite E3 in Er2. injection Er2 as <-.
      apply same_value_iff. right. split; [exact Zr|]. destruct Zr2 as [t ->]. destruct s; eexists; reflexivity.
  - intros f args Hf _ Ha v H. unfold call in *. rewrite den_call in *. destruct (den_all w rho args) as [vs|]; [|discriminate H].
    destruct (Ha vs eq_refl) as [vs' [E S]]. rewrite E. cbn [obind flip] in *.
    assert (S' : Forall2 same_value vs vs') by (clear - S; induction S; constructor; auto; now apply same_sym).
    pose proof (call_same w f vs vs' Hf S') as O. rewrite H in O.
    destruct (oval (call_function w (builtin_function f) vs')) as [v'|]; [|contradiction]. exists v'. split; [reflexivity|now apply same_sym].
  - intros f args _ Ha N v H. rewrite den_call in *. destruct (den_all w rho args) as [vs|] eqn:Ev; [|discriminate H].
    destruct (Ha vs eq_refl) as [vs' [E S]]. rewrite E. exists v. split; [|apply same_value_refl].
    assert (vs' = vs) as ->; [|exact H].
    clear - NZ N S Ev. revert args N Ev. induction S as [|x y l m Hxy S IH]; intros args N Ev; [reflexivity|].
    destruct args as [|a args]; [discriminate Ev|]. cbn [den_all] in Ev. inversion N as [|? ? Na Nl]; subst.
    destruct (den w rho a) as [u|] eqn:Ea; [|discriminate Ev]. destruct (den_all w rho args) as [us|] eqn:Eu; [|discriminate Ev].
    cbn [obind] in Ev. injection Ev as <- <-. rewrite (IH args Nl Eu). f_equal. exact (flip_not_zero false u y Hxy (NZ a u Na Ea)).
  - intros s vs H. cbn [den_all] in *. injection H as <-. exists []. split; [reflexivity|constructor].
  - intros a args s _ Ha _ Hl vs H. cbn [den_all] in *. destruct (den w rho a) as [u|]; [|discriminate H].
    destruct (den_all w rho args) as [us|]; [|discriminate H]. cbn [obind] in H. injection H as <-.
    destruct (Ha u eq_refl) as [u' [E S]]. destruct (Hl us eq_refl) as [us' [E' S']]. rewrite E, E'. exists (u' :: us'). split; [reflexivity|constructor; auto].
Qed.

(** ** C83 *)
(** Changing the signs of the variables changes the sign of the result as the
    rules of signs say, and nothing else. *)
Theorem C83_signs : forall w x flips rho rho' s v,
  parity w flips (lookup rho) (root x) s ->
  sign_change flips (lookup rho) (lookup rho') ->
  eval w x rho = Val (Eval_ok v) ->
  exists v', eval w x rho' = Val (Eval_ok v') /\ mirrored s v v'.
Proof.
  intros w x flips rho rho' s v P Hr E. apply C21_eval_is_meaning, den_means in E.
  destruct (proj1 (parity_den w flips _ _ Hr) _ _ P v E) as [v' [E' S]]. exists v'.
  split; [apply C21_eval_is_meaning; now apply den_means|now apply mirrored_same].
Qed.

(** The values of an even expression at the two places are equal by [==], those
    of an odd one equal but for the sign; both are NaN or none is. *)
Theorem C83_compared : forall w x flips rho rho' s v v',
  parity w flips (lookup rho) (root x) s ->
  sign_change flips (lookup rho) (lookup rho') ->
  eval w x rho = Val (Eval_ok v) -> eval w x rho' = Val (Eval_ok v') ->
  is_nan v' = is_nan v /\ (is_nan v = false -> feq v' (if s then fneg v else v) = true /\ fabs v' = fabs v).
Proof.
  intros w x flips rho rho' s v v' P Hr E E'. destruct (C83_signs w x flips rho rho' s v P Hr E) as [u [Eu M]].
  rewrite E' in Eu. injection Eu as <-. apply mirrored_same in M. fold (flip s v).
  assert (Nn : is_nan (flip s v) = is_nan v) by (destruct s; cbn [flip]; [destruct v; reflexivity|reflexivity]).
  assert (Fa : fabs (flip s v) = fabs v) by (destruct s; cbn [flip]; [apply fabs_fneg|reflexivity]).
  split; [rewrite <- Nn; now apply same_nan|]. intro N. split; [|rewrite <- Fa; now apply fabs_same].
  destruct M as [M|[_ M]]; [exact M|]. rewrite Nn, N in M. discriminate M.
Qed.

(** ** Examples *)
Definition all_change : string -> bool := fun _ => true.
Lemma one_changed : forall v, sign_change all_change (lookup [("x"%string, v)]) (lookup [("x"%string, fneg v)]).
Proof.
  intros v z u. unfold lookup, all_change. cbn [sget]. destruct (String.eqb _ _); [|discriminate]. intros [= <-]. reflexivity.
Qed.
Lemma one_plus_abs : forall v, ~ a_zero (fadd fone (fabs v)).
Proof.
  intros v H. apply a_zero_is in H. destruct H as [t H]. pose proof value_is_fone as [F1 V1].
  assert (C : forall a : f64, is_finite a = true -> 0 <= B2R a -> fadd fone a = B754_zero t -> False).
  { intros a Fa Pa E. pose proof (toR_add fone a F1 Fa) as R0. rewrite E, V1 in R0. cbn [toR B2R] in R0.
    assert (L : clamp (rnd64 1) <= clamp (rnd64 (1 + B2R a))) by (apply clamp_le, rnd64_le; lra).
    assert (G : rnd64 1 = 1) by (rewrite <- V1; apply round_generic; [typeclasses eauto|apply format_f64]).
    rewrite G, clamp_id in L; [lra|]. rewrite Rabs_pos_eq by lra. change 1 with (bpow radix2 0). apply bpow_lt. reflexivity. }
  destruct (is_finite v) eqn:Fv.
  - apply (C (fabs v)); auto; unfold fabs; [now rewrite is_finite_Babs|rewrite B2R_Babs; apply Rabs_pos].
  - destruct v; try discriminate Fv; discriminate H.
Qed.

(** Two curves: the first is odd, the second even, at every f64 whatsoever. *)
Theorem C83_example : exists e1 e2,
  parse plain_config w0 ctx_default "x*x*x - 3*x + round(x) / (1 + abs(x))" = Parse_ok e1 /\
  parse plain_config w0 ctx_default "x*x/8 - max(abs(x), 2) + sqrt(1 + abs(x))" = Parse_ok e2 /\
  forall w v r1 r2,
    eval w e1 [("x"%string, v)] = Val (Eval_ok r1) -> eval w e2 [("x"%string, v)] = Val (Eval_ok r2) ->
    exists r1' r2', eval w e1 [("x"%string, fneg v)] = Val (Eval_ok r1') /\ mirrored true r1 r1' /\
      eval w e2 [("x"%string, fneg v)] = Val (Eval_ok r2') /\ mirrored false r2 r2'.
Proof.
  set (x := Var "x"). set (d := BinOp Plus (Number fone) (call B_ABS [x])).
  set (t1 := BinOp Plus (BinOp Minus (BinOp Times (BinOp Times x x) x) (BinOp Times (Number (lit "3")) x)) (BinOp Divide (call B_ROUND [x]) d)).
  set (t2 := BinOp Plus (BinOp Minus (BinOp Divide (BinOp Times x x) (Number (lit "8"))) (call B_MAX [call B_ABS [x]; Number (lit "2")])) (call B_SQRT [d])).
  destruct (parses_to (parse plain_config w0 ctx_default "x*x*x - 3*x + round(x) / (1 + abs(x))") t1) as [e1 [Hp1 Hr1]]; [vm_compute; reflexivity|].
  destruct (parses_to (parse plain_config w0 ctx_default "x*x/8 - max(abs(x), 2) + sqrt(1 + abs(x))") t2) as [e2 [Hp2 Hr2]]; [vm_compute; reflexivity|].
  exists e1, e2. split; [exact Hp1|]. split; [exact Hp2|]. clear Hp1 Hp2. intros w v r1 r2 E1 E2.
  set (rho := lookup [("x"%string, v)]).
  assert (X : parity w all_change rho x true) by apply (P_var w all_change rho "x").
  assert (N : forall n, parity w all_change rho (Number n) false) by (intro n; apply P_untouched; intros z Hz; inversion Hz).
  assert (A : parity w all_change rho (call B_ABS [x]) false) by (apply P_abs with true; exact X).
  assert (D : parity w all_change rho d false) by (apply P_plus; auto).
  assert (XX : parity w all_change rho (BinOp Times x x) false) by exact (P_times w all_change rho x x true true X X).
  assert (ND : not_zero w rho d).
  { intros u M. apply den_means in M. change (Some (fadd fone (fabs v)) = Some u) in M. injection M as <-. apply one_plus_abs. }
  assert (P1 : parity w all_change rho (root e1) true).
  { rewrite Hr1. apply P_plus; [apply P_minus|].
    - exact (P_times w all_change rho _ x false true XX X).
    - exact (P_times w all_change rho _ x false true (N _) X).
    - apply (P_divide w all_change rho _ d true false); auto. now apply P_cut_off. }
  assert (P2 : parity w all_change rho (root e2) false).
  { rewrite Hr2. apply P_plus; [apply P_minus|].
    - apply (P_divide w all_change rho _ _ false false); auto. intros u M. inversion M; subst. intros [H|H]; apply (f_equal B2SF) in H; vm_compute in H; discriminate H.
    - apply P_blind; [reflexivity|]. repeat (apply PA_cons; auto). apply PA_nil.
    - apply P_blind; [reflexivity|]. repeat (apply PA_cons; auto). apply PA_nil. }
  destruct (C83_signs _ _ _ _ _ _ _ P1 (one_changed v) E1) as [r1' [F1 M1]].
  destruct (C83_signs _ _ _ _ _ _ _ P2 (one_changed v) E2) as [r2' [F2 M2]]. exists r1', r2'. auto.
Qed.

(** Without the conditions on zeros it is false, and floor, ceil and gamma-like
    functions have no parity. *)
Theorem C83_limits_refuted : Forall counterexample
  [ ("1 / (x + y)", "-(1 / (-x + -y))", [("x", lit "1"); ("y", fneg (lit "1"))]);
    ("recip(x - y)", "-recip(-x - -y)", [("x", lit "2"); ("y", lit "2")]);
    ("floor(x)", "-floor(-x)", [("x", lit "2.5")]);
    ("ceil(x)", "-ceil(-x)", [("x", lit "2.5")]);
    ("max(x, y)", "-max(-x, -y)", [("x", lit "2"); ("y", lit "3")]) ]%string.
Proof.
  apply Forall_forall. intros t Ht. apply counter_check_spec. revert t Ht. apply forallb_forall. vm_compute. reflexivity.
Qed.
