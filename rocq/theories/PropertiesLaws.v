(** * C73: rearrangements that do not change the result *)
From Coq Require Import ZArith List String Bool Reals Lra Lia Permutation.
From Flocq Require Import Core BinarySingleNaN.
From Verif Require Import F64 Syntax Factorial Builtins Context Parser Xprs FloatFacts SpecParse SpecTree SpecApi SpecLaws.
From Verif Require Import TreeFacts PropertiesEval PropertiesEq RegularFacts MonotoneFacts SpecialFacts PropertiesOptimise LawsFacts PropertiesError TestWorld.
Import ListNotations.
Local Open Scope R_scope.

(** ** The value of an expression as a function *)
Section D.
  Variable w : world.
  Variable rho : string -> option f64.
  Definition obind {A B} (x : option A) (f : A -> option B) : option B := match x with Some a => f a | None => None end.
  Definition oval (x : out f64) : option f64 := match x with Val v => Some v | Boom _ => None end.
  Fixpoint den (e : element) : option f64 :=
    match e with
    | Number n => Some n
    | Var x => rho x
    | BinOp op l r => obind (den l) (fun a => obind (den r) (fun b =>
        match op with
        | Plus => Some (fadd a b) | Minus => Some (fsub a b) | Times => Some (fmul a b) | Divide => Some (fdiv a b)
        | Power => Some (l_powf w a b) | Modulo => Some (frem a b) | Factorial => None
        end))
    | UnOp op a => obind (den a) (fun v =>
        match op with Plus => Some v | Minus => Some (fneg v) | Factorial => Some (factorial v) | _ => None end)
    | Call f args => obind ((fix den_all l := match l with [] => Some [] | a :: l => obind (den a) (fun v => obind (den_all l) (fun vs => Some (v :: vs))) end) args)
        (fun vs => oval (call_function w f vs))
    end.
  Fixpoint den_all (l : list element) : option (list f64) :=
    match l with [] => Some [] | a :: l => obind (den a) (fun v => obind (den_all l) (fun vs => Some (v :: vs))) end.
  Lemma den_call : forall f args, den (Call f args) = obind (den_all args) (fun vs => oval (call_function w f vs)).
  Proof. intros f args. cbn [den]. f_equal. Qed.

  Lemma den_means : forall e v, den e = Some v <-> means w rho e v.
  Proof.
    induction e as [n|op l r IHl IHr|op e IHe|f args Hargs|y] using element_ind'; intro v.
    - cbn. split; intro H; [injection H as <-; constructor|now inversion H].
    - cbn [den]. split.
      + destruct (den l) as [a|] eqn:El; [|discriminate]. destruct (den r) as [b|] eqn:Er; [|discriminate]. cbn [obind].
        pose proof (proj1 (IHl a) eq_refl). pose proof (proj1 (IHr b) eq_refl).
        destruct op; intro H1; try discriminate H1; injection H1 as <-; constructor; auto.
      + intro H. inversion H; subst; match goal with Hl : means w rho l ?a, Hr : means w rho r ?b |- _ =>
          apply (proj2 (IHl a)) in Hl; apply (proj2 (IHr b)) in Hr; rewrite Hl, Hr; reflexivity end.
    - cbn [den]. split.
      + destruct (den e) as [a|] eqn:El; [|discriminate]. cbn [obind]. pose proof (proj1 (IHe a) eq_refl).
        destruct op; intro H1; try discriminate H1; injection H1 as <-; constructor; auto.
      + intro H. inversion H; subst; match goal with Hl : means w rho e ?a |- _ =>
          apply (proj2 (IHe a)) in Hl; rewrite Hl; reflexivity end.
    - assert (A : forall vs, den_all args = Some vs <-> means_all w rho args vs).
      { induction args as [|a args IH]; intro vs; cbn [den_all].
        - split; intro H; [injection H as <-; constructor|now inversion H].
        - inversion Hargs as [|? ? Ha Hl]; subst. specialize (IH Hl). split.
          + destruct (den a) as [u|] eqn:Ea; [|discriminate]. destruct (den_all args) as [us|] eqn:El; [|discriminate].
            cbn [obind]. intro H. injection H as <-. constructor; [now apply Ha|now apply IH].
          + intro H. inversion H; subst.
            match goal with H1 : means w rho a ?u, H2 : means_all w rho args ?us |- _ => apply (proj2 (Ha u)) in H1; apply (proj2 (IH us)) in H2; rewrite H1, H2; reflexivity end. }
      rewrite den_call. split.
      + destruct (den_all args) as [vs|] eqn:E; [|discriminate]. cbn [obind]. destruct (call_function w f vs) as [u|] eqn:Ec; [|discriminate].
        cbn [oval]. intro H. injection H as <-. econstructor; [apply A; reflexivity|exact Ec].
      + intro H. inversion H; subst. match goal with H1 : means_all w rho args ?us |- _ => apply A in H1; rewrite H1 end.
        cbn [obind]. match goal with H1 : call_function w f _ = _ |- _ => rewrite H1 end. reflexivity.
    - cbn. split; intro H; [now constructor|now inversion H].
  Qed.

  Lemma den_one : forall b a (g : f64 -> f64), (forall v, call_function w (builtin_function b) [v] = Val (g v)) ->
    den (call b [a]) = obind (den a) (fun v => Some (g v)).
  Proof. intros b a g H. unfold call. rewrite den_call. cbn [den_all]. destruct (den a) as [v|]; cbn [obind]; auto. now rewrite H. Qed.
  Lemma den_all_app : forall l m, den_all (l ++ m) = obind (den_all l) (fun vs => obind (den_all m) (fun us => Some (vs ++ us))).
  Proof.
    induction l as [|a l IH]; intro m; cbn [den_all app].
    - cbn [obind]. now destruct (den_all m).
    - rewrite IH. destruct (den a); cbn [obind]; auto. destruct (den_all l); cbn [obind]; auto. now destruct (den_all m).
  Qed.
  Lemma den_all_neg : forall l, den_all (map neg l) = obind (den_all l) (fun vs => Some (map fneg vs)).
  Proof.
    induction l as [|a l IH]; cbn [den_all map]; auto. rewrite IH. unfold neg at 1. cbn [den].
    destruct (den a); cbn [obind]; auto. now destruct (den_all l).
  Qed.
  Lemma den_all_length : forall l vs, den_all l = Some vs -> List.length vs = List.length l.
  Proof.
    induction l as [|a l IH]; intros vs H; cbn [den_all] in H; [now injection H as <-|].
    destruct (den a); [|discriminate]. destruct (den_all l) as [us|]; [|discriminate]. cbn [obind] in H. injection H as <-. cbn. f_equal. now apply IH.
  Qed.

  Ltac d x := let E := fresh "E" in destruct (den x) as [?|] eqn:E; cbn [obind]; auto.
  Ltac ones := repeat (first [rewrite (den_one B_ABS _ fabs) by reflexivity | rewrite (den_one B_FLOOR _ ffloor) by reflexivity
    | rewrite (den_one B_CEIL _ fceil) by reflexivity | rewrite (den_one B_TRUNC _ ftrunc) by reflexivity
    | rewrite (den_one B_ROUND _ fround) by reflexivity | rewrite (den_one B_FRACT _ ffract) by reflexivity
    | rewrite (den_one B_RECIP _ frecip) by reflexivity | rewrite (den_one B_SQRT _ fsqrt) by reflexivity
    | rewrite (den_one B_LN _ (l_ln w)) by reflexivity | rewrite (den_one B_FACTORIAL _ factorial) by reflexivity]).

  Lemma exact_law_den : forall a b, exact_law a b -> den a = den b.
  Proof.
    intros a b H. destruct H; unfold neg; cbn [den]; ones; cbn [den]; ones.
    - d a.
    - d a. f_equal. apply fneg_fneg.
    - d a. d b. f_equal. apply fsub_fadd.
    - d a. d b. f_equal. apply mul_neg.
    - d a. d b. f_equal. apply div_neg.
    - d a. d b. f_equal. apply div_by_neg.
    - d a. d b. f_equal. apply frem_neg_l.
    - d a. d b. f_equal. apply frem_neg_r.
    - d a; d b. f_equal. apply fadd_comm.
    - d a; d b. f_equal. apply fmul_comm.
    - d a. rewrite (value_is_one n) by auto. f_equal. apply mul_one.
    - d a. rewrite (value_is_one n) by auto. f_equal. apply div_one.
    - d a. f_equal. apply sub_zero.
    - d a. f_equal. now apply double.
    - d a. f_equal. now apply triple.
    - d a. f_equal. now apply (scale _ m n k).
    - d a. d b. f_equal. apply frem_frem.
    - d a. f_equal. apply fabs_fneg.
    - d a. f_equal. apply fabs_fabs.
    - d a. d b. f_equal. apply fabs_mul.
    - d a. d b. f_equal. apply fabs_div.
    - d a. d b. f_equal. apply fabs_frem.
    - d a; d b. f_equal. rewrite <- fabs_fneg. apply fabs_same, sub_neg.
    - rewrite (den_one f _ (Bnearbyint (md_of f))), (den_one g _ (Bnearbyint (md_of g))) by (intro; now apply call_rounding).
      d a. f_equal. apply nearbyint_twice.
    - d a. f_equal. apply floor_neg.
    - d a. f_equal. apply trunc_neg.
    - d a. f_equal. apply round_neg.
    - d a.
    - d a. rewrite (value_is_one n) by auto. reflexivity.
    - d a.
    - unfold call at 1. rewrite den_call. cbn [den_all]. d a. d b.
    - unfold call. rewrite !den_call, den_all_app. destruct (den_all args) as [vs|]; cbn [obind]; auto. cbn [den_all]. d a.
      cbn [oval call_function call_ptr builtin_function fn_ptr call_builtin]. f_equal. unfold sum_f64. now rewrite fold_left_app.
    - unfold call. rewrite !den_call. destruct (den_all args) as [vs|] eqn:Ea; cbn [obind]; auto.
      cbn [oval call_function call_ptr builtin_function fn_ptr call_builtin obind]. f_equal.
      rewrite (den_all_length _ _ Ea). set (k := List.length args) in *.
      destruct (f64_of_Z_small (Z.of_nat k) ltac:(lia)) as [E1 F1].
      destruct (Nat.eq_dec k 0) as [K|K].
      + rewrite K in *. destruct args; [|discriminate K]. cbn in Ea. injection Ea as <-. destruct H0 as [Fn En]. cbn in En.
        destruct n as [t|t| |t m e B]; try discriminate; [|now elim (finite_nonzero t m e B)]. unfold sum_f64. cbn [fold_left].
        destruct (sum_neg_zero w); reflexivity.
      + f_equal. apply (value_is_inj _ _ (INR k)); auto; [split; [exact F1|rewrite E1; symmetry; apply INR_IZR_INZ]|]. now apply not_0_INR.
    - unfold call. rewrite !den_call, den_all_app. cbn [den_all]. rewrite den_call. destruct (den_all args) as [vs|]; cbn [obind oval call_function call_ptr builtin_function fn_ptr call_builtin]; auto.
      d a. cbn [oval call_function call_ptr builtin_function fn_ptr call_builtin]. f_equal. rewrite fold_left_app. cbn [fold_left].
      now rewrite min_inf_l by (now apply min_start).
    - unfold call. rewrite !den_call, den_all_neg. destruct (den_all args) as [vs|]; cbn [obind oval call_function call_ptr builtin_function fn_ptr call_builtin]; auto.
      f_equal. apply max_min_fold.
  Qed.
End D.

Scheme exactly_ind2 := Induction for exactly Sort Prop
with exactly_all_ind2 := Induction for exactly_all Sort Prop.
Combined Scheme exactly_mutind from exactly_ind2, exactly_all_ind2.
Scheme but_for_zero_ind2 := Induction for but_for_zero Sort Prop
with but_for_zero_all_ind2 := Induction for but_for_zero_all Sort Prop.
Combined Scheme but_for_zero_mutind from but_for_zero_ind2, but_for_zero_all_ind2.

Lemma exactly_den : forall w rho,
  (forall a b, exactly a b -> den w rho a = den w rho b) /\
  (forall l m, exactly_all l m -> den_all w rho l = den_all w rho m).
Proof.
  intros w rho. apply exactly_mutind; auto; try congruence.
  - intros a b H. now apply exact_law_den.
  - intros op l l' r r' _ H1 _ H2. cbn [den]. now rewrite H1, H2.
  - intros op a a' _ H. cbn [den]. now rewrite H.
  - intros f args args' _ H. now rewrite !den_call, H.
  - intros a a' l l' _ H1 _ H2. cbn [den_all]. now rewrite H1, H2.
Qed.

(** ** Up to the sign of zero *)
Definition osame (x y : option f64) : Prop :=
  match x, y with Some u, Some v => same_value u v | None, None => True | _, _ => False end.
Definition osame_all (x y : option (list f64)) : Prop :=
  match x, y with Some u, Some v => Forall2 same_value u v | None, None => True | _, _ => False end.
Lemma osame_refl : forall x, osame x x. Proof. intros [v|]; cbn; auto. apply same_value_refl. Qed.
Lemma osame_sym : forall x y, osame x y -> osame y x. Proof. intros [v|] [u|]; cbn; auto. apply same_sym. Qed.
Lemma osame_trans : forall x y z, osame x y -> osame y z -> osame x z.
Proof. intros [v|] [u|] [t|]; cbn; auto; try contradiction. apply same_trans. Qed.

Lemma call_same : forall w b vs us, zero_blind b = true -> Forall2 same_value vs us ->
  osame (oval (call_function w (builtin_function b) vs)) (oval (call_function w (builtin_function b) us)).
Proof.
  intros w b vs us Hb H.
  assert (One : forall g, (forall x y, same_value x y -> same_value (g x) (g y)) -> osame (oval (wrap1 g vs)) (oval (wrap1 g us))).
  { intros g Hg. destruct H; cbn; auto. }
  assert (Len : List.length vs = List.length us) by (clear - H; induction H; cbn; auto).
  destruct b; try discriminate Hb; cbn [call_function call_ptr builtin_function fn_ptr call_builtin].
  - apply One, fsqrt_same.
  - apply One. intros x y S0. rewrite (fabs_same x y S0). apply same_value_refl.
  - apply One. intros. now apply nearbyint_same.
  - apply One. intros. now apply nearbyint_same.
  - apply One. intros. now apply nearbyint_same.
  - apply One. intros. now apply nearbyint_same.
  - cbn. apply sum_fold_same; auto. apply same_value_refl.
  - cbn [oval osame]. rewrite Len. apply fdiv_same; auto. apply sum_fold_same; auto. apply same_value_refl.
  - cbn. now apply min_fold_same.
  - cbn. now apply max_fold_same.
  - apply One, ffract_same.
  - apply One, factorial_same.
Qed.

Lemma permutation_den : forall w rho l l', Permutation l l' ->
  match den_all w rho l, den_all w rho l' with Some vs, Some us => Permutation vs us | None, None => True | _, _ => False end.
Proof.
  intros w rho l l' P. induction P as [|x l l' P IH|x y l|l1 l2 l3 P1 IH1 P2 IH2]; cbn [den_all].
  - constructor.
  - destruct (den w rho x); cbn [obind]; auto. destruct (den_all w rho l), (den_all w rho l'); cbn [obind]; auto.
  - destruct (den w rho x), (den w rho y); cbn [obind]; auto; destruct (den_all w rho l); cbn [obind]; auto. constructor.
  - destruct (den_all w rho l1), (den_all w rho l2), (den_all w rho l3); auto; try contradiction. eapply perm_trans; eauto.
Qed.

Lemma zero_law_den : forall w rho a b, zero_law a b -> osame (den w rho a) (den w rho b).
Proof.
  intros w rho a b H. destruct H; unfold neg; cbn [den];
    rewrite ?(den_one w rho B_ABS _ fabs), ?(den_one w rho B_SQRT _ fsqrt), ?(den_one w rho B_FRACT _ ffract) by reflexivity; cbn [den].
  - rewrite (proj1 (exactly_den w rho) _ _ H). apply osame_refl.
  - destruct (den w rho a); cbn; auto. apply fadd_zero_r. now exists false.
  - destruct (den w rho a), (den w rho b); cbn; auto. apply add_neg.
  - destruct (den w rho a), (den w rho b); cbn; auto. apply sub_neg.
  - destruct (den w rho a); cbn; auto. apply fabs_sqrt.
  - destruct (den w rho a); cbn; auto. apply fract_neg.
  - destruct (den w rho a); cbn; auto. rewrite (value_is_one n) by auto. apply fract_rem.
  - unfold call. rewrite den_call. cbn [den_all]. destruct (den w rho a); cbn; auto. apply fadd_zero_l. destruct (sum_neg_zero w); eexists; reflexivity.
  - unfold call. rewrite den_call. cbn [den_all]. destruct (den w rho a); cbn; auto. destruct (den w rho b); cbn; auto.
    apply fadd_same; [|apply same_value_refl]. apply fadd_zero_l. destruct (sum_neg_zero w); eexists; reflexivity.
  - unfold call. rewrite !den_call, den_all_neg. destruct (den_all w rho args) as [vs|]; cbn; auto.
    eapply same_trans; [|apply sum_fold_neg]. apply sum_fold_same; [apply Forall2_same_refl|].
    apply same_value_iff. right. destruct (sum_neg_zero w); split; eexists; reflexivity.
  - unfold call. rewrite !den_call. pose proof (permutation_den w rho _ _ H) as P.
    destruct (den_all w rho args), (den_all w rho args'); cbn; auto. now apply min_permutation.
  - unfold call. rewrite !den_call. pose proof (permutation_den w rho _ _ H) as P.
    destruct (den_all w rho args), (den_all w rho args'); cbn; auto. now apply max_permutation.
Qed.

Lemma but_for_zero_den : forall w rho,
  (forall a b, but_for_zero a b -> osame (den w rho a) (den w rho b)) /\
  (forall l m, but_for_zero_all l m -> osame_all (den_all w rho l) (den_all w rho m)).
Proof.
  intros w rho. apply but_for_zero_mutind.
  - intros a b H. now apply zero_law_den.
  - intro a. apply osame_refl.
  - intros a b _ H. now apply osame_sym.
  - intros a b c _ H1 _ H2. eapply osame_trans; eauto.
  - intros op l l' r r' Hop _ H1 _ H2. cbn [den].
    destruct (den w rho l), (den w rho l'); cbn in H1 |- *; auto; try contradiction.
    destruct (den w rho r), (den w rho r'); cbn in H2 |- *; auto; try contradiction.
    destruct Hop as [-> | [-> | [-> | ->]]]; cbn [osame]; [now apply fadd_same|now apply fsub_same|now apply fmul_same|now apply frem_same].
  - intros l l' r _ H1. cbn [den]. destruct (den w rho l), (den w rho l'); cbn in H1 |- *; auto; try contradiction.
    destruct (den w rho r); cbn; auto. now apply fdiv_same.
  - intros op a a' _ H. cbn [den]. destruct (den w rho a), (den w rho a'); cbn in H |- *; auto; try contradiction.
    destruct op; cbn; auto; [now apply fneg_same|now apply factorial_same].
  - intros b args args' Hb _ H. unfold call. rewrite !den_call.
    destruct (den_all w rho args), (den_all w rho args'); cbn [obind osame osame_all] in *; auto; try contradiction. now apply call_same.
  - constructor.
  - intros a a' l l' _ H1 _ H2. cbn [den_all].
    destruct (den w rho a), (den w rho a'); cbn in H1 |- *; auto; try contradiction.
    destruct (den_all w rho l), (den_all w rho l'); cbn in H2 |- *; auto.
Qed.

(** ** C73 *)
(** Rearranging by the exact laws never changes a result, to the last bit:
    whatever the values, the library's world of functions and the expression. *)
Theorem C73_exact_rearrangement : forall w x y, exactly (root x) (root y) ->
  forall rho v, eval w x rho = Val (Eval_ok v) <-> eval w y rho = Val (Eval_ok v).
Proof.
  intros w x y H rho v. rewrite !C21_eval_is_meaning, <- !den_means, (proj1 (exactly_den w (lookup rho)) _ _ H). reflexivity.
Qed.

(** The other laws preserve results up to the sign of zero. *)
Theorem C73_rearrangement_but_for_zero : forall w x y, but_for_zero (root x) (root y) ->
  forall rho v, eval w x rho = Val (Eval_ok v) -> exists v', eval w y rho = Val (Eval_ok v') /\ same_value v v'.
Proof.
  intros w x y H rho v E. apply C21_eval_is_meaning in E. apply den_means in E.
  pose proof (proj1 (but_for_zero_den w (lookup rho)) _ _ H) as S0. rewrite E in S0.
  destruct (den w (lookup rho) (root y)) as [v'|] eqn:E'; [|contradiction]. exists v'. split; [|exact S0].
  apply C21_eval_is_meaning. now apply den_means.
Qed.

(** A rearranged expression has the same variables. *)
Lemma occurs_neg : forall z args, (exists a, In a (map neg args) /\ occurs z a) <-> (exists a, In a args /\ occurs z a).
Proof.
  intros z args. split.
  - intros [a [Ha Hz]]. apply in_map_iff in Ha. destruct Ha as [b [<- Hb]]. inversion Hz; subst. eauto.
  - intros [a [Ha Hz]]. exists (neg a). split; [now apply in_map|]. now constructor.
Qed.
Lemma occurs_call : forall z f args, occurs z (Call f args) <-> exists a, In a args /\ occurs z a.
Proof. intros z f args. split; [intro H; inversion H; subst; eauto|intros [a [Ha Hz]]; econstructor; eauto]. Qed.
Lemma occurs_un : forall z op a, occurs z (UnOp op a) <-> occurs z a.
Proof. intros. split; [intro H; now inversion H|now constructor]. Qed.
Lemma occurs_bin : forall z op l r, occurs z (BinOp op l r) <-> occurs z l \/ occurs z r.
Proof. intros. split; [intro H; inversion H; auto|intros [H|H]; [now apply occ_binl|now apply occ_binr]]. Qed.
Lemma occurs_number : forall z n, occurs z (Number n) <-> False.
Proof. intros. split; [intro H; inversion H|contradiction]. Qed.
Lemma in_one : forall (P : element -> Prop) a, (exists b, In b [a] /\ P b) <-> P a.
Proof. intros P a. split; [intros [b [[<- |[]] H]]; auto|intro H; exists a; cbn; auto]. Qed.
Lemma in_app_one : forall (P : element -> Prop) l a, (exists b, In b (l ++ [a]) /\ P b) <-> (exists b, In b l /\ P b) \/ P a.
Proof.
  intros P l a. split.
  - intros [b [Hb Pb]]. apply in_app_iff in Hb. destruct Hb as [Hb|[<- |[]]]; eauto.
  - intros [[b [Hb Pb]]|Pa]; [exists b; rewrite in_app_iff; auto|exists a; rewrite in_app_iff; cbn; auto].
Qed.
Lemma in_two : forall (P : element -> Prop) a b, (exists c, In c [a; b] /\ P c) <-> P a \/ P b.
Proof. intros P a b. split; [intros [c [[<- |[<- |[]]] H]]; auto|intros [H|H]; [exists a|exists b]; cbn; auto]. Qed.
Ltac occ := unfold call, neg in *; repeat rewrite ?occurs_call, ?occurs_un, ?occurs_bin, ?occurs_number, ?in_one, ?in_two, ?in_app_one; try tauto.
Lemma exact_law_occurs : forall a b, exact_law a b -> forall z, occurs z a <-> occurs z b.
Proof. intros a b H z. destruct H; occ. fold neg. rewrite occurs_neg. reflexivity. Qed.
Lemma exactly_occurs :
  (forall a b, exactly a b -> forall z, occurs z a <-> occurs z b) /\
  (forall l m, exactly_all l m -> forall z, (exists a, In a l /\ occurs z a) <-> (exists a, In a m /\ occurs z a)).
Proof.
  apply exactly_mutind; try (intros; reflexivity).
  - intros a b H. now apply exact_law_occurs.
  - intros a b _ H z. now rewrite H.
  - intros a b c _ H1 _ H2 z. now rewrite H1.
  - intros op l l' r r' _ H1 _ H2 z. rewrite !occurs_bin, H1, H2. reflexivity.
  - intros op a a' _ H z. rewrite !occurs_un. apply H.
  - intros f l m _ H z. rewrite !occurs_call. apply H.
  - intros a a' l m _ H1 _ H2 z. specialize (H1 z). specialize (H2 z). split; intros [b [[<- |Hb] Hz]].
    + exists a'. cbn. tauto.
    + destruct (proj1 H2) as [c [Hc Hcz]]; [eauto|]. exists c. cbn. auto.
    + exists a. cbn. tauto.
    + destruct (proj2 H2) as [c [Hc Hcz]]; [eauto|]. exists c. cbn. auto.
Qed.
Lemma in_perm : forall (P : element -> Prop) l m, Permutation l m -> (exists b, In b l /\ P b) <-> (exists b, In b m /\ P b).
Proof. intros P l m H. split; intros [b [Hb Pb]]; exists b; (split; [|exact Pb]); [exact (Permutation_in _ H Hb)|exact (Permutation_in _ (Permutation_sym H) Hb)]. Qed.
Lemma zero_law_occurs : forall a b, zero_law a b -> forall z, occurs z a <-> occurs z b.
Proof.
  intros a b H z. destruct H; occ; try (fold neg; rewrite occurs_neg; reflexivity).
  - now apply exactly_occurs.
  - now apply in_perm.
  - now apply in_perm.
Qed.
Lemma but_for_zero_occurs :
  (forall a b, but_for_zero a b -> forall z, occurs z a <-> occurs z b) /\
  (forall l m, but_for_zero_all l m -> forall z, (exists a, In a l /\ occurs z a) <-> (exists a, In a m /\ occurs z a)).
Proof.
  apply but_for_zero_mutind; try (intros; reflexivity).
  - intros a b H. now apply zero_law_occurs.
  - intros a b _ H z. now rewrite H.
  - intros a b c _ H1 _ H2 z. now rewrite H1.
  - intros op l l' r r' _ _ H1 _ H2 z. rewrite !occurs_bin, H1, H2. reflexivity.
  - intros l l' r _ H1 z. rewrite !occurs_bin, H1. reflexivity.
  - intros op a a' _ H z. rewrite !occurs_un. apply H.
  - intros f l m _ _ H z. unfold call. rewrite !occurs_call. apply H.
  - intros a a' l m _ H1 _ H2 z. specialize (H1 z). specialize (H2 z). split; intros [b [[<- |Hb] Hz]].
    + exists a'. cbn. tauto.
    + destruct (proj1 H2) as [c [Hc Hcz]]; [eauto|]. exists c. cbn. auto.
    + exists a. cbn. tauto.
    + destruct (proj2 H2) as [c [Hc Hcz]]; [eauto|]. exists c. cbn. auto.
Qed.
Theorem C73_same_variables : forall x y, exactly (root x) (root y) \/ but_for_zero (root x) (root y) ->
  forall z, occurs z (root x) <-> occurs z (root y).
Proof. intros x y [H|H]; [now apply exactly_occurs|now apply but_for_zero_occurs]. Qed.

(** ** Rearranged texts *)
Local Open Scope string_scope.
Lemma value_2 : value_is (lit "2") 2.
Proof.
  destruct (B2R_of (lit "2") false 4503599627370496 (-51)) as [E F]; [vm_compute; reflexivity|]. split; auto. rewrite E.
  unfold F2R. cbn. lra.
Qed.
Lemma value_4 : value_is (lit "4") (bpow radix2 2).
Proof.
  destruct (B2R_of (lit "4") false 4503599627370496 (-50)) as [E F]; [vm_compute; reflexivity|]. split; auto. rewrite E.
  unfold F2R. cbn. lra.
Qed.
Lemma value_quarter : value_is (lit "0.25") (bpow radix2 (- 2)).
Proof.
  destruct (B2R_of (lit "0.25") false 4503599627370496 (-54)) as [E F]; [vm_compute; reflexivity|]. split; auto. rewrite E.
  unfold F2R. cbn. lra.
Qed.

Example C73_witness : exists x y,
  parse plain_config w0 ctx_default "x + x - (-y) / 4" = Parse_ok x /\
  parse plain_config w0 ctx_default "0.25 y + 2 x" = Parse_ok y /\ exactly (root x) (root y).
Proof.
  destruct (parses_to (parse plain_config w0 ctx_default "x + x - (-y) / 4")
    (BinOp Minus (BinOp Plus (Var "x") (Var "x")) (BinOp Divide (neg (Var "y")) (Number (lit "4"))))) as [x [Hx Rx]]; [vm_compute; reflexivity|].
  destruct (parses_to (parse plain_config w0 ctx_default "0.25 y + 2 x")
    (BinOp Plus (BinOp Times (Number (lit "0.25")) (Var "y")) (BinOp Times (Number (lit "2")) (Var "x")))) as [y [Hy Ry]]; [vm_compute; reflexivity|].
  exists x, y. split; [exact Hx|]. split; [exact Hy|]. rewrite Rx, Ry. clear.
  pose proof value_2 as V2. pose proof value_4 as V4. pose proof value_quarter as Vq.
  revert V2 V4 Vq. generalize (lit "2") (lit "4") (lit "0.25"). intros n2 n4 nq V2 V4 Vq.
  eapply EX_trans; [apply EX_law, L_minus|]. eapply EX_trans; [apply EX_law, L_plus_comm|].
  apply EX_bin; [|apply EX_law; now apply L_double].
  eapply EX_trans; [apply EX_un; apply EX_law, L_neg_dividend|]. eapply EX_trans; [apply EX_law, L_neg_neg|].
  eapply EX_trans; [apply EX_law; eapply L_power_of_two; eauto|]. apply EX_law, L_times_comm.
Qed.

Example C73_zero_witness : exists x y,
  parse plain_config w0 ctx_default "max(0 - (x - y), z) / z" = Parse_ok x /\
  parse plain_config w0 ctx_default "max(z, y - x) / z" = Parse_ok y /\ but_for_zero (root x) (root y).
Proof.
  destruct (parses_to (parse plain_config w0 ctx_default "max(0 - (x - y), z) / z")
    (BinOp Divide (call B_MAX [BinOp Minus (Number fzero) (BinOp Minus (Var "x") (Var "y")); Var "z"]) (Var "z"))) as [x [Hx Rx]]; [vm_compute; reflexivity|].
  destruct (parses_to (parse plain_config w0 ctx_default "max(z, y - x) / z")
    (BinOp Divide (call B_MAX [Var "z"; BinOp Minus (Var "y") (Var "x")]) (Var "z"))) as [y [Hy Ry]]; [vm_compute; reflexivity|].
  exists x, y. split; [exact Hx|]. split; [exact Hy|]. rewrite Rx, Ry. clear.
  apply BZ_dividend. eapply BZ_trans; [apply BZ_law, Z_max_order, perm_swap|].
  apply BZ_call; [reflexivity|]. apply BZ_cons; [apply BZ_refl|]. apply BZ_cons; [|apply BZ_nil].
  eapply BZ_trans; [apply BZ_law, Z_exact, EX_law, L_minus|].
  eapply BZ_trans; [apply BZ_law, Z_exact, EX_law, L_plus_comm|].
  eapply BZ_trans; [apply BZ_law, Z_plus_zero|]. apply BZ_law, Z_neg_minus.
Qed.

(** ** Laws of the real numbers that are not laws here *)
Definition counterexample (t : string * string * list (string * f64)) : Prop :=
  let '(s1, s2, rho) := t in
  exists x y u v, parse plain_config w0 ctx_default s1 = Parse_ok x /\ parse plain_config w0 ctx_default s2 = Parse_ok y /\
    eval w0 x rho = Val (Eval_ok u) /\ eval w0 y rho = Val (Eval_ok v) /\ ~ same_value u v.
Definition counter_check (t : string * string * list (string * f64)) : bool :=
  let '(s1, s2, rho) := t in
  match parse plain_config w0 ctx_default s1, parse plain_config w0 ctx_default s2 with
  | Parse_ok x, Parse_ok y =>
      match eval w0 x rho, eval w0 y rho with
      | Val (Eval_ok u), Val (Eval_ok v) => negb (feq u v) && negb (is_nan u && is_nan v)
      | _, _ => false
      end
  | _, _ => false
  end.
Lemma counter_check_spec : forall t, counter_check t = true -> counterexample t.
Proof.
  intros [[s1 s2] rho]. unfold counter_check, counterexample.
  generalize (parse plain_config w0 ctx_default s1) (parse plain_config w0 ctx_default s2). intros p q.
  destruct p as [x| | |]; try discriminate. destruct q as [y| | |]; try discriminate.
  destruct (eval w0 x rho) as [[u|]|] eqn:Eu; try discriminate. destruct (eval w0 y rho) as [[v|]|] eqn:Ev; try discriminate.
  intro H. exists x, y, u, v. split; [reflexivity|]. split; [reflexivity|]. split; [exact Eu|]. split; [exact Ev|].
  intros [S0|[Nu Nv]].
  - now rewrite S0 in H.
  - rewrite Nu, Nv, andb_false_r in H. discriminate H.
Qed.

Definition not_laws : list (string * string * list (string * f64)) :=
  [ ("(x + y) + z", "x + (y + z)", [("x", lit "0.1"); ("y", lit "0.2"); ("z", lit "0.3")]);
    ("(x * y) * z", "x * (y * z)", [("x", lit "0.1"); ("y", lit "0.2"); ("z", lit "0.3")]);
    ("x * (y + z)", "x * y + x * z", [("x", lit "10"); ("y", lit "0.1"); ("z", lit "0.7")]);
    ("(x + y) / z", "x / z + y / z", [("x", lit "1"); ("y", lit "4"); ("z", lit "3")]);
    ("x / y / z", "x / (y * z)", [("x", lit "1"); ("y", lit "3"); ("z", lit "0.7")]);
    ("(x + y) - y", "x", [("x", lit "0.1"); ("y", lit "1")]);
    ("x / y * y", "x", [("x", lit "1"); ("y", lit "49")]);
    ("x * recip(y)", "x / y", [("x", lit "3"); ("y", lit "10")]);
    ("recip(recip(x))", "x", [("x", lit "49")]);
    ("sqrt(x) * sqrt(x)", "x", [("x", lit "2")]);
    ("sqrt(x * x)", "abs(x)", [("x", lit "1e200")]);
    ("sqrt(x * y)", "sqrt(x) * sqrt(y)", [("x", lit "2"); ("y", lit "2")]);
    ("x + x + x + x + x + x", "6 * x", [("x", lit "0.1")]);
    ("x / 3", "x * (1 / 3)", [("x", lit "5")]);
    ("x - x", "0", [("x", finf)]);
    ("x / x", "1", [("x", fzero)]);
    ("0 * x", "0", [("x", fnan)]);
    ("min(x, x)", "x", [("x", fnan)]);
    ("max(x)", "x", [("x", fnan)]);
    ("trunc(x) + fract(x)", "x", [("x", finf)]);
    ("floor(x + 1)", "floor(x) + 1", [("x", lit "0.9999999999999999")]);
    ("round(x)", "floor(x + 0.5)", [("x", lit "0.49999999999999994")]);
    ("sum(x, y, z)", "sum(z, y, x)", [("x", lit "0.1"); ("y", lit "0.2"); ("z", lit "0.3")]);
    ("mean(x, x, x)", "x", [("x", lit "6004799503160662")]);
    ("max(x, y) + z", "max(x + z, y + z)", [("x", finf); ("y", lit "1"); ("z", fninf)]);
    ("(x + y) % z", "(x % z + y % z) % z", [("x", lit "5"); ("y", fneg (lit "3")); ("z", lit "4")]);
    (* laws up to the sign of zero, used as divisor *)
    ("1 / (x + 0)", "1 / x", [("x", fnzero)]);
    ("1 / -(x - y)", "1 / (y - x)", [("x", lit "1"); ("y", lit "1")]);
    ("recip(-(x + y))", "recip(-x - y)", [("x", lit "1"); ("y", fneg (lit "1"))]);
    ("1 / fract(-x)", "1 / -fract(x)", [("x", lit "3")]) ].
Theorem C73_other_laws_refuted : Forall counterexample not_laws.
Proof.
  apply Forall_forall. intros t Ht. apply counter_check_spec. revert t Ht. apply forallb_forall. vm_compute. reflexivity.
Qed.
