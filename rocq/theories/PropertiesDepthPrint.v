(** * How deeply the calls nest, continued: printing, ordering, cloning, dropping (C78) *)
From Coq Require Import ZArith NArith List String Ascii Bool Lia Arith.
From Verif Require Import F64 Syntax Factorial Builtins Context Element Parser Xprs Order Display Depth DepthPrint.
From Verif Require Import SpecChars CharFacts ParserFacts SpecParse SpecTree TreeFacts SimplifyFacts PropertiesSimplify PropertiesSize DepthFacts TestWorld PropertiesDepth.
Import ListNotations.
Local Open Scope nat_scope.

Lemma display_d_same : forall e, display_d e = (display_element e, height e).
Proof.
  induction e as [n|op l r IHl IHr|op a IH|f args IH|y] using element_ind'; try reflexivity.
  - cbn [display_d display_element height]. rewrite IHl, IHr. reflexivity.
  - cbn [display_d display_element height]. rewrite IH. reflexivity.
  - cbn [display_d display_element]. rewrite height_call.
    assert (E : fold_right (fun a p => let '(s, n) := display_d a in (s :: fst p, Nat.max n (snd p))) ([], 0) args
                = (map display_element args, hs args)).
    { induction IH as [|a l Ha _ IHl]; [reflexivity|]. cbn [fold_right map hs]. rewrite IHl, Ha. reflexivity. }
    rewrite E. reflexivity.
Qed.

Lemma clone_d_same : forall e, clone_d e = (e, height e).
Proof.
  induction e as [n|op l r IHl IHr|op a IH|f args IH|y] using element_ind'; try reflexivity.
  - cbn [clone_d height]. rewrite IHl, IHr. reflexivity.
  - cbn [clone_d height]. rewrite IH. reflexivity.
  - cbn [clone_d]. rewrite height_call.
    assert (E : fold_right (fun a p => let '(x, n) := clone_d a in (x :: fst p, Nat.max n (snd p))) ([], 0) args = (args, hs args)).
    { induction IH as [|a l Ha _ IHl]; [reflexivity|]. cbn [fold_right hs]. rewrite IHl, Ha. reflexivity. }
    rewrite E. reflexivity.
Qed.

Lemma drop_d_same : forall e, drop_d e = (nodes e, height e).
Proof.
  induction e as [n|op l r IHl IHr|op a IH|f args IH|y] using element_ind'; try reflexivity.
  - cbn [drop_d height nodes]. rewrite IHl, IHr. reflexivity.
  - cbn [drop_d height nodes]. rewrite IH. reflexivity.
  - cbn [drop_d nodes]. rewrite height_call.
    assert (E : fold_right (fun a p => let '(k, n) := drop_d a in (k + fst p, Nat.max n (snd p))) (0, 0) args
                = (fold_right (fun a n => nodes a + n) 0 args, hs args)).
    { induction IH as [|a l Ha _ IHl]; [reflexivity|]. cbn [fold_right hs]. rewrite IHl, Ha. reflexivity. }
    rewrite E. reflexivity.
Qed.

Lemma then_cmp_d_fst : forall a b, fst (then_cmp_d a b) = then_cmp (fst a) (fst b).
Proof. intros [[[]|] n] b; reflexivity. Qed.
Lemma then_cmp_d_snd : forall a b k, snd a <= k -> snd b <= k -> snd (then_cmp_d a b) <= k.
Proof. intros [[[]|] n] b k; cbn; lia. Qed.
Lemma then_cmp_d_eq : forall a b, fst (then_cmp_d a b) = Some Eq -> fst a = Some Eq /\ fst b = Some Eq /\ snd (then_cmp_d a b) = Nat.max (snd a) (snd b).
Proof. intros [[[]|] n] b H; cbn in *; try discriminate H. auto. Qed.

Fixpoint cmps_d (l m : list element) : option comparison * nat :=
  match l, m with
  | [], [] => (Some Eq, 0)
  | [], _ :: _ => (Some Lt, 0)
  | _ :: _, [] => (Some Gt, 0)
  | a :: l', b :: m' => then_cmp_d (el_cmp_d a b) (cmps_d l' m')
  end.

Lemma cmp_d_binop : forall op l r op' l' r', el_cmp_d (BinOp op l r) (BinOp op' l' r') =
  let p := then_cmp_d (Some (Nat.compare (operator_index op) (operator_index op')), 0)
             (then_cmp_d (el_cmp_d l l') (el_cmp_d r r')) in (fst p, 1 + snd p).
Proof. intros. cbn [el_cmp_d]. cbv zeta. destruct (then_cmp_d _ _); reflexivity. Qed.
Lemma cmp_d_unop : forall op e op' e', el_cmp_d (UnOp op e) (UnOp op' e') =
  let p := then_cmp_d (Some (Nat.compare (operator_index op) (operator_index op')), 0) (el_cmp_d e e') in (fst p, 1 + snd p).
Proof. intros. cbn [el_cmp_d]. cbv zeta. destruct (then_cmp_d _ _); reflexivity. Qed.
Lemma cmp_d_call : forall f args g args', el_cmp_d (Call f args) (Call g args') =
  let p := then_cmp_d (Some (String.compare (fn_name f) (fn_name g)), 0) (cmps_d args args') in (fst p, 1 + snd p).
Proof. intros. cbn [el_cmp_d]. fold cmps_d. cbv zeta. destruct (then_cmp_d _ _); reflexivity. Qed.

Lemma el_cmp_d_same : forall a b, fst (el_cmp_d a b) = el_cmp a b.
Proof.
  induction a as [n|op l r IHl IHr|op a IH|f args IH|y] using element_ind'; intros b; destruct b as [n'|op' l' r'|op' a'|f' args'|y']; try reflexivity.
  - rewrite cmp_d_binop. cbv zeta. cbn [fst el_cmp]. rewrite !then_cmp_d_fst, IHl, IHr. reflexivity.
  - rewrite cmp_d_unop. cbv zeta. cbn [fst el_cmp]. rewrite !then_cmp_d_fst, IH. reflexivity.
  - rewrite cmp_d_call. cbv zeta. cbn [fst el_cmp]. rewrite then_cmp_d_fst. cbn [fst]. f_equal.
    revert args'. induction IH as [|a l Ha _ IHl]; intros [|b m]; try reflexivity.
    cbn [cmps_d]. rewrite then_cmp_d_fst, Ha, IHl. reflexivity.
Qed.

Lemma cmp_depth : forall a b, snd (el_cmp_d a b) <= Nat.min (height a) (height b).
Proof.
  assert (B : forall a, 1 <= height a) by (intros []; cbn; lia).
  induction a as [n|op l r IHl IHr|op a IH|f args IH|y] using element_ind'; intros b; pose proof (B b) as Hb;
    destruct b as [n'|op' l' r'|op' a'|f' args'|y']; try (cbn [el_cmp_d snd height] in *; lia).
  - rewrite cmp_d_binop. cbv zeta. cbn [snd height]. specialize (IHl l'). specialize (IHr r').
    assert (snd (then_cmp_d (Some (Nat.compare (operator_index op) (operator_index op')), 0) (then_cmp_d (el_cmp_d l l') (el_cmp_d r r')))
            <= Nat.min (Nat.max (height l) (height r)) (Nat.max (height l') (height r'))); [|lia].
    apply then_cmp_d_snd; [cbn; lia|]. apply then_cmp_d_snd; lia.
  - rewrite cmp_d_unop. cbv zeta. cbn [snd height]. specialize (IH a').
    assert (snd (then_cmp_d (Some (Nat.compare (operator_index op) (operator_index op')), 0) (el_cmp_d a a')) <= Nat.min (height a) (height a')); [|lia].
    apply then_cmp_d_snd; [cbn; lia|lia].
  - rewrite cmp_d_call. cbv zeta. cbn [snd]. rewrite !height_call.
    assert (snd (cmps_d args args') <= Nat.min (hs args) (hs args')) as K.
    { clear Hb. revert args'. induction IH as [|a l Ha _ IHl]; intros [|b m]; try (cbn; lia).
      cbn [cmps_d]. change (hs (a :: l)) with (Nat.max (height a) (hs l)). change (hs (b :: m)) with (Nat.max (height b) (hs m)).
      specialize (Ha b). specialize (IHl m). apply then_cmp_d_snd; lia. }
    assert (snd (then_cmp_d (Some (String.compare (fn_name f) (fn_name f')), 0) (cmps_d args args')) <= Nat.min (hs args) (hs args')); [|lia].
    apply then_cmp_d_snd; [cbn; lia|exact K].
Qed.

Lemma cmp_full : forall a b, fst (el_cmp_d a b) = Some Eq -> snd (el_cmp_d a b) = height a /\ height a = height b.
Proof.
  induction a as [n|op l r IHl IHr|op a IH|f args IH|y] using element_ind'; intros b;
    destruct b as [n'|op' l' r'|op' a'|f' args'|y']; try (intros _; split; reflexivity); try (cbn; intro H; discriminate H).
  - rewrite cmp_d_binop. cbv zeta. cbn [fst snd height]. intros H.
    apply then_cmp_d_eq in H as [_ [H ->]]. apply then_cmp_d_eq in H as [H1 [H2 ->]].
    destruct (IHl _ H1), (IHr _ H2). cbn [snd]. lia.
  - rewrite cmp_d_unop. cbv zeta. cbn [fst snd height]. intros H.
    apply then_cmp_d_eq in H as [_ [H ->]]. destruct (IH _ H). cbn [snd]. lia.
  - rewrite cmp_d_call. cbv zeta. cbn [fst snd]. intros H. rewrite !height_call.
    apply then_cmp_d_eq in H as [_ [H ->]]. cbn [snd].
    assert (snd (cmps_d args args') = hs args /\ hs args = hs args') as K; [|lia].
    revert args' H. induction IH as [|a l Ha _ IHl]; intros [|b m] H; try (cbn in H; discriminate H); [split; reflexivity|].
    cbn [cmps_d] in *. apply then_cmp_d_eq in H as [H1 [H2 ->]].
    change (hs (a :: l)) with (Nat.max (height a) (hs l)). change (hs (b :: m)) with (Nat.max (height b) (hs m)).
    destruct (Ha _ H1), (IHl _ H2). lia.
Qed.

(** Printing, whatever the sink, cloning and dropping visit every node and nest
    exactly as deep as the expression is high: the text printed is the plain one,
    the clone is the expression itself, and as many nodes are dropped as it has. *)
Theorem C78_print_clone_drop : forall e,
  display_d e = (display_element e, height e) /\
  clone_d e = (e, height e) /\
  drop_d e = (nodes e, height e).
Proof. intros e. split; [apply display_d_same|]. split; [apply clone_d_same|apply drop_d_same]. Qed.

(** Ordering answers as the plain [partial_cmp], nests no deeper than the lower of
    the two expressions, and exactly as deep if it finds them equal (they are then
    equally high). *)
Theorem C78_ordering : forall a b,
  fst (el_cmp_d a b) = el_cmp a b /\
  snd (el_cmp_d a b) <= height a /\ snd (el_cmp_d a b) <= height b /\
  (el_cmp a b = Some Eq -> snd (el_cmp_d a b) = height a /\ height a = height b).
Proof.
  intros a b. pose proof (cmp_depth a b). split; [apply el_cmp_d_same|]. split; [lia|]. split; [lia|].
  rewrite <- el_cmp_d_same. apply cmp_full.
Qed.

(** So a limit on the length of texts limits these as well: an expression parsed
    from [n] bytes is printed, cloned, dropped and ordered with at most [n] calls
    open, less than parsing it took. *)
Theorem C78_parsed_print_clone_drop : forall cfg w ctx input x, fst (parse_d cfg w ctx input) = Parse_ok x ->
  let n := snd (display_d (root x)) in
  snd (clone_d (root x)) = n /\ snd (drop_d (root x)) = n /\
  n <= String.length input /\ n < snd (parse_d cfg w ctx input) /\
  forall e, snd (el_cmp_d (root x) e) <= n /\ snd (el_cmp_d e (root x)) <= n.
Proof.
  intros cfg w ctx input x H. pose proof (C78_parsed_height _ _ _ _ _ H) as K. cbv zeta.
  rewrite display_d_same, clone_d_same, drop_d_same. cbn [snd]. split; [reflexivity|]. split; [reflexivity|]. split; [lia|]. split; [lia|].
  intros e. pose proof (cmp_depth (root x) e). pose proof (cmp_depth e (root x)). lia.
Qed.

(** And dropping cannot be made cheaper by the text's shape: [x+x+…+x] of [2 n + 1]
    bytes is dropped with [n + 1] calls open. *)
Theorem C78_flat_drop : forall cfg w n, fair_order w ->
  exists x, parse cfg w ctx_default (flat_text n) = Parse_ok x /\
    snd (drop_d (root x)) = n + 1 /\ snd (clone_d (root x)) = n + 1 /\ snd (display_d (root x)) = n + 1.
Proof.
  intros cfg w n Hf. destruct (C78_flat_sums cfg w n Hf) as [_ [x [Hx [Hh _]]]]. exists x.
  rewrite display_d_same, clone_d_same, drop_d_same. cbn [snd]. rewrite Hh. split; [exact Hx|]. split; [reflexivity|]. split; reflexivity.
Qed.

(** [max(x, -(2+y))] prints with four calls open; ordering it against [max(x, y)]
    stops at the second argument, with two. *)
Example C78_print_witness :
  match fst (parse_d (mk_config true false false true) w0 ctx_default "max(x, -(2+y))"),
        fst (parse_d (mk_config true false false true) w0 ctx_default "max(x, y)") with
  | Parse_ok x, Parse_ok y =>
      String.eqb (fst (display_d (root x))) "max(x, (-(2 + y)))" = true /\
      (snd (display_d (root x)) =? 4) = true /\ (fst (drop_d (root x)) =? 6) = true /\ (snd (drop_d (root x)) =? 4) = true /\
      fst (el_cmp_d (root x) (root y)) = Some Lt /\ (snd (el_cmp_d (root x) (root y)) =? 2) = true
  | _, _ => False
  end.
Proof. vm_compute. repeat split. Qed.
