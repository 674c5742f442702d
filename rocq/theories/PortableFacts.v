(** * Runs of the parser in two worlds and configurations *)
From Coq Require Import ZArith NArith List String Ascii Bool Lia.
From Verif Require Import F64 Syntax Factorial Builtins Context Element Parser Xprs.
From Verif Require Import TreeFacts SpecTokens SpecGrammar SpecPortable TokenFacts TokenParser GrammarFacts.
Import ListNotations.
Local Open Scope nat_scope.

(** ** the parser *)
Section Worlds.
  Variables cfg cfg' : config.
  Hypothesis Hprec : implicit_precedence cfg = implicit_precedence cfg'.
  Variables w w' : world.
  Variable ctx : context.
  Variable T : token -> Prop.
  Variable Good : element -> Prop.
  Hypothesis Gnum : forall v, Good (Number v).
  Hypothesis Gvar : forall x, Good (Var x).
  Hypothesis Gbin : forall c op l r, operator_of_byte c = Some op -> T (TSym c) -> Good l -> Good r -> Good (BinOp op l r).
  Hypothesis Gimp : forall l r, Good l -> Good r -> Good (BinOp Times l r).
  Hypothesis Gplus : forall e, Good e -> Good (UnOp Plus e).
  Hypothesis Gminus : forall e, T (TSym "-") -> Good e -> Good (UnOp Minus e).
  Hypothesis Gbang : forall e, Good e -> Good (UnOp Factorial e).
  Hypothesis Gcall : forall s f args, T (TId s) -> stands_for ctx s = I_Function f -> Forall Good args -> Good (Call f args).
  Hypothesis Gfin : forall el, Good el ->
    finish_element cfg w el = finish_element cfg' w' el /\ (forall y, finish_element cfg w el = Val y -> Good y).

  Definition gives {A} (G : A -> Prop) (r : tres A) : Prop :=
    forall a rest, r = TOk a rest -> G a /\ Forall T rest.

  Section Open.
    Variables elem elem' : nat -> list token -> tres element.
    Hypothesis He : forall p ts, Forall T ts -> elem p ts = elem' p ts /\ gives Good (elem p ts).

    Lemma worlds_loop : forall b p el ts, Good el -> Forall T ts ->
      t_loop cfg elem b p el ts = t_loop cfg' elem' b p el ts /\ gives Good (t_loop cfg elem b p el ts).
    Proof.
      induction b as [|b IH]; intros p el ts Hel Hts; cbn [t_loop]; [split; [reflexivity|intros a rest H; discriminate H]|].
      assert (Eg : t_goi cfg' el p ts = t_goi cfg el p ts) by (unfold t_goi; now rewrite Hprec). rewrite Eg.
      destruct (t_goi cfg el p ts) as [[[op k]|] ts'] eqn:E.
      - assert (K : Forall T ts' /\ (forall r, Good r -> Good (BinOp op el r))).
        { destruct ts as [|t r]; cbn in E; [discriminate E|].
          destruct (match t with TSym c => operator_of_byte c | _ => None end) as [o|] eqn:Eo.
          - destruct (_ <=? _); [discriminate E|]. injection E as -> _ ->. destruct t as [s|s|c]; try discriminate Eo.
            inversion Hts; subst. split; auto. intros. eapply Gbin; eauto.
          - destruct (_ <=? _); [discriminate E|]. destruct (juxtaposable _ _); [|discriminate E]. injection E as <- _ <-.
            split; auto. }
        destruct K as [K1 K2]. destruct (He k ts' K1) as [E1 G1]. rewrite <- E1.
        destruct (elem k ts') as [rhs r|kk f u|q|]; cbn [tbind]; try (split; [reflexivity|intros a rest H; discriminate H]).
        destruct (G1 _ _ eq_refl). apply IH; auto.
      - apply goi_none_rest in E. subst ts'. split; auto. intros a rest H. injection H as <- <-. auto.
    Qed.

    Lemma worlds_arguments : forall b acc ts, Forall Good acc -> Forall T ts ->
      t_arguments elem b acc ts = t_arguments elem' b acc ts /\ gives (Forall Good) (t_arguments elem b acc ts).
    Proof.
      induction b as [|b IH]; intros acc ts Ha Hts; cbn [t_arguments]; [split; [reflexivity|intros a rest H; discriminate H]|].
      unfold t_argument. destruct (He NO_PRECEDENCE ts Hts) as [E1 G1]. rewrite <- E1.
      destruct (elem NO_PRECEDENCE ts) as [a r|k f u|q|]; cbn [tbind]; try (split; [reflexivity|intros ? ? H; discriminate H]).
      - destruct (G1 _ _ eq_refl) as [Ga Gr]. destruct r as [|[s|s|c] r']; try (split; [reflexivity|intros ? ? H; discriminate H]).
        assert (Forall Good (acc ++ [a])) by (apply Forall_app; auto).
        destruct (Ascii.eqb c ","). { inversion Gr; subst. apply IH; auto. }
        destruct (Ascii.eqb c ")"); (split; [reflexivity|]); intros ? ? H'; [|discriminate H']. injection H' as <- <-. auto.
      - destruct k; split; try reflexivity; intros ? ? H; discriminate H.
    Qed.

    Lemma worlds_atom : forall b ts, Forall T ts ->
      t_atom ctx elem b ts = t_atom ctx elem' b ts /\ gives Good (t_atom ctx elem b ts).
    Proof.
      intros b [|[s|s|c] ts] Hts; cbn [t_atom]; try (split; [reflexivity|intros ? ? H; discriminate H]); inversion Hts as [|? ? Ht Hr]; subst.
      - split; [reflexivity|]. intros a rest H. unfold t_number in H. destruct (parse_f64 _); [|discriminate H]. injection H as <- <-. auto.
      - unfold t_identifier. rewrite resolve_stands. destruct (stands_for ctx s) as [f|v|x] eqn:E.
        + destruct (t_consume "(" ts) as [[] r] eqn:Ec; [|split; [reflexivity|intros ? ? H; discriminate H]].
          apply consume_true in Ec. subst ts. inversion Hr; subst.
          destruct (worlds_arguments b [] r (Forall_nil _) H2) as [E1 G1]. rewrite <- E1.
          destruct (t_arguments elem b [] r) as [args r2|k g u|q|]; cbn [tbind]; try (split; [reflexivity|intros ? ? H; discriminate H]).
          split; [reflexivity|]. destruct (G1 _ _ eq_refl) as [Ga Gr]. intros a rest H.
          destruct (t_assert ")" r2) as [uu r3|k g u|q|] eqn:Eb; cbn [tbind] in H; try discriminate H.
          apply sound_assert in Eb. subst r2. inversion Gr; subst. assert (Good (Call f args)) by eauto.
          unfold t_arity in H. destruct (fn_nb_args f); [|injection H as <- <-; auto].
          destruct (Nat.compare _ _); try discriminate H. injection H as <- <-; auto.
        + split; [reflexivity|]. intros ? ? H. injection H as <- <-. auto.
        + split; [reflexivity|]. intros ? ? H. injection H as <- <-. auto.
      - destruct (He UNOP_PRECEDENCE ts Hr) as [E1 G1]. destruct (He NO_PRECEDENCE ts Hr) as [E2 G2]. rewrite <- E1, <- E2.
        destruct (Ascii.eqb c "+").
        { destruct (elem UNOP_PRECEDENCE ts) as [r rr|k f u|q|]; cbn [tbind]; (split; [reflexivity|]); intros ? ? H; try discriminate H.
          injection H as <- <-. destruct (G1 _ _ eq_refl). auto. }
        destruct (Ascii.eqb c "-") eqn:Em.
        { destruct (elem UNOP_PRECEDENCE ts) as [r rr|k f u|q|]; cbn [tbind]; (split; [reflexivity|]); intros ? ? H; try discriminate H.
          injection H as <- <-. destruct (G1 _ _ eq_refl). apply Ascii.eqb_eq in Em. subst c. auto. }
        destruct (Ascii.eqb c "(").
        { destruct (elem NO_PRECEDENCE ts) as [r rr|k f u|q|]; cbn [tbind]; (split; [reflexivity|]); intros ? ? H; try discriminate H.
          destruct (G2 _ _ eq_refl) as [Ga Gr].
          destruct (t_assert ")" rr) as [uu r3|k g u|q|] eqn:Eb; cbn [tbind] in H; try discriminate H.
          apply sound_assert in Eb. subst rr. inversion Gr; subst. injection H as <- <-. auto. }
        destruct (Ascii.eqb c ")"); (split; [reflexivity|]); intros ? ? H; discriminate H.
    Qed.
  End Open.

  Lemma worlds_element : forall b p ts, Forall T ts ->
    t_element cfg w ctx b p ts = t_element cfg' w' ctx b p ts /\ gives Good (t_element cfg w ctx b p ts).
  Proof.
    induction b as [|b IH]; intros p ts Hts; cbn [t_element]; [split; [reflexivity|intros ? ? H; discriminate H]|].
    destruct (worlds_atom _ _ IH b ts Hts) as [E1 G1]. rewrite <- E1.
    destruct (t_atom ctx (t_element cfg w ctx b) b ts) as [el r|k f u|q|]; cbn [tbind]; try (split; [reflexivity|intros ? ? H; discriminate H]).
    destruct (G1 _ _ eq_refl) as [Gel Gr]. destruct (t_consume "!" r) as [bang r2] eqn:Ec.
    assert (Gr2 : Forall T r2).
    { destruct bang; [apply consume_true in Ec; subst r; now inversion Gr|apply consume_false in Ec; now subst r2]. }
    assert (Gel' : Good (if bang then UnOp Factorial el else el)) by (destruct bang; auto).
    destruct (worlds_loop _ _ IH b p _ r2 Gel' Gr2) as [E2 G2]. rewrite <- E2.
    destruct (t_loop cfg (t_element cfg w ctx b) b p _ r2) as [el2 r3|k f u|q|]; cbn [tbind]; try (split; [reflexivity|intros ? ? H; discriminate H]).
    destruct (G2 _ _ eq_refl) as [Gel2 Gr3]. destruct (Gfin el2 Gel2) as [E3 G3]. rewrite <- E3. split; [reflexivity|].
    intros a rest H. destruct (finish_element cfg w el2) as [y|q]; cbn in H; [|discriminate H]. injection H as <- <-. auto.
  Qed.

  Lemma worlds_parse : forall b ts, Forall T ts ->
    t_parse cfg w ctx b ts = t_parse cfg' w' ctx b ts /\ gives Good (t_parse cfg w ctx b ts).
  Proof.
    intros b ts Hts. unfold t_parse. destruct (worlds_element b NO_PRECEDENCE ts Hts) as [E G]. rewrite <- E. split; [reflexivity|].
    intros a rest H. destruct (t_element cfg w ctx b NO_PRECEDENCE ts) as [el r|k f u|q|]; cbn [tbind] in H; try discriminate H.
    destruct r; [|discriminate H]. injection H as <- <-. auto.
  Qed.
End Worlds.

(** ** expressions *)
Section Expressions.
  Variables w w' : world.
  Variable prog : bool.
  Hypothesis Hw : prog = true -> same_program w w'.

  Lemma portable_call : forall f vs, portable_function prog f -> call_function w f vs = call_function w' f vs.
  Proof.
    intros f vs [[name [Hin Hf]]|[-> [[name [Hin Hf]]|[id Hid]]]].
    - unfold exact_names in Hin. cbn [In] in Hin.
      repeat (destruct Hin as [<- |Hin]; [cbn in Hf; injection Hf as <-; reflexivity|]). contradiction.
    - destruct (Hw eq_refl) as [Hs [Hm _]]. unfold std_names in Hin. cbn [In] in Hin.
      assert (Emin : min_f64 w = min_f64 w') by (unfold min_f64; now rewrite Hm).
      assert (Emax : max_f64 w = max_f64 w') by (unfold max_f64; now rewrite Hm).
      repeat (destruct Hin as [<- |Hin]; [cbn in Hf; injection Hf as <-; unfold call_function, call_ptr, builtin_function, fn_ptr, call_builtin, sum_f64;
        rewrite ?Emin, ?Emax, ?Hs; reflexivity|]). contradiction.
    - destruct (Hw eq_refl) as [_ [_ Hu]]. unfold call_function, call_ptr. destruct Hid as [-> | ->]; now rewrite Hu.
  Qed.

  Lemma portable_binop : forall op x y, op <> Power -> apply_binop w op x y = apply_binop w' op x y.
  Proof. intros [] x y H; try reflexivity. congruence. Qed.

  Lemma map_out_ext : forall A B (f g : A -> out B) l, Forall (fun a => f a = g a) l -> map_out f l = map_out g l.
  Proof. intros A B f g l H. induction H as [|a l Ha Hl IH]; cbn; auto. rewrite Ha. destruct (g a); auto. cbn in *. now rewrite IH. Qed.
  Lemma map_eval_ext : forall A (f g : A -> out eval_result) l, Forall (fun a => f a = g a) l -> map_eval f l = map_eval g l.
  Proof. intros A f g l H. induction H as [|a l Ha Hl IH]; cbn; auto. rewrite Ha. destruct (g a) as [[]|]; auto. cbn in *. now rewrite IH. Qed.
  Lemma map_out_good : forall A B (P : B -> Prop) (f : A -> out B) l ys,
    Forall (fun a => forall y, f a = Val y -> P y) l -> map_out f l = Val ys -> Forall P ys.
  Proof.
    intros A B P f l ys H. revert ys. induction H as [|a l Ha Hl IH]; intros ys E; cbn in E; [injection E as <-; auto|].
    destruct (f a) as [b|]; [|discriminate E]. cbn in E. fold (map_out f l) in E. destruct (map_out f l) as [bs|]; [|discriminate E].
    cbn in E. injection E as <-. constructor; auto.
  Qed.

  Lemma portable_eval : forall rho e, portable prog e -> eval_element w rho e = eval_element w' rho e.
  Proof.
    intros rho e. induction e as [n|op l r IHl IHr|op e IHe|f args Hargs|y] using element_ind'; intro H; cbn [eval_element]; auto; inversion H; subst.
    - rewrite IHl, IHr by auto. destruct (eval_element w' rho l) as [[]|]; auto. cbn [ebind].
      destruct (eval_element w' rho r) as [[]|]; auto. cbn [ebind]. now rewrite portable_binop.
    - rewrite IHe by auto. reflexivity.
    - rewrite (map_eval_ext _ _ (eval_element w' rho)).
      + destruct (map_eval _ args) as [[vs|x]|]; auto. now rewrite portable_call.
      + rewrite Forall_forall in *. auto.
  Qed.

  Lemma portable_eval_unchecked : forall rho e, portable prog e -> eval_element_unchecked w rho e = eval_element_unchecked w' rho e.
  Proof.
    intros rho e. induction e as [n|op l r IHl IHr|op e IHe|f args Hargs|y] using element_ind'; intro H; cbn [eval_element_unchecked]; auto; inversion H; subst.
    - rewrite IHl, IHr by auto. destruct (eval_element_unchecked w' rho l); auto. cbn.
      destruct (eval_element_unchecked w' rho r); auto. cbn. now apply portable_binop.
    - now rewrite IHe by auto.
    - rewrite (map_out_ext _ _ _ (eval_element_unchecked w' rho)).
      + destruct (map_out _ args); auto. cbn. now apply portable_call.
      + rewrite Forall_forall in *. auto.
  Qed.

  Definition sames (o o' : out element) : Prop := o = o' /\ forall y, o = Val y -> portable prog y.
  Lemma sames_val : forall e, portable prog e -> sames (Val e) (Val e).
  Proof. intros e H. split; [reflexivity|]. intros y E. now injection E as <-. Qed.
  Lemma sames_boom : forall p, sames (Boom p) (Boom p).
  Proof. intros p. split; [reflexivity|]. intros y E. discriminate E. Qed.
  Lemma sames_if_eq : forall a b x x' y y', sames x x' -> sames y y' -> sames (if_eq a b x y) (if_eq a b x' y').
  Proof. intros. unfold if_eq. destruct (el_eq a b) as [[]|]; auto. apply sames_boom. Qed.
  Lemma sames_fold : forall op l r, op <> Power -> portable prog l -> portable prog r -> sames (fold_binop w op l r) (fold_binop w' op l r).
  Proof.
    intros op l r H Hl Hr. assert (sames (Val (BinOp op l r)) (Val (BinOp op l r))) by (apply sames_val; now constructor).
    unfold fold_binop. destruct l; auto. destruct r; auto. rewrite portable_binop by auto. destruct (apply_binop _ _ _ _).
    - apply sames_val. constructor.
    - apply sames_boom.
  Qed.

  Lemma portable_simplify_binop : forall cfg op l r, op <> Power -> portable prog l -> portable prog r ->
    sames (simplify_binop cfg w op l r) (simplify_binop cfg w' op l r).
  Proof.
    intros cfg op l r Hop Hl Hr. assert (Hn : forall v, portable prog (Number v)) by (intro; constructor).
    assert (Hu : forall o e, portable prog (UnOp o e) -> portable prog e) by (intros o e H; now inversion H).
    destruct op; unfold simplify_binop; cbv zeta; try congruence;
    repeat match goal with
    | |- sames (if ?b then _ else _) _ => destruct b
    | |- sames (if_eq _ _ _ _) _ => apply sames_if_eq
    | |- sames (Val _) _ => apply sames_val; auto
    | |- sames (fold_binop _ _ _ _) _ => apply sames_fold; auto; congruence
    | |- sames (match ?l with Number _ => _ | _ => _ end) _ => destruct l
    | |- sames (match ?o with Plus => _ | _ => _ end) _ => destruct o
    end;
    try (constructor; eauto; congruence).
  Qed.

  Lemma portable_simplify : forall cfg e, portable prog e -> sames (simplify cfg w e) (simplify cfg w' e).
  Proof.
    intros cfg e. induction e as [n|op l r IHl IHr|op e IHe|f args Hargs|y] using element_ind'; intro H; cbn [simplify]; try (now apply sames_val); inversion H; subst.
    - destruct IHl as [El Gl]; auto. destruct IHr as [Er Gr]; auto. rewrite <- El, <- Er.
      destruct (simplify cfg w l) as [l'|]; [|apply sames_boom]. destruct (simplify cfg w r) as [r'|]; [|apply sames_boom].
      cbn. apply portable_simplify_binop; auto.
    - destruct IHe as [Ee Ge]; auto. rewrite <- Ee. destruct (simplify cfg w e) as [e'|]; [|apply sames_boom]. cbn.
      pose proof (Ge _ eq_refl) as G. unfold simplify_unop.
      destruct op; try apply sames_boom; try (now apply sames_val); destruct e'; apply sames_val; constructor; auto.
    - assert (E : map_out (simplify cfg w) args = map_out (simplify cfg w') args).
      { apply map_out_ext. rewrite Forall_forall in *. intros a Ha. now apply Hargs; auto. }
      rewrite <- E. destruct (map_out (simplify cfg w) args) as [args'|] eqn:Em; [|apply sames_boom]. cbn.
      assert (G : Forall (portable prog) args').
      { eapply map_out_good; [|exact Em]. rewrite Forall_forall in *. intros a Ha. now apply Hargs; auto. }
      unfold simplify_call. cbv zeta. destruct (Nat.eqb _ _); [|apply sames_val; now constructor].
      rewrite portable_call by auto. destruct (call_function _ _ _); [apply sames_val; constructor|apply sames_boom].
  Qed.

  Lemma portable_simplify_for : forall cfg x v e, portable prog e -> sames (el_simplify_for cfg w x v e) (el_simplify_for cfg w' x v e).
  Proof.
    intros cfg x v e. induction e as [n|op l r IHl IHr|op e IHe|f args Hargs|y] using element_ind'; intro H; cbn [el_simplify_for]; inversion H; subst.
    - now apply sames_val.
    - destruct IHl as [El Gl]; auto. destruct IHr as [Er Gr]; auto. rewrite <- El, <- Er.
      destruct (el_simplify_for cfg w x v l) as [l'|]; [|apply sames_boom]. destruct (el_simplify_for cfg w x v r) as [r'|]; [|apply sames_boom].
      apply portable_simplify. constructor; auto.
    - destruct IHe as [Ee Ge]; auto. rewrite <- Ee. destruct (el_simplify_for cfg w x v e) as [e'|]; [|apply sames_boom].
      apply portable_simplify. constructor; auto.
    - assert (E : map_out (el_simplify_for cfg w x v) args = map_out (el_simplify_for cfg w' x v) args).
      { apply map_out_ext. rewrite Forall_forall in *. intros a Ha. now apply Hargs; auto. }
      rewrite <- E. destruct (map_out (el_simplify_for cfg w x v) args) as [args'|] eqn:Em; [|apply sames_boom].
      apply portable_simplify. constructor; auto.
      eapply map_out_good; [|exact Em]. rewrite Forall_forall in *. intros a Ha. now apply Hargs; auto.
    - destruct (String.eqb y x); apply sames_val; constructor.
  Qed.
End Expressions.
