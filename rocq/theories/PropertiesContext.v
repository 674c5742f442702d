(** * Properties of comparing contexts and parsers (C68) *)
From Coq Require Import ZArith NArith List String Ascii Bool Lia Permutation.
From Flocq Require Import BinarySingleNaN.
From Verif Require Import F64 Syntax Factorial Builtins Context Element Parser Xprs Order ContextEq.
From Verif Require Import SpecParse SpecTree SpecNames SpecContext SpecNumber NumberFacts TreeFacts SimplifyFacts SpecApi ParserResults FloatFacts.
From Verif Require Import TestWorld PropertiesParse PropertiesEval PropertiesEq PropertiesNames PropertiesOptimise.
Import ListNotations.
Local Open Scope string_scope.

(** ** Contexts are maps *)
Lemma filter_keys : forall {A} k (m : smap A), NoDup (map fst m) ->
  NoDup (map fst (filter (fun kv => negb (String.eqb k (fst kv))) m)) /\
  ~ In k (map fst (filter (fun kv => negb (String.eqb k (fst kv))) m)).
Proof.
  intros A k m H. split.
  - induction m as [|[k' v] m IH]; cbn; auto. cbn in H. inversion H; subst. destruct (String.eqb k k'); cbn; auto.
    constructor; auto. intro Hi. apply in_map_iff in Hi. destruct Hi as [kv [E Hk]]. apply filter_In in Hk.
    apply H2. rewrite <- E. apply in_map. tauto.
  - intro Hi. apply in_map_iff in Hi. destruct Hi as [kv [E Hk]]. apply filter_In in Hk. destruct Hk as [_ Hk].
    subst k. now rewrite String.eqb_refl in Hk.
Qed.

Lemma sinsert_keys : forall {A} k (v : A) m, NoDup (map fst m) -> NoDup (map fst (sinsert k v m)).
Proof. intros A k v m H. unfold sinsert. cbn [map fst]. destruct (filter_keys k m H). now constructor. Qed.

(** Every context a program can build is [proper]: the arguments of
    [with_symbols] and of the expected-variables methods are a hash map and a
    hash set. *)
Theorem C68_contexts_are_proper : forall l,
  Forall (fun u => match u with
                   | U_with_symbols m => NoDup (map fst m)
                   | U_set_expected s | U_with_expected s => NoDup s
                   | _ => True
                   end) l ->
  proper (apply_updates ctx_default l).
Proof.
  intros l H. unfold apply_updates.
  assert (G : forall c, proper c -> proper (fold_left apply_update l c)).
  { induction H as [|u l Hu Hl IH]; intros c Hc; auto. cbn [fold_left]. apply IH. destruct Hc as [H1 H2].
    destruct u; split; cbn [apply_update set_var with_var set_fn with_fn with_symbols set_expected_vars with_expected_vars ctx_symbols ctx_expected];
      auto using sinsert_keys; intros s' [= <-]; exact Hu. }
  apply G. split; [constructor|discriminate].
Qed.

(** ** == on contexts *)
Lemma sget_In_key : forall {A} k (m : smap A), In k (map fst m) <-> exists v, sget k m = Some v.
Proof.
  intros A k m. induction m as [|[k' v] m IH]; cbn.
  - split; [intros []|intros [v [=]]].
  - destruct (String.eqb_spec k k') as [->|Hk].
    + split; eauto.
    + rewrite <- IH. split; [intros [E|E]; congruence || auto|auto].
Qed.

Lemma sget_entry : forall {A} k (v : A) m, NoDup (map fst m) -> (In (k, v) m <-> sget k m = Some v).
Proof.
  intros A k v m. induction m as [|[k' v'] m IH]; cbn; intro H.
  - split; [intros []|discriminate].
  - inversion H; subst. destruct (String.eqb_spec k k') as [->|Hk].
    + split; [|intros [= ->]; auto]. intros [[= ->]|Hi]; auto. destruct H2. apply (in_map fst) in Hi. exact Hi.
    + rewrite <- IH by auto. split; auto. intros [[= -> ->]|Hi]; congruence || auto.
Qed.

Lemma keys_same : forall {A} (m n : smap A), NoDup (map fst m) -> NoDup (map fst n) ->
  List.length m = List.length n -> (forall k, In k (map fst m) -> In k (map fst n)) ->
  forall k, In k (map fst n) -> In k (map fst m).
Proof.
  intros A m n Hm Hn Hl Hi. apply (NoDup_length_incl Hm).
  - rewrite !map_length. lia.
  - exact Hi.
Qed.

Lemma smap_eq_iff : forall {A} (eqv : A -> A -> bool) m n, NoDup (map fst m) -> NoDup (map fst n) ->
  (smap_eq eqv m n = true <-> forall k, match sget k m, sget k n with
                                        | None, None => True
                                        | Some a, Some b => eqv a b = true
                                        | _, _ => False
                                        end).
Proof.
  intros A eqv m n Hm Hn. unfold smap_eq. rewrite andb_true_iff, Nat.eqb_eq, forallb_forall. split.
  - intros [Hl Hf] k.
    assert (Hk : forall k, In k (map fst m) -> In k (map fst n)).
    { intros k0 H0. apply in_map_iff in H0. destruct H0 as [[k1 v] [E Hi]]. cbn in E. subst k1.
      specialize (Hf _ Hi). cbn [fst snd] in Hf. apply sget_In_key. destruct (sget k0 n); [eauto|discriminate]. }
    destruct (sget k m) as [a|] eqn:E.
    + apply sget_entry in E; auto. specialize (Hf _ E). cbn [fst snd] in Hf. destruct (sget k n); auto. discriminate.
    + destruct (sget k n) as [b|] eqn:E'; auto.
      assert (Hi : In k (map fst m)) by (apply (keys_same m n); auto; apply sget_In_key; eauto).
      apply sget_In_key in Hi. destruct Hi as [v Hv]. congruence.
  - intro H.
    assert (Hi : forall k, In k (map fst m) <-> In k (map fst n)).
    { intro k. rewrite !sget_In_key. specialize (H k). destruct (sget k m), (sget k n); try tauto; split; eauto. }
    split.
    + rewrite <- (map_length fst m), <- (map_length fst n).
      apply Nat.le_antisymm; apply NoDup_incl_length; auto; intros k Hk; now apply Hi.
    + intros [k v] Hkv. cbn [fst snd]. apply sget_entry in Hkv; auto. specialize (H k). rewrite Hkv in H.
      destruct (sget k n); auto.
Qed.

Lemma feq_equal : forall x y, feq x y = true <-> equal_numbers x y.
Proof.
  intros x y. rewrite feq_cases. unfold equal_numbers. split.
  - intros [[-> H]|[[s ->] [t ->]]]; eauto.
  - intros [[-> H]|[s [t [-> ->]]]]; auto. right. split; eexists; reflexivity.
Qed.

Lemma symbol_eq_iff : forall a b, symbol_eq a b = true <-> same_symbol (Some a) (Some b).
Proof.
  intros [x|f] [y|g]; cbn [symbol_eq].
  - rewrite feq_equal. split; [now constructor|]. intro H. now inversion H.
  - split; [discriminate|]. intro H. inversion H.
  - split; [discriminate|]. intro H. inversion H.
  - rewrite function_eqb_eq. split; [intros ->; constructor|]. intro H. now inversion H.
Qed.

Lemma expected_eq_iff : forall a b, (forall s, a = Some s -> NoDup s) -> (forall s, b = Some s -> NoDup s) ->
  (expected_eq a b = true <-> same_expected a b).
Proof.
  intros [s|] [t|] Ha Hb; cbn; try (split; [discriminate|tauto]); try tauto. apply set_eqb_spec; auto.
Qed.

(** [==] on contexts (and on parsers) says: every name means the same, and the
    same variables are expected. *)
Theorem C68_context_eq_iff : forall a b, proper a -> proper b ->
  (context_eq a b = true <->
   (forall name, same_symbol (ctx_get a name) (ctx_get b name)) /\
   same_expected (get_expected_vars a) (get_expected_vars b)).
Proof.
  intros a b [Ha Ea] [Hb Eb]. unfold context_eq, ctx_get, get_expected_vars.
  rewrite andb_true_iff, (expected_eq_iff _ _ Ea Eb), (smap_eq_iff _ _ _ Ha Hb).
  split; (intros [H1 H2]; split; [|exact H2]; intro k; specialize (H1 k)).
  - destruct (sget k (ctx_symbols a)), (sget k (ctx_symbols b)); try (now destruct H1); try constructor. now apply symbol_eq_iff.
  - destruct (sget k (ctx_symbols a)), (sget k (ctx_symbols b)); try (now inversion H1); try exact I. now apply symbol_eq_iff.
Qed.

Theorem C68_context_eq_symmetric : forall a b, proper a -> proper b -> context_eq a b = context_eq b a.
Proof.
  assert (G : forall a b, proper a -> proper b -> context_eq a b = true -> context_eq b a = true).
  { intros a b Ha Hb H. apply (C68_context_eq_iff a b Ha Hb) in H. apply (C68_context_eq_iff b a Hb Ha). destruct H as [H1 H2]. split.
    - intro k. specialize (H1 k). inversion H1; try constructor. destruct H3 as [[-> H3]|[u [t [-> ->]]]]; [left|right]; eauto.
    - unfold same_expected in *. destruct (get_expected_vars a), (get_expected_vars b); auto. intro x. symmetry. auto. }
  intros a b Ha Hb. destruct (context_eq a b) eqn:E; [symmetry; auto|].
  destruct (context_eq b a) eqn:E'; auto. apply G in E'; auto. congruence.
Qed.

Theorem C68_context_eq_transitive : forall a b c, proper a -> proper b -> proper c ->
  context_eq a b = true -> context_eq b c = true -> context_eq a c = true.
Proof.
  intros a b c Ha Hb Hc H H'. apply (C68_context_eq_iff a b Ha Hb) in H. apply (C68_context_eq_iff b c Hb Hc) in H'.
  apply (C68_context_eq_iff a c Ha Hc). destruct H as [H1 H2], H' as [H1' H2']. split.
  - intro k. specialize (H1 k). specialize (H1' k). revert H1'. inversion H1; intro H1'; inversion H1'; try constructor.
    destruct H3 as [[-> H3]|[u [t [-> ->]]]]; auto. destruct H6 as [[<- H6]|[u' [t' [_ ->]]]]; right; eauto.
  - unfold same_expected in *. destruct (get_expected_vars a), (get_expected_vars b), (get_expected_vars c); try tauto.
    intro x. rewrite H2. apply H2'.
Qed.

(** A context equals itself unless it holds a NaN. *)
Theorem C68_context_eq_reflexive_iff : forall a, proper a ->
  (context_eq a a = true <-> forall name v, ctx_get a name = Some (S_Variable v) -> is_nan v = false).
Proof.
  intros a Ha. rewrite (C68_context_eq_iff a a Ha Ha). split.
  - intros [H _] name v E. specialize (H name). rewrite E in H. inversion H as [|x y [[_ Hn]|[u [t [-> _]]]] |]; auto.
  - intro H. split.
    + intro name. destruct (ctx_get a name) as [[v|f]|] eqn:E; constructor. left. eauto.
    + unfold same_expected. destruct (get_expected_vars a); tauto.
Qed.

(** ** Parsing with two contexts side by side *)
Lemma forall2_len : forall {A B} {R : A -> B -> Prop} {l l'}, Forall2 R l l' -> List.length l = List.length l'.
Proof. intros A B R l l' H. induction H; cbn; auto. Qed.

Inductive pres_rel {A} (R : A -> A -> Prop) : pres A -> pres A -> Prop :=
| PR_ok : forall a b c, R a b -> pres_rel R (POk a c) (POk b c)
| PR_err : forall e c, pres_rel R (PErr e c) (PErr e c)
| PR_panic : forall p, pres_rel R (PPanic p) (PPanic p)
| PR_fuel : pres_rel R PFuel PFuel.

Lemma pres_rel_bind : forall {A B} (R : A -> A -> Prop) (Q : B -> B -> Prop) x y f g,
  pres_rel R x y -> (forall a b c, R a b -> pres_rel Q (f a c) (g b c)) -> pres_rel Q (pbind x f) (pbind y g).
Proof. intros A B R Q x y f g H Hf. destruct H; cbn; auto; constructor. Qed.

Section Side.
  Variable cfg : config.
  Variables w w' : world.
  Variables c c' : context.
  Variable input : string.
  Variable R : element -> element -> Prop.
  Hypothesis R_num : forall l n, parse_f64 l = Some n -> R (Number n) (Number n).
  Hypothesis R_var : forall v, R (Var v) (Var v).
  Hypothesis R_un : forall op a b, R a b -> R (UnOp op a) (UnOp op b).
  Hypothesis R_bin : forall op l r l' r', R l l' -> R r r' -> R (BinOp op l r) (BinOp op l' r').
  Hypothesis R_call : forall f l l', Forall2 R l l' -> R (Call f l) (Call f l').
  Hypothesis R_number : forall a b, R a b -> (exists n, a = Number n) <-> (exists n, b = Number n).
  Hypothesis R_finish : forall a b k, R a b -> pres_rel R (plift (finish_element cfg w a) k) (plift (finish_element cfg w' b) k).
  Hypothesis R_resolve : forall name,
    match resolve c name, resolve c' name with
    | I_Constant v, I_Constant v' => R (Number v) (Number v')
    | I_Variable x, I_Variable y => x = y
    | I_Function f, I_Function g => f = g
    | _, _ => False
    end.

  Lemma fail_rel : forall {A} (Q : A -> A -> Prop) k o n q, pres_rel Q (@fail input A k o n q) (@fail input A k o n q).
  Proof. intros. unfold fail. destruct o; constructor. Qed.

  Lemma goi_same : forall a b p k, R a b -> get_operator_infos cfg input a p k = get_operator_infos cfg input b p k.
  Proof.
    intros a b p k H. unfold get_operator_infos. destruct (next_trim input k) as [[x|] k']; auto.
    destruct (operator_of_byte x); auto. destruct (implicit_precedence cfg <=? p)%nat; auto.
    destruct (is_lower x || Ascii.eqb x "("); auto. destruct (is_digit x); auto. apply R_number in H.
    destruct a, b; auto; exfalso; (destruct H as [H1 H2]); (try (destruct H1 as [? [=]]; eauto)); (try (destruct H2 as [? [=]]; eauto)).
  Qed.

  Section Open.
    Variables elem elem' : nat -> nat -> pres element.
    Hypothesis He : forall p k, pres_rel R (elem p k) (elem' p k).

    Lemma loop_rel : forall b p x y k, R x y ->
      pres_rel R (binop_loop cfg input elem b p x k) (binop_loop cfg input elem' b p y k).
    Proof.
      induction b as [|b IH]; intros p x y k H; cbn [binop_loop]; [constructor|].
      rewrite (goi_same x y p k H). destruct (get_operator_infos cfg input y p k) as [[[op q]|] k']; [|now constructor].
      eapply pres_rel_bind; [apply He|]. intros. apply IH. auto.
    Qed.

    Lemma arguments_rel : forall b l l' k, Forall2 R l l' ->
      pres_rel (Forall2 R) (parse_arguments cfg input elem b l k) (parse_arguments cfg input elem' b l' k).
    Proof.
      induction b as [|b IH]; intros l l' k H; cbn [parse_arguments]; [constructor|].
      eapply pres_rel_bind with (R := R).
      - unfold argument. destruct (He NO_PRECEDENCE k); try (now constructor). destruct (pe_kind e); try constructor. apply fail_rel.
      - intros x y k1 Hxy. assert (H' : Forall2 R (l ++ [x]) (l' ++ [y])) by (apply Forall2_app; auto).
        destruct (next_trim input k1) as [[t|] k2]; [|apply fail_rel].
        destruct (Ascii.eqb t ","); auto. destruct (Ascii.eqb t ")"); [now constructor|apply fail_rel].
    Qed.

    Lemma identifier_rel : forall b k, pres_rel R (parse_identifier cfg c input elem b k) (parse_identifier cfg c' input elem' b k).
    Proof.
      intros b k. unfold parse_identifier. specialize (R_resolve (slice input k (skip_while input is_ident_char k))).
      destruct (resolve c _), (resolve c' _); try (now destruct R_resolve); try (now constructor).
      - subst f0. destruct (consume_if_eq input "(" _) as [[] k1]; [|apply fail_rel].
        eapply pres_rel_bind; [apply arguments_rel; constructor|]. intros l l' k2 Hl.
        eapply pres_rel_bind with (R := eq).
        + unfold assert_eq_consume. destruct (consume_if_eq input ")" k2) as [[] k3]; [now constructor|apply fail_rel].
        + intros _ _ k3 _. unfold check_arity. rewrite (forall2_len Hl).
          destruct (fn_nb_args f); [|constructor; auto]. destruct (Nat.compare _ _); [constructor; auto|apply fail_rel|apply fail_rel].
      - subst. constructor. auto.
    Qed.

    Lemma atom_rel : forall b k, pres_rel R (atom cfg c input elem b k) (atom cfg c' input elem' b k).
    Proof.
      intros b k. unfold atom. destruct (next_trim input k) as [[t|] k']; [|apply fail_rel].
      destruct (is_digit t || Ascii.eqb t ".").
      { unfold parse_number. cbv zeta. destruct (parse_f64 _) eqn:E; [constructor; eauto|apply fail_rel]. }
      destruct (is_alpha t); [apply identifier_rel|].
      destruct (Ascii.eqb t "+"); [eapply pres_rel_bind; [apply He|]; intros; constructor; auto|].
      destruct (Ascii.eqb t "-"); [eapply pres_rel_bind; [apply He|]; intros; constructor; auto|].
      destruct (Ascii.eqb t "("); [|destruct (Ascii.eqb t ")"); apply fail_rel].
      eapply pres_rel_bind; [apply He|]. intros x y k1 H. eapply pres_rel_bind with (R := eq).
      - unfold assert_eq_consume. destruct (consume_if_eq input ")" k1) as [[] k3]; [now constructor|apply fail_rel].
      - intros. now constructor.
    Qed.
  End Open.

  Lemma element_rel : forall b p k, pres_rel R (element_at cfg w c input b p k) (element_at cfg w' c' input b p k).
  Proof.
    induction b as [|b IH]; intros p k; cbn [element_at]; [constructor|].
    eapply pres_rel_bind; [apply atom_rel; exact IH|]. intros x y k1 H.
    destruct (consume_if_eq input "!" k1) as [bang k2].
    eapply pres_rel_bind; [apply loop_rel; [exact IH|destruct bang; auto]|]. intros x' y' k3 H'. now apply R_finish.
  Qed.

  Hypothesis R_vars : forall a b s, R a b -> find_variables a s = find_variables b s.
  Hypothesis fair : fair_order w.
  Hypothesis fair' : fair_order w'.
  Hypothesis expected_same : same_expected (get_expected_vars c) (get_expected_vars c').

  Lemma diff_In : forall s t x, In x (set_diff s t) <-> In x s /\ ~ In x t.
  Proof.
    intros s t x. unfold set_diff. rewrite filter_In, negb_true_iff. split; intros [H1 H2]; split; auto.
    - intro H. apply mem_In in H. congruence.
    - destruct (mem x t) eqn:E; auto. apply mem_In in E. tauto.
  Qed.
  Lemma order_In : forall w, fair_order w -> forall s x, In x (hash_order w s) <-> In x s.
  Proof. intros u Hu s x. specialize (Hu s). split; apply Permutation_in; auto. now apply Permutation_sym. Qed.

  Lemma side_by_side : same_outcome (get_expected_vars c) R (parse cfg w c input) (parse cfg w' c' input).
  Proof.
    assert (T : parse cfg w c input <> Parse_diverges) by apply C01_parse_terminates.
    revert T. unfold parse, parse_impl. destruct (element_rel (parse_budget input) NO_PRECEDENCE 0) as [a b k H|e k|p|]; cbn [pbind]; intro T.
    - destruct (next_trim input k) as [[t|] k']; [cbn; repeat constructor|].
      rewrite (R_vars a b [] H). destruct (get_expected_vars c) as [s|] eqn:Ec, (get_expected_vars c') as [s'|] eqn:Ec'; try (now destruct expected_same).
      + cbn in expected_same. set (vs := find_variables b []) in *.
        assert (D : forall x, In x (set_diff (hash_order w vs) s) <-> In x (set_diff (hash_order w' vs) s')).
        { intro x. rewrite !diff_In, !order_In by auto. now rewrite expected_same. }
        destruct (set_diff (hash_order w vs) s) as [|u l] eqn:E1, (set_diff (hash_order w' vs) s') as [|u' l'] eqn:E2.
        * now constructor.
        * exfalso. apply (D u'). now left.
        * exfalso. apply (D u). now left.
        * constructor. eapply SR_undeclared with (declared := s); auto.
          -- assert (Hu : In u (set_diff (hash_order w vs) s)) by (rewrite E1; now left). apply diff_In in Hu. tauto.
          -- assert (Hu : In u' (set_diff (hash_order w' vs) s')) by (rewrite E2; now left). apply diff_In in Hu. rewrite expected_same. tauto.
          -- intro x. now apply order_In.
          -- intro x. rewrite expected_same. now apply order_In.
      + now constructor.
    - constructor. constructor.
    - constructor.
    - now destruct T.
  Qed.
End Side.

(** Numeric literals are never NaN. *)
Lemma literal_not_nan : forall l n, parse_f64 l = Some n -> is_nan n = false.
Proof.
  intros l n H. unfold parse_f64 in H. destruct (take_digits l) as [ip s1].
  destruct (match s1 with [] => ([], s1) | x :: s' => if Ascii.eqb x "." then take_digits s' else ([], s1) end) as [fp s2].
  destruct (is_nil ip && is_nil fp); [discriminate|]. destruct (parse_exponent s2) as [e|]; [|discriminate].
  injection H as <-. destruct (f64_of_dec_correct (dec_value (ip ++ fp)) (e - Z.of_nat (List.length fp))) as [[_ [H _]]|[_ ->]]; [|reflexivity].
  destruct (f64_of_dec _ _); auto.
Qed.

Lemma constant_inj : forall p v, I_Constant p = I_Constant v -> is_nan p = false -> is_nan v = false.
Proof. intros p v [= ->]. auto. Qed.
Lemma pi_not_nan : is_nan f64_PI = false. Proof. vm_compute. reflexivity. Qed.
Lemma e_not_nan : is_nan f64_E = false. Proof. vm_compute. reflexivity. Qed.
Lemma builtin_constant_not_nan : forall s v, identifier_from_str s = I_Constant v -> is_nan v = false.
Proof.
  intros s v. unfold identifier_from_str. generalize pi_not_nan, e_not_nan. generalize f64_PI, f64_E. intros p e Hp He H.
  destruct (s =? "pi"); [exact (constant_inj _ _ H Hp)|].
  destruct (s =? "e"); [exact (constant_inj _ _ H He)|].
  repeat match type of H with (if ?b then _ else _) = _ => destruct b; [discriminate|] end. discriminate.
Qed.

Lemma equal_trees_vars : forall a b, equal_trees a b -> forall s, find_variables a s = find_variables b s.
Proof.
  intro a. induction a as [n|op l r IHl IHr|op e IHe|f args Hargs|y] using element_ind'; intros b H s;
    inversion H as [| |? ? b' H1|? ? ? l' r' H1 H2|? ? args' H1]; subst; cbn [find_variables]; auto.
  - now rewrite (IHl _ H1), (IHr _ H2).
  - clear H. revert s. induction H1 as [|x y l l' Hxy Hl IH]; intro s; cbn [fold_left]; auto.
    inversion Hargs as [|? ? Ha Hb]; subst. rewrite (Ha _ Hxy). auto.
Qed.

(** Without compile-time optimisation, two parsers that compare equal treat
    every text alike: the same errors, the same variables, and trees that
    differ at most in the sign of zero constants — whatever order the hash sets
    of the two runs are iterated in. *)
Theorem C68_equal_parsers_parse_alike : forall cfg w w' c c' input, optimize cfg = false ->
  proper c -> proper c' -> fair_order w -> fair_order w' -> context_eq c c' = true ->
  same_outcome (get_expected_vars c) equal_trees (parse cfg w c input) (parse cfg w' c' input).
Proof.
  intros cfg w w' c c' input Ho Hc Hc' Hw Hw' H. apply C68_context_eq_iff in H; auto. destruct H as [Hs He].
  apply side_by_side; auto; try (intros; now constructor).
  - intros l n H. constructor. left. split; auto. eapply literal_not_nan; eauto.
  - intros a b H. split; intros [n ->]; inversion H; eauto.
  - intros a b k H. unfold finish_element. rewrite Ho. now constructor.
  - intro name. specialize (Hs name). unfold resolve. inversion Hs as [|x y Hxy|f]; cbn [identifier_of_symbol]; auto; [|now constructor].
    destruct (identifier_from_str name) eqn:E; auto. constructor. left. split; auto. eapply builtin_constant_not_nan; eauto.
  - intros a b s H. now apply equal_trees_vars.
Qed.

(** So a text parsed with one is parsed with the other, to an equal
    expression. *)
Theorem C68_equal_parsers_equal_results : forall cfg w w' c c' input x, optimize cfg = false ->
  proper c -> proper c' -> fair_order w -> fair_order w' -> context_eq c c' = true ->
  ~ has_double_bang input -> parse cfg w c input = Parse_ok x ->
  exists x', parse cfg w' c' input = Parse_ok x' /\ xprs_eq x x' = Val true.
Proof.
  intros cfg w w' c c' input x Ho Hc Hc' Hw Hw' H Hb Hx.
  pose proof (C68_equal_parsers_parse_alike cfg w w' c c' input Ho Hc Hc' Hw Hw' H) as S0.
  assert (Hn : no_bf (root x)).
  { pose proof (parse_impl_post cfg w c input no_bf (fun _ => True)) as E. unfold parse in Hx.
    destruct (parse_impl cfg w c input) as [[t vs] k| | |]; try discriminate.
    assert (Hr : root x = t).
    { destruct (get_expected_vars c); [|injection Hx as <-; reflexivity]. destruct (set_diff _ _); [injection Hx as <-; reflexivity|discriminate]. }
    rewrite Hr. apply E; auto.
    - intros v. exact I.
    - intros. exact I.
    - intros o n name f args _ _ _ Ha _. now apply no_bf_call.
    - intros op l r Hf Hl Hr'. split; auto.
    - intros e He. unfold finish_element. now rewrite Ho. }
  inversion S0 as [r r' vs HR Ex Ex'| |]; rewrite Hx in *; try discriminate.
  exists (mk_xprs r' vs). split; auto. injection Ex as <-. cbn [root] in Hn.
  assert (HE : equal_exprs r r').
  { clear - HR Hn. revert r' HR. induction r as [n|op l r IHl IHr|op e IHe|f args Hargs|y] using element_ind'; intros r' H;
      inversion H as [? ? H1| |? ? b' H1|? ? ? l' r0' H1 H2|? ? args' H1]; subst; cbn [no_bf] in Hn.
    - constructor. now apply feq_equal.
    - destruct Hn as [Hop [Hl Hr]]. apply EQ_bin; auto.
    - constructor. auto.
    - constructor. apply (no_bf_call f args) in Hn. clear H. induction H1 as [|a b l l' Hab Hl IH]; constructor.
      + inversion Hargs; inversion Hn; auto.
      + inversion Hargs; inversion Hn; auto.
    - constructor. }
  unfold xprs_eq. cbn [root vars]. apply and_true. split; [now apply el_eq_equal|]. f_equal.
  assert (N : NoDup vs). { destruct (C17_vars_exact _ _ _ _ _ Hx) as [N _]. exact N. }
  apply set_eqb_spec; auto. tauto.
Qed.

(** ** Any build: parsing depends on what the names mean, not on how the
    context was made *)
Lemma simplify_order : forall cfg w h e, simplify cfg (with_order w h) e = simplify cfg w e.
Proof.
  intros cfg w h e. induction e as [n|op l r IHl IHr|op e IHe|f args Hargs|y] using element_ind'; cbn [simplify]; auto.
  - rewrite IHl, IHr. reflexivity.
  - rewrite IHe. reflexivity.
  - assert (E : map_out (simplify cfg (with_order w h)) args = map_out (simplify cfg w) args).
    { induction Hargs as [|a l Ha Hl IH]; cbn; auto. rewrite Ha. destruct (simplify cfg w a); auto. cbn. now rewrite IH. }
    rewrite E. reflexivity.
Qed.

Theorem C68_same_names_parse_alike : forall cfg w h c c' input,
  fair_order w -> fair_order (with_order w h) ->
  (forall name, ctx_get c name = ctx_get c' name) ->
  same_expected (get_expected_vars c) (get_expected_vars c') ->
  same_outcome (get_expected_vars c) eq (parse cfg w c input) (parse cfg (with_order w h) c' input).
Proof.
  intros cfg w h c c' input Hw Hw' Hn He. apply side_by_side; auto.
  - intros op a b ->. auto.
  - intros op l r l' r' -> ->. auto.
  - intros f l l' H. f_equal. induction H; f_equal; auto.
  - intros a b ->. tauto.
  - intros a b k ->. unfold finish_element. rewrite simplify_order. destruct (if optimize cfg then _ else _); now constructor.
  - intro name. unfold resolve. rewrite Hn. destruct (ctx_get c' name) as [[v|f]|]; cbn; auto. destruct (identifier_from_str name); auto.
  - now intros a b s ->.
Qed.

(** Parsers that compare equal and have no zero among their constants are
    interchangeable in every build. *)
Theorem C68_equal_parsers_without_zero : forall cfg w h c c' input,
  proper c -> proper c' -> fair_order w -> fair_order (with_order w h) -> context_eq c c' = true ->
  (forall name s, ctx_get c name <> Some (S_Variable (B754_zero s))) ->
  same_outcome (get_expected_vars c) eq (parse cfg w c input) (parse cfg (with_order w h) c' input).
Proof.
  intros cfg w h c c' input Hc Hc' Hw Hw' H Hz. apply C68_context_eq_iff in H; auto. destruct H as [Hs He].
  apply C68_same_names_parse_alike; auto. intro name. specialize (Hs name). inversion Hs as [|x y [[-> _]|[s [t [-> ->]]]] E1 E2|f]; auto.
  exfalso. apply (Hz name s). now rewrite <- E1.
Qed.

(** ** Limits *)
(** Constants 0.0 and -0.0 make equal parsers whose results differ in value. *)
Definition plus_zero : context := with_var ctx_default "a" fzero.
Definition minus_zero : context := with_var ctx_default "a" (fneg fzero).

Theorem C68_zero_sign_refuted : context_eq plus_zero minus_zero = true /\
  exists x y, parse default_config w0 plus_zero "recip(a)" = Parse_ok x /\
    parse default_config w0 minus_zero "recip(a)" = Parse_ok y /\
    eval w0 x [] = Val (Eval_ok finf) /\ eval w0 y [] = Val (Eval_ok (fneg finf)).
Proof.
  split; [vm_compute; reflexivity|].
  destruct (parses_to (parse default_config w0 plus_zero "recip(a)") (Number finf)) as [x [Hx Rx]]; [vm_compute; reflexivity|].
  destruct (parses_to (parse default_config w0 minus_zero "recip(a)") (Number (fneg finf))) as [y [Hy Ry]]; [vm_compute; reflexivity|].
  exists x, y. split; [exact Hx|]. split; [exact Hy|]. unfold eval. rewrite Rx, Ry. split; apply eval_check; vm_compute; reflexivity.
Qed.

(** With compile-time optimisation a user function that panics on -0.0 makes
    one of two equal parsers panic while the other accepts. *)
Definition positive_only : function := mk_function "f" (Static_user 7) (Some 1).
Definition panics_below_zero (args : list f64) : option f64 :=
  match args with [v] => if Bsign v then None else Some v | _ => None end.

Theorem C68_optimised_acceptance_refuted :
  context_eq (with_fn plus_zero positive_only) (with_fn minus_zero positive_only) = true /\
  let w := with_user_fn w0 7 panics_below_zero in
  (exists x, parse default_config w (with_fn plus_zero positive_only) "f(a)" = Parse_ok x) /\
  parse default_config w (with_fn minus_zero positive_only) "f(a)" = Parse_panic UserPanic.
Proof.
  split; [vm_compute; reflexivity|]. split; [apply parses_ok; vm_compute; reflexivity|].
  assert (G : match parse default_config (with_user_fn w0 7 panics_below_zero) (with_fn minus_zero positive_only) "f(a)" with
              | Parse_panic UserPanic => true | _ => false end = true) by (vm_compute; reflexivity).
  revert G. generalize (parse default_config (with_user_fn w0 7 panics_below_zero) (with_fn minus_zero positive_only) "f(a)").
  intros [x|e|[]|]; try discriminate. reflexivity.
Qed.

(** A parser holding NaN does not equal its own clone. *)
Theorem C68_nan_refuted : context_eq (with_var ctx_default "a" fnan) (with_var ctx_default "a" fnan) = false.
Proof. vm_compute. reflexivity. Qed.

(** The witness: two contexts built in different orders, with a shadowed
    built-in, a function, zeros of both signs and two expected variables. *)
Definition built_one_way : context :=
  apply_updates ctx_default
    [U_set_var "a" fzero; U_with_fn double_fn; U_set_var "sin" fone; U_with_expected ["x"; "y"]].
Definition built_another_way : context :=
  apply_updates ctx_default
    [U_with_expected ["z"]; U_set_expected ["y"; "x"]; U_with_var "sin" finf; U_with_var "sin" fone;
     U_set_var "a" (fneg fzero); U_set_fn double_fn].

Example C68_witness : proper built_one_way /\ proper built_another_way /\ fair_order w0 /\ fair_order w1 /\
  context_eq built_one_way built_another_way = true /\
  (exists x, parse plain_config w0 built_one_way "double(x) + a sin y" = Parse_ok x) /\
  error_of (parse plain_config w0 built_one_way "double(x) + a sin(u)") = Some (VariableNotDeclared "u" ["x"; "y"], 0%N, 20%N) /\
  error_of (parse plain_config w0 built_another_way "double(x) + a sin(u)") = Some (VariableNotDeclared "u" ["y"; "x"], 0%N, 20%N).
Proof.
  split; [|split].
  - apply C68_contexts_are_proper. repeat constructor; cbn; intuition discriminate.
  - apply C68_contexts_are_proper. repeat constructor; cbn; intuition discriminate.
  - split; [exact w0_fair|]. split; [exact w1_fair|]. split; [vm_compute; reflexivity|].
    split; [apply parses_ok; vm_compute; reflexivity|]. split; vm_compute; reflexivity.
Qed.

Lemma in_entries : forall {A} k (v : A) m, sget k m = Some v -> In (k, v) m.
Proof.
  intros A k v m. induction m as [|[k' v'] m IH]; cbn; [discriminate|]. destruct (String.eqb_spec k k') as [->|]; auto. intros [= ->]. auto.
Qed.

(** ... and for the optimised build: constants that are not zero. *)
Example C68_witness_optimised :
  let c := apply_updates ctx_default [U_set_var "a" fone; U_with_fn double_fn] in
  let c' := apply_updates ctx_default [U_with_fn double_fn; U_set_var "a" fone] in
  proper c /\ proper c' /\ fair_order (with_order w0 (@rev string)) /\ context_eq c c' = true /\
  (forall name s, ctx_get c name <> Some (S_Variable (B754_zero s))) /\
  exists x, parse default_config w0 c "double(x) + a" = Parse_ok x.
Proof.
  cbv zeta. split; [apply C68_contexts_are_proper; repeat constructor|].
  split; [apply C68_contexts_are_proper; repeat constructor|].
  split; [intro s; apply Permutation_rev|]. split; [vm_compute; reflexivity|].
  split; [|apply parses_ok; vm_compute; reflexivity].
  intros name s H. apply in_entries in H.
  cbn in H. destruct H as [H|[H|[]]]; inversion H.
Qed.
