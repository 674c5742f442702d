(** * Facts about trees: safety, variables, evaluation *)
From Coq Require Import ZArith NArith List String Ascii Bool Lia.
From Verif Require Import F64 Syntax Factorial Builtins Context Element Parser Xprs SpecTree.
Import ListNotations.

(** ** Recursive forms of the specification's predicates *)

(** Everything the evaluator needs: used with proper operators and functions
    that return. *)
Fixpoint safe (w : world) (e : element) : Prop :=
  match e with
  | Number _ | Var _ => True
  | BinOp op l r => op <> Factorial /\ safe w l /\ safe w r
  | UnOp op a => (op = Plus \/ op = Minus \/ op = Factorial) /\ safe w a
  | Call f args =>
      (forall vs, List.length vs = List.length args -> exists v, call_function w f vs = Val v)
      /\ (fix go (l : list element) : Prop :=
            match l with [] => True | a :: l' => safe w a /\ go l' end) args
  end.

Lemma safe_call : forall w f args, safe w (Call f args) <->
  (forall vs, List.length vs = List.length args -> exists v, call_function w f vs = Val v)
  /\ Forall (safe w) args.
Proof.
  intros w f args. simpl.
  assert (H : (fix go (l : list element) : Prop :=
            match l with [] => True | a :: l' => safe w a /\ go l' end) args <-> Forall (safe w) args).
  { induction args; split; intro H; auto; try (now constructor).
    - destruct H. constructor; tauto.
    - inversion H; subst. tauto. }
  tauto.
Qed.

Lemma safe_iff : forall w e, safe w e <-> proper_operators e /\ functions_return w e.
Proof.
  intros w. unfold proper_operators, functions_return.
  induction e using element_ind'.
  - simpl; split; [|auto]. intros _. repeat split; intros; inversion H.
  - simpl safe. rewrite IHe1, IHe2. clear. split.
    + intros [Hop [[[L1 L2] L3] [[R1 R2] R3]]]. repeat split; intros.
      * inversion H; subst; eauto.
      * inversion H; subst; eauto.
      * inversion H; subst; eauto.
    + intros [[H1 H2] H3]. split; [apply (H1 op e1 e2); constructor|].
      repeat split; intros.
      * eapply H1; eauto using sub.
      * eapply H2; eauto using sub.
      * eapply H3; eauto using sub.
      * eapply H1; eauto using sub.
      * eapply H2; eauto using sub.
      * eapply H3; eauto using sub.
  - simpl safe. rewrite IHe. clear. split.
    + intros [Hop [[L1 L2] L3]]. repeat split; intros; inversion H; subst; eauto.
    + intros [[H1 H2] H3]. split; [apply (H2 op e); constructor|].
      repeat split; intros.
      * eapply H1; eauto using sub.
      * eapply H2; eauto using sub.
      * eapply H3; eauto using sub.
  - rewrite safe_call. rewrite Forall_forall in *. split.
    + intros [Hf Ha]. repeat split.
      * intros op l r Hs. inversion Hs; subst. apply (proj1 (proj1 (H b H2) (Ha b H2))) in H3. auto.
      * intros op a Hs. inversion Hs; subst.
        destruct (proj1 (H b H2) (Ha b H2)) as [[_ P] _]. eauto.
      * intros g args' Hs. inversion Hs; subst; auto.
        destruct (proj1 (H b H2) (Ha b H2)) as [_ P]. eauto.
    + intros [[H1 H2] H3]. split; [apply (H3 f args); constructor|].
      intros a Ha. apply (H a Ha). repeat split; intros.
      * eapply H1; eauto using sub.
      * eapply H2; eauto using sub.
      * eapply H3; eauto using sub.
  - simpl; split; [|auto]. intros _. repeat split; intros; inversion H.
Qed.

(** ** Variables *)
Fixpoint free (x : string) (e : element) : Prop :=
  match e with
  | Number _ => False
  | Var y => x = y
  | BinOp _ l r => free x l \/ free x r
  | UnOp _ a => free x a
  | Call _ args =>
      (fix go (l : list element) : Prop :=
         match l with [] => False | a :: l' => free x a \/ go l' end) args
  end.

Lemma free_call : forall x f args, free x (Call f args) <-> Exists (free x) args.
Proof.
  intros. simpl. induction args; split; intro H; try (now inversion H).
  - destruct H; [now constructor|]. apply Exists_cons_tl. tauto.
  - inversion H; subst; tauto.
Qed.

Lemma free_iff : forall x e, free x e <-> occurs x e.
Proof.
  intros x. induction e using element_ind'.
  - simpl; split; [tauto|intro H; inversion H].
  - simpl. rewrite IHe1, IHe2. split; [intros [H|H]; eauto using occurs|].
    intro H; inversion H; subst; auto.
  - simpl. rewrite IHe. split; [eauto using occurs|]. intro H; inversion H; subst; auto.
  - rewrite free_call. rewrite Forall_forall in H. rewrite Exists_exists. split.
    + intros [a [Ha Hx]]. apply (H a Ha) in Hx. eauto using occurs.
    + intro Ho. inversion Ho; subst. exists a. split; auto. now apply (H a).
  - simpl; split; [intros <-; constructor|]. intro H; now inversion H.
Qed.

Lemma mem_In : forall x s, mem x s = true <-> In x s.
Proof.
  unfold mem. intros. rewrite existsb_exists. split.
  - intros [y [Hy E]]. apply String.eqb_eq in E. now subst.
  - intro H. exists x. split; auto. apply String.eqb_refl.
Qed.

Lemma set_insert_In : forall x y s, In x (set_insert y s) <-> x = y \/ In x s.
Proof.
  unfold set_insert. intros. destruct (mem y s) eqn:E.
  - apply mem_In in E. split; [auto|]. intros [->|H]; auto.
  - simpl. intuition.
Qed.

Lemma set_insert_NoDup : forall y s, NoDup s -> NoDup (set_insert y s).
Proof.
  unfold set_insert. intros. destruct (mem y s) eqn:E; auto.
  constructor; auto. intro Hc. apply mem_In in Hc. congruence.
Qed.

Lemma set_diff_In : forall x a b, In x (set_diff a b) <-> In x a /\ ~ In x b.
Proof.
  unfold set_diff. intros. rewrite filter_In. rewrite negb_true_iff.
  rewrite <- (mem_In x b). destruct (mem x b); intuition congruence.
Qed.

Lemma set_remove_In : forall x y s, In x (set_remove y s) <-> In x s /\ x <> y.
Proof.
  unfold set_remove. intros. rewrite filter_In, negb_true_iff, String.eqb_neq. intuition.
Qed.

Lemma fold_insert_In : forall x names s,
  In x (fold_left (fun s n => set_insert n s) names s) <-> In x names \/ In x s.
Proof.
  induction names; intros s; simpl; [tauto|].
  rewrite IHnames, set_insert_In. intuition congruence.
Qed.

Lemma find_variables_In : forall e y s, In y (find_variables e s) <-> free y e \/ In y s.
Proof.
  induction e using element_ind'; intros y s.
  - simpl; tauto.
  - simpl. rewrite IHe2, IHe1. tauto.
  - simpl. apply IHe.
  - rewrite free_call. simpl. revert s. induction H; intros s; simpl.
    + split; [auto|]. intros [Hx|Hx]; [inversion Hx|auto].
    + rewrite IHForall, H. split.
      * intros [Hx|[Hx|Hx]]; auto.
      * intros [Hx|Hx]; auto. inversion Hx; subst; auto.
  - simpl. apply set_insert_In.
Qed.

Lemma find_variables_NoDup : forall e s, NoDup s -> NoDup (find_variables e s).
Proof.
  induction e using element_ind'; intros s Hs; simpl; auto.
  - revert s Hs. induction H; intros s Hs; simpl; auto.
  - now apply set_insert_NoDup.
Qed.

(** ** Maps *)
Lemma sget_sinsert : forall A k k' (v : A) m,
  sget k (sinsert k' v m) = if String.eqb k k' then Some v else sget k m.
Proof.
  intros. unfold sinsert. simpl. destruct (String.eqb k k') eqn:E; auto.
  apply String.eqb_neq in E. induction m as [|[k0 v0] m IH]; simpl; auto.
  destruct (String.eqb k' k0) eqn:E0; simpl.
  - apply String.eqb_eq in E0. subst k0. rewrite IH.
    apply String.eqb_neq in E. now rewrite E.
  - destruct (String.eqb k k0); auto.
Qed.

(** The last binding of a key in a list of pairs. *)
Definition last_binding {A} (k : string) (l : list (string * A)) : option A := sget k (rev l).

Lemma sget_app : forall A k (l m : list (string * A)),
  sget k (l ++ m) = match sget k l with Some v => Some v | None => sget k m end.
Proof.
  induction l as [|[k0 v0] l IH]; intros m; simpl; auto. destruct (String.eqb k k0); auto.
Qed.

Lemma sget_smap_of_list : forall A k (l : list (string * A)),
  sget k (smap_of_list l) = last_binding k l.
Proof.
  unfold smap_of_list, last_binding. intros A k l.
  assert (H : forall m, sget k (fold_left (fun m kv => sinsert (fst kv) (snd kv) m) l m)
                        = match sget k (rev l) with Some v => Some v | None => sget k m end).
  { induction l as [|[k0 v0] l IH]; intros m; simpl; auto.
    rewrite IH, sget_sinsert, sget_app. simpl. destruct (sget k (rev l)); auto.
    destruct (String.eqb k k0); auto. }
  rewrite H. simpl. destruct (sget k (rev l)); auto.
Qed.

Lemma sget_combine_some : forall A k names (vals : list A),
  List.length names = List.length vals -> In k names -> exists v, sget k (combine names vals) = Some v.
Proof.
  induction names; intros vals Hl Hk; [inversion Hk|].
  destruct vals; [discriminate|]. simpl. destruct (String.eqb k a) eqn:E; eauto.
  destruct Hk as [->|Hk]; [rewrite String.eqb_refl in E; discriminate|].
  apply IHnames; auto.
Qed.

Lemma sget_In : forall A k v (l : list (string * A)), sget k l = Some v -> In (k, v) l.
Proof.
  induction l as [|[k0 v0] l IH]; simpl; [discriminate|].
  destruct (String.eqb k k0) eqn:E; intro H; auto.
  apply String.eqb_eq in E. left. congruence.
Qed.

Lemma sget_None : forall A k (l : list (string * A)), sget k l = None <-> ~ In k (map fst l).
Proof.
  induction l as [|[k0 v0] l IH]; simpl; [tauto|].
  destruct (String.eqb k k0) eqn:E.
  - apply String.eqb_eq in E. split; [discriminate|]. intro H. exfalso. apply H. left. congruence.
  - apply String.eqb_neq in E. rewrite IH. split; [|tauto]. intros H [He|Hi]; [congruence|tauto].
Qed.

Lemma last_binding_defined : forall A k (names : list string) (vals : list A),
  List.length names = List.length vals -> In k names ->
  exists v, last_binding k (combine names vals) = Some v.
Proof.
  intros. destruct (last_binding k (combine names vals)) eqn:E; eauto.
  unfold last_binding in E. rewrite sget_None in E. exfalso. apply E.
  rewrite map_rev, <- in_rev.
  assert (map fst (combine names vals) = names) as ->; auto.
  clear -H. revert vals H. induction names; intros vals H; auto.
  destruct vals; [discriminate|]. simpl. f_equal. apply IHnames. auto.
Qed.

(** ** Evaluation *)
Section Eval.
  Variable w : world.

  (** The three possible outcomes of [eval], in one theorem: on safe trees it
      returns a value iff all variables are given, and otherwise names the
      first missing variable. *)
  Lemma apply_binop_safe : forall op x y, op <> Factorial -> exists v, apply_binop w op x y = Val v.
  Proof. destruct op; simpl; eauto. congruence. Qed.

  Lemma apply_unop_safe : forall op x, op = Plus \/ op = Minus \/ op = Factorial ->
    exists v, apply_unop op x = Val v.
  Proof. intros op x [->|[->| ->]]; simpl; eauto. Qed.

  Lemma eval_total_ok : forall rho e, safe w e ->
    (forall x, free x e -> sget x rho <> None) ->
    exists v, eval_element w rho e = Val (Eval_ok v).
  Proof.
    intros rho. induction e using element_ind'; intros Hs Hv.
    - simpl; eauto.
    - destruct Hs as [Hop [Hl Hr]]. simpl in Hv.
      destruct IHe1 as [a Ea]; auto. destruct IHe2 as [b Eb]; auto.
      simpl. rewrite Ea. simpl. rewrite Eb. simpl.
      destruct (apply_binop_safe op a b Hop) as [v ->]. simpl; eauto.
    - destruct Hs as [Hop Hl]. simpl in Hv. destruct IHe as [a Ea]; auto.
      simpl. rewrite Ea. simpl. destruct (apply_unop_safe op a Hop) as [v ->]. simpl; eauto.
    - apply safe_call in Hs. destruct Hs as [Hf Ha].
      assert (Hvs : exists vs, map_eval (eval_element w rho) args = Val (inl vs)
                          /\ List.length vs = List.length args).
      { clear Hf. assert (Hv' : forall x a, In a args -> free x a -> sget x rho <> None).
        { intros x a Hi Hx. apply Hv. apply free_call. apply Exists_exists. eauto. }
        clear Hv. induction args as [|a args IH]; [exists []; auto|].
        inversion H as [|? ? Hhd Htl]; inversion Ha as [|? ? Ahd Atl]; subst.
        destruct Hhd as [v Ev]; auto. { intros x Hx. eapply Hv'; eauto. now left. }
        destruct IH as [vs [Evs Hl]]; auto. { intros x b Hb Hx. eapply Hv'; eauto. now right. }
        exists (v :: vs). split; [|simpl; congruence]. simpl. rewrite Ev.
        rewrite Evs. reflexivity. }
      destruct Hvs as [vs [Evs Hl]]. simpl. rewrite Evs.
      destruct (Hf vs Hl) as [v ->]. simpl; eauto.
    - simpl in *. destruct (sget x rho) eqn:E; eauto. exfalso. eapply Hv; eauto.
  Qed.

  (** A value means that no variable is missing. *)
  Lemma eval_ok_defined : forall rho e v, eval_element w rho e = Val (Eval_ok v) ->
    forall y, free y e -> sget y rho <> None.
  Proof.
    intros rho. induction e using element_ind'; intros v Hv y Hy; simpl in *; try contradiction.
      - destruct (eval_element w rho e1) as [[a|]|] eqn:E1; simpl in Hv; try discriminate.
        destruct (eval_element w rho e2) as [[b|]|] eqn:E2; simpl in Hv; try discriminate.
        destruct Hy; eauto.
      - destruct (eval_element w rho e) as [[a|]|] eqn:E1; simpl in Hv; try discriminate. eauto.
      - destruct (map_eval (eval_element w rho) args) as [[vs|]|] eqn:E1; try discriminate.
        clear Hv. revert vs E1 Hy. induction H; intros vs E1 Hy; simpl in *; [contradiction|].
        destruct (eval_element w rho x) as [[a|]|] eqn:E2; try discriminate.
        
        match type of E1 with context [match ?t with _ => _ end] => destruct t as [[vs'|]|] eqn:E3 end;
          try discriminate.
        destruct Hy as [Hy|Hy]; [eapply H; eauto|]. eapply IHForall; eauto.
      - destruct (sget x rho) eqn:E; [|discriminate]. subst. congruence.
  Qed.

  (** An error names the first missing variable (no assumption on the tree). *)
  Lemma eval_err_first : forall rho e x,
    eval_element w rho e = Val (Eval_err x) -> first_missing (fun y => sget y rho) e x.
  Proof.
    intros rho. pose proof (eval_ok_defined rho) as Hval.
    induction e using element_ind'; intros m Hx; simpl in Hx.
    - discriminate.
    - destruct (eval_element w rho e1) as [[a|y]|] eqn:E1; simpl in Hx; try discriminate.
      + destruct (eval_element w rho e2) as [[b|y]|] eqn:E2; simpl in Hx; try discriminate.
        * destruct (apply_binop w op a b); discriminate.
        * injection Hx as ->. apply FM_right; [|auto]. intros y Hy. apply free_iff in Hy. eapply Hval; eauto.
      + injection Hx as ->. apply FM_left; auto.
    - destruct (eval_element w rho e) as [[a|y]|] eqn:E1; simpl in Hx; try discriminate.
      + destruct (apply_unop op a); discriminate.
      + injection Hx as ->. apply FM_un; auto.
    - destruct (map_eval (eval_element w rho) args) as [[vs|y]|] eqn:E1; try discriminate.
      + destruct (call_function w f vs); discriminate.
      + injection Hx as ->.
        assert (exists before a after, args = before ++ a :: after /\
                  (forall b z, In b before -> occurs z b -> sget z rho <> None) /\
                  eval_element w rho a = Val (Eval_err m)) as (before & a & after & -> & Hb & Ha).
        { clear H. revert E1. induction args as [|a args IH]; intro E1; simpl in E1; [discriminate|].
          destruct (eval_element w rho a) as [[v|z]|] eqn:E2; try discriminate.
          - 
            match type of E1 with context [match ?t with _ => _ end] => destruct t as [[vs'|z]|] eqn:E3 end;
              try discriminate.
            injection E1 as ->. destruct (IH eq_refl) as (before & b & after & -> & Hb & Ha).
            exists (a :: before), b, after. split; [reflexivity|]. split; auto.
            intros c z [<-|Hc] Hz; eauto. apply free_iff in Hz. eapply Hval; eauto.
          - injection E1 as ->. exists [], a, args. split; [reflexivity|]. split; [intros b z []|auto]. }
        rewrite Forall_forall in H. apply FM_arg; auto. apply H; auto. apply in_elt.
    - destruct (sget x rho) eqn:E; try discriminate. injection Hx as <-. now apply FM_var.
  Qed.

  Lemma first_missing_occurs : forall rho e x, first_missing rho e x -> occurs x e /\ rho x = None.
  Proof.
    induction 1; eauto using occurs.
    - destruct IHfirst_missing; eauto using occurs.
    - destruct IHfirst_missing; eauto using occurs.
    - destruct IHfirst_missing; eauto using occurs.
    - destruct IHfirst_missing; split; eauto using occurs, in_elt.
  Qed.

  (** [eval] computes the meaning, and the meaning is what [eval] computes. *)
  Scheme means_ind2 := Minimality for means Sort Prop
    with means_all_ind2 := Minimality for means_all Sort Prop.
  Combined Scheme means_mutind from means_ind2, means_all_ind2.

  Lemma eval_sound : forall rho e v,
    eval_element w rho e = Val (Eval_ok v) -> means w (fun x => sget x rho) e v.
  Proof.
    intros rho. induction e using element_ind'; intros v Hv; simpl in Hv.
    - injection Hv as <-. constructor.
    - destruct (eval_element w rho e1) as [[a|y]|] eqn:E1; simpl in Hv; try discriminate.
      destruct (eval_element w rho e2) as [[b|y]|] eqn:E2; simpl in Hv; try discriminate.
      destruct op; simpl in Hv; try discriminate; injection Hv as <-; constructor; auto.
    - destruct (eval_element w rho e) as [[a|y]|] eqn:E1; simpl in Hv; try discriminate.
      destruct op; simpl in Hv; try discriminate; injection Hv as <-; constructor; auto.
    - destruct (map_eval (eval_element w rho) args) as [[vs|y]|] eqn:E1; try discriminate.
      destruct (call_function w f vs) as [u|] eqn:E2; simpl in Hv; try discriminate.
      injection Hv as <-. apply M_call with vs; auto. clear E2.
      revert vs E1. induction H; intros vs E1; simpl in E1.
      + injection E1 as <-. constructor.
      + destruct (eval_element w rho x) as [[v|y]|] eqn:E2; try discriminate.
        
        match type of E1 with context [match ?t with _ => _ end] => destruct t as [[vs'|z]|] eqn:E3 end;
          try discriminate.
        injection E1 as <-. constructor; auto.
    - destruct (sget x rho) eqn:E; try discriminate. injection Hv as <-. now constructor.
  Qed.

  Lemma eval_complete : forall rho,
    (forall e v, means w (fun x => sget x rho) e v -> eval_element w rho e = Val (Eval_ok v)) /\
    (forall l vs, means_all w (fun x => sget x rho) l vs ->
       map_eval (eval_element w rho) l = Val (inl vs)).
  Proof.
    intros rho. apply means_mutind; intros; simpl;
      try (rewrite H0; simpl; rewrite ?H2; reflexivity).
    - reflexivity.
    - now rewrite H.
    - change (map_eval (eval_element w rho) args) with (map_eval (eval_element w rho) args).
      rewrite H0. rewrite H1. reflexivity.
    - reflexivity.
  Qed.

  Lemma means_det : forall rho e v v',
    means w rho e v -> means w rho e v' -> v = v'.
  Proof.
    intros rho.
    assert (H : (forall e v, means w rho e v -> forall v', means w rho e v' -> v = v') /\
                (forall l vs, means_all w rho l vs -> forall vs', means_all w rho l vs' -> vs = vs')).
    { apply means_mutind; intros;
        match goal with H : _ |- _ => inversion H; subst; clear H end; try congruence;
        repeat match goal with
        | IH : (forall v', means w rho ?e v' -> _ = v'), H : means w rho ?e ?x |- _ =>
            apply IH in H; subst
        | IH : (forall v', means_all w rho ?e v' -> _ = v'), H : means_all w rho ?e ?x |- _ =>
            apply IH in H; subst
        end; try reflexivity; try congruence. }
    intros. destruct H. eauto.
  Qed.

  (** The meaning looks only at the variables that occur. *)
  Lemma means_local : forall rho rho' e v,
    (forall y, free y e -> rho y = rho' y) -> means w rho e v -> means w rho' e v.
  Proof.
    intros rho rho'. induction e using element_ind'; intros v Hf Hm.
    - inversion Hm; subst. constructor.
    - simpl in Hf. inversion Hm; subst; constructor; auto.
    - simpl in Hf. inversion Hm; subst; constructor; auto.
    - inversion Hm as [| | | | | | | | | | |f0 args0 vs v0 Hall Hc]; subst. apply M_call with vs; auto.
      assert (Hf' : forall y, Exists (free y) args -> rho y = rho' y).
      { intros y Hy. apply Hf. apply free_call. exact Hy. }
      clear Hf Hm Hc. revert vs Hall Hf'. induction H; intros vs Hall Hf'; inversion Hall; subst; constructor.
      + apply H; auto.
      + apply IHForall; auto.
    - inversion Hm; subst. constructor. rewrite <- Hf; auto. reflexivity.
  Qed.

  (** [eval] looks only at the variables that occur. *)
  Lemma eval_ext : forall rho rho' e,
    (forall x, free x e -> sget x rho = sget x rho') ->
    eval_element w rho e = eval_element w rho' e.
  Proof.
    intros rho rho'. induction e using element_ind'; intros Hx; simpl in *; auto.
    - rewrite IHe1, IHe2; auto.
    - rewrite IHe; auto.
    - assert (map_eval (eval_element w rho) args = map_eval (eval_element w rho') args) as ->; auto.
      revert Hx. induction H; intro Hx; simpl; auto.
      rewrite H by auto. destruct (eval_element w rho' x) as [[]|]; auto.
      rewrite IHForall; auto.
    - rewrite (Hx x); auto.
  Qed.

  Lemma eval_unchecked_ext : forall rho rho' e,
    (forall x, free x e -> sget x rho = sget x rho') ->
    eval_element_unchecked w rho e = eval_element_unchecked w rho' e.
  Proof.
    intros rho rho'. induction e using element_ind'; intros Hx; simpl in *; auto.
    - rewrite IHe1, IHe2; auto.
    - rewrite IHe; auto.
    - assert (map_out (eval_element_unchecked w rho) args = map_out (eval_element_unchecked w rho') args) as ->; auto.
      revert Hx. induction H; intro Hx; simpl; auto.
      rewrite H by auto. destruct (eval_element_unchecked w rho' x); simpl; auto.
      rewrite IHForall; auto.
    - rewrite (Hx x); auto.
  Qed.

  (** [eval_unchecked] returns exactly the Ok values of [eval]; it panics with
      the same panic, or with [UnwrapNone] for a missing variable. *)
  Lemma unchecked_agrees : forall rho e,
    eval_element_unchecked w rho e =
      match eval_element w rho e with
      | Val (Eval_ok v) => Val v
      | Val (Eval_err _) => Boom UnwrapNone
      | Boom p => Boom p
      end.
  Proof.
    intros rho. induction e using element_ind'; simpl; auto.
    - rewrite IHe1. destruct (eval_element w rho e1) as [[a|y]|]; simpl; auto.
      rewrite IHe2. destruct (eval_element w rho e2) as [[b|y]|]; simpl; auto.
      destruct (apply_binop w op a b); reflexivity.
    - rewrite IHe. destruct (eval_element w rho e) as [[a|y]|]; simpl; auto.
      destruct (apply_unop op a); reflexivity.
    - assert (map_out (eval_element_unchecked w rho) args =
              match map_eval (eval_element w rho) args with
              | Val (inl vs) => Val vs
              | Val (inr _) => Boom UnwrapNone
              | Boom p => Boom p
              end) as ->.
      { induction H; simpl; auto. rewrite H.
        destruct (eval_element w rho x) as [[v|y]|]; simpl; auto.
        rewrite IHForall.
        destruct (map_eval (eval_element w rho) l) as [[vs|z]|]; reflexivity. }
      destruct (map_eval (eval_element w rho) args) as [[vs|z]|]; simpl; auto.
      destruct (call_function w f vs); reflexivity.
    - destruct (sget x rho); reflexivity.
  Qed.
End Eval.
