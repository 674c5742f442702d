(** * Facts about threads: every operation is a conversation; what interleaving changes *)
From Coq Require Import ZArith NArith List String Ascii Bool Lia.
From Verif Require Import F64 Syntax Factorial Builtins Context Element Parser Xprs Stateful Threads.
Import ListNotations.

(** ** Conversations of the code *)
Fixpoint tbind {A B} (t : talk A) (f : A -> talk B) : talk B :=
  match t with
  | Done a => f a
  | Ask id args k => Ask id args (fun o => tbind (k o) f)
  end.
Lemma follow_bind : forall A B b (t : talk A) (f : A -> talk B) h,
  follow b (tbind t f) h = let '(a, h') := follow b t h in follow b (f a) h'.
Proof. induction t as [a|id args k IH]; intros f h; cbn [tbind follow]; [reflexivity|apply IH]. Qed.

Definition conducts {A} (m : behaviour -> history -> A * history) : Type := {t : talk A | forall b h, follow b t h = m b h}.

Lemma c_ext : forall A (m m' : behaviour -> history -> A * history), (forall b h, m b h = m' b h) -> conducts m -> conducts m'.
Proof. intros A m m' E [t H]. exists t. intros. now rewrite H, E. Qed.
Lemma c_give : forall A (a : A), conducts (fun _ h => (a, h)).
Proof. intros A a. exists (Done a). reflexivity. Qed.
Lemma c_bind : forall A B (m : behaviour -> history -> A * history) (f : A -> behaviour -> history -> B * history),
  conducts m -> (forall a, conducts (f a)) -> conducts (fun b h => let '(a, h') := m b h in f a b h').
Proof.
  intros A B m f [t H] F. exists (tbind t (fun a => proj1_sig (F a))). intros b h. rewrite follow_bind, H.
  destruct (m b h) as [a h']. apply (proj2_sig (F a)).
Qed.

Definition c_act {A} (m : behaviour -> act A) : Type := conducts (A := out A) m.
Lemma a_ret : forall A (a : A), c_act (fun _ => aret a).
Proof. intros. apply c_give. Qed.
Lemma a_lift : forall A (a : out A), c_act (fun _ => alift a).
Proof. intros. apply c_give. Qed.
Lemma a_bind : forall A B (m : behaviour -> act A) (f : A -> behaviour -> act B),
  c_act m -> (forall a, c_act (f a)) -> c_act (fun b => abind (m b) (fun a => f a b)).
Proof.
  intros A B m f Hm Hf.
  eapply c_ext; [|apply (c_bind _ _ m (fun o b h => match o with Val a => f a b h | Boom p => (Boom p, h) end))].
  - intros b h. unfold abind. destruct (m b h) as [[a|p] h']; reflexivity.
  - exact Hm.
  - intros [a|p]; [apply Hf|apply c_give].
Qed.

Section Code.
  Variable w : world.

  Lemma a_call : forall f args, c_act (fun b => call_function_s w b f args).
  Proof.
    intros f args. unfold c_act, call_function_s. destruct (fn_ptr f) as [bi|id|id].
    - apply c_give.
    - exists (Ask id args (fun o => Done (match o with Some v => Val v | None => Boom UserPanic end))). reflexivity.
    - exists (Ask id args (fun o => Done (match o with Some v => Val v | None => Boom UserPanic end))). reflexivity.
  Qed.

  Inductive all {A} (P : A -> Type) : list A -> Type :=
  | all_nil : all P []
  | all_cons : forall a l, P a -> all P l -> all P (a :: l).
  Fixpoint element_all (P : element -> Type) (Hn : forall n, P (Number n)) (Hb : forall op l r, P l -> P r -> P (BinOp op l r))
      (Hu : forall op e, P e -> P (UnOp op e)) (Hc : forall f args, all P args -> P (Call f args)) (Hv : forall x, P (Var x)) (e : element) : P e :=
    match e with
    | Number n => Hn n
    | BinOp op l r => Hb op l r (element_all P Hn Hb Hu Hc Hv l) (element_all P Hn Hb Hu Hc Hv r)
    | UnOp op a => Hu op a (element_all P Hn Hb Hu Hc Hv a)
    | Call f args => Hc f args ((fix go (l : list element) : all P l :=
        match l with [] => all_nil P | a :: l' => all_cons P a l' (element_all P Hn Hb Hu Hc Hv a) (go l') end) args)
    | Var x => Hv x
    end.

  Lemma a_map : forall A B (f : A -> behaviour -> act B) l, all (fun a => c_act (f a)) l -> c_act (fun b => map_act (fun a => f a b) l).
  Proof.
    intros A B f l H. induction H as [|a l Ha Hl IH]; cbn [map_act]; [apply a_ret|].
    apply (a_bind _ _ (f a) (fun y b => abind (map_act (fun a => f a b) l) (fun bs => aret (y :: bs)))); [exact Ha|]. intro y.
    apply (a_bind _ _ (fun b => map_act (fun a => f a b) l) (fun bs _ => aret (y :: bs))); [exact IH|]. intro bs. apply a_ret.
  Qed.

  Lemma a_simplify : forall cfg e, c_act (fun b => simplify_s w b cfg e).
  Proof.
    intros cfg e. induction e as [n|op l r IHl IHr|op e IHe|f args IH|x] using element_all; cbn [simplify_s].
    - apply a_ret.
    - apply (a_bind _ _ (fun b => simplify_s w b cfg l)
        (fun l' b => abind (simplify_s w b cfg r) (fun r' => alift (simplify_binop cfg w op l' r')))); [exact IHl|]. intro l'.
      apply (a_bind _ _ (fun b => simplify_s w b cfg r) (fun r' _ => alift (simplify_binop cfg w op l' r'))); [exact IHr|]. intro r'. apply a_lift.
    - apply (a_bind _ _ (fun b => simplify_s w b cfg e) (fun e' _ => alift (simplify_unop op e'))); [exact IHe|]. intro e'. apply a_lift.
    - apply (a_bind _ _ (fun b => map_act (simplify_s w b cfg) args) (fun args' b => simplify_call_s w b f args')).
      + apply (a_map _ _ (fun a b => simplify_s w b cfg a)). exact IH.
      + intro args'. unfold simplify_call_s. destruct (Nat.eqb _ _); [|apply a_ret].
        apply (a_bind _ _ (fun b => call_function_s w b f (number_values args')) (fun v _ => aret (Number v))); [apply a_call|]. intro v. apply a_ret.
    - apply a_ret.
  Qed.

  Lemma a_simplify_for : forall cfg x v e, c_act (fun b => el_simplify_for_s w b cfg x v e).
  Proof.
    intros cfg x v e. induction e as [n|op l r IHl IHr|op e IHe|f args IH|y] using element_all; cbn [el_simplify_for_s].
    - apply a_ret.
    - apply (a_bind _ _ (fun b => el_simplify_for_s w b cfg x v l)
        (fun l' b => abind (el_simplify_for_s w b cfg x v r) (fun r' => simplify_s w b cfg (BinOp op l' r')))); [exact IHl|]. intro l'.
      apply (a_bind _ _ (fun b => el_simplify_for_s w b cfg x v r) (fun r' b => simplify_s w b cfg (BinOp op l' r'))); [exact IHr|]. intro r'. apply a_simplify.
    - apply (a_bind _ _ (fun b => el_simplify_for_s w b cfg x v e) (fun e' b => simplify_s w b cfg (UnOp op e'))); [exact IHe|]. intro e'. apply a_simplify.
    - apply (a_bind _ _ (fun b => map_act (el_simplify_for_s w b cfg x v) args) (fun args' b => simplify_s w b cfg (Call f args'))).
      + apply (a_map _ _ (fun a b => el_simplify_for_s w b cfg x v a)). exact IH.
      + intro args'. apply a_simplify.
    - destruct (String.eqb y x); apply a_ret.
  Qed.

  Lemma a_multiple : forall cfg l x, c_act (fun b => simplify_for_multiple_s w b cfg x l).
  Proof.
    intros cfg l. induction l as [|[y v] l IH]; intro x; cbn [simplify_for_multiple_s]; [apply a_ret|].
    apply (a_bind _ _ (fun b => el_simplify_for_s w b cfg y v (root x))
      (fun e b => simplify_for_multiple_s w b cfg (mk_xprs e (set_remove y (vars x))) l)); [apply a_simplify_for|]. intro e. apply IH.
  Qed.

  Lemma a_ebind : forall (m : behaviour -> act eval_result) (f : f64 -> behaviour -> act eval_result),
    c_act m -> (forall a, c_act (f a)) -> c_act (fun b => ebind_s (m b) (fun a => f a b)).
  Proof.
    intros m f Hm Hf. unfold ebind_s.
    apply (a_bind _ _ m (fun v b => match v with Eval_ok v => f v b | Eval_err x => aret (Eval_err x) end)); [exact Hm|].
    intros [v|x]; [apply Hf|apply a_ret].
  Qed.

  Lemma a_eval : forall rho e, c_act (fun b => eval_element_s w b rho e).
  Proof.
    intros rho e. induction e as [n|op l r IHl IHr|op e IHe|f args IH|y] using element_all; cbn [eval_element_s].
    - apply a_ret.
    - apply (a_ebind (fun b => eval_element_s w b rho l)
        (fun left b => ebind_s (eval_element_s w b rho r) (fun right => alift (ok (apply_binop w op left right))))); [exact IHl|]. intro x.
      apply (a_ebind (fun b => eval_element_s w b rho r) (fun right _ => alift (ok (apply_binop w op x right)))); [exact IHr|]. intro y. apply a_lift.
    - apply (a_ebind (fun b => eval_element_s w b rho e) (fun x _ => alift (ok (apply_unop op x)))); [exact IHe|]. intro x. apply a_lift.
    - apply (a_bind _ _ (fun b => map_eval_s (eval_element_s w b rho) args)
        (fun r b => match r with inr x => aret (Eval_err x) | inl vs => abind (call_function_s w b f vs) (fun v => aret (Eval_ok v)) end)).
      + induction IH as [|a args Ha Hargs IHargs]; cbn [map_eval_s]; [apply a_ret|].
        apply (a_bind _ _ (fun b => eval_element_s w b rho a)
          (fun r b => match r with
            | Eval_err x => aret (inr x)
            | Eval_ok v => abind (map_eval_s (eval_element_s w b rho) args)
                (fun rs => match rs with inr x => aret (inr x) | inl vs => aret (inl (v :: vs)) end) end)); [exact Ha|].
        intros [v|x]; [|apply a_ret].
        apply (a_bind _ _ (fun b => map_eval_s (eval_element_s w b rho) args)
          (fun rs _ => match rs with inr x => aret (inr x) | inl vs => aret (inl (v :: vs)) end)); [exact IHargs|].
        intros [vs|x]; apply a_ret.
      + intros [vs|x]; [|apply a_ret].
        apply (a_bind _ _ (fun b => call_function_s w b f vs) (fun v _ => aret (Eval_ok v))); [apply a_call|]. intro v. apply a_ret.
    - destruct (sget y rho); apply a_ret.
  Qed.

  Lemma a_eval_unchecked : forall rho e, c_act (fun b => eval_unchecked_element_s w b rho e).
  Proof.
    intros rho e. induction e as [n|op l r IHl IHr|op e IHe|f args IH|y] using element_all; cbn [eval_unchecked_element_s].
    - apply a_ret.
    - apply (a_bind _ _ (fun b => eval_unchecked_element_s w b rho l)
        (fun left b => abind (eval_unchecked_element_s w b rho r) (fun right => alift (apply_binop w op left right)))); [exact IHl|]. intro x.
      apply (a_bind _ _ (fun b => eval_unchecked_element_s w b rho r) (fun right _ => alift (apply_binop w op x right))); [exact IHr|]. intro y. apply a_lift.
    - apply (a_bind _ _ (fun b => eval_unchecked_element_s w b rho e) (fun x _ => alift (apply_unop op x))); [exact IHe|]. intro x. apply a_lift.
    - apply (a_bind _ _ (fun b => map_act (eval_unchecked_element_s w b rho) args) (fun vs b => call_function_s w b f vs)).
      + apply (a_map _ _ (fun a b => eval_unchecked_element_s w b rho a)). exact IH.
      + intro vs. apply a_call.
    - apply a_lift.
  Qed.

  (** *** The parser *)
  Definition c_pact {A} (m : behaviour -> pact A) : Type := conducts (A := pres A) m.
  Lemma p_give : forall A (r : pres A), c_pact (fun _ => pgive r).
  Proof. intros. apply c_give. Qed.
  Lemma p_bind : forall A B (m : behaviour -> pact A) (f : A -> nat -> behaviour -> pact B),
    c_pact m -> (forall a c, c_pact (f a c)) -> c_pact (fun b => pbind_s (m b) (fun a c => f a c b)).
  Proof.
    intros A B m f Hm Hf.
    eapply c_ext; [|apply (c_bind _ _ m (fun r b h => match r with
      | POk a c => f a c b h | PErr e c => (PErr e c, h) | PPanic p => (PPanic p, h) | PFuel => (PFuel, h) end))].
    - intros b h. unfold pbind_s. destruct (m b h) as [[a c|e c|p|] h']; reflexivity.
    - exact Hm.
    - intros [a c|e c|p|]; [apply Hf|apply c_give|apply c_give|apply c_give].
  Qed.

  Section Text.
    Variable cfg : config.
    Variable ctx : context.
    Variable input : string.

    Section Open.
      Variable elem : behaviour -> nat -> nat -> pact element.
      Variable Helem : forall p c, c_pact (fun b => elem b p c).

      Lemma p_loop : forall n p el c, c_pact (fun b => binop_loop_s cfg input (elem b) n p el c).
      Proof.
        induction n as [|n IH]; intros p el c; cbn [binop_loop_s]; [apply p_give|].
        destruct (get_operator_infos cfg input el p c) as [[[op q]|] c']; [|apply p_give].
        apply (p_bind _ _ (fun b => elem b q c') (fun rhs c'' b => binop_loop_s cfg input (elem b) n p (BinOp op el rhs) c'')); auto.
      Qed.
      Lemma p_argument : forall c, c_pact (fun b => argument_s cfg input (elem b) c).
      Proof.
        intro c. eapply c_ext; [|apply (c_bind _ _ (fun b => elem b NO_PRECEDENCE c) (fun r _ h =>
          (match r with PErr e c' => match pe_kind e with UnexpectedToken _ => err_missing_argument cfg input c' | _ => PErr e c' end | r => r end, h)))].
        - intros b h. unfold argument_s. destruct (elem b NO_PRECEDENCE c h) as [[a c'|e c'|p|] h']; try reflexivity. destruct (pe_kind e); reflexivity.
        - apply Helem.
        - intro r. apply c_give.
      Qed.
      Lemma p_arguments : forall n args c, c_pact (fun b => parse_arguments_s cfg input (elem b) n args c).
      Proof.
        induction n as [|n IH]; intros args c; cbn [parse_arguments_s]; [apply p_give|].
        apply (p_bind _ _ (fun b => argument_s cfg input (elem b) c) (fun arg c1 b =>
            let args := (args ++ [arg])%list in
            let '(o, c2) := next_trim input c1 in
            match o with
            | None => pgive (err_unexpected_end cfg input c2)
            | Some tok =>
                if Ascii.eqb tok "," then parse_arguments_s cfg input (elem b) n args (S c2)
                else if Ascii.eqb tok ")" then pgive (POk args c2)
                else pgive (err_unexpected_token input tok c2)
            end)); [apply p_argument|]. intros arg c1.
        destruct (next_trim input c1) as [[tok|] c2]; [|apply p_give].
        destruct (Ascii.eqb tok ","); [apply IH|]. destruct (Ascii.eqb tok ")"); apply p_give.
      Qed.
      Lemma p_identifier : forall n c, c_pact (fun b => parse_identifier_s cfg ctx input (elem b) n c).
      Proof.
        intros n c. unfold parse_identifier_s. destruct (resolve _ _) as [f|v|x]; [|apply p_give|apply p_give].
        destruct (consume_if_eq input "(" _) as [[] c1]; [|apply p_give].
        apply (p_bind _ _ (fun b => parse_arguments_s cfg input (elem b) n [] c1) (fun args c2 _ =>
          pbind_s (pgive (assert_eq_consume input ")" c2)) (fun _ c3 => pgive (check_arity input f args c c3)))); [apply p_arguments|].
        intros args c2. apply (p_bind _ _ (fun _ => pgive (assert_eq_consume input ")" c2)) (fun _ c3 _ => pgive (check_arity input f args c c3))); intros; apply p_give.
      Qed.
      Lemma p_atom : forall n c, c_pact (fun b => atom_s cfg ctx input (elem b) n c).
      Proof.
        intros n c. unfold atom_s. destruct (next_trim input c) as [[t|] c0]; [|apply p_give].
        destruct (is_digit t || Ascii.eqb t "."); [apply p_give|]. destruct (is_alpha t); [apply p_identifier|].
        destruct (Ascii.eqb t "+"); [apply (p_bind _ _ (fun b => elem b UNOP_PRECEDENCE (S c0)) (fun e c1 _ => pgive (POk (UnOp Plus e) c1))); intros; auto; apply p_give|].
        destruct (Ascii.eqb t "-"); [apply (p_bind _ _ (fun b => elem b UNOP_PRECEDENCE (S c0)) (fun e c1 _ => pgive (POk (UnOp Minus e) c1))); intros; auto; apply p_give|].
        destruct (Ascii.eqb t "("); [|destruct (Ascii.eqb t ")"); apply p_give].
        apply (p_bind _ _ (fun b => elem b NO_PRECEDENCE (S c0)) (fun e c1 _ =>
          pbind_s (pgive (assert_eq_consume input ")" c1)) (fun _ c2 => pgive (POk e c2)))); [auto|]. intros e c1.
        apply (p_bind _ _ (fun _ => pgive (assert_eq_consume input ")" c1)) (fun _ c2 _ => pgive (POk e c2))); intros; apply p_give.
      Qed.
    End Open.

    Lemma p_element : forall n p c, c_pact (fun b => element_at_s cfg w b ctx input n p c).
    Proof.
      induction n as [|n IH]; intros p c; cbn [element_at_s]; [apply p_give|].
      apply (p_bind _ _ (fun b => atom_s cfg ctx input (element_at_s cfg w b ctx input n) n c) (fun el c1 b =>
          let '(k, c2) := consume_if_eq input "!" c1 in
          let el := if k then UnOp Factorial el else el in
          pbind_s (binop_loop_s cfg input (element_at_s cfg w b ctx input n) n p el c2) (fun el c3 h =>
            let '(o, h') := finish_element_s cfg w b el h in (plift o c3, h')))).
      - apply (p_atom (fun b => element_at_s cfg w b ctx input n)). exact IH.
      - intros el c1. destruct (consume_if_eq input "!" c1) as [k c2]. cbv zeta.
        apply (p_bind _ _ (fun b => binop_loop_s cfg input (element_at_s cfg w b ctx input n) n p (if k then UnOp Factorial el else el) c2)
          (fun el c3 b h => let '(o, h') := finish_element_s cfg w b el h in (plift o c3, h'))).
        + apply (p_loop (fun b => element_at_s cfg w b ctx input n)). exact IH.
        + intros a c3. apply (c_bind _ _ (fun b => finish_element_s cfg w b a) (fun o _ h' => (plift o c3, h'))).
          * unfold finish_element_s. destruct (optimize cfg); [apply a_simplify|apply a_ret].
          * intro o. apply c_give.
    Qed.

    Lemma c_parse : conducts (fun b => parse_s cfg w b ctx input).
    Proof.
      assert (H : c_pact (fun b => parse_impl_s cfg w b ctx input)).
      { unfold parse_impl_s. apply (p_bind _ _ (fun b => element_at_s cfg w b ctx input (parse_budget input) NO_PRECEDENCE 0) (fun root c _ =>
          let '(o, c') := next_trim input c in
          match o with
          | Some tok => pgive (err_unexpected_token input tok c')
          | None => pgive (POk (root, find_variables root []) c')
          end)); [apply p_element|]. intros a c. destruct (next_trim input c) as [[t|] c']; apply p_give. }
      eapply c_ext; [|apply (c_bind _ _ (fun b => parse_impl_s cfg w b ctx input) (fun r _ h' => (match r with
        | PErr e _ => Parse_err e | PPanic p => Parse_panic p | PFuel => Parse_diverges
        | POk (root, vars) _ => match get_expected_vars ctx with
          | None => Parse_ok (mk_xprs root vars)
          | Some expected =>
              match set_diff (hash_order w vars) expected with
              | [] => Parse_ok (mk_xprs root vars)
              | unknown_var :: _ =>
                  Parse_err (mk_parse_error (VariableNotDeclared unknown_var (hash_order w expected)) 0 (N.of_nat (String.length input)) input)
              end
          end end, h')))].
      - intros b h. unfold parse_s. destruct (parse_impl_s cfg w b ctx input h) as [[[r vs] c|e c|p|] h']; reflexivity.
      - exact H.
      - intro r. apply c_give.
    Qed.
  End Text.

  Lemma c_perform : forall op, conducts (fun b => perform w b op).
  Proof.
    intros [cfg ctx text|x rho|x rho|cfg x l]; unfold perform.
    - apply (c_bind _ _ (fun b => parse_s cfg w b ctx text) (fun r _ h' => (Got_parsed r, h'))); [apply c_parse|]. intro r. apply c_give.
    - apply (c_bind _ _ (fun b => eval_s w b x rho) (fun r _ h' => (Got_value r, h'))); [apply a_eval|]. intro r. apply c_give.
    - apply (c_bind _ _ (fun b => eval_unchecked_s w b x rho) (fun r _ h' => (Got_number r, h'))); [apply a_eval_unchecked|]. intro r. apply c_give.
    - apply (c_bind _ _ (fun b => simplify_for_multiple_s w b cfg x l) (fun r _ h' => (Got_expression r, h'))); [apply a_multiple|]. intro r. apply c_give.
  Qed.

  Lemma c_client : forall c, conducts (fun b => alone w b c).
  Proof.
    induction c as [|op next IH]; cbn [alone]; [apply c_give|].
    apply (c_bind _ _ (fun b => perform w b op) (fun r b h1 => let '(rs, h2) := alone w b (next r) h1 in (r :: rs, h2))); [apply c_perform|].
    intro r. apply (c_bind _ _ (fun b => alone w b (next r)) (fun rs _ h2 => (r :: rs, h2))); [apply IH|]. intro rs. apply c_give.
  Qed.
End Code.

(** ** A conversation is determined by what it does without interruption *)
Lemma follow_extends : forall R b (t : talk R) h, exists ran, snd (follow b t h) = h ++ ran.
Proof.
  intros R b. induction t as [r|id args k IH]; intro h; cbn [follow].
  - exists []. now rewrite app_nil_r.
  - destruct (IH (b h id args) (h ++ [(id, args)])) as [ran E]. rewrite E, <- app_assoc. cbn. eauto.
Qed.

(** the functions answer alike after the histories [h] and [h'] *)
Lemma follow_shift : forall R b b' (t : talk R) h h',
  (forall l id args, b (h ++ l) id args = b' (h' ++ l) id args) ->
  forall l, exists r ran, follow b t (h ++ l) = (r, h ++ l ++ ran) /\ follow b' t (h' ++ l) = (r, h' ++ l ++ ran).
Proof.
  intros R b b' t h h' Hb. induction t as [r|id args k IH]; intro l; cbn [follow].
  - exists r, []. now rewrite !app_nil_r.
  - rewrite <- Hb. destruct (IH (b (h ++ l) id args) (l ++ [(id, args)])) as [r [ran [E1 E2]]].
    rewrite !app_assoc in *. rewrite E1, E2. exists r, ([(id, args)] ++ ran). now rewrite !app_assoc.
Qed.

Lemma follow_unique : forall R (t t' : talk R), (forall b h, follow b t h = follow b t' h) -> same_talk t t'.
Proof.
  intros R t. induction t as [r|id args k IH]; intros [r'|id' args' k'] H.
  - specialize (H (fun _ _ _ => None) []). injection H as ->. constructor.
  - exfalso. specialize (H (fun _ _ _ => None) []). cbn [follow] in H.
    destruct (follow_extends _ (fun _ _ _ => None) (k' None) ([] ++ [(id', args')])) as [ran E].
    rewrite <- H in E. discriminate E.
  - exfalso. specialize (H (fun _ _ _ => None) []). cbn [follow] in H.
    destruct (follow_extends _ (fun _ _ _ => None) (k None) ([] ++ [(id, args)])) as [ran E].
    rewrite H in E. discriminate E.
  - assert (E : (id, args) = (id', args')).
    { specialize (H (fun _ _ _ => None) []). cbn [follow] in H.
      destruct (follow_extends _ (fun _ _ _ => None) (k' None) ([] ++ [(id', args')])) as [ran' E'].
      destruct (follow_extends _ (fun _ _ _ => None) (k None) ([] ++ [(id, args)])) as [ran E].
      rewrite <- H, E in E'. cbn in E'. congruence. }
    injection E as <- <-. constructor. intro a. apply IH. intros b h.
    set (b' := fun h' : history => match h' with [] => fun _ _ => a | _ :: l => b (h ++ l) end).
    specialize (H b' []). cbn [follow] in H. change (b' [] id args) with a in H. change ([] ++ [(id, args)]) with ([(id, args)] ++ []) in H.
    assert (Hb : forall l i0 a0, b (h ++ l) i0 a0 = b' ([(id, args)] ++ l) i0 a0) by reflexivity.
    destruct (follow_shift R b b' (k a) h [(id, args)] Hb []) as [r [ran [E1 E2]]].
    destruct (follow_shift R b b' (k' a) h [(id, args)] Hb []) as [r' [ran' [E1' E2']]].
    rewrite !app_nil_r in E1, E1'. rewrite E2, E2' in H. cbn in H. injection H as -> ->. rewrite E1, E1'. reflexivity.
Qed.

(** ** Interleaving *)
Lemma Forall2_nth_error_l : forall A B (P : A -> B -> Prop) l l', Forall2 P l l' ->
  forall i a, nth_error l i = Some a -> exists b, nth_error l' i = Some b /\ P a b.
Proof.
  intros A B P l l' H. induction H as [|x y l l' Hxy H IH]; intros [|i] a E; try discriminate; cbn in *; [|now apply IH].
  injection E as <-. eauto.
Qed.
Lemma nth_replace_same : forall A i (a : A) l x, nth_error l i = Some x -> nth_error (replace i a l) i = Some a.
Proof. induction i as [|i IH]; intros a [|y l] x H; try discriminate; cbn in *; [reflexivity|eapply IH; eauto]. Qed.
Lemma nth_replace_other : forall A i j (a : A) l, i <> j -> nth_error (replace i a l) j = nth_error l j.
Proof. induction i as [|i IH]; intros [|j] a [|y l] H; cbn; try reflexivity; try congruence. apply IH. congruence. Qed.

Lemma own_cons : forall i j c tr, own i ((j, c) :: tr) = if Nat.eqb i j then c :: own i tr else own i tr.
Proof. intros. unfold own. cbn. destruct (Nat.eqb i j); reflexivity. Qed.
Lemma own_app : forall i tr1 tr2, own i (tr1 ++ tr2) = own i tr1 ++ own i tr2.
Proof. intros. unfold own. now rewrite filter_app, map_app. Qed.

(** A thread whose calls are answered, after its own calls, as [b'] answers. *)
Lemma interleaved_follow : forall R b b' i h (ts : list (talk R)) tr ts', interleaved b h ts tr ts' ->
  forall t r h0, nth_error ts i = Some t -> nth_error ts' i = Some (Done r) ->
  (forall tr1 id args tr2, tr = tr1 ++ (i, (id, args)) :: tr2 ->
     b (h ++ map snd tr1) id args = b' (h0 ++ own i tr1) id args) ->
  follow b' t h0 = (r, h0 ++ own i tr).
Proof.
  intros R b b' i h ts tr ts' H. induction H as [h ts|h ts j id args k tr ts' Hj Hi IH]; intros t r h0 Ht Hr Hb.
  - rewrite Ht in Hr. injection Hr as ->. cbn. now rewrite app_nil_r.
  - rewrite own_cons. destruct (Nat.eqb_spec i j) as [->|Hne].
    + rewrite Ht in Hj. injection Hj as ->. cbn [follow].
      assert (E : b h id args = b' h0 id args).
      { specialize (Hb [] id args tr eq_refl). cbn in Hb. now rewrite !app_nil_r in Hb. }
      rewrite <- E. rewrite (IH (k (b h id args)) r (h0 ++ [(id, args)])).
      * now rewrite <- app_assoc.
      * eapply nth_replace_same; eauto.
      * exact Hr.
      * intros tr1 id1 args1 tr2 ->. specialize (Hb ((j, (id, args)) :: tr1) id1 args1 tr2 eq_refl).
        rewrite own_cons, Nat.eqb_refl in Hb. cbn [map snd] in Hb. rewrite <- !app_assoc. exact Hb.
    + apply IH; [|exact Hr|].
      * rewrite nth_replace_other by congruence. exact Ht.
      * intros tr1 id1 args1 tr2 ->. specialize (Hb ((j, (id, args)) :: tr1) id1 args1 tr2 eq_refl).
        rewrite own_cons in Hb. destruct (Nat.eqb_spec i j); [contradiction|]. cbn [map snd] in Hb. rewrite <- !app_assoc. exact Hb.
Qed.

(** the calls before the [k]-th one of thread [i] *)
Fixpoint before (i : nat) (tr : list (nat * (nat * list f64))) (k : nat) : list (nat * (nat * list f64)) :=
  match tr with
  | [] => []
  | c :: tr' => if Nat.eqb i (fst c) then match k with 0 => [] | S k' => c :: before i tr' k' end else c :: before i tr' k
  end.
Lemma before_own : forall i tr1 x tr2, before i (tr1 ++ (i, x) :: tr2) (List.length (own i tr1)) = tr1.
Proof.
  intros i tr1 x tr2. induction tr1 as [|[j c] tr1 IH]; cbn [app before fst].
  - rewrite Nat.eqb_refl. reflexivity.
  - rewrite own_cons. destruct (Nat.eqb i j); cbn [List.length]; now rewrite IH.
Qed.

(** ** Running to the end *)
Lemma interleaved_app : forall R b h (ts : list (talk R)) tr ts1 tr' ts2,
  interleaved b h ts tr ts1 -> interleaved b (h ++ map snd tr) ts1 tr' ts2 -> interleaved b h ts (tr ++ tr') ts2.
Proof.
  intros R b h ts tr ts1 tr' ts2 H. induction H as [h ts|h ts i id args k tr ts1 Hi H IH]; intro H'; cbn [map app] in *.
  - now rewrite app_nil_r in H'.
  - econstructor; [exact Hi|]. apply IH. rewrite <- app_assoc. exact H'.
Qed.

Definition goes_on {R} (ts' ts : list (talk R)) : Prop :=
  exists i id args k a, nth_error ts i = Some (Ask id args k) /\ ts' = replace i (k a) ts.
Lemma goes_on_cons : forall R (t : talk R) ts, Acc goes_on ts -> Acc goes_on (t :: ts).
Proof.
  intros R t. induction t as [r|id args k IH]; intros ts H.
  - induction H as [ts H IHts]. constructor. intros ts' (i & id & args & k & a & Hi & ->).
    destruct i as [|i]; cbn in Hi; [discriminate Hi|]. cbn [replace]. apply IHts. exists i, id, args, k, a. auto.
  - induction H as [ts H IHts]. constructor. intros ts' (i & id' & args' & k' & a & Hi & ->).
    destruct i as [|i]; cbn in Hi.
    + injection Hi as <- <- <-. cbn [replace]. apply IH. constructor. exact H.
    + cbn [replace]. apply IHts. exists i, id', args', k', a. auto.
Qed.
Lemma goes_on_wf : forall R (ts : list (talk R)), Acc goes_on ts.
Proof.
  induction ts as [|t ts IH]; [|now apply goes_on_cons].
  constructor. intros ts' (i & id & args & k & a & Hi & _). destruct i; discriminate Hi.
Qed.

Definition finished {R} (t : talk R) : bool := match t with Done _ => true | Ask _ _ _ => false end.
Lemma unfinished_at : forall R (ts : list (talk R)), forallb finished ts = false ->
  exists i id args k, nth_error ts i = Some (Ask id args k).
Proof.
  induction ts as [|[r|id args k] ts IH]; cbn; intro H; [discriminate H| |].
  - destruct (IH H) as (i & id & args & k & E). exists (S i), id, args, k. exact E.
  - exists 0, id, args, k. reflexivity.
Qed.
Lemma run_to_end : forall R b (ts : list (talk R)) h, exists tr ts', interleaved b h ts tr ts' /\ forallb finished ts' = true.
Proof.
  intros R b ts. induction (goes_on_wf R ts) as [ts _ IH]. intro h.
  destruct (forallb finished ts) eqn:E; [exists [], ts; split; [constructor|exact E]|].
  destruct (unfinished_at R ts E) as (i & id & args & k & Hi).
  destruct (IH (replace i (k (b h id args)) ts)) with (h := h ++ [(id, args)]) as (tr & ts' & Ht & Hf).
  - exists i, id, args, k, (b h id args). auto.
  - exists ((i, (id, args)) :: tr), ts'. split; [econstructor; eauto|exact Hf].
Qed.
