(** * The metered versions: erasure and bounds (for C78) *)
From Coq Require Import ZArith NArith List String Ascii Bool Lia Arith.
From Verif Require Import F64 Syntax Factorial Builtins Context Element Parser Xprs Depth.
From Verif Require Import SpecChars CharFacts ParserFacts SpecParse ParserInv SpecTree TreeFacts SimplifyFacts SpecRewrite PropertiesSize.
Import ListNotations.
Local Open Scope nat_scope.

(** ** The metered versions compute the same *)
Lemma fst_and_d : forall a b, fst (and_d a b) = and_out (fst a) (fst b).
Proof. intros [[[|]|] n] b; reflexivity. Qed.
Lemma fst_or_d : forall a b, fst (or_d a b) = or_out (fst a) (fst b).
Proof. intros [[[|]|] n] b; reflexivity. Qed.
Lemma fst_dbind : forall A B (x : deep A) (f : A -> deep B),
  fst (dbind x f) = match fst x with Val a => fst (f a) | Boom p => Boom p end.
Proof. intros A B [[a|p] n] f; reflexivity. Qed.
Lemma snd_dbind : forall A B (x : deep A) (f : A -> deep B),
  snd (dbind x f) = Nat.max (snd x) match fst x with Val a => snd (f a) | Boom p => 0 end.
Proof. intros A B [[a|p] n] f; cbn; lia. Qed.

Lemma el_eq_d_same : forall a b, fst (el_eq_d a b) = el_eq a b.
Proof.
  induction a as [n|op l r IHl IHr|op a IH|f args IH|y] using element_ind'; intros b; destruct b as [m|op' l' r'|op' a'|g args'|y']; try reflexivity.
  - cbn. destruct (operator_eqb op op'); [|reflexivity]. destruct op; cbn; rewrite ?fst_or_d, ?fst_and_d, ?IHl, ?IHr; reflexivity.
  - cbn. destruct (operator_eqb op op'); [apply IH|reflexivity].
  - cbn. destruct (function_eqb f g); [|reflexivity]. destruct (Nat.eqb _ _); [|reflexivity].
    revert args'. induction IH as [|a l Ha Hl IHl]; intros [|b m]; try reflexivity.
    cbn in *. rewrite fst_and_d, Ha, IHl. reflexivity.
Qed.

Lemma map_d_same : forall A B (f : A -> deep B) g l, Forall (fun a => fst (f a) = g a) l ->
  fst (map_d f l) = map_out g l.
Proof.
  induction 1 as [|a l Ha Hl IH]; [reflexivity|]. cbn. rewrite fst_dbind, Ha. destruct (g a); cbn; [|reflexivity].
  rewrite fst_dbind, IH. destruct (map_out g l); reflexivity.
Qed.

Lemma if_eq_d_same : forall a b x y, fst (if_eq_d a b x y) = if_eq a b (fst x) (fst y).
Proof. intros. unfold if_eq_d, if_eq. rewrite fst_dbind, el_eq_d_same. destruct (el_eq a b) as [[|]|]; reflexivity. Qed.

Lemma simplify_binop_d_same : forall cfg w op l r, fst (simplify_binop_d cfg w op l r) = simplify_binop cfg w op l r.
Proof.
  intros cfg w op l r. destruct op; cbn [simplify_binop_d simplify_binop]; try reflexivity.
  - destruct (is_number l fzero); [reflexivity|]. destruct (is_number r fzero); [reflexivity|]. destruct (nightly cfg); [|reflexivity].
    cbv zeta.
    assert (E : fst (match r with UnOp Minus operand => if_eq_d l operand (dret (Number fzero)) (fold_binop w Plus l r, 0) | _ => (fold_binop w Plus l r, 0) end)
      = match r with UnOp Minus operand => if_eq l operand (Val (Number fzero)) (fold_binop w Plus l r) | _ => fold_binop w Plus l r end).
    { destruct r as [| |[] a| |]; try reflexivity. apply if_eq_d_same. }
    destruct l as [| |[] a| |]; try exact E. rewrite if_eq_d_same, E. reflexivity.
  - destruct (is_number l fzero); [reflexivity|]. destruct (is_number r fzero); [reflexivity|].
    rewrite if_eq_d_same. f_equal. destruct r as [| |[] a| |]; try reflexivity. destruct (nightly cfg); reflexivity.
  - destruct (is_number l fzero && is_number r fzero); [reflexivity|]. destruct (is_number l fzero); [reflexivity|].
    destruct (is_number r fzero) eqn:E; [reflexivity|]. destruct (is_number r fone); [reflexivity|].
    rewrite if_eq_d_same. f_equal. destruct l as [| |[] a| |]; try reflexivity. destruct r as [| |[] b| |]; try reflexivity. destruct (nightly cfg); reflexivity.
  - destruct (is_number l fzero && is_number r fzero); [reflexivity|]. destruct (is_number l fzero); [reflexivity|].
    destruct (is_number r fzero) eqn:E; [reflexivity|]. destruct (is_number r fone); [reflexivity|].
    rewrite if_eq_d_same. reflexivity.
Qed.

Lemma simplify_d_same : forall cfg w e, fst (simplify_d cfg w e) = simplify cfg w e.
Proof.
  intros cfg w. induction e as [n|op l r IHl IHr|op a IH|f args IH|y] using element_ind'; try reflexivity.
  - cbn [simplify_d simplify]. unfold frame; cbn [fst]. rewrite !fst_dbind, IHl. destruct (simplify cfg w l); cbn; [|reflexivity].
    rewrite fst_dbind, IHr. destruct (simplify cfg w r); cbn; [|reflexivity]. apply simplify_binop_d_same.
  - cbn [simplify_d simplify]. unfold frame; cbn [fst]. rewrite !fst_dbind, IH. destruct (simplify cfg w a); reflexivity.
  - cbn [simplify_d simplify]. unfold frame; cbn [fst]. rewrite !fst_dbind, (map_d_same _ _ _ (simplify cfg w)) by exact IH.
    destruct (map_out (simplify cfg w) args); reflexivity.
Qed.

Lemma simplify_for_d_same : forall cfg w x v e, fst (el_simplify_for_d cfg w x v e) = el_simplify_for cfg w x v e.
Proof.
  intros cfg w x v. induction e as [n|op l r IHl IHr|op a IH|f args IH|y] using element_ind'; try reflexivity.
  - cbn [el_simplify_for_d el_simplify_for]. unfold frame; cbn [fst]. rewrite !fst_dbind, IHl. destruct (el_simplify_for cfg w x v l); cbn -[simplify simplify_d]; [|reflexivity].
    rewrite fst_dbind, IHr. destruct (el_simplify_for cfg w x v r); cbn -[simplify simplify_d]; [|reflexivity]. apply simplify_d_same.
  - cbn [el_simplify_for_d el_simplify_for]. unfold frame; cbn [fst]. rewrite !fst_dbind, IH. destruct (el_simplify_for cfg w x v a); cbn -[simplify simplify_d]; [|reflexivity]. apply simplify_d_same.
  - cbn [el_simplify_for_d el_simplify_for]. unfold frame; cbn [fst]. rewrite !fst_dbind, (map_d_same _ _ _ (el_simplify_for cfg w x v)) by exact IH.
    destruct (map_out (el_simplify_for cfg w x v) args); cbn -[simplify simplify_d]; [|reflexivity]. apply simplify_d_same.
  - cbn. destruct (String.eqb y x); reflexivity.
Qed.

Lemma eval_unchecked_d_same : forall w rho e, fst (eval_unchecked_d w rho e) = eval_element_unchecked w rho e.
Proof.
  intros w rho. induction e as [n|op l r IHl IHr|op a IH|f args IH|y] using element_ind'; try reflexivity.
  - cbn [eval_unchecked_d eval_element_unchecked]. unfold frame; cbn [fst]. rewrite !fst_dbind, IHl. destruct (eval_element_unchecked w rho l); cbn; [|reflexivity].
    rewrite fst_dbind, IHr. destruct (eval_element_unchecked w rho r); reflexivity.
  - cbn [eval_unchecked_d eval_element_unchecked]. unfold frame; cbn [fst]. rewrite !fst_dbind, IH. destruct (eval_element_unchecked w rho a); reflexivity.
  - cbn [eval_unchecked_d eval_element_unchecked]. unfold frame; cbn [fst]. rewrite !fst_dbind, (map_d_same _ _ _ (eval_element_unchecked w rho)) by exact IH.
    destruct (map_out (eval_element_unchecked w rho) args); reflexivity.
  - cbn. destruct (sget y rho); reflexivity.
Qed.

Definition hs (l : list element) : nat := fold_right (fun a n => Nat.max (height a) n) 0 l.
Lemma height_call : forall f args, height (Call f args) = 1 + hs args.
Proof. reflexivity. Qed.

Lemma find_variables_d_same : forall e s, find_variables_d e s = (find_variables e s, height e).
Proof.
  induction e as [n|op l r IHl IHr|op a IH|f args IH|y] using element_ind'; intros s; try reflexivity.
  - cbn [find_variables_d find_variables height]. rewrite IHl, IHr. reflexivity.
  - cbn [find_variables_d find_variables height]. rewrite IH. reflexivity.
  - cbn [find_variables_d find_variables]. rewrite height_call.
    assert (E : forall k, fold_left (fun p a => let '(s, n) := find_variables_d a (fst p) in (s, Nat.max (snd p) n)) args (s, k)
             = (fold_left (fun s a => find_variables a s) args s, Nat.max k (hs args))).
    { clear f. revert s. induction IH as [|a l Ha Hl IHl]; intros s k; cbn [fold_left hs fold_right fst snd]; [f_equal; lia|].
      rewrite Ha. cbn [fst snd]. rewrite IHl. f_equal. unfold hs. lia. }
    rewrite E. reflexivity.
Qed.

(** ** The parser *)
Section ParserErase.
  Variable cfg : config.
  Variable w : world.
  Variable ctx : context.
  Variable input : string.

  Lemma fst_pbind_d : forall A B (x : pdeep A) (f : A -> nat -> pdeep B),
    fst (pbind_d x f) = pbind (fst x) (fun a c => fst (f a c)).
  Proof. intros A B [[a c|e c|p|] n] f; reflexivity. Qed.

  Lemma pbind_ext : forall A B (x : pres A) (f g : A -> nat -> pres B), (forall a c, f a c = g a c) -> pbind x f = pbind x g.
  Proof. intros A B [a c|e c|p|] f g H; cbn; auto. Qed.

  Section Open.
    Variable elem : nat -> nat -> pres element.
    Variable elem_d : nat -> nat -> pdeep element.
    Hypothesis same : forall p c, fst (elem_d p c) = elem p c.

    Lemma loop_same : forall b p el c, fst (binop_loop_d cfg input elem_d b p el c) = binop_loop cfg input elem b p el c.
    Proof.
      induction b as [|b IH]; intros p el c; [reflexivity|]. cbn [binop_loop_d binop_loop pframe fst].
      destruct (get_operator_infos cfg input el p c) as [[[op q]|] c']; [|reflexivity].
      rewrite fst_pbind_d, same. apply pbind_ext. intros. apply IH.
    Qed.
    Lemma argument_same : forall c, fst (argument_d cfg input elem_d c) = argument cfg input elem c.
    Proof.
      intros c. unfold argument_d, argument. rewrite <- same. destruct (elem_d NO_PRECEDENCE c) as [[a k|e k|p|] n]; try reflexivity.
      cbn [fst]. destruct (pe_kind e); reflexivity.
    Qed.
    Lemma arguments_same : forall b args c, fst (parse_arguments_d cfg input elem_d b args c) = parse_arguments cfg input elem b args c.
    Proof.
      induction b as [|b IH]; intros args c; [reflexivity|]. cbn [parse_arguments_d parse_arguments].
      rewrite fst_pbind_d, argument_same. apply pbind_ext. intros a c1. cbn [pframe fst]. destruct (next_trim input c1) as [[t|] c2]; [|reflexivity].
      destruct (Ascii.eqb t ","); [apply IH|]. destruct (Ascii.eqb t ")"); reflexivity.
    Qed.
    Lemma identifier_same : forall b c, fst (parse_identifier_d cfg ctx input elem_d b c) = parse_identifier cfg ctx input elem b c.
    Proof.
      intros b c. unfold parse_identifier_d, parse_identifier. cbv zeta. cbn [pframe fst].
      destruct (resolve _ _) as [f|v|x]; try reflexivity. cbn [pframe fst].
      destruct (consume_if_eq _ _ _) as [[|] c1]; [|reflexivity].
      rewrite fst_pbind_d; cbn [pframe fst]; rewrite arguments_same. apply pbind_ext. intros args c2. rewrite fst_pbind_d. apply pbind_ext. reflexivity.
    Qed.
    Lemma number_same : forall c, fst (parse_number_d cfg input c) = parse_number cfg input c.
    Proof. intros c. unfold parse_number_d. cbv zeta. destruct (parse_number cfg input c); reflexivity. Qed.
    Lemma atom_same : forall b c, fst (atom_d cfg ctx input elem_d b c) = atom cfg ctx input elem b c.
    Proof.
      intros b c. unfold atom_d, atom. cbn [pframe fst]. destruct (next_trim input c) as [[t|] c0]; [|reflexivity].
      destruct (is_digit t || Ascii.eqb t "."); [apply number_same|]. destruct (is_alpha t); [apply identifier_same|].
      destruct (Ascii.eqb t "+"); [rewrite fst_pbind_d, same; reflexivity|]. destruct (Ascii.eqb t "-"); [rewrite fst_pbind_d, same; reflexivity|].
      destruct (Ascii.eqb t "("); [|destruct (Ascii.eqb t ")"); reflexivity].
      rewrite fst_pbind_d, same. apply pbind_ext. intros e c1. rewrite fst_pbind_d. reflexivity.
    Qed.
  End Open.

  Lemma finish_same : forall el, fst (finish_element_d cfg w el) = finish_element cfg w el.
  Proof. intros. unfold finish_element_d, finish_element. destruct (optimize cfg); [apply simplify_d_same|reflexivity]. Qed.

  Lemma element_same : forall b p c, fst (element_at_d cfg w ctx input b p c) = element_at cfg w ctx input b p c.
  Proof.
    induction b as [|b IH]; intros p c; [reflexivity|]. cbn [element_at_d element_at].
    cbn [pframe fst]. rewrite fst_pbind_d, (atom_same _ _ IH). apply pbind_ext. intros el c1. cbn [pframe fst].
    destruct (consume_if_eq input "!" c1) as [bb c2]. rewrite fst_pbind_d, (loop_same _ _ IH). apply pbind_ext. intros e c3. cbn [fst].
    rewrite finish_same. reflexivity.
  Qed.

  Lemma parse_impl_same : fst (parse_impl_d cfg w ctx input) = parse_impl cfg w ctx input.
  Proof.
    unfold parse_impl_d, parse_impl. cbn [pframe fst]. rewrite fst_pbind_d, element_same. apply pbind_ext. intros e c. cbn [pframe fst].
    destruct (next_trim input c) as [[t|] c']; [reflexivity|]. rewrite find_variables_d_same. reflexivity.
  Qed.
End ParserErase.

Lemma parse_same : forall cfg w ctx input, fst (parse_d cfg w ctx input) = parse cfg w ctx input.
Proof.
  intros. unfold parse_d, parse. rewrite <- parse_impl_same. destruct (parse_impl_d cfg w ctx input) as [[[root vars] c|e c|p|] n]; try reflexivity.
  cbn [fst]. destruct (get_expected_vars ctx); [|reflexivity]. destruct (set_diff _ _); reflexivity.
Qed.


(** ** Checked evaluation: erasure *)
Lemma map_eval_d_same : forall (f : element -> deep eval_result) g l, Forall (fun a => fst (f a) = g a) l ->
  fst (map_eval_d f l) = map_eval g l.
Proof.
  induction 1 as [|a l Ha Hl IH]; [reflexivity|]. cbn. unfold ebind_d. rewrite fst_dbind, Ha. destruct (g a) as [[v|y]|p]; cbn; try reflexivity.
  rewrite fst_dbind, IH. destruct (map_eval g l) as [[vs|x]|]; reflexivity.
Qed.

Lemma eval_d_same : forall w rho e, fst (eval_d w rho e) = eval_element w rho e.
Proof.
  intros w rho. induction e as [n|op l r IHl IHr|op a IH|f args IH|y] using element_ind'; try reflexivity.
  - cbn [eval_d eval_element]. unfold frame, ebind_d; cbn [fst]. rewrite !fst_dbind, IHl. destruct (eval_element w rho l) as [[v|z]|]; cbn; try reflexivity.
    rewrite fst_dbind, IHr. destruct (eval_element w rho r) as [[u|z]|]; reflexivity.
  - cbn [eval_d eval_element]. unfold frame, ebind_d; cbn [fst]. rewrite !fst_dbind, IH. destruct (eval_element w rho a) as [[v|z]|]; reflexivity.
  - cbn [eval_d eval_element]. unfold frame; cbn [fst]. rewrite !fst_dbind, (map_eval_d_same _ (eval_element w rho)) by exact IH.
    destruct (map_eval (eval_element w rho) args) as [[vs|x]|]; reflexivity.
  - cbn. destruct (sget y rho); reflexivity.
Qed.

(** ** The depth of each recursion *)
Lemma snd_frame : forall A (x : deep A), snd (frame x) = 1 + snd x.
Proof. reflexivity. Qed.

Lemma hs_cons : forall a l, hs (a :: l) = Nat.max (height a) (hs l).
Proof. reflexivity. Qed.

Lemma height_pos : forall e, 1 <= height e.
Proof. destruct e; cbn [height]; lia. Qed.

(** at most the height; exactly the height if all was visited *)
Lemma map_d_depth : forall B (f : element -> deep B) l, Forall (fun a => snd (f a) <= height a) l -> snd (map_d f l) <= hs l.
Proof.
  induction 1 as [|a l Ha Hl IH]; [reflexivity|]. cbn [map_d]. fold (map_d f). rewrite snd_dbind, hs_cons.
  destruct (fst (f a)); [|lia]. rewrite snd_dbind. destruct (fst (map_d f l)); cbn [snd dret]; lia.
Qed.
Lemma map_d_full : forall B (f : element -> deep B) l r, Forall (fun a => forall b, fst (f a) = Val b -> snd (f a) = height a) l ->
  fst (map_d f l) = Val r -> snd (map_d f l) = hs l.
Proof.
  intros B f l r H. revert r. induction H as [|a l Ha Hl IH]; intros r E; [reflexivity|]. cbn [map_d] in *. fold (map_d f) in *.
  rewrite fst_dbind in E. rewrite snd_dbind, hs_cons. destruct (fst (f a)) as [b|] eqn:Ea; [|discriminate E]. rewrite (Ha b eq_refl).
  rewrite fst_dbind in E. rewrite snd_dbind. destruct (fst (map_d f l)) as [bs|] eqn:El; [|discriminate E]. rewrite (IH bs eq_refl). cbn [snd dret]. lia.
Qed.

Lemma eval_unchecked_depth : forall w rho e, snd (eval_unchecked_d w rho e) <= height e.
Proof.
  intros w rho. induction e as [n|op l r IHl IHr|op a IH|f args IH|y] using element_ind'; cbn [eval_unchecked_d]; rewrite snd_frame.
  - cbn; lia.
  - rewrite snd_dbind. cbn [height]. destruct (fst (eval_unchecked_d w rho l)); [rewrite snd_dbind; destruct (fst (eval_unchecked_d w rho r)); cbn [snd]|]; lia.
  - rewrite snd_dbind. cbn [height]. destruct (fst (eval_unchecked_d w rho a)); cbn [snd]; lia.
  - rewrite snd_dbind, height_call. pose proof (map_d_depth _ _ _ IH). destruct (fst (map_d (eval_unchecked_d w rho) args)); cbn [snd]; lia.
  - destruct (sget y rho); cbn; lia.
Qed.
Lemma eval_unchecked_full : forall w rho e v, fst (eval_unchecked_d w rho e) = Val v -> snd (eval_unchecked_d w rho e) = height e.
Proof.
  intros w rho. induction e as [n|op l r IHl IHr|op a IH|f args IH|y] using element_ind'; intros v; cbn [eval_unchecked_d]; rewrite snd_frame; cbn [frame fst].
  - reflexivity.
  - rewrite fst_dbind, snd_dbind. cbn [height]. destruct (fst (eval_unchecked_d w rho l)) as [x|]; [|discriminate]. rewrite (IHl _ eq_refl).
    rewrite fst_dbind, snd_dbind. destruct (fst (eval_unchecked_d w rho r)) as [y|]; [|discriminate]. rewrite (IHr _ eq_refl). cbn [snd]. lia.
  - rewrite fst_dbind, snd_dbind. cbn [height]. destruct (fst (eval_unchecked_d w rho a)) as [x|]; [|discriminate]. rewrite (IH _ eq_refl). cbn [snd]. lia.
  - rewrite fst_dbind, snd_dbind, height_call. destruct (fst (map_d (eval_unchecked_d w rho) args)) as [vs|] eqn:E; [|discriminate].
    rewrite (map_d_full _ _ _ _ IH E). cbn [snd]. lia.
  - destruct (sget y rho); [reflexivity|discriminate].
Qed.

Lemma snd_ebind_d : forall A (x : deep eval_result) (f : f64 -> deep A) g,
  snd (ebind_d x f g) = Nat.max (snd x) match fst x with Val (Eval_ok v) => snd (f v) | _ => 0 end.
Proof. intros A [[[v|y]|p] n] f g; cbn; lia. Qed.
Lemma fst_ebind_d : forall A (x : deep eval_result) (f : f64 -> deep A) g,
  fst (ebind_d x f g) = match fst x with Val (Eval_ok v) => fst (f v) | Val (Eval_err y) => Val (g y) | Boom p => Boom p end.
Proof. intros A [[[v|y]|p] n] f g; reflexivity. Qed.

Lemma eval_depth : forall w rho e, snd (eval_d w rho e) <= height e.
Proof.
  intros w rho. induction e as [n|op l r IHl IHr|op a IH|f args IH|y] using element_ind'; cbn [eval_d]; rewrite snd_frame.
  - cbn; lia.
  - rewrite snd_ebind_d. cbn [height]. destruct (fst (eval_d w rho l)) as [[u|z]|]; try lia. rewrite snd_ebind_d; destruct (fst (eval_d w rho r)) as [[u'|z]|]; cbn [snd]; lia.
  - rewrite snd_ebind_d. cbn [height]. destruct (fst (eval_d w rho a)) as [[u|z]|]; cbn [snd]; lia.
  - rewrite snd_dbind, height_call.
    assert (M : snd (map_eval_d (eval_d w rho) args) <= hs args).
    { induction IH as [|a l Ha Hl IH]; [reflexivity|]. cbn [map_eval_d]. fold (map_eval_d (eval_d w rho)). rewrite snd_ebind_d, hs_cons.
      destruct (fst (eval_d w rho a)) as [[u|z]|]; try lia. rewrite snd_dbind. destruct (fst (map_eval_d (eval_d w rho) l)) as [[vs|z]|]; cbn [snd dret]; lia. }
    destruct (fst (map_eval_d (eval_d w rho) args)) as [[vs|z]|]; cbn [snd dret]; lia.
  - destruct (sget y rho); cbn; lia.
Qed.
Lemma eval_full : forall w rho e v, fst (eval_d w rho e) = Val (Eval_ok v) -> snd (eval_d w rho e) = height e.
Proof.
  intros w rho. induction e as [n|op l r IHl IHr|op a IH|f args IH|y] using element_ind'; intros v; cbn [eval_d]; rewrite snd_frame; cbn [frame fst].
  - reflexivity.
  - rewrite fst_ebind_d, snd_ebind_d. cbn [height]. destruct (fst (eval_d w rho l)) as [[x|z]|]; try discriminate. rewrite (IHl _ eq_refl).
    rewrite fst_ebind_d, snd_ebind_d. destruct (fst (eval_d w rho r)) as [[y|z]|]; try discriminate. rewrite (IHr _ eq_refl). cbn [snd]. lia.
  - rewrite fst_ebind_d, snd_ebind_d. cbn [height]. destruct (fst (eval_d w rho a)) as [[x|z]|]; try discriminate. rewrite (IH _ eq_refl). cbn [snd]. lia.
  - rewrite fst_dbind, snd_dbind, height_call.
    assert (M : forall vs, fst (map_eval_d (eval_d w rho) args) = Val (inl vs) -> snd (map_eval_d (eval_d w rho) args) = hs args).
    { induction IH as [|a l Ha Hl IH]; [reflexivity|]. intros vs. cbn [map_eval_d]. fold (map_eval_d (eval_d w rho)). rewrite fst_ebind_d, snd_ebind_d, hs_cons.
      destruct (fst (eval_d w rho a)) as [[u|z]|]; try discriminate. rewrite (Ha _ eq_refl).
      rewrite fst_dbind, snd_dbind. destruct (fst (map_eval_d (eval_d w rho) l)) as [[us|z]|]; try discriminate. rewrite (IH _ eq_refl). cbn [snd dret]. lia. }
    destruct (fst (map_eval_d (eval_d w rho) args)) as [[vs|z]|]; try discriminate. rewrite (M _ eq_refl). cbn [snd]. lia.
  - destruct (sget y rho); [reflexivity|discriminate].
Qed.

(** ** Comparison *)
Lemma snd_and_d : forall a b, snd (and_d a b) <= Nat.max (snd a) (snd b).
Proof. intros [[[|]|] n] b; cbn; lia. Qed.
Lemma snd_or_d : forall a b, snd (or_d a b) <= Nat.max (snd a) (snd b).
Proof. intros [[[|]|] n] b; cbn; lia. Qed.

Lemma eq_depth : forall a b, snd (el_eq_d a b) <= Nat.min (height a) (height b).
Proof.
  induction a as [n|op l r IHl IHr|op a IH|f args IH|y] using element_ind'; intros b;
    pose proof (height_pos b) as Pb; destruct b as [m|op' l' r'|op' a'|g args'|y']; try (cbn [el_eq_d frame dret snd height] in *; lia).
  - cbn [el_eq_d frame snd height]. destruct (operator_eqb op op'); [|cbn; lia].
    pose proof (IHl l'). pose proof (IHl r'). pose proof (IHr l'). pose proof (IHr r').
    pose proof (snd_and_d (el_eq_d l l') (el_eq_d r r')). pose proof (snd_and_d (el_eq_d l r') (el_eq_d r l')).
    pose proof (snd_or_d (and_d (el_eq_d l l') (el_eq_d r r')) (and_d (el_eq_d l r') (el_eq_d r l'))).
    destruct op; cbn [snd]; lia.
  - cbn [el_eq_d frame snd height]. destruct (operator_eqb op op'); [|cbn; lia]. specialize (IH a'). lia.
  - rewrite !height_call. cbn [el_eq_d frame snd]. destruct (function_eqb f g); [|cbn; lia]. destruct (Nat.eqb _ _); [|cbn; lia].
    match goal with |- context [snd (?F args args')] => set (go := F) end.
    assert (G : snd (go args args') <= Nat.min (hs args) (hs args')).
    { clear Pb. revert args'. induction IH as [|a l Ha Hl IHl]; intros [|b m]; try (cbn; lia).
      change (go (a :: l) (b :: m)) with (and_d (el_eq_d a b) (go l m)).
      pose proof (snd_and_d (el_eq_d a b) (go l m)). specialize (Ha b). specialize (IHl m). rewrite !hs_cons. lia. }
    lia.
Qed.

Lemma and_d_true : forall a b, fst (and_d a b) = Val true -> fst a = Val true /\ fst b = Val true /\ snd (and_d a b) = Nat.max (snd a) (snd b).
Proof. intros [[[|]|] n] b; cbn; intros H; try discriminate; auto. Qed.
Lemma or_d_true : forall a b, fst (or_d a b) = Val true ->
  (fst a = Val true /\ snd (or_d a b) = snd a) \/ (fst b = Val true /\ snd b <= snd (or_d a b)).
Proof. intros [[[|]|] n] b; cbn; intros H; try discriminate; [left|right]; split; auto; lia. Qed.

Lemma eq_full : forall a b, fst (el_eq_d a b) = Val true -> snd (el_eq_d a b) = height a /\ height a = height b.
Proof.
  assert (Suf : forall a b, height a <= snd (el_eq_d a b) -> height b <= snd (el_eq_d a b) -> snd (el_eq_d a b) = height a /\ height a = height b).
  { intros a b Ha Hb. pose proof (eq_depth a b). lia. }
  induction a as [n|op l r IHl IHr|op a IH|f args IH|y] using element_ind'; intros b E; apply Suf; clear Suf; revert E;
    destruct b as [m|op' l' r'|op' a'|g args'|y']; try (cbn; intros; first [discriminate|lia]); cbn [el_eq_d frame fst snd].
  1,2: destruct (operator_eqb op op'); [|discriminate]; cbn [height];
    destruct op; cbn [fst snd]; try discriminate; intros E;
    try (apply or_d_true in E; destruct E as [[E S1]|[E S1]]);
    apply and_d_true in E; destruct E as [E1 [E2 S2]]; (destruct (IHl _ E1)); (destruct (IHr _ E2)); lia.
  1,2: destruct (operator_eqb op op'); [|discriminate]; cbn [height]; intros E; destruct (IH _ E); lia.
  - rewrite height_call; destruct (function_eqb f g); [|discriminate]; destruct (Nat.eqb _ _) eqn:L; [|discriminate].
    match goal with |- context [fst (?F args args')] => set (go := F) end. intros E.
    assert (G : hs args <= snd (go args args') /\ hs args' <= snd (go args args')); [|lia].
    apply Nat.eqb_eq in L. revert args' E L. induction IH as [|a l Ha Hl IHl]; intros [|b m]; try discriminate; intros E L; [cbn; lia|].
    change (go (a :: l) (b :: m)) with (and_d (el_eq_d a b) (go l m)) in *. apply and_d_true in E. destruct E as [E1 [E2 S2]].
    destruct (Ha _ E1). cbn [List.length] in L. injection L as L. specialize (IHl m E2 L). rewrite !hs_cons. lia.
  - rewrite height_call; destruct (function_eqb f g); [|discriminate]; destruct (Nat.eqb _ _) eqn:L; [|discriminate].
    match goal with |- context [fst (?F args args')] => set (go := F) end. intros E.
    assert (G : hs args <= snd (go args args') /\ hs args' <= snd (go args args')); [|lia].
    apply Nat.eqb_eq in L. revert args' E L. induction IH as [|a l Ha Hl IHl]; intros [|b m]; try discriminate; intros E L; [cbn; lia|].
    change (go (a :: l) (b :: m)) with (and_d (el_eq_d a b) (go l m)) in *. apply and_d_true in E. destruct E as [E1 [E2 S2]].
    destruct (Ha _ E1). cbn [List.length] in L. injection L as L. specialize (IHl m E2 L). rewrite !hs_cons. lia.
Qed.

(** ** Simplification *)
Lemma rewrites_height : forall cfg w op l r e, rewrites cfg w op l r e -> height e <= 1 + Nat.max (height l) (height r).
Proof. intros cfg w op l r e H. inversion H; subst; cbn [height]; lia. Qed.

Lemma forall2_hs : forall l l', Forall2 (fun a b => height b <= height a) l l' -> hs l' <= hs l.
Proof. induction 1 as [|a b l l' H Hl IH]; [reflexivity|]. rewrite !hs_cons. lia. Qed.

Lemma simplify_height : forall cfg w e e', simplify cfg w e = Val e' -> height e' <= height e.
Proof.
  intros cfg w. induction e as [n|op l r IHl IHr|op a IH|f args IH|y] using element_ind'; intros e' H'; cbn [simplify] in H'.
  - injection H' as <-. auto.
  - destruct (simplify cfg w l) as [l'|] eqn:E1; cbn [bind_out] in H'; [|discriminate].
    destruct (simplify cfg w r) as [r'|] eqn:E2; cbn [bind_out] in H'; [|discriminate].
    apply simplify_binop_rewrites, rewrites_height in H'.
    specialize (IHl _ eq_refl). specialize (IHr _ eq_refl). cbn [height]. lia.
  - destruct (simplify cfg w a) as [a'|] eqn:E1; cbn [bind_out] in H'; [|discriminate].
    specialize (IH _ eq_refl). cbn [height].
    destruct op; cbn [simplify_unop] in H'; try discriminate; try (injection H' as <-; lia);
      destruct a'; injection H' as <-; cbn [height] in *; lia.
  - destruct (map_out (simplify cfg w) args) as [args'|] eqn:E1; cbn [bind_out] in H'; [|discriminate].
    apply map_out_inv in E1. rewrite height_call.
    assert (Hl : hs args' <= hs args).
    { apply forall2_hs. clear - E1 IH. induction E1 as [|a b l l' Hab E1 IHE]; constructor; inversion IH; subst; auto. }
    unfold simplify_call in H'. destruct (Nat.eqb _ _); [|injection H' as <-; rewrite height_call; lia].
    destruct (call_function _ _ _); cbn [bind_out] in H'; [injection H' as <-; cbn; lia|discriminate].
  - injection H' as <-. auto.
Qed.

Lemma el_simplify_for_height : forall cfg w x v e e', el_simplify_for cfg w x v e = Val e' -> height e' <= height e.
Proof.
  intros cfg w x v. induction e as [n|op l r IHl IHr|op a IH|f args IH|y] using element_ind'; intros e' H'; cbn [el_simplify_for] in H'.
  - injection H' as <-. auto.
  - destruct (el_simplify_for cfg w x v l) as [l'|] eqn:E1; cbn [bind_out] in H'; [|discriminate].
    destruct (el_simplify_for cfg w x v r) as [r'|] eqn:E2; cbn [bind_out] in H'; [|discriminate].
    apply simplify_height in H'. specialize (IHl _ eq_refl). specialize (IHr _ eq_refl). cbn [height] in *. lia.
  - destruct (el_simplify_for cfg w x v a) as [a'|] eqn:E1; cbn [bind_out] in H'; [|discriminate].
    apply simplify_height in H'. specialize (IH _ eq_refl). cbn [height] in *. lia.
  - destruct (map_out (el_simplify_for cfg w x v) args) as [args'|] eqn:E1; cbn [bind_out] in H'; [|discriminate].
    apply simplify_height in H'. apply map_out_inv in E1. rewrite height_call in *.
    assert (Hl : hs args' <= hs args).
    { apply forall2_hs. clear - E1 IH. induction E1 as [|a b l l' Hab E1 IHE]; constructor; inversion IH; subst; auto. }
    lia.
  - destruct (String.eqb y x); injection H' as <-; auto.
Qed.

Lemma simplify_binop_depth : forall cfg w op l r, snd (simplify_binop_d cfg w op l r) <= Nat.min (height l) (height r).
Proof.
  intros cfg w op l r.
  assert (Q : forall a b x y k, snd x <= k -> snd y <= k -> snd (if_eq_d a b x y) <= Nat.max (Nat.min (height a) (height b)) k).
  { intros a b x y k Hx Hy. unfold if_eq_d. rewrite snd_dbind. pose proof (eq_depth a b). destruct (fst (el_eq_d a b)) as [[|]|]; lia. }
  destruct op; cbn [simplify_binop_d snd]; try lia.
  - destruct (is_number l fzero); [cbn; lia|]. destruct (is_number r fzero); [cbn; lia|]. destruct (nightly cfg); [|cbn; lia].
    cbv zeta.
    assert (E : snd (match r with UnOp Minus operand => if_eq_d l operand (dret (Number fzero)) (fold_binop w Plus l r, 0) | _ => (fold_binop w Plus l r, 0) end)
      <= Nat.min (height l) (height r)).
    { destruct r as [| |[] a| |]; cbn [snd]; try lia. etransitivity; [apply Q with (k := 0); cbn; lia|]. cbn [height]. lia. }
    destruct l as [| |[] a| |]; try lia. etransitivity; [apply Q; [|exact E]; cbn; lia|]. cbn [height]. lia.
  - destruct (is_number l fzero); [cbn; lia|]. destruct (is_number r fzero); [cbn; lia|].
    etransitivity; [apply Q with (k := 0); [cbn; lia|]|lia]. destruct r as [| |[] a| |]; cbn; try lia. destruct (nightly cfg); cbn; lia.
  - destruct (is_number l fzero && is_number r fzero); [cbn; lia|]. destruct (is_number l fzero); [cbn; lia|].
    destruct (is_number r fzero) eqn:E; [cbn; lia|]. destruct (is_number r fone); [cbn; lia|].
    etransitivity; [apply Q with (k := 0); [cbn; lia|]|lia]. destruct l as [| |[] a| |]; cbn; try lia. destruct r as [| |[] b| |]; cbn; try lia. destruct (nightly cfg); cbn; lia.
  - destruct (is_number l fzero && is_number r fzero); [cbn; lia|]. destruct (is_number l fzero); [cbn; lia|].
    destruct (is_number r fzero) eqn:E; [cbn; lia|]. destruct (is_number r fone); [cbn; lia|].
    etransitivity; [apply Q with (k := 0); cbn; lia|lia].
Qed.

Lemma simplify_depth : forall cfg w e, snd (simplify_d cfg w e) <= height e.
Proof.
  intros cfg w. induction e as [n|op l r IHl IHr|op a IH|f args IH|y] using element_ind'; cbn [simplify_d]; rewrite snd_frame; try (cbn; lia).
  - rewrite snd_dbind. cbn [height]. pose proof (simplify_d_same cfg w l) as El. destruct (fst (simplify_d cfg w l)) as [l'|]; [|lia].
    rewrite snd_dbind. pose proof (simplify_d_same cfg w r) as Er. destruct (fst (simplify_d cfg w r)) as [r'|]; [|lia].
    pose proof (simplify_height _ _ _ _ (eq_sym El)). pose proof (simplify_height _ _ _ _ (eq_sym Er)).
    pose proof (simplify_binop_depth cfg w op l' r'). lia.
  - rewrite snd_dbind. cbn [height]. destruct (fst (simplify_d cfg w a)); cbn [snd]; lia.
  - rewrite snd_dbind, height_call. pose proof (map_d_depth _ _ _ IH). destruct (fst (map_d (simplify_d cfg w) args)); cbn [snd]; lia.
Qed.

Lemma simplify_full : forall cfg w e e', fst (simplify_d cfg w e) = Val e' -> snd (simplify_d cfg w e) = height e.
Proof.
  intros cfg w. induction e as [n|op l r IHl IHr|op a IH|f args IH|y] using element_ind'; intros e' E; pose proof (simplify_depth cfg w) as D.
  - reflexivity.
  - specialize (D (BinOp op l r)). cbn [simplify_d height] in *. rewrite snd_frame in *. cbn [frame fst] in E. rewrite fst_dbind in E. rewrite snd_dbind in *.
    destruct (fst (simplify_d cfg w l)) as [l'|]; [|discriminate E]. rewrite (IHl _ eq_refl) in *. rewrite fst_dbind in E. rewrite snd_dbind in *.
    destruct (fst (simplify_d cfg w r)) as [r'|]; [|discriminate E]. rewrite (IHr _ eq_refl) in *. lia.
  - cbn [simplify_d height] in *. rewrite snd_frame in *. cbn [frame fst] in E. rewrite fst_dbind in E. rewrite snd_dbind.
    destruct (fst (simplify_d cfg w a)) as [a'|]; [|discriminate E]. rewrite (IH _ eq_refl). cbn [snd]. lia.
  - cbn [simplify_d] in *. rewrite height_call. rewrite snd_frame in *. cbn [frame fst] in E. rewrite fst_dbind in E. rewrite snd_dbind.
    destruct (fst (map_d (simplify_d cfg w) args)) as [args'|] eqn:Em; [|discriminate E]. rewrite (map_d_full _ _ _ _ IH Em). cbn [snd]. lia.
  - reflexivity.
Qed.

Lemma simplify_for_depth : forall cfg w x v e, snd (el_simplify_for_d cfg w x v e) <= 1 + height e.
Proof.
  intros cfg w x v. induction e as [n|op l r IHl IHr|op a IH|f args IH|y] using element_ind'; cbn [el_simplify_for_d]; rewrite snd_frame; try (cbn; lia).
  - rewrite snd_dbind. cbn [height]. pose proof (simplify_for_d_same cfg w x v l) as El. destruct (fst (el_simplify_for_d cfg w x v l)) as [l'|]; [|lia].
    rewrite snd_dbind. pose proof (simplify_for_d_same cfg w x v r) as Er. destruct (fst (el_simplify_for_d cfg w x v r)) as [r'|]; [|lia].
    pose proof (el_simplify_for_height _ _ _ _ _ _ (eq_sym El)). pose proof (el_simplify_for_height _ _ _ _ _ _ (eq_sym Er)).
    pose proof (simplify_depth cfg w (BinOp op l' r')) as C. cbn [height] in C. lia.
  - rewrite snd_dbind. cbn [height]. pose proof (simplify_for_d_same cfg w x v a) as Ea. destruct (fst (el_simplify_for_d cfg w x v a)) as [a'|]; [|lia].
    pose proof (el_simplify_for_height _ _ _ _ _ _ (eq_sym Ea)). pose proof (simplify_depth cfg w (UnOp op a')) as C. cbn [height] in C. lia.
  - rewrite snd_dbind, height_call.
    assert (M : snd (map_d (el_simplify_for_d cfg w x v) args) <= 1 + hs args).
    { clear - IH. induction IH as [|a l Ha Hl IH]; [cbn; lia|]. cbn [map_d]. fold (map_d (el_simplify_for_d cfg w x v)). rewrite snd_dbind, hs_cons.
      destruct (fst (el_simplify_for_d cfg w x v a)); [|lia]. rewrite snd_dbind. destruct (fst (map_d _ l)); cbn [snd dret]; lia. }
    rewrite (map_d_same _ _ _ (el_simplify_for cfg w x v)) by (apply Forall_forall; intros; apply simplify_for_d_same).
    destruct (map_out (el_simplify_for cfg w x v) args) as [args'|] eqn:Em; [|lia].
    pose proof (simplify_depth cfg w (Call f args')) as C. rewrite height_call in C.
    assert (L : hs args' <= hs args).
    { apply map_out_inv in Em. apply forall2_hs. clear - Em. induction Em as [|a b l l' H Hl IHl]; constructor; auto. eapply el_simplify_for_height; eauto. }
    lia.
  - destruct (String.eqb y x); cbn; lia.
Qed.

Lemma simplify_for_reaches : forall cfg w x v e e', fst (el_simplify_for_d cfg w x v e) = Val e' -> height e <= snd (el_simplify_for_d cfg w x v e).
Proof.
  intros cfg w x v. induction e as [n|op l r IHl IHr|op a IH|f args IH|y] using element_ind'; intros e' E.
  - cbn; lia.
  - cbn [el_simplify_for_d height] in *. rewrite snd_frame. cbn [frame fst] in E. rewrite fst_dbind in E. rewrite snd_dbind.
    destruct (fst (el_simplify_for_d cfg w x v l)) as [l'|]; [|discriminate E]. pose proof (IHl _ eq_refl). rewrite fst_dbind in E. rewrite snd_dbind.
    destruct (fst (el_simplify_for_d cfg w x v r)) as [r'|]; [|discriminate E]. pose proof (IHr _ eq_refl). lia.
  - cbn [el_simplify_for_d height] in *. rewrite snd_frame. cbn [frame fst] in E. rewrite fst_dbind in E. rewrite snd_dbind.
    destruct (fst (el_simplify_for_d cfg w x v a)) as [a'|]; [|discriminate E]. pose proof (IH _ eq_refl). lia.
  - cbn [el_simplify_for_d] in *. rewrite height_call. rewrite snd_frame. cbn [frame fst] in E. rewrite fst_dbind in E. rewrite snd_dbind.
    assert (M : forall l', fst (map_d (el_simplify_for_d cfg w x v) args) = Val l' -> hs args <= snd (map_d (el_simplify_for_d cfg w x v) args)).
    { clear - IH. induction IH as [|a l Ha Hl IH]; [cbn; lia|]. cbn [map_d]. fold (map_d (el_simplify_for_d cfg w x v)). intros l'. rewrite fst_dbind, snd_dbind, hs_cons.
      destruct (fst (el_simplify_for_d cfg w x v a)); [|discriminate]. pose proof (Ha _ eq_refl). rewrite fst_dbind, snd_dbind.
      destruct (fst (map_d _ l)) as [m|]; [|discriminate]. pose proof (IH _ eq_refl). cbn [snd dret]. lia. }
    destruct (fst (map_d (el_simplify_for_d cfg w x v) args)) as [args'|] eqn:Em; [|discriminate E]. pose proof (M _ eq_refl). lia.
  - cbn. lia.
Qed.

(** ** The parser: three frames for a byte *)
Section ParserDepth.
  Variable cfg : config.
  Variable w : world.
  Variable ctx : context.
  Variable input : string.
  Let bs := bytes input.
  Let len := List.length bs.

  Definition elem_ok (c : nat) (x : pdeep element) : Prop :=
    match fst x with
    | POk a c' => c < c' <= len /\ height a <= c' - c /\ snd x <= 3 * (c' - c)
    | _ => snd x <= 3 * (len - c) + 2
    end.
  (** inside [k] frames *)
  Definition within (k c : nat) (x : pdeep element) : Prop :=
    match fst x with
    | POk a c' => c < c' <= len /\ height a <= c' - c /\ snd x + k <= 3 * (c' - c)
    | _ => snd x + k <= 3 * (len - c) + 2
    end.

  Lemma trim_bound : forall c o c', c <= len -> next_trim input c = (o, c') ->
    c <= c' <= len /\ match o with None => c' = len | Some b => c' < len /\ nth_error bs c' = Some b end.
  Proof.
    intros c o c' Hc H. pose proof (next_trim_spec input c o c' Hc H) as [Hr [Ho Hm]]. split; [exact Hr|].
    destruct o; [|exact Hm]. destruct Hm. split; [exact H0|]. symmetry. exact Ho.
  Qed.

  Lemma number_bound : forall c b, nth_error bs c = Some b -> is_digit b || Ascii.eqb b "." = true ->
    within 2 c (parse_number_d cfg input c).
  Proof.
    intros c b Hb Hd. pose proof (nth_error_Some_lt _ _ _ _ Hb) as Hlt. fold len in Hlt. unfold parse_number_d.
    set (c1 := skip_while input is_number_char c).
    assert (H1 : S c <= c1).
    { eapply skip_while_step; [exact Hb|]. unfold is_number_char. destruct (is_digit b); cbn in *; auto. now rewrite Hd. }
    assert (H2 : forall stop e, parse_number cfg input c = POk e stop -> c1 <= stop <= len).
    { intros stop. unfold parse_number. cbv zeta. fold c1.
      match goal with |- context [skip_while input is_digit ?x] => set (c2 := x) end.
      assert (Hs : c1 <= skip_while input is_digit c2 <= len).
      { apply (number_stop input). fold bs. fold len. lia. }
      destruct (parse_f64 _); [intros e E; injection E as _ <-; exact Hs|].
      unfold err_malformed_number, fail. destruct (usub _ _ _); discriminate. }
    unfold within. cbn [pframe pfree fst snd].
    destruct (parse_number cfg input c) as [e stop|e stop|p|] eqn:E; cbn [fst snd]; try lia.
    specialize (H2 _ _ eq_refl). split; [lia|].
    assert (height e = 1); [|lia]. unfold parse_number in E. cbv zeta in E. destruct (parse_f64 _); [injection E as <- _; reflexivity|].
    unfold err_malformed_number, fail in E. destruct (usub _ _ _); discriminate E.
  Qed.

  Lemma assert_bound : forall t c, c <= len ->
    match assert_eq_consume input t c with POk _ c' => c < c' <= len | _ => True end.
  Proof.
    intros t c Hc. unfold assert_eq_consume.
    destruct (consume_if_eq input t c) as [b c'] eqn:E. destruct (consume_if_eq_spec input _ _ _ _ Hc E) as [o [c0 [En Hb]]].
    destruct (trim_bound _ _ _ Hc En) as [Hr Hm]. destruct b; [|exact I]. destruct Hb as [-> [-> K]]. fold bs in K. fold len in K. lia.
  Qed.

  Section Open.
    Variable elem : nat -> nat -> pdeep element.
    Hypothesis Helem : forall p c, c <= len -> elem_ok c (elem p c).

    Lemma argument_bound : forall c, c <= len ->
      match fst (argument_d cfg input elem c) with
      | POk a c' => c < c' <= len /\ height a <= c' - c /\ snd (argument_d cfg input elem c) <= 3 * (c' - c) + 1
      | _ => snd (argument_d cfg input elem c) <= 3 * (len - c) + 3
      end.
    Proof.
      intros c Hc. pose proof (Helem NO_PRECEDENCE c Hc) as H. unfold elem_ok in H. unfold argument_d.
      destruct (elem NO_PRECEDENCE c) as [[a c'|e c'|p|] n]; cbn [fst snd] in *; try lia.
      destruct (pe_kind e); cbn [fst snd]; try lia.
      unfold err_missing_argument, fail. destruct (usub _ _ _); lia.
    Qed.

    Lemma arguments_bound : forall b args c, c <= len ->
      match fst (parse_arguments_d cfg input elem b args c) with
      | POk l c' => c < c' <= len /\ hs l <= Nat.max (hs args) (c' - c) /\ snd (parse_arguments_d cfg input elem b args c) <= 3 * (c' - c) + 1
      | _ => snd (parse_arguments_d cfg input elem b args c) <= 3 * (len - c) + 3
      end.
    Proof.
      assert (App : forall l a, hs (l ++ [a])%list = Nat.max (hs l) (height a)).
      { induction l as [|x l IHl]; intro a; [cbn; lia|]. cbn [app]. rewrite !hs_cons, IHl. lia. }
      induction b as [|b IH]; intros args c Hc; [cbn; lia|]. cbn [parse_arguments_d]. unfold pbind_d.
      pose proof (argument_bound c Hc) as A. destruct (fst (argument_d cfg input elem c)) as [a c1|e c1|p|]; cbn [fst snd]; try lia.
      destruct A as [L1 [S1 T1]].
      destruct (next_trim input c1) as [o c2] eqn:En. destruct (trim_bound c1 o c2 ltac:(lia) En) as [Hr Hm].
      destruct o as [tok|].
      2:{ cbn [pfree fst snd]. unfold err_unexpected_end, fail. destruct (usub _ _ _); lia. }
      destruct Hm as [Hlt _]. destruct (Ascii.eqb tok ",").
      - specialize (IH (args ++ [a])%list (S c2) ltac:(lia)). rewrite App in IH.
        destruct (fst (parse_arguments_d cfg input elem b (args ++ [a])%list (S c2))) as [l c'|e c'|p|]; lia.
      - destruct (Ascii.eqb tok ")").
        + cbn [pfree fst snd]. rewrite App. lia.
        + cbn [pfree fst snd err_unexpected_token fail]. lia.
    Qed.

    Lemma identifier_bound : forall b c t, nth_error bs c = Some t -> is_alpha t = true ->
      within 2 c (parse_identifier_d cfg ctx input elem b c).
    Proof.
      intros b c t Ht Ha. pose proof (nth_error_Some_lt _ _ _ _ Ht) as Hlt. fold len in Hlt. unfold parse_identifier_d. cbv zeta.
      set (stop := skip_while input is_ident_char c).
      assert (H1 : S c <= stop).
      { eapply skip_while_step; [exact Ht|]. unfold is_ident_char, is_alpha in *. destruct (is_upper t), (is_lower t); cbn in *; try discriminate; now rewrite ?orb_true_r. }
      assert (H2 : stop <= len) by (apply skip_while_le; fold bs; fold len; lia).
      unfold within. cbn [pframe fst snd].
      destruct (resolve ctx (slice input c stop)) as [f|v|x].
      2,3: cbn [pfree fst snd height]; lia.
      destruct (consume_if_eq input "(" stop) as [bb c1] eqn:E.
      destruct (consume_if_eq_spec input _ _ _ _ H2 E) as [o [c0 [En Hb]]]. destruct (trim_bound _ _ _ H2 En) as [Hr Hm].
      destruct bb; [|cbn [pfree fst snd err_expected_token fail]; lia].
      destruct Hb as [-> [-> K]]. fold bs in K. fold len in K. unfold pbind_d. cbn [pframe fst snd].
      pose proof (arguments_bound b [] (S c0) K) as A.
      destruct (fst (parse_arguments_d cfg input elem b [] (S c0))) as [l c2|e c2|p|]; cbn [fst snd]; try lia.
      destruct A as [L2 [Z2 T2]]. change (hs []) with 0 in Z2. pose proof (assert_bound ")" c2 ltac:(lia)) as B. cbn [pfree fst snd].
      destruct (assert_eq_consume input ")" c2) as [u c3|e c3|p|]; cbn [pfree fst snd]; try lia.
      assert (Ok : c < c3 <= len /\ height (Call f l) <= c3 - c /\ 1 + Nat.max (1 + snd (parse_arguments_d cfg input elem b [] (S c0))) (Nat.max 0 0) + 2 <= 3 * (c3 - c)).
      { rewrite height_call. lia. }
      unfold check_arity. destruct (fn_nb_args f) as [nb|]; [|exact Ok].
      destruct (Nat.compare (List.length l) nb); [exact Ok| |]; cbn [err_too_few err_too_many fail]; lia.
    Qed.

    Lemma atom_bound : forall b c, c <= len -> within 1 c (atom_d cfg ctx input elem b c).
    Proof.
      intros b c Hc. unfold atom_d. destruct (next_trim input c) as [o c0] eqn:En. destruct (trim_bound _ _ _ Hc En) as [Hr Hm].
      assert (Up : forall x, within 2 c0 x -> within 1 c (pframe x)).
      { intros x H. unfold within in *. cbn [pframe fst snd]. destruct (fst x); lia. }
      destruct o as [t|].
      2:{ unfold within, err_unexpected_end, fail. cbn [pframe pfree fst snd]. destruct (usub _ _ _); lia. }
      apply Up. clear Up. destruct Hm as [Hlt Hnth].
      destruct (is_digit t || Ascii.eqb t ".") eqn:Ed; [now apply number_bound with t|].
      destruct (is_alpha t) eqn:Ea; [now apply identifier_bound with t|].
      assert (Un : forall op, within 2 c0 (pbind_d (elem UNOP_PRECEDENCE (S c0)) (fun e c1 => pfree (POk (UnOp op e) c1)))).
      { intro op. pose proof (Helem UNOP_PRECEDENCE (S c0) Hlt) as H. unfold elem_ok in H. unfold within, pbind_d.
        destruct (fst (elem UNOP_PRECEDENCE (S c0))) as [a c1|e c1|p|]; cbn [pfree fst snd height]; lia. }
      destruct (Ascii.eqb t "+"); [apply Un|]. destruct (Ascii.eqb t "-"); [apply Un|].
      destruct (Ascii.eqb t "(").
      - pose proof (Helem NO_PRECEDENCE (S c0) Hlt) as H. unfold elem_ok in H. unfold within, pbind_d.
        destruct (fst (elem NO_PRECEDENCE (S c0))) as [a c1|e c1|p|]; cbn [fst snd]; try lia.
        destruct H as [L [Z Q]]. pose proof (assert_bound ")" c1 ltac:(lia)) as B. cbn [pfree fst snd].
        destruct (assert_eq_consume input ")" c1) as [u c2|e c2|p|]; cbn [pfree fst snd]; lia.
      - unfold within. destruct (Ascii.eqb t ")"); cbn [pfree fst snd err_unexpected_token err_illegal_character fail]; lia.
    Qed.

    (** [k] bytes have been read into [el] *)
    Lemma loop_bound : forall b p el c k, c <= len -> 1 <= k -> height el <= k ->
      match fst (binop_loop_d cfg input elem b p el c) with
      | POk a c' => c <= c' <= len /\ height a <= k + (c' - c) /\ snd (binop_loop_d cfg input elem b p el c) <= 3 * (c' - c)
      | _ => snd (binop_loop_d cfg input elem b p el c) <= 3 * (len - c) + 2
      end.
    Proof.
      induction b as [|b IH]; intros p el c k Hc Hk Hel; [cbn; lia|]. cbn [binop_loop_d].
      assert (G : match get_operator_infos cfg input el p c with
        | (None, c') => c <= c' <= len
        | (Some _, c') => c <= c' <= len
        end).
      { unfold get_operator_infos. destruct (next_trim input c) as [o c0] eqn:En. destruct (trim_bound _ _ _ Hc En) as [Hr Hm].
        destruct o as [t|]; [|exact Hr]. destruct Hm as [Hlt _].
        destruct (operator_of_byte t) as [op|].
        - destruct (_ <=? _); lia.
        - destruct (_ <=? _); [lia|]. destruct (is_lower t || Ascii.eqb t "("); [lia|]. destruct (is_digit t); [|lia]. destruct el; lia. }
      destruct (get_operator_infos cfg input el p c) as [[[op q]|] c'].
      2:{ cbn [pfree fst snd]. lia. }
      unfold pbind_d. pose proof (Helem q c' ltac:(lia)) as H. unfold elem_ok in H.
      destruct (fst (elem q c')) as [a c1|e c1|pp|]; cbn [fst snd]; try lia.
      destruct H as [L [Z Q]]. specialize (IH p (BinOp op el a) c1 (k + (c1 - c)) ltac:(lia) ltac:(lia)).
      cbn [height] in IH. specialize (IH ltac:(lia)).
      destruct (fst (binop_loop_d cfg input elem b p (BinOp op el a) c1)) as [a' c2|e c2|pp|]; lia.
    Qed.
  End Open.

  Lemma element_bound : forall b p c, c <= len -> elem_ok c (element_at_d cfg w ctx input b p c).
  Proof.
    induction b as [|b IH]; intros p c Hc; [unfold elem_ok; cbn; lia|]. cbn [element_at_d].
    pose proof (atom_bound _ IH b c Hc) as A. unfold within in A. unfold elem_ok, pbind_d, pframe. cbn [fst snd].
    destruct (fst (atom_d cfg ctx input (element_at_d cfg w ctx input b) b c)) as [a c1|e c1|pp|]; cbn [fst snd]; try lia.
    destruct A as [L1 [Z1 T1]].
    destruct (consume_if_eq input "!" c1) as [bb c2] eqn:E.
    destruct (consume_if_eq_spec input _ _ _ _ (proj2 L1) E) as [o [c0 [En Hb]]]. destruct (trim_bound _ _ _ (proj2 L1) En) as [Hr Hm].
    assert (L2 : c1 <= c2 <= len /\ height (if bb then UnOp Factorial a else a) <= c2 - c).
    { destruct bb; [destruct Hb as [-> [_ K]]; fold bs in K; fold len in K|destruct Hb as [-> _]]; cbn [height]; lia. }
    destruct L2 as [L2 Z2].
    pose proof (loop_bound _ IH b p (if bb then UnOp Factorial a else a) c2 (c2 - c) (proj2 L2) ltac:(lia) Z2) as B.
    destruct (fst (binop_loop_d cfg input (element_at_d cfg w ctx input b) b p (if bb then UnOp Factorial a else a) c2)) as [el c3|e c3|pp|]; cbn [fst snd]; try lia.
    destruct B as [L3 [Z3 T3]].
    assert (Fin : snd (finish_element_d cfg w el) <= height el).
    { unfold finish_element_d. destruct (optimize cfg); [apply simplify_depth|cbn; lia]. }
    assert (Hgt : forall el', fst (finish_element_d cfg w el) = Val el' -> height el' <= height el).
    { intros el'. rewrite finish_same. unfold finish_element. destruct (optimize cfg); [apply simplify_height|intro K; injection K as <-; lia]. }
    destruct (fst (finish_element_d cfg w el)) as [el'|pp]; cbn [plift]; unfold pframe; cbn [fst snd].
    - specialize (Hgt el' eq_refl). lia.
    - lia.
  Qed.

  Lemma parse_impl_bound : snd (parse_impl_d cfg w ctx input) <= 3 * len + 3 /\
    match fst (parse_impl_d cfg w ctx input) with POk (e, l) _ => height e <= len /\ 1 + height e <= snd (parse_impl_d cfg w ctx input) | _ => True end.
  Proof.
    unfold parse_impl_d, pbind_d. pose proof (element_bound (parse_budget input) NO_PRECEDENCE 0 ltac:(lia)) as H. unfold elem_ok in H. unfold pframe. cbn [fst snd].
    destruct (fst (element_at_d cfg w ctx input (parse_budget input) NO_PRECEDENCE 0)) as [e c|e c|p|]; cbn [fst snd]; try (split; [lia|exact I]).
    destruct H as [L [Z Q]]. destruct (next_trim input c) as [o c'] eqn:En. destruct (trim_bound _ _ _ (proj2 L) En) as [Hr Hm].
    destruct o as [t|]; cbn [pfree fst snd err_unexpected_token fail]; [split; [lia|exact I]|]. rewrite find_variables_d_same. cbn [fst snd]. lia.
  Qed.
End ParserDepth.

Lemma bytes_length : forall s, List.length (bytes s) = String.length s.
Proof. induction s as [|a s IH]; [reflexivity|]. unfold bytes in *. cbn [list_ascii_of_string List.length String.length]. now rewrite IH. Qed.

Lemma parse_d_bound : forall cfg w ctx input, snd (parse_d cfg w ctx input) <= 3 * String.length input + 3.
Proof.
  intros. unfold parse_d. pose proof (parse_impl_bound cfg w ctx input) as [H _]. rewrite bytes_length in H.
  destruct (parse_impl_d cfg w ctx input) as [[[root vars] c|e c|p|] n]; cbn [fst snd] in *; try lia.
  destruct (get_expected_vars ctx); [|cbn; lia]. destruct (set_diff _ _); cbn; lia.
Qed.
Lemma parse_d_height : forall cfg w ctx input x, fst (parse_d cfg w ctx input) = Parse_ok x ->
  height (root x) <= String.length input /\ 1 + height (root x) <= snd (parse_d cfg w ctx input).
Proof.
  intros cfg w ctx input x. unfold parse_d. pose proof (parse_impl_bound cfg w ctx input) as [_ H]. rewrite bytes_length in H.
  destruct (parse_impl_d cfg w ctx input) as [[[rt vars] c|e c|p|] n]; cbn [fst snd] in *; try discriminate.
  destruct (get_expected_vars ctx); [|cbn; intro K; injection K as <-; exact H]. destruct (set_diff _ _); cbn; [intro K; injection K as <-; exact H|discriminate].
Qed.
