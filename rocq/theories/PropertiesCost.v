(** * The work done by the operations is polynomial (C66) *)
From Coq Require Import ZArith NArith List String Ascii Bool Lia Arith.
From Verif Require Import F64 Syntax Factorial Builtins Context Element Parser Xprs Cost.
From Verif Require Import SpecChars CharFacts ParserFacts SpecParse ParserInv SpecTree TreeFacts SimplifyFacts.
Import ListNotations.
Local Open Scope nat_scope.

(** ** The counting versions compute the same *)
Lemma fst_and_c : forall a b, fst (and_c a b) = and_out (fst a) (fst b).
Proof. intros [[[|]|] n] b; reflexivity. Qed.
Lemma fst_or_c : forall a b, fst (or_c a b) = or_out (fst a) (fst b).
Proof. intros [[[|]|] n] b; reflexivity. Qed.
Lemma fst_cbind : forall A B (x : counted A) (f : A -> counted B),
  fst (cbind x f) = match fst x with Val a => fst (f a) | Boom p => Boom p end.
Proof. intros A B [[a|p] n] f; reflexivity. Qed.
Lemma snd_cbind : forall A B (x : counted A) (f : A -> counted B),
  snd (cbind x f) = snd x + match fst x with Val a => snd (f a) | Boom p => 0 end.
Proof. intros A B [[a|p] n] f; cbn; lia. Qed.

Lemma el_eq_c_same : forall a b, fst (el_eq_c a b) = el_eq a b.
Proof.
  induction a as [n|op l r IHl IHr|op a IH|f args IH|y] using element_ind'; intros b; destruct b as [m|op' l' r'|op' a'|g args'|y']; try reflexivity.
  - cbn. destruct (operator_eqb op op'); [|reflexivity]. destruct op; cbn; rewrite ?fst_or_c, ?fst_and_c, ?IHl, ?IHr; reflexivity.
  - cbn. destruct (operator_eqb op op'); [apply IH|reflexivity].
  - cbn. destruct (function_eqb f g); [|reflexivity]. destruct (Nat.eqb _ _); [|reflexivity].
    revert args'. induction IH as [|a l Ha Hl IHl]; intros [|b m]; try reflexivity.
    cbn in *. rewrite fst_and_c, Ha, IHl. reflexivity.
Qed.

Lemma map_c_same : forall A B (f : A -> counted B) g l, Forall (fun a => fst (f a) = g a) l ->
  fst (map_c f l) = map_out g l.
Proof.
  induction 1 as [|a l Ha Hl IH]; [reflexivity|]. cbn. rewrite fst_cbind, Ha. destruct (g a); cbn; [|reflexivity].
  rewrite fst_cbind, IH. destruct (map_out g l); reflexivity.
Qed.

Lemma if_eq_c_same : forall a b x y, fst (if_eq_c a b x y) = if_eq a b (fst x) (fst y).
Proof. intros. unfold if_eq_c, if_eq. rewrite fst_cbind, el_eq_c_same. destruct (el_eq a b) as [[|]|]; reflexivity. Qed.

Lemma simplify_binop_c_same : forall cfg w op l r, fst (simplify_binop_c cfg w op l r) = simplify_binop cfg w op l r.
Proof.
  intros cfg w op l r. destruct op; cbn [simplify_binop_c simplify_binop]; try reflexivity.
  - destruct (is_number l fzero); [reflexivity|]. destruct (is_number r fzero); [reflexivity|]. destruct (nightly cfg); [|reflexivity].
    cbv zeta.
    assert (E : fst (match r with UnOp Minus operand => if_eq_c l operand (cret (Number fzero)) (fold_binop w Plus l r, 0) | _ => (fold_binop w Plus l r, 0) end)
      = match r with UnOp Minus operand => if_eq l operand (Val (Number fzero)) (fold_binop w Plus l r) | _ => fold_binop w Plus l r end).
    { destruct r as [| |[] a| |]; try reflexivity. apply if_eq_c_same. }
    destruct l as [| |[] a| |]; try exact E. rewrite if_eq_c_same, E. reflexivity.
  - destruct (is_number l fzero); [reflexivity|]. destruct (is_number r fzero); [reflexivity|].
    rewrite if_eq_c_same. f_equal. destruct r as [| |[] a| |]; try reflexivity. destruct (nightly cfg); reflexivity.
  - destruct (is_number l fzero && is_number r fzero); [reflexivity|]. destruct (is_number l fzero); [reflexivity|].
    destruct (is_number r fzero) eqn:E; [reflexivity|]. destruct (is_number r fone); [reflexivity|].
    rewrite if_eq_c_same. f_equal. destruct l as [| |[] a| |]; try reflexivity. destruct r as [| |[] b| |]; try reflexivity. destruct (nightly cfg); reflexivity.
  - destruct (is_number l fzero && is_number r fzero); [reflexivity|]. destruct (is_number l fzero); [reflexivity|].
    destruct (is_number r fzero) eqn:E; [reflexivity|]. destruct (is_number r fone); [reflexivity|].
    rewrite if_eq_c_same. reflexivity.
Qed.

Lemma simplify_c_same : forall cfg w e, fst (simplify_c cfg w e) = simplify cfg w e.
Proof.
  intros cfg w. induction e as [n|op l r IHl IHr|op a IH|f args IH|y] using element_ind'; try reflexivity.
  - cbn [simplify_c simplify]. unfold steps; cbn [fst]. rewrite !fst_cbind, IHl. destruct (simplify cfg w l); cbn; [|reflexivity].
    rewrite fst_cbind, IHr. destruct (simplify cfg w r); cbn; [|reflexivity]. apply simplify_binop_c_same.
  - cbn [simplify_c simplify]. unfold steps; cbn [fst]. rewrite !fst_cbind, IH. destruct (simplify cfg w a); reflexivity.
  - cbn [simplify_c simplify]. unfold steps; cbn [fst]. rewrite !fst_cbind, (map_c_same _ _ _ (simplify cfg w)) by exact IH.
    destruct (map_out (simplify cfg w) args); reflexivity.
Qed.

Lemma simplify_for_c_same : forall cfg w x v e, fst (el_simplify_for_c cfg w x v e) = el_simplify_for cfg w x v e.
Proof.
  intros cfg w x v. induction e as [n|op l r IHl IHr|op a IH|f args IH|y] using element_ind'; try reflexivity.
  - cbn [el_simplify_for_c el_simplify_for]. unfold steps; cbn [fst]. rewrite !fst_cbind, IHl. destruct (el_simplify_for cfg w x v l); cbn -[simplify simplify_c]; [|reflexivity].
    rewrite fst_cbind, IHr. destruct (el_simplify_for cfg w x v r); cbn -[simplify simplify_c]; [|reflexivity]. apply simplify_c_same.
  - cbn [el_simplify_for_c el_simplify_for]. unfold steps; cbn [fst]. rewrite !fst_cbind, IH. destruct (el_simplify_for cfg w x v a); cbn -[simplify simplify_c]; [|reflexivity]. apply simplify_c_same.
  - cbn [el_simplify_for_c el_simplify_for]. unfold steps; cbn [fst]. rewrite !fst_cbind, (map_c_same _ _ _ (el_simplify_for cfg w x v)) by exact IH.
    destruct (map_out (el_simplify_for cfg w x v) args); cbn -[simplify simplify_c]; [|reflexivity]. apply simplify_c_same.
  - cbn. destruct (String.eqb y x); reflexivity.
Qed.

Lemma eval_unchecked_c_same : forall w rho e, fst (eval_unchecked_c w rho e) = eval_element_unchecked w rho e.
Proof.
  intros w rho. induction e as [n|op l r IHl IHr|op a IH|f args IH|y] using element_ind'; try reflexivity.
  - cbn [eval_unchecked_c eval_element_unchecked]. unfold steps; cbn [fst]. rewrite !fst_cbind, IHl. destruct (eval_element_unchecked w rho l); cbn; [|reflexivity].
    rewrite fst_cbind, IHr. destruct (eval_element_unchecked w rho r); reflexivity.
  - cbn [eval_unchecked_c eval_element_unchecked]. unfold steps; cbn [fst]. rewrite !fst_cbind, IH. destruct (eval_element_unchecked w rho a); reflexivity.
  - cbn [eval_unchecked_c eval_element_unchecked]. unfold steps; cbn [fst]. rewrite !fst_cbind, (map_c_same _ _ _ (eval_element_unchecked w rho)) by exact IH.
    destruct (map_out (eval_element_unchecked w rho) args); reflexivity.
  - cbn. destruct (sget y rho); reflexivity.
Qed.

Lemma find_variables_c_same : forall e s, find_variables_c e s = (find_variables e s, size e).
Proof.
  induction e as [n|op l r IHl IHr|op a IH|f args IH|y] using element_ind'; intros s; try reflexivity.
  - cbn [find_variables_c find_variables size]. rewrite IHl, IHr. reflexivity.
  - cbn [find_variables_c find_variables size]. rewrite IH. reflexivity.
  - cbn [find_variables_c find_variables size].
    assert (E : forall k, fold_left (fun p a => let '(s, n) := find_variables_c a (fst p) in (s, snd p + n)) args (s, k)
             = (fold_left (fun s a => find_variables a s) args s, k + list_sum (map size args))).
    { clear f. revert s. induction IH as [|a l Ha Hl IHl]; intros s k; cbn [fold_left map list_sum fold_right fst snd]; [f_equal; lia|].
      rewrite Ha. cbn [fst snd]. rewrite IHl. f_equal. cbn. unfold list_sum. lia. }
    rewrite E. reflexivity.
Qed.

(** ** Bounds *)
Lemma snd_and_c : forall a b, snd (and_c a b) <= snd a + snd b.
Proof. intros [[[|]|] n] b; cbn; lia. Qed.
Lemma snd_or_c : forall a b, snd (or_c a b) <= snd a + snd b.
Proof. intros [[[|]|] n] b; cbn; lia. Qed.

Lemma eq_cost : forall a b, snd (el_eq_c a b) <= size a * size b.
Proof.
  induction a as [n|op l r IHl IHr|op a IH|f args IH|y] using element_ind'; intros b;
    pose proof (size_pos b) as Pb; destruct b as [m|op' l' r'|op' a'|g args'|y']; try (cbn [el_eq_c steps cret snd size] in *; nia).
  - cbn [el_eq_c steps snd size]. destruct (operator_eqb op op'); [|cbn; nia].
    pose proof (IHl l'). pose proof (IHl r'). pose proof (IHr l'). pose proof (IHr r').
    pose proof (snd_and_c (el_eq_c l l') (el_eq_c r r')). pose proof (snd_and_c (el_eq_c l r') (el_eq_c r l')).
    pose proof (snd_or_c (and_c (el_eq_c l l') (el_eq_c r r')) (and_c (el_eq_c l r') (el_eq_c r l'))).
    destruct op; cbn [snd]; nia.
  - cbn [el_eq_c steps snd size]. destruct (operator_eqb op op'); [|cbn; nia]. specialize (IH a'). nia.
  - cbn [el_eq_c steps snd size]. destruct (function_eqb f g); [|cbn; nia]. destruct (Nat.eqb _ _); [|cbn; nia].
    match goal with |- context [snd (?F args args')] => set (go := F) end.
    assert (G : snd (go args args') <= list_sum (map size args) * list_sum (map size args')).
    { clear Pb. revert args'. induction IH as [|a l Ha Hl IHl]; intros [|b m]; try (cbn; lia).
      change (go (a :: l) (b :: m)) with (and_c (el_eq_c a b) (go l m)).
      pose proof (snd_and_c (el_eq_c a b) (go l m)). specialize (Ha b). specialize (IHl m). cbn [map list_sum fold_right] in *. unfold list_sum in *. nia. }
    nia.
Qed.

Lemma simplify_binop_cost : forall cfg w op l r, snd (simplify_binop_c cfg w op l r) <= 2 * (size l * size r).
Proof.
  intros cfg w op l r.
  assert (Q : forall a b x y k, snd x <= k -> snd y <= k -> snd (if_eq_c a b x y) <= size a * size b + k).
  { intros a b x y k Hx Hy. unfold if_eq_c. rewrite snd_cbind. pose proof (eq_cost a b). destruct (fst (el_eq_c a b)) as [[|]|]; lia. }
  destruct op; cbn [simplify_binop_c snd]; try lia.
  - destruct (is_number l fzero); [cbn; lia|]. destruct (is_number r fzero); [cbn; lia|]. destruct (nightly cfg); [|cbn; lia].
    cbv zeta.
    match goal with |- snd (match l with _ => _ end) <= _ => idtac end.
    assert (E : snd (match r with UnOp Minus operand => if_eq_c l operand (cret (Number fzero)) (fold_binop w Plus l r, 0) | _ => (fold_binop w Plus l r, 0) end)
      <= size l * size r).
    { destruct r as [| |[] a| |]; cbn [snd]; try lia. etransitivity; [apply Q with (k := 0); cbn; lia|]. cbn [size]. nia. }
    destruct l as [| |[] a| |]; try lia. etransitivity; [apply Q; [|exact E]; cbn; lia|]. cbn [size]. nia.
  - destruct (is_number l fzero); [cbn; lia|]. destruct (is_number r fzero); [cbn; lia|].
    etransitivity; [apply Q with (k := 0); [cbn; lia|]|lia]. destruct r as [| |[] a| |]; cbn; try lia. destruct (nightly cfg); cbn; lia.
  - destruct (is_number l fzero && is_number r fzero); [cbn; lia|]. destruct (is_number l fzero); [cbn; lia|].
    destruct (is_number r fzero) eqn:E; [cbn; lia|]. destruct (is_number r fone); [cbn; lia|].
    etransitivity; [apply Q with (k := 0); [cbn; lia|]|lia]. destruct l as [| |[] a| |]; cbn; try lia. destruct r as [| |[] b| |]; cbn; try lia. destruct (nightly cfg); cbn; lia.
  - destruct (is_number l fzero && is_number r fzero); [cbn; lia|]. destruct (is_number l fzero); [cbn; lia|].
    destruct (is_number r fzero) eqn:E; [cbn; lia|]. destruct (is_number r fone); [cbn; lia|].
    etransitivity; [apply Q with (k := 0); cbn; lia|lia].
Qed.

(** If each call costs at most [k] of the size, superadditively, so does the list. *)
Lemma map_c_cost : forall A (f : element -> counted A) k l,
  (forall a b, k a + k b <= k (a + b)) ->
  Forall (fun a => snd (f a) <= k (size a)) l -> snd (map_c f l) <= k (list_sum (map size l)).
Proof.
  intros A f k l K. induction 1 as [|a l Ha Hl IH]; cbn [map_c snd cret map list_sum fold_right]; [lia|].
  fold (map_c f). rewrite snd_cbind. unfold list_sum in *. pose proof (K (size a) (fold_right Nat.add 0 (map size l))).
  destruct (fst (f a)); [rewrite snd_cbind; destruct (fst (map_c f l)); cbn [snd cret]; lia|lia].
Qed.

Lemma square_add : forall a b, a * a + b * b <= (a + b) * (a + b).
Proof. intros. nia. Qed.
Lemma cube_add : forall a b, a * a * a + b * b * b <= (a + b) * (a + b) * (a + b).
Proof. intros. nia. Qed.
Lemma cube_add2 : forall a b, 2 * (a * a * a) + 2 * (b * b * b) <= 2 * ((a + b) * (a + b) * (a + b)).
Proof. intros. pose proof (cube_add a b). lia. Qed.

Lemma simplify_cost : forall cfg w e, snd (simplify_c cfg w e) <= size e * size e.
Proof.
  intros cfg w. induction e as [n|op l r IHl IHr|op a IH|f args IH|y] using element_ind'; try (cbn; lia).
  - cbn [simplify_c steps snd]. rewrite snd_cbind. pose proof (simplify_c_same cfg w l) as El. destruct (fst (simplify_c cfg w l)) as [l'|]; [|cbn [size]; nia].
    rewrite snd_cbind. pose proof (simplify_c_same cfg w r) as Er. destruct (fst (simplify_c cfg w r)) as [r'|]; [|cbn [size]; nia].
    pose proof (simplify_size _ _ _ _ (eq_sym El)). pose proof (simplify_size _ _ _ _ (eq_sym Er)).
    pose proof (simplify_binop_cost cfg w op l' r'). cbn [size]. nia.
  - cbn [simplify_c steps snd]. rewrite snd_cbind. destruct (fst (simplify_c cfg w a)); cbn [snd size]; nia.
  - cbn [simplify_c steps snd]. rewrite snd_cbind.
    pose proof (map_c_cost _ (simplify_c cfg w) (fun n => n * n) args square_add IH) as M. cbn beta in M.
    destruct (fst (map_c (simplify_c cfg w) args)); cbn [snd size]; nia.
Qed.

Lemma simplify_for_cost : forall cfg w x v e, snd (el_simplify_for_c cfg w x v e) <= 2 * (size e * size e * size e).
Proof.
  intros cfg w x v.
  assert (Z : forall e e', simplify_c cfg w e = e' -> snd e' <= size e * size e) by (intros e e' <-; apply simplify_cost).
  induction e as [n|op l r IHl IHr|op a IH|f args IH|y] using element_ind'; try (cbn; lia).
  - cbn [el_simplify_for_c steps snd]. rewrite snd_cbind. pose proof (simplify_for_c_same cfg w x v l) as El. pose proof (size_pos l). pose proof (size_pos r).
    assert (T : forall a b, 1 <= a -> 1 <= b -> 1 + (2 * (a * a * a) + (2 * (b * b * b) + S (a + b) * S (a + b))) <= 2 * (S (a + b) * S (a + b) * S (a + b))) by (intros; nia).
    specialize (T _ _ H H0). cbn [size].
    destruct (fst (el_simplify_for_c cfg w x v l)) as [l'|]; [|nia].
    rewrite snd_cbind. pose proof (simplify_for_c_same cfg w x v r) as Er. destruct (fst (el_simplify_for_c cfg w x v r)) as [r'|]; [|nia].
    pose proof (el_simplify_for_size _ _ _ _ _ _ (eq_sym El)). pose proof (el_simplify_for_size _ _ _ _ _ _ (eq_sym Er)).
    pose proof (simplify_cost cfg w (BinOp op l' r')) as C. cbn [size] in C.
    assert (S (size l' + size r') * S (size l' + size r') <= S (size l + size r) * S (size l + size r)) by (apply Nat.mul_le_mono; lia). lia.
  - cbn [el_simplify_for_c steps snd]. rewrite snd_cbind. pose proof (simplify_for_c_same cfg w x v a) as Ea. cbn [size]. pose proof (size_pos a).
    assert (T : forall a, 1 <= a -> 1 + (2 * (a * a * a) + S a * S a) <= 2 * (S a * S a * S a)) by (intros; nia).
    specialize (T _ H).
    destruct (fst (el_simplify_for_c cfg w x v a)) as [a'|]; [|nia].
    pose proof (el_simplify_for_size _ _ _ _ _ _ (eq_sym Ea)). pose proof (simplify_cost cfg w (UnOp op a')) as C. cbn [size] in C.
    assert (S (size a') * S (size a') <= S (size a) * S (size a)) by (apply Nat.mul_le_mono; lia). lia.
  - cbn [el_simplify_for_c steps snd]. rewrite snd_cbind.
    pose proof (map_c_cost _ (el_simplify_for_c cfg w x v) (fun n => 2 * (n * n * n)) args cube_add2 IH) as M. cbn beta in M.
    pose proof (map_c_same _ _ (el_simplify_for_c cfg w x v) (el_simplify_for cfg w x v) args) as Em.
    rewrite Em by (apply Forall_forall; intros; apply simplify_for_c_same). clear Em. cbn [size]. set (m := list_sum (map size args)) in *.
    assert (T : forall a, 1 + (2 * (a * a * a) + S a * S a) <= 2 * (S a * S a * S a)) by (intros; nia).
    specialize (T m).
    destruct (map_out (el_simplify_for cfg w x v) args) as [args'|] eqn:Em; [|nia].
    pose proof (simplify_cost cfg w (Call f args')) as C. cbn [size] in C.
    assert (L : list_sum (map size args') <= m).
    { apply map_out_inv in Em. subst m. clear - Em. induction Em as [|a b l l' H Hl IHl]; cbn [map list_sum fold_right]; [lia|].
      pose proof (el_simplify_for_size _ _ _ _ _ _ H). unfold list_sum in *. lia. }
    assert (S (list_sum (map size args')) * S (list_sum (map size args')) <= S m * S m) by (apply Nat.mul_le_mono; lia). lia.
  - cbn. destruct (String.eqb y x); cbn; lia.
Qed.

Lemma eval_cost : forall w rho e, snd (eval_unchecked_c w rho e) <= size e.
Proof.
  intros w rho. induction e as [n|op l r IHl IHr|op a IH|f args IH|y] using element_ind'; try (cbn; lia).
  - cbn [eval_unchecked_c steps snd]. rewrite snd_cbind. destruct (fst (eval_unchecked_c w rho l)); [rewrite snd_cbind; destruct (fst (eval_unchecked_c w rho r))|]; cbn [snd size]; lia.
  - cbn [eval_unchecked_c steps snd]. rewrite snd_cbind. destruct (fst (eval_unchecked_c w rho a)); cbn [snd size]; lia.
  - cbn [eval_unchecked_c steps snd]. rewrite snd_cbind.
    pose proof (map_c_cost _ (eval_unchecked_c w rho) (fun n => n) args (fun a b => Nat.le_refl (a + b)) IH) as M. cbn beta in M.
    destruct (fst (map_c (eval_unchecked_c w rho) args)); cbn [snd size]; lia.
  - cbn. destruct (sget y rho); cbn; lia.
Qed.

(** ** The parser *)
Section ParserErase.
  Variable cfg : config.
  Variable w : world.
  Variable ctx : context.
  Variable input : string.

  Lemma fst_pbind_c : forall A B (x : pcounted A) (f : A -> nat -> pcounted B),
    fst (pbind_c x f) = pbind (fst x) (fun a c => fst (f a c)).
  Proof. intros A B [[a c|e c|p|] n] f; reflexivity. Qed.

  Lemma pbind_ext : forall A B (x : pres A) (f g : A -> nat -> pres B), (forall a c, f a c = g a c) -> pbind x f = pbind x g.
  Proof. intros A B [a c|e c|p|] f g H; cbn; auto. Qed.

  Section Open.
    Variable elem : nat -> nat -> pres element.
    Variable elem_c : nat -> nat -> pcounted element.
    Hypothesis same : forall p c, fst (elem_c p c) = elem p c.

    Lemma loop_same : forall b p el c, fst (binop_loop_c cfg input elem_c b p el c) = binop_loop cfg input elem b p el c.
    Proof.
      induction b as [|b IH]; intros p el c; [reflexivity|]. cbn [binop_loop_c binop_loop psteps fst].
      destruct (get_operator_infos cfg input el p c) as [[[op q]|] c']; [|reflexivity].
      rewrite fst_pbind_c, same. apply pbind_ext. intros. apply IH.
    Qed.
    Lemma argument_same : forall c, fst (argument_c cfg input elem_c c) = argument cfg input elem c.
    Proof.
      intros c. unfold argument_c, argument. rewrite <- same. destruct (elem_c NO_PRECEDENCE c) as [[a k|e k|p|] n]; try reflexivity.
      cbn [fst]. destruct (pe_kind e); reflexivity.
    Qed.
    Lemma arguments_same : forall b args c, fst (parse_arguments_c cfg input elem_c b args c) = parse_arguments cfg input elem b args c.
    Proof.
      induction b as [|b IH]; intros args c; [reflexivity|]. cbn [parse_arguments_c parse_arguments].
      rewrite fst_pbind_c, argument_same. apply pbind_ext. intros a c1. cbn [psteps fst]. destruct (next_trim input c1) as [[t|] c2]; [|reflexivity].
      destruct (Ascii.eqb t ","); [apply IH|]. destruct (Ascii.eqb t ")"); reflexivity.
    Qed.
    Lemma identifier_same : forall b c, fst (parse_identifier_c cfg ctx input elem_c b c) = parse_identifier cfg ctx input elem b c.
    Proof.
      intros b c. unfold parse_identifier_c, parse_identifier. cbv zeta. cbn [psteps fst].
      destruct (resolve _ _) as [f|v|x]; try reflexivity. cbn [psteps fst].
      destruct (consume_if_eq _ _ _) as [[|] c1]; [|reflexivity].
      rewrite fst_pbind_c, arguments_same. apply pbind_ext. intros args c2. rewrite fst_pbind_c. apply pbind_ext. reflexivity.
    Qed.
    Lemma number_same : forall c, fst (parse_number_c cfg input c) = parse_number cfg input c.
    Proof. intros c. unfold parse_number_c. cbv zeta. destruct (parse_number cfg input c); reflexivity. Qed.
    Lemma atom_same : forall b c, fst (atom_c cfg ctx input elem_c b c) = atom cfg ctx input elem b c.
    Proof.
      intros b c. unfold atom_c, atom. cbn [psteps fst]. destruct (next_trim input c) as [[t|] c0]; [|reflexivity].
      destruct (is_digit t || Ascii.eqb t "."); [apply number_same|]. destruct (is_alpha t); [apply identifier_same|].
      destruct (Ascii.eqb t "+"); [rewrite fst_pbind_c, same; reflexivity|]. destruct (Ascii.eqb t "-"); [rewrite fst_pbind_c, same; reflexivity|].
      destruct (Ascii.eqb t "("); [|destruct (Ascii.eqb t ")"); reflexivity].
      rewrite fst_pbind_c, same. apply pbind_ext. intros e c1. rewrite fst_pbind_c. reflexivity.
    Qed.
  End Open.

  Lemma finish_same : forall el, fst (finish_element_c cfg w el) = finish_element cfg w el.
  Proof. intros. unfold finish_element_c, finish_element. destruct (optimize cfg); [apply simplify_c_same|reflexivity]. Qed.

  Lemma element_same : forall b p c, fst (element_at_c cfg w ctx input b p c) = element_at cfg w ctx input b p c.
  Proof.
    induction b as [|b IH]; intros p c; [reflexivity|]. cbn [element_at_c element_at].
    rewrite fst_pbind_c, (atom_same _ _ IH). apply pbind_ext. intros el c1. cbn [psteps fst].
    destruct (consume_if_eq input "!" c1) as [bb c2]. rewrite fst_pbind_c, (loop_same _ _ IH). apply pbind_ext. intros e c3. cbn [fst].
    rewrite finish_same. reflexivity.
  Qed.

  Lemma parse_impl_same : fst (parse_impl_c cfg w ctx input) = parse_impl cfg w ctx input.
  Proof.
    unfold parse_impl_c, parse_impl. rewrite fst_pbind_c, element_same. apply pbind_ext. intros e c. cbn [psteps fst].
    destruct (next_trim input c) as [[t|] c']; [reflexivity|]. rewrite find_variables_c_same. reflexivity.
  Qed.
End ParserErase.

Lemma parse_same : forall cfg w ctx input, fst (parse_c cfg w ctx input) = parse cfg w ctx input.
Proof.
  intros. unfold parse_c, parse. rewrite <- parse_impl_same. destruct (parse_impl_c cfg w ctx input) as [[[root vars] c|e c|p|] n]; try reflexivity.
  cbn [fst]. destruct (get_expected_vars ctx); [|reflexivity]. destruct (set_diff _ _); reflexivity.
Qed.

Definition cube (n : nat) : nat := n * n * n.
Lemma cube_plus : forall a b, cube a + cube b <= cube (a + b).
Proof. exact cube_add. Qed.
Lemma cube_mono : forall a b, a <= b -> cube a <= cube b.
Proof. intros a b H. unfold cube. repeat apply Nat.mul_le_mono; auto. Qed.
Lemma cube_step : forall s k, s + 1 <= k -> cube s + k * k <= cube k.
Proof. intros s k H. unfold cube. assert (s * s * s <= (k - 1) * (k - 1) * (k - 1)) by (repeat apply Nat.mul_le_mono; lia). destruct k; [lia|]. replace (S k - 1) with k in * by lia. nia. Qed.
Lemma cube_three : forall a b m, a + b <= m -> cube a + cube b <= cube m.
Proof. intros a b m H. pose proof (cube_plus a b). pose proof (cube_mono _ _ H). lia. Qed.
Lemma square_ge : forall k, k <= k * k.
Proof. intros. nia. Qed.

Section ParserCost.
  Variable cfg : config.
  Variable w : world.
  Variable ctx : context.
  Variable input : string.
  Let bs := bytes input.
  Let len := List.length bs.
  (** [T k] bounds the steps spent inside nested calls of [element] that
      consume [k] bytes, [F k] the final simplification of an element of [k]
      bytes. *)
  Variables T F : nat -> nat.
  Hypothesis Tmono : forall a b, a <= b -> T a <= T b.
  Hypothesis Tplus : forall a b, T a + T b <= T (a + b).
  Hypothesis Tstep : forall s k, s + 1 <= k -> T s + 20 * (k - s) + F k + 30 <= T k.
  Hypothesis Ffinish : forall el k, size el <= 2 * k -> snd (finish_element_c cfg w el) <= F k.
  Lemma Tthree : forall a b m, a + b <= m -> T a + T b <= T m.
  Proof. intros a b m H. pose proof (Tplus a b). pose proof (Tmono _ _ H). lia. Qed.

  Definition elem_ok (c : nat) (x : pcounted element) : Prop :=
    match fst x with
    | POk a c' => c < c' <= len /\ size a + 1 <= 2 * (c' - c) /\ snd x + 10 <= T (c' - c)
    | _ => snd x + 10 <= T (len - c + 1)
    end.
  Definition atom_ok (k c : nat) (x : pcounted element) : Prop :=
    match fst x with
    | POk a c' => c < c' <= len /\ size a + 1 <= 2 * (c' - c) /\
                  exists s, s + 1 <= c' - c /\ snd x <= T s + 20 * (c' - c - s) + k
    | _ => exists s, s <= len - c /\ snd x <= T s + 20 * (len - c - s) + k
    end.

  Lemma trim_bound : forall c o c', c <= len -> next_trim input c = (o, c') ->
    c <= c' <= len /\ trim_steps input c = 2 + (c' - c) /\ match o with None => c' = len | Some b => c' < len /\ nth_error bs c' = Some b end.
  Proof.
    intros c o c' Hc H. pose proof (next_trim_spec input c o c' Hc H) as [Hr [Ho Hm]]. split; [exact Hr|]. split.
    - unfold trim_steps, skip_steps. unfold next_trim in H. injection H as _ H. rewrite H. lia.
    - destruct o; [|exact Hm]. destruct Hm. split; [exact H0|]. symmetry. exact Ho.
  Qed.

  Lemma number_bound : forall c b, nth_error bs c = Some b -> is_digit b || Ascii.eqb b "." = true ->
    atom_ok 7 c (parse_number_c cfg input c).
  Proof.
    intros c b Hb Hd. pose proof (nth_error_Some_lt _ _ _ _ Hb) as Hlt. fold len in Hlt. unfold parse_number_c. cbv zeta.
    set (c1 := skip_while input is_number_char c).
    assert (H1 : S c <= c1).
    { eapply skip_while_step; [exact Hb|]. unfold is_number_char. destruct (is_digit b); cbn in *; auto. now rewrite Hd. }
    assert (H2 : forall stop, (exists e, parse_number cfg input c = POk e stop) \/ (exists e, parse_number cfg input c = PErr e stop) -> c1 <= stop <= len).
    { intros stop. unfold parse_number. cbv zeta. fold c1.
      match goal with |- context [skip_while input is_digit ?x] => set (c2 := x) end.
      assert (Hs : c1 <= skip_while input is_digit c2 <= len).
      { apply (number_stop input). fold bs. fold len. lia. }
      destruct (parse_f64 _); [intros [[e E]|[e E]]; [injection E as _ <-; exact Hs|discriminate E]|].
      unfold err_malformed_number, fail. destruct (usub _ _ _); intros [[e E]|[e E]]; try discriminate E. injection E as _ <-. exact Hs. }
    unfold atom_ok. assert (S1 : skip_steps input is_number_char c = S (c1 - c)) by reflexivity. rewrite S1.
    destruct (parse_number cfg input c) as [e stop|e stop|p|] eqn:E; cbn [fst snd].
    - specialize (H2 stop (or_introl (ex_intro _ e eq_refl))). split; [lia|]. split.
      + assert (size e = 1); [|lia]. unfold parse_number in E. cbv zeta in E. destruct (parse_f64 _); [injection E as <- _; reflexivity|].
        unfold err_malformed_number, fail in E. destruct (usub _ _ _); discriminate E.
      + exists 0. split; [lia|]. lia.
    - specialize (H2 stop (or_intror (ex_intro _ e eq_refl))). exists 0. split; lia.
    - exists 0. split; lia.
    - exists 0. split; lia.
  Qed.

  Lemma assert_bound : forall t c, c <= len -> 
    match fst (assert_eq_consume_c input t c) with
    | POk _ c' => c < c' <= len /\ snd (assert_eq_consume_c input t c) <= 3 + (c' - c)
    | _ => snd (assert_eq_consume_c input t c) <= 3 + (len - c)
    end.
  Proof.
    intros t c Hc. unfold assert_eq_consume_c, assert_eq_consume. cbn [psteps pfree fst snd].
    destruct (consume_if_eq input t c) as [b c'] eqn:E. destruct (consume_if_eq_spec input _ _ _ _ Hc E) as [o [c0 [En Hb]]].
    destruct (trim_bound _ _ _ Hc En) as [Hr [Ht Hm]]. rewrite Ht. destruct b; [|cbn; lia]. destruct Hb as [-> [-> K]]. fold bs in K. fold len in K. lia.
  Qed.

  Section Open.
    Variable elem : nat -> nat -> pcounted element.
    Hypothesis Helem : forall p c, c <= len -> elem_ok c (elem p c).

    Lemma argument_bound : forall c, c <= len ->
      match fst (argument_c cfg input elem c) with
      | POk a c' => c < c' <= len /\ size a + 1 <= 2 * (c' - c) /\ snd (argument_c cfg input elem c) + 8 <= T (c' - c)
      | _ => snd (argument_c cfg input elem c) + 8 <= T (len - c + 1)
      end.
    Proof.
      intros c Hc. pose proof (Helem NO_PRECEDENCE c Hc) as H. unfold elem_ok in H. unfold argument_c.
      destruct (elem NO_PRECEDENCE c) as [[a c'|e c'|p|] n]; cbn [fst snd] in *; try lia.
      destruct (pe_kind e); cbn [fst snd]; try lia.
      unfold err_missing_argument, fail. destruct (usub _ _ _); lia.
    Qed.

    Lemma arguments_bound : forall b args c, c <= len ->
      match fst (parse_arguments_c cfg input elem b args c) with
      | POk l c' => c < c' <= len /\ list_sum (map size l) <= list_sum (map size args) + 2 * (c' - c) /\
                    exists s, s <= c' - c /\ snd (parse_arguments_c cfg input elem b args c) <= T s + 20 * (c' - c - s)
      | _ => exists s, s <= len - c + 1 /\ snd (parse_arguments_c cfg input elem b args c) <= T s + 20 * (len - c + 1 - s)
      end.
    Proof.
      induction b as [|b IH]; intros args c Hc; [exists 0; cbn; lia|]. cbn [parse_arguments_c]. unfold pbind_c.
      pose proof (argument_bound c Hc) as A. destruct (fst (argument_c cfg input elem c)) as [a c1|e c1|p|]; cbn [fst snd];
        try (exists (len - c + 1); split; lia).
      destruct A as [L1 [S1 T1]]. cbn [psteps fst snd].
      destruct (next_trim input c1) as [o c2] eqn:En. destruct (trim_bound c1 o c2 ltac:(lia) En) as [Hr [Ht Hm]]. rewrite Ht.
      destruct o as [tok|].
      2:{ cbn [pfree fst snd]. unfold err_unexpected_end, fail. destruct (usub _ _ _); exists (c1 - c); split; lia. }
      destruct Hm as [Hlt _]. destruct (Ascii.eqb tok ",").
      - specialize (IH (args ++ [a])%list (S c2) ltac:(lia)).
        destruct (fst (parse_arguments_c cfg input elem b (args ++ [a])%list (S c2))) as [l c'|e c'|p|].
        + destruct IH as [L2 [S2 [s [Hs T2]]]]. split; [lia|]. rewrite map_app, list_sum_app in S2. cbn [map list_sum fold_right] in S2. split; [lia|].
          exists ((c1 - c) + s). split; [lia|]. pose proof (Tplus (c1 - c) s). lia.
        + destruct IH as [s [Hs T2]]. exists ((c1 - c) + s). split; [lia|]. pose proof (Tplus (c1 - c) s). lia.
        + destruct IH as [s [Hs T2]]. exists ((c1 - c) + s). split; [lia|]. pose proof (Tplus (c1 - c) s). lia.
        + destruct IH as [s [Hs T2]]. exists ((c1 - c) + s). split; [lia|]. pose proof (Tplus (c1 - c) s). lia.
      - destruct (Ascii.eqb tok ")").
        + cbn [pfree fst snd]. split; [lia|]. rewrite map_app, list_sum_app. cbn [map list_sum fold_right]. split; [lia|].
          exists (c1 - c). split; [lia|]. lia.
        + cbn [pfree fst snd err_unexpected_token fail]. exists (c1 - c). split; lia.
    Qed.

    Lemma identifier_bound : forall b c t, nth_error bs c = Some t -> is_alpha t = true ->
      atom_ok 7 c (parse_identifier_c cfg ctx input elem b c).
    Proof.
      intros b c t Ht Ha. pose proof (nth_error_Some_lt _ _ _ _ Ht) as Hlt. fold len in Hlt. unfold parse_identifier_c. cbv zeta.
      assert (S1 : skip_steps input is_ident_char c = S (skip_while input is_ident_char c - c)) by reflexivity. rewrite S1.
      set (stop := skip_while input is_ident_char c).
      assert (H1 : S c <= stop).
      { eapply skip_while_step; [exact Ht|]. unfold is_ident_char, is_alpha in *. destruct (is_upper t), (is_lower t); cbn in *; try discriminate; now rewrite ?orb_true_r. }
      assert (H2 : stop <= len) by (apply skip_while_le; fold bs; fold len; lia).
      unfold atom_ok. cbn [psteps fst snd].
      destruct (resolve ctx (slice input c stop)) as [f|v|x].
      2,3: cbn [pfree fst snd size]; split; [lia|]; split; [lia|]; exists 0; split; lia.
      cbn [psteps fst snd]. destruct (consume_if_eq input "(" stop) as [bb c1] eqn:E.
      destruct (consume_if_eq_spec input _ _ _ _ H2 E) as [o [c0 [En Hb]]]. destruct (trim_bound _ _ _ H2 En) as [Hr [Htr Hm]]. rewrite Htr.
      destruct bb; [|cbn [pfree fst snd err_expected_token fail]; exists 0; split; lia].
      destruct Hb as [-> [-> K]]. fold bs in K. fold len in K. unfold pbind_c.
      pose proof (arguments_bound b [] (S c0) K) as A.
      destruct (fst (parse_arguments_c cfg input elem b [] (S c0))) as [l c2|e c2|p|]; cbn [fst snd];
        try (destruct A as [s [Hs T2]]; exists s; split; lia).
      destruct A as [L2 [Z2 [s [Hs T2]]]]. pose proof (assert_bound ")" c2 ltac:(lia)) as B.
      destruct (fst (assert_eq_consume_c input ")" c2)) as [u c3|e c3|p|]; cbn [fst snd]; try (exists s; split; lia).
      destruct B as [L3 T3]. cbn [psteps pfree fst snd].
      assert (Sz : size (Call f l) + 1 <= 2 * (c3 - c)) by (cbn [size]; cbn [map list_sum fold_right] in Z2; lia).
      assert (Ok : c < c3 <= len /\ size (Call f l) + 1 <= 2 * (c3 - c) /\ exists s0, s0 + 1 <= c3 - c /\
        1 + S (stop - c) + 2 * (stop - c) + (1 + (2 + (c0 - stop)) + (snd (parse_arguments_c cfg input elem b [] (S c0)) + (snd (assert_eq_consume_c input ")" c2) + (1 + 0))))
          <= T s0 + 20 * (c3 - c - s0) + 7).
      { split; [lia|]. split; [exact Sz|]. exists s. split; [lia|]. lia. }
      unfold check_arity. destruct (fn_nb_args f) as [nb|]; [|exact Ok].
      destruct (Nat.compare (List.length l) nb); [exact Ok| |]; cbn [err_too_few err_too_many fail]; exists s; split; lia.
    Qed.

    Lemma atom_bound : forall b c, c <= len -> atom_ok 10 c (atom_c cfg ctx input elem b c).
    Proof.
      intros b c Hc. unfold atom_c. destruct (next_trim input c) as [o c0] eqn:En. destruct (trim_bound _ _ _ Hc En) as [Hr [Ht Hm]]. rewrite Ht.
      assert (Up : forall x, atom_ok 7 c0 x -> atom_ok 10 c (psteps (1 + (2 + (c0 - c))) x)).
      { intros x H. unfold atom_ok in *. cbn [psteps fst snd].
        destruct (fst x); try (destruct H as [s [Hs Q]]; exists s; split; lia).
        destruct H as [L [Z [s [Hs Q]]]]. split; [lia|]. split; [lia|]. exists s. split; lia. }
      destruct o as [t|].
      2:{ apply Up. unfold atom_ok, err_unexpected_end, fail. cbn [pfree fst snd]. destruct (usub _ _ _); exists 0; split; lia. }
      apply Up. clear Up. destruct Hm as [Hlt Hnth].
      destruct (is_digit t || Ascii.eqb t ".") eqn:Ed; [now apply number_bound with t|].
      destruct (is_alpha t) eqn:Ea; [now apply identifier_bound with t|].
      assert (Un : forall op, atom_ok 7 c0 (pbind_c (elem UNOP_PRECEDENCE (S c0)) (fun e c1 => pfree (POk (UnOp op e) c1)))).
      { intro op. pose proof (Helem UNOP_PRECEDENCE (S c0) Hlt) as H. unfold elem_ok in H. unfold atom_ok, pbind_c.
        destruct (fst (elem UNOP_PRECEDENCE (S c0))) as [a c1|e c1|p|]; cbn [pfree fst snd size];
          try (exists (len - S c0 + 1); split; lia).
        destruct H as [L [Z Q]]. split; [lia|]. split; [lia|]. exists (c1 - S c0). split; lia. }
      destruct (Ascii.eqb t "+"); [apply Un|]. destruct (Ascii.eqb t "-"); [apply Un|].
      destruct (Ascii.eqb t "(").
      - pose proof (Helem NO_PRECEDENCE (S c0) Hlt) as H. unfold elem_ok in H. unfold atom_ok, pbind_c.
        destruct (fst (elem NO_PRECEDENCE (S c0))) as [a c1|e c1|p|]; cbn [fst snd];
          try (exists (len - S c0 + 1); split; lia).
        destruct H as [L [Z Q]]. pose proof (assert_bound ")" c1 ltac:(lia)) as B.
        destruct (fst (assert_eq_consume_c input ")" c1)) as [u c2|e c2|p|]; cbn [pfree fst snd]; try (exists (c1 - S c0); split; lia).
        split; [lia|]. split; [lia|]. exists (c1 - S c0). split; lia.
      - unfold atom_ok. destruct (Ascii.eqb t ")"); cbn [pfree fst snd err_unexpected_token err_illegal_character fail]; exists 0; split; lia.
    Qed.

    Lemma loop_bound : forall b p el c, c <= len ->
      match fst (binop_loop_c cfg input elem b p el c) with
      | POk a c' => c <= c' <= len /\ size a <= size el + 2 * (c' - c) /\
                    exists s, s <= c' - c /\ snd (binop_loop_c cfg input elem b p el c) <= T s + 20 * (c' - c - s) + 3
      | _ => exists s, s <= len - c + 1 /\ snd (binop_loop_c cfg input elem b p el c) <= T s + 20 * (len - c + 1 - s) + 3
      end.
    Proof.
      induction b as [|b IH]; intros p el c Hc; [exists 0; cbn; lia|]. cbn [binop_loop_c psteps fst snd].
      assert (G : exists c0, trim_steps input c = 2 + (c0 - c) /\ c <= c0 <= len /\
        match get_operator_infos cfg input el p c with
        | (None, c') => c' = c0
        | (Some _, c') => c0 <= c' <= len
        end).
      { unfold get_operator_infos. destruct (next_trim input c) as [o c0] eqn:En. destruct (trim_bound _ _ _ Hc En) as [Hr [Ht Hm]].
        exists c0. split; [exact Ht|]. split; [exact Hr|]. destruct o as [t|]; [|reflexivity]. destruct Hm as [Hlt _].
        destruct (operator_of_byte t) as [op|].
        - destruct (_ <=? _); [reflexivity|lia].
        - destruct (_ <=? _); [reflexivity|]. destruct (is_lower t || Ascii.eqb t "("); [lia|]. destruct (is_digit t); [|reflexivity]. destruct el; lia. }
      destruct G as [c0 [Ht [Hr G]]]. rewrite Ht.
      destruct (get_operator_infos cfg input el p c) as [[[op q]|] c'].
      2:{ subst c'. cbn [pfree fst snd]. split; [lia|]. split; [lia|]. exists 0. split; lia. }
      unfold pbind_c. pose proof (Helem q c' ltac:(lia)) as H. unfold elem_ok in H.
      destruct (fst (elem q c')) as [a c1|e c1|pp|]; cbn [fst snd]; try (exists (len - c' + 1); split; lia).
      destruct H as [L [Z Q]]. specialize (IH p (BinOp op el a) c1 ltac:(lia)).
      destruct (fst (binop_loop_c cfg input elem b p (BinOp op el a) c1)) as [a' c2|e c2|pp|].
      2-4: destruct IH as [s [Hs T2]]; exists ((c1 - c') + s); split; [lia|]; pose proof (Tplus (c1 - c') s); lia.
      destruct IH as [L2 [Z2 [s [Hs T2]]]]. cbn [size] in Z2. split; [lia|]. split; [lia|].
      exists ((c1 - c') + s). split; [lia|]. pose proof (Tplus (c1 - c') s). lia.
    Qed.
  End Open.

  Lemma element_bound : forall b p c, c <= len -> elem_ok c (element_at_c cfg w ctx input b p c).
  Proof.
    assert (T0 : forall k, 1 <= k -> 10 <= T k) by (intros k Hk; pose proof (Tstep 0 k ltac:(lia)); lia).
    induction b as [|b IH]; intros p c Hc; [unfold elem_ok; cbn [element_at_c pfree fst snd]; apply T0; lia|]. cbn [element_at_c].
    pose proof (atom_bound _ IH b c Hc) as A. unfold atom_ok in A. unfold elem_ok, pbind_c.
    destruct (fst (atom_c cfg ctx input (element_at_c cfg w ctx input b) b c)) as [a c1|e c1|pp|]; cbn [fst snd];
      try (destruct A as [s [Hs Q]]; pose proof (Tstep s (len - c + 1) ltac:(lia)); lia).
    destruct A as [L1 [Z1 [s1 [Hs1 T1]]]]. cbn [psteps fst snd].
    destruct (consume_if_eq input "!" c1) as [bb c2] eqn:E.
    destruct (consume_if_eq_spec input _ _ _ _ (proj2 L1) E) as [o [c0 [En Hb]]]. destruct (trim_bound _ _ _ (proj2 L1) En) as [Hr [Ht Hm]]. rewrite Ht.
    assert (L2 : c1 <= c2 <= len /\ size (if bb then UnOp Factorial a else a) + 1 <= 2 * (c2 - c) /\ c0 <= c2).
    { destruct bb; [destruct Hb as [-> [_ K]]; fold bs in K; fold len in K|destruct Hb as [-> _]]; cbn [size]; lia. }
    destruct L2 as [L2 [Z2 C2]].
    pose proof (loop_bound _ IH b p (if bb then UnOp Factorial a else a) c2 (proj2 L2)) as B.
    destruct (fst (binop_loop_c cfg input (element_at_c cfg w ctx input b) b p (if bb then UnOp Factorial a else a) c2)) as [el c3|e c3|pp|]; cbn [fst snd].
    2-4: destruct B as [s [Hs Q]]; pose proof (Tplus s1 s); pose proof (Tstep (s1 + s) (len - c + 1) ltac:(lia)); lia.
    destruct B as [L3 [Z3 [s [Hs T3]]]].
    pose proof (Ffinish el (c3 - c) ltac:(lia)) as Fin.
    assert (Size : forall el', fst (finish_element_c cfg w el) = Val el' -> size el' <= size el).
    { intros el'. rewrite finish_same. unfold finish_element. destruct (optimize cfg); [apply simplify_size|intro K; injection K as <-; lia]. }
    pose proof (Tplus s1 s). pose proof (Tstep (s1 + s) (c3 - c) ltac:(lia)).
    destruct (fst (finish_element_c cfg w el)) as [el'|pp]; cbn [plift].
    - split; [lia|]. specialize (Size el' eq_refl). split; [lia|]. lia.
    - pose proof (Tmono (c3 - c) (len - c + 1) ltac:(lia)). lia.
  Qed.

  Lemma parse_impl_bound : snd (parse_impl_c cfg w ctx input) <= T (len + 1) + 3 * len + 3 /\
    match fst (parse_impl_c cfg w ctx input) with POk (e, l) _ => size e <= 2 * len /\ l = find_variables e [] | _ => True end.
  Proof.
    unfold parse_impl_c, pbind_c. pose proof (element_bound (parse_budget input) NO_PRECEDENCE 0 ltac:(lia)) as H. unfold elem_ok in H.
    replace (len - 0 + 1) with (len + 1) in H by lia.
    destruct (fst (element_at_c cfg w ctx input (parse_budget input) NO_PRECEDENCE 0)) as [e c|e c|p|]; cbn [fst snd]; try (split; [lia|exact I]).
    destruct H as [L [Z Q]]. cbn [psteps fst snd]. destruct (next_trim input c) as [o c'] eqn:En. destruct (trim_bound _ _ _ (proj2 L) En) as [Hr [Ht Hm]]. rewrite Ht.
    pose proof (Tmono (c - 0) (len + 1) ltac:(lia)).
    destruct o as [t|]; cbn [pfree fst snd err_unexpected_token fail]; [split; [lia|exact I]|]. rewrite find_variables_c_same. cbn [fst snd]. split; [lia|]. split; [lia|reflexivity].
  Qed.
End ParserCost.

Lemma find_variables_length : forall e s, List.length (find_variables e s) <= List.length s + size e.
Proof.
  induction e as [n|op l r IHl IHr|op a IH|f args IH|y] using element_ind'; intros s; cbn [find_variables size]; try lia.
  - pose proof (IHl s). pose proof (IHr (find_variables l s)). lia.
  - pose proof (IH s). lia.
  - enough (forall s, List.length (fold_left (fun s a => find_variables a s) args s) <= List.length s + list_sum (map size args)) as K by (specialize (K s); lia).
    clear s. induction IH as [|a l Ha Hl IHl]; intro s; cbn [fold_left map list_sum fold_right]; [lia|].
    pose proof (IHl (find_variables a s)). pose proof (Ha s). unfold list_sum in *. lia.
  - unfold set_insert. destruct (mem y s); cbn [List.length]; lia.
Qed.

From Verif Require Import PropertiesSimplify PropertiesParse TestWorld.
Lemma length_bytes : forall s, List.length (bytes s) = String.length s.
Proof. induction s; cbn; [reflexivity|now f_equal]. Qed.
(** ** The claims *)

(** The counting versions return what the plain ones return: whatever is said
    about the counter below is about runs of the modelled operations. *)
Theorem C66_counting_is_faithful : forall cfg w,
  (forall a b, fst (el_eq_c a b) = el_eq a b) /\
  (forall e, fst (simplify_c cfg w e) = simplify cfg w e) /\
  (forall x v e, fst (el_simplify_for_c cfg w x v e) = el_simplify_for cfg w x v e) /\
  (forall rho e, fst (eval_unchecked_c w rho e) = eval_element_unchecked w rho e) /\
  (forall ctx input, fst (parse_c cfg w ctx input) = parse cfg w ctx input).
Proof.
  intros. split; [exact el_eq_c_same|]. split; [apply simplify_c_same|]. split; [intros; apply simplify_for_c_same|].
  split; [intros; apply eval_unchecked_c_same|]. intros; apply parse_same.
Qed.

(** Comparing two expressions, although sums and products are compared in both
    orders, takes at most as many calls as the product of their sizes. *)
Theorem C66_equality_steps : forall a b, snd (el_eq_c a b) <= nodes a * nodes b.
Proof. intros. rewrite !nodes_size. apply eq_cost. Qed.

(** One pass of simplification takes at most quadratically many steps. *)
Theorem C66_simplify_steps : forall cfg w e, snd (simplify_c cfg w e) <= nodes e * nodes e.
Proof. intros. rewrite !nodes_size. apply simplify_cost. Qed.

(** Replacing a variable simplifies again at every level; it still takes at
    most cubically many steps. *)
Theorem C66_simplify_for_steps : forall cfg w x v e,
  snd (el_simplify_for_c cfg w x v e) <= 2 * (nodes e * nodes e * nodes e).
Proof. intros. rewrite !nodes_size. apply simplify_for_cost. Qed.

(** Evaluation visits no node twice. *)
Theorem C66_eval_steps : forall w rho e, snd (eval_unchecked_c w rho e) <= nodes e.
Proof. intros. rewrite nodes_size. apply eval_cost. Qed.

(** The number of variables the context declares. *)
Definition declared (ctx : context) : nat :=
  match get_expected_vars ctx with Some s => List.length s | None => 0 end.

Lemma parse_bound : forall cfg w ctx input B,
  (snd (parse_impl_c cfg w ctx input) <= B /\
   match fst (parse_impl_c cfg w ctx input) with POk (e, l) _ => size e <= 2 * String.length input /\ l = find_variables e [] | _ => True end) ->
  snd (parse_c cfg w ctx input) <= B + 2 * String.length input + declared ctx.
Proof.
  intros cfg w ctx input B [H1 H2]. unfold parse_c, declared.
  destruct (parse_impl_c cfg w ctx input) as [[[root vars] c|e c|p|] n]; cbn [fst snd] in *; try lia.
  destruct H2 as [H2 ->]. pose proof (find_variables_length root []) as L. cbn [List.length] in L.
  destruct (get_expected_vars ctx); [|cbn; lia]. destruct (set_diff _ _); cbn [snd]; lia.
Qed.

(** Parsing takes at most cubically many steps in the length of the text,
    whatever the text, the context and the configuration. *)
Theorem C66_parse_steps : forall cfg w ctx input,
  let n := String.length input + 1 in
  snd (parse_c cfg w ctx input) <= 60 * (n * n * n) + 5 * n + declared ctx.
Proof.
  intros cfg w ctx input n.
  pose proof (parse_impl_bound cfg w ctx input (fun k => 60 * cube k) (fun k => 4 * (k * k))) as P. cbv beta in P.
  specialize (P (fun a b H => Nat.mul_le_mono_l _ _ 60 (cube_mono a b H))).
  assert (A1 : forall a b, 60 * cube a + 60 * cube b <= 60 * cube (a + b)) by (intros a b; pose proof (cube_plus a b); lia).
  assert (A2 : forall s k, s + 1 <= k -> 60 * cube s + 20 * (k - s) + 4 * (k * k) + 30 <= 60 * cube k).
  { intros s k H. pose proof (cube_step s k H). pose proof (square_ge k). lia. }
  assert (A3 : forall el k, size el <= 2 * k -> snd (finish_element_c cfg w el) <= 4 * (k * k)).
  { intros el k H. unfold finish_element_c. destruct (optimize cfg); [|apply Nat.le_0_l].
    pose proof (simplify_cost cfg w el). pose proof (Nat.mul_le_mono _ _ _ _ H H). lia. }
  specialize (P A1 A2 A3). rewrite length_bytes in P. apply parse_bound in P. unfold cube in P. unfold n. lia.
Qed.

(** Without the optimisation passes parsing is linear in the text. *)
Theorem C66_plain_parse_steps : forall cfg w ctx input, optimize cfg = false ->
  snd (parse_c cfg w ctx input) <= 65 * (String.length input + 1) + declared ctx.
Proof.
  intros cfg w ctx input Ho.
  pose proof (parse_impl_bound cfg w ctx input (fun k => 60 * k) (fun k => 0)) as P. cbv beta in P.
  assert (A0 : forall a b, a <= b -> 60 * a <= 60 * b) by (intros; lia).
  assert (A1 : forall a b, 60 * a + 60 * b <= 60 * (a + b)) by (intros; lia).
  assert (A2 : forall s k, s + 1 <= k -> 60 * s + 20 * (k - s) + 0 + 30 <= 60 * k) by (intros; lia).
  assert (A3 : forall el k, size el <= 2 * k -> snd (finish_element_c cfg w el) <= 0) by (intros; unfold finish_element_c; rewrite Ho; apply le_n).
  specialize (P A0 A1 A2 A3). rewrite length_bytes in P. apply parse_bound in P. lia.
Qed.

(** The bound cannot be linear with the passes on: [n] minus signs in front of a
    variable are simplified again at every level. *)
Fixpoint dashes (n : nat) : string := match n with 0 => "x" | S n => String "-" (dashes n) end.
Fixpoint negs (n : nat) : element := match n with 0 => Var "x" | S n => UnOp Minus (negs n) end.

Lemma negs_steps : forall cfg w n, simplify_c cfg w (negs n) = (Val (negs n), S n).
Proof.
  induction n as [|n IH]; [reflexivity|]. cbn [negs simplify_c]. unfold Cost.steps, cbind. rewrite IH. cbn [fst snd].
  rewrite Nat.add_0_r. destruct n; reflexivity.
Qed.

Lemma dashes_length : forall n, String.length (dashes n) = S n.
Proof. induction n; cbn; [reflexivity|now f_equal]. Qed.
Lemma dashes_suffix : forall n i, i <= n -> skipn i (bytes (dashes n)) = bytes (dashes (n - i)).
Proof.
  induction n as [|n IH]; intros [|i] H; try reflexivity; [lia|]. cbn. apply IH. lia.
Qed.
Lemma nth_error_skipn_hd : forall A i (l : list A), nth_error l i = hd_error (skipn i l).
Proof. induction i; intros [|a l]; try reflexivity. cbn. apply IHi. Qed.

Section Dashes.
  Variable cfg : config.
  Variable w : world.
  Variable ctx : context.
  Hypothesis Hopt : optimize cfg = true.
  Hypothesis Hx : resolve ctx "x" = I_Variable "x".
  Variable n : nat.
  Notation input := (dashes n).

  Lemma dash_trim : forall i, i <= n ->
    next_trim input i = (Some (if Nat.eqb i n then "x" else "-")%char, i) /\ trim_steps input i = 2.
  Proof.
    intros i Hi. unfold trim_steps, skip_steps, next_trim, skip_while, current. rewrite nth_error_skipn_hd, (dashes_suffix n i Hi).
    destruct (Nat.eqb_spec i n) as [->|Hn].
    - rewrite Nat.sub_diag. cbn [dashes bytes list_ascii_of_string prefix_len]. change (is_ws "x"%char) with false. cbv iota.
      rewrite Nat.add_0_r, dashes_suffix, Nat.sub_diag by lia. split; [reflexivity|lia].
    - destruct (n - i) as [|k] eqn:E; [lia|]. cbn [dashes bytes list_ascii_of_string prefix_len]. change (is_ws "-"%char) with false. cbv iota.
      rewrite Nat.add_0_r, dashes_suffix, E by lia. split; [reflexivity|lia].
  Qed.

  Lemma end_trim : next_trim input (S n) = (None, S n).
  Proof.
    unfold next_trim, skip_while, current. rewrite skipn_all2 by (rewrite length_bytes, dashes_length; lia).
    cbn [prefix_len]. rewrite Nat.add_0_r. f_equal. apply nth_error_None. rewrite length_bytes, dashes_length. lia.
  Qed.

  (** Whatever was read up to the end of the text, it is simplified once more. *)
  Lemma element_end : forall elem b p j, 1 <= b -> exists t,
    pbind_c (binop_loop_c cfg input elem b p (negs j) (S n)) (fun el c3 =>
      (plift (fst (finish_element_c cfg w el)) c3, snd (finish_element_c cfg w el))) = (POk (negs j) (S n), t) /\ S j <= t.
  Proof.
    intros elem b p j Hb. destruct b as [|b]; [lia|]. cbn [binop_loop_c]. unfold get_operator_infos. rewrite end_trim. unfold pbind_c. cbn [psteps pfree fst snd].
    unfold finish_element_c. rewrite Hopt, negs_steps. cbn [fst snd plift]. eexists. split; [reflexivity|]. lia.
  Qed.

  Lemma dashes_steps : forall j b p, j <= n -> j + 2 <= b ->
    exists t, element_at_c cfg w ctx input b p (n - j) = (POk (negs j) (S n), t) /\ j * j <= 2 * t.
  Proof.
    induction j as [|j IH]; intros b p Hj Hb; (destruct b as [|b]; [lia|]); cbn [element_at_c].
    - rewrite Nat.sub_0_r. destruct (dash_trim n (le_n n)) as [Ht Hs]. rewrite Nat.eqb_refl in Ht.
      assert (A : exists t0, atom_c cfg ctx input (element_at_c cfg w ctx input b) b n = (POk (Var "x") (S n), t0)).
      { unfold atom_c. rewrite Ht. change (is_digit "x"%char || Ascii.eqb "x" ".") with false. change (is_alpha "x"%char) with true. cbv iota.
        unfold parse_identifier_c. cbv zeta.
        assert (E : skip_while input is_ident_char n = S n).
        { unfold skip_while. rewrite dashes_suffix, Nat.sub_diag by lia. cbn [dashes bytes list_ascii_of_string prefix_len].
          change (is_ident_char "x"%char) with true. cbv iota. lia. }
        rewrite E. assert (E2 : slice input n (S n) = "x"%string).
        { unfold slice. rewrite dashes_suffix, Nat.sub_diag by lia. replace (S n - n) with 1 by lia. reflexivity. }
        rewrite E2, Hx. cbn [psteps pfree fst snd]. eexists. reflexivity. }
      destruct A as [t0 A]. unfold pbind_c at 1. rewrite A. cbn [psteps fst snd]. unfold consume_if_eq. rewrite end_trim.
      destruct (element_end (element_at_c cfg w ctx input b) b p 0 ltac:(lia)) as [t [E L]]. cbn [negs] in E. rewrite E. cbn [fst snd]. eexists. split; [reflexivity|]. lia.
    - destruct (dash_trim (n - S j) ltac:(lia)) as [Ht Hs]. destruct (Nat.eqb_spec (n - S j) n) as [K|_]; [lia|].
      destruct (IH b UNOP_PRECEDENCE ltac:(lia) ltac:(lia)) as [t1 [E1 L1]].
      assert (A : exists t0, t1 <= t0 /\ atom_c cfg ctx input (element_at_c cfg w ctx input b) b (n - S j) = (POk (negs (S j)) (S n), t0)).
      { unfold atom_c. rewrite Ht. change (is_digit "-"%char || Ascii.eqb "-" ".") with false. change (is_alpha "-"%char) with false.
        change (Ascii.eqb "-" "+") with false. change (Ascii.eqb "-" "-") with true. cbv iota.
        unfold pbind_c. replace (S (n - S j)) with (n - j) by lia. rewrite E1. cbn [psteps pfree fst snd]. exists (1 + trim_steps input (n - S j) + t1). split; [lia|]. unfold psteps; cbn [fst snd negs]. f_equal. lia. }
      destruct A as [t0 [L0 A]]. unfold pbind_c at 1. rewrite A. cbn [psteps fst snd]. unfold consume_if_eq. rewrite end_trim.
      destruct (element_end (element_at_c cfg w ctx input b) b p (S j) ltac:(lia)) as [t [E L]]. rewrite E. cbn [fst snd]. eexists. split; [reflexivity|]. lia.
  Qed.
End Dashes.

(** So with the passes on, the work grows at least quadratically. *)
Theorem C66_optimised_parse_not_linear : forall cfg w ctx n,
  optimize cfg = true -> resolve ctx "x" = I_Variable "x" ->
  String.length (dashes n) = S n /\ n * n <= 2 * snd (parse_c cfg w ctx (dashes n)).
Proof.
  intros cfg w ctx n Ho Hx. split; [apply dashes_length|].
  destruct (dashes_steps cfg w ctx Ho Hx n n (parse_budget (dashes n)) NO_PRECEDENCE (le_n n)) as [t [E L]].
  { unfold parse_budget. rewrite dashes_length. lia. }
  rewrite Nat.sub_diag in E.
  assert (K : t <= snd (parse_impl_c cfg w ctx (dashes n))).
  { unfold parse_impl_c, pbind_c. rewrite E. cbn [fst snd]. lia. }
  unfold parse_c. destruct (parse_impl_c cfg w ctx (dashes n)) as [[[root vars] c|e c|p|] m]; cbn [snd] in *; try lia.
  destruct (get_expected_vars ctx); [|cbn; lia]. destruct (set_diff _ _); cbn [snd]; lia.
Qed.

(** The hypotheses hold for the default context; the counter counts; and the
    two configurations differ on the text "--------x". *)
Example C66_witness : optimize default_config = true /\ optimize plain_config = false
  /\ resolve ctx_default "x" = I_Variable "x" /\ dashes 8 = "--------x"%string
  /\ 152 = snd (parse_c default_config w0 ctx_default (dashes 8))
  /\ 107 = snd (parse_c plain_config w0 ctx_default (dashes 8))
  /\ 4 = snd (el_eq_c (BinOp Plus (Var "a") (Var "b")) (BinOp Plus (Var "b") (Var "a")))
  /\ snd (eval_unchecked_c w0 [("x"%string, fone)] (negs 3)) = 4.
Proof. repeat split; vm_compute; reflexivity. Qed.
