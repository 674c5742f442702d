(** * C40: what decides the order of two expressions *)
From Coq Require Import ZArith NArith List String Ascii Bool Lia.
From Flocq Require Import BinarySingleNaN.
From Verif Require Import F64 Syntax Element Builtins Context Parser Xprs Order ErrorOrd SpecOrder SpecElementOrder SpecTree PropertiesEq PropertiesSorting TestWorld.
Import ListNotations.
Local Open Scope string_scope.

Lemma string_compare_str_cmp : forall s t, String.compare s t = str_cmp s t.
Proof.
  induction s as [|c s IH]; intros [|d t]; cbn; auto. unfold char_cmp, Ascii.compare. rewrite IH.
  destruct (N.compare (N_of_ascii c) (N_of_ascii d)); reflexivity.
Qed.
Lemma string_lt : forall s t, String.compare s t = Lt <-> before s t.
Proof. intros. rewrite string_compare_str_cmp. apply C75_text_order. Qed.
Lemma op_lt : forall a b, Nat.compare (operator_index a) (operator_index b) = Lt <-> listed_before (operator_name a) (operator_name b) documented_operators.
Proof. exact (proj2 (proj2 (proj2 C75_documented_order))). Qed.
Lemma then_some_lt : forall a b, then_cmp a b = Some Lt <-> a = Some Lt \/ a = Some Eq /\ b = Some Lt.
Proof. intros [[]|] b; cbn; intuition congruence. Qed.
Lemma fcmp_lt : forall x y, fcmp x y = Some Lt <-> flt x y = true.
Proof. intros. unfold flt, fcmp, Bltb, Bcompare, SpecFloat.SFltb. destruct (SpecFloat.SFcompare (B2SF x) (B2SF y)) as [[]|]; split; (discriminate || reflexivity). Qed.
Lemma fcmp_eq : forall x y, fcmp x y = Some Eq <-> feq x y = true.
Proof. intros. unfold feq, fcmp, Beqb, Bcompare, SpecFloat.SFeqb. destruct (SpecFloat.SFcompare (B2SF x) (B2SF y)) as [[]|]; split; (discriminate || reflexivity). Qed.
Lemma some_eq : forall A (a b : A), Some a = Some b <-> a = b.
Proof. intros. split; congruence. Qed.
Lemma op_eq : forall a b, Nat.compare (operator_index a) (operator_index b) = Eq <-> a = b.
Proof. intros. rewrite Nat.compare_eq_iff. split; [apply operator_index_inj|congruence]. Qed.

Lemma str_eq : forall s t, String.compare s t = Eq <-> s = t.
Proof. intros. rewrite string_compare_str_cmp. apply (to_eq _ str_order). Qed.

(** [partial_cmp] answers [Equal] exactly for tied expressions ... *)
Theorem C40_equal_characterised : forall a b, el_cmp a b = Some Eq <-> tied a b.
Proof.
  induction a as [n|op l r IHl IHr|op e IHe|f args Hargs|y] using element_ind'; intro b; destruct b as [m|op' l' r'|op' e'|g args'|z];
    try (split; [discriminate|inversion 1; fail]).
  - cbn [el_cmp]. rewrite fcmp_eq. split; [apply T_num|now inversion 1].
  - cbn [el_cmp]. rewrite !PropertiesEq.then_eq, some_eq, op_eq, IHl, IHr. split; [intros [-> [H K]]; now constructor|inversion 1; subst; auto].
  - cbn [el_cmp]. rewrite !PropertiesEq.then_eq, some_eq, op_eq, IHe. split; [intros [-> H]; now constructor|inversion 1; subst; auto].
  - rewrite el_cmp_call, PropertiesEq.then_eq, some_eq, str_eq.
    assert (K : el_cmp_list args args' = Some Eq <-> Forall2 tied args args').
    { revert args'. induction Hargs as [|a l Ha _ IH]; intros [|b m]; cbn [el_cmp_list].
      - split; [constructor|reflexivity].
      - split; [discriminate|inversion 1].
      - split; [discriminate|inversion 1].
      - rewrite PropertiesEq.then_eq, Ha, IH. split; [intros [? ?]; now constructor|inversion 1; subst; auto]. }
    rewrite K. split; [intros [H L]; now constructor|inversion 1; subst; auto].
  - cbn [el_cmp]. rewrite some_eq, str_eq. split; [intros ->; constructor|now inversion 1].
Qed.

Lemma kinds_nodup : NoDup kinds_in_order.
Proof. unfold kinds_in_order. repeat constructor; cbn; intuition discriminate. Qed.
Lemma kinds_same : forall s, ~ listed_before s s kinds_in_order.
Proof. intros s H. exact (listed_nodup s s _ kinds_nodup H H). Qed.
Ltac klisted := unfold kinds_in_order; listed.
Lemma kinds_lt : forall a b, kind_of a <> kind_of b ->
  (Nat.compare (element_index a) (element_index b) = Lt <-> listed_before (kind_of a) (kind_of b) kinds_in_order).
Proof.
  intros a b N. destruct a, b; cbn [kind_of element_index Nat.compare] in *; try (now elim N); (split; intro H); try discriminate H; try reflexivity; try klisted;
    exfalso; refine (listed_nodup _ _ _ kinds_nodup H _); klisted.
Qed.
Lemma mixed : forall a b, kind_of a <> kind_of b -> (el_cmp a b = Some Lt <-> comes_first a b).
Proof.
  intros a b N. rewrite el_cmp_tagged by (destruct a, b; cbn in *; congruence). rewrite some_eq, (kinds_lt a b N).
  split; [apply F_kind|]. inversion 1; subst; auto; cbn in N; congruence.
Qed.

(** ... and [Less] exactly for an expression that comes first. *)
Theorem C40_order_characterised : forall a b, el_cmp a b = Some Lt <-> comes_first a b.
Proof.
  induction a as [n|op l r IHl IHr|op e IHe|f args Hargs|y] using element_ind'; intro b; destruct b as [m|op' l' r'|op' e'|g args'|z];
    try (apply mixed; cbn; discriminate).
  - cbn [el_cmp]. rewrite fcmp_lt. split; [apply F_num|]. inversion 1; subst; auto. now elim (kinds_same "number").
  - cbn [el_cmp]. rewrite !then_some_lt, !some_eq, op_lt, op_eq, IHl, IHr, C40_equal_characterised. split.
    + intros [H|[-> [H|[H K]]]]; [now apply F_bin_op|now apply F_bin_left|now apply F_bin_right].
    + inversion 1; subst; auto. now elim (kinds_same "binary operation").
  - cbn [el_cmp]. rewrite !then_some_lt, !some_eq, op_lt, op_eq, IHe. split.
    + intros [H|[-> H]]; [now apply F_un_op|now apply F_un].
    + inversion 1; subst; auto. now elim (kinds_same "unary operation").
  - rewrite el_cmp_call, then_some_lt, !some_eq, string_lt, str_eq.
    assert (K : el_cmp_list args args' = Some Lt <-> args_first args args').
    { revert args'. induction Hargs as [|a l Ha _ IH]; intros [|b m]; cbn [el_cmp_list].
      - split; [discriminate|inversion 1].
      - split; [constructor|reflexivity].
      - split; [discriminate|inversion 1].
      - rewrite then_some_lt, Ha, IH, C40_equal_characterised. split.
        + intros [H|[H L]]; [now apply FA_here|now apply FA_later].
        + inversion 1; subst; auto. }
    rewrite K. split.
    + intros [H|[H L]]; [now apply F_call_name|now apply F_call_args].
    + inversion 1; subst; auto. now elim (kinds_same "call").
  - cbn [el_cmp]. rewrite some_eq, string_lt. split; [apply F_var|]. inversion 1; subst; auto. now elim (kinds_same "variable").
Qed.

(** [partial_cmp] has no answer exactly when none of the above applies; for
    expressions without NaN it always has one. *)
Theorem C40_no_answer : forall a b,
  el_cmp a b = None <-> ~ comes_first a b /\ ~ comes_first b a /\ ~ tied a b.
Proof.
  intros a b. rewrite <- !C40_order_characterised, <- C40_equal_characterised, (C40_cmp_reverses a b).
  destruct (el_cmp a b) as [[]|]; cbn; intuition congruence.
Qed.
Theorem C40_total_without_nan : forall a b, (forall n, sub (Number n) a -> is_nan n = false) ->
  (forall n, sub (Number n) b -> is_nan n = false) -> comes_first a b \/ tied a b \/ comes_first b a.
Proof.
  intros a b Ha Hb. rewrite <- !C40_order_characterised, <- C40_equal_characterised, (C40_cmp_reverses a b).
  enough (el_cmp a b <> None) by (destruct (el_cmp a b) as [[]|]; cbn; auto; congruence).
  revert b Ha Hb. assert (T : forall x y, x <> None -> y <> None -> then_cmp x y <> None) by (intros [[]|] y; cbn; congruence).
  induction a as [n|op l r IHl IHr|op e IHe|f args Hargs|y] using element_ind'; intros b Ha Hb; destruct b as [m|op' l' r'|op' e'|g args'|z];
    try (cbn; discriminate).
  - cbn [el_cmp]. rewrite fcmp_toR; [discriminate|apply Ha; constructor|apply Hb; constructor].
  - cbn [el_cmp]. apply T; [discriminate|]. apply T; [apply IHl|apply IHr]; eauto using sub.
  - cbn [el_cmp]. apply T; [discriminate|]. apply IHe; eauto using sub.
  - rewrite el_cmp_call. apply T; [discriminate|].
    assert (Xa : forall a n, In a args -> sub (Number n) a -> is_nan n = false) by (intros; apply Ha; eauto using sub).
    assert (Xb : forall a n, In a args' -> sub (Number n) a -> is_nan n = false) by (intros; apply Hb; eauto using sub).
    clear Ha Hb. revert args' Xb. induction Hargs as [|a l Ha _ IH]; intros [|b m] Xb; cbn [el_cmp_list]; try discriminate.
    apply T.
    + apply Ha; intros n H; [apply (Xa a n)|apply (Xb b n)]; cbn; auto.
    + apply IH; intros; [eapply Xa|eapply Xb]; cbn; eauto.
Qed.

(** Sorting 3, x+1, -x, max(x, 1), max(x, 2) and x: the order is this one. *)
Example C40_order_witness : exists a b c d e f,
  parse plain_config w0 ctx_default "3" = Parse_ok a /\ parse plain_config w0 ctx_default "x+1" = Parse_ok b /\
  parse plain_config w0 ctx_default "-x" = Parse_ok c /\ parse plain_config w0 ctx_default "max(x, 1)" = Parse_ok d /\
  parse plain_config w0 ctx_default "max(x, 2)" = Parse_ok e /\ parse plain_config w0 ctx_default "x" = Parse_ok f /\
  comes_first (root a) (root b) /\ comes_first (root b) (root c) /\ comes_first (root c) (root d) /\
  comes_first (root d) (root e) /\ comes_first (root e) (root f) /\ ~ comes_first (root f) (root a).
Proof.
  destruct (parses_to (parse plain_config w0 ctx_default "3") (Number (lit "3"))) as [a [Ha Ra]]; [vm_compute; reflexivity|].
  destruct (parses_to (parse plain_config w0 ctx_default "x+1") (BinOp Plus (Var "x") (Number (lit "1")))) as [b [Hb Rb]]; [vm_compute; reflexivity|].
  destruct (parses_to (parse plain_config w0 ctx_default "-x") (UnOp Minus (Var "x"))) as [c [Hc Rc]]; [vm_compute; reflexivity|].
  destruct (parses_to (parse plain_config w0 ctx_default "max(x, 1)") (Call (builtin_function B_MAX) [Var "x"; Number (lit "1")])) as [d [Hd Rd]]; [vm_compute; reflexivity|].
  destruct (parses_to (parse plain_config w0 ctx_default "max(x, 2)") (Call (builtin_function B_MAX) [Var "x"; Number (lit "2")])) as [e [He Re]]; [vm_compute; reflexivity|].
  destruct (parses_to (parse plain_config w0 ctx_default "x") (Var "x")) as [f [Hf Rf]]; [vm_compute; reflexivity|].
  exists a, b, c, d, e, f. split; [exact Ha|]. split; [exact Hb|]. split; [exact Hc|]. split; [exact Hd|]. split; [exact He|]. split; [exact Hf|].
  rewrite Ra, Rb, Rc, Rd, Re, Rf. clear. rewrite <- !C40_order_characterised.
  split; [reflexivity|]. split; [reflexivity|]. split; [reflexivity|]. split; [vm_compute; reflexivity|]. split; [reflexivity|discriminate].
Qed.
