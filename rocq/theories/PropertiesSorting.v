(** * C75: errors can be sorted *)
From Coq Require Import ZArith NArith List String Ascii Bool Lia Permutation Sorting.Sorted.
From Flocq Require Import BinarySingleNaN.
From Verif Require Import F64 Syntax Builtins Context Parser Xprs Order ErrorOrd ContextEq SpecOrder SpecParse FloatFacts TestWorld.
From Verif Require PropertiesEq.
Import ListNotations.
Local Open Scope string_scope.

(** ** Building total orders *)
Lemma nat_order : total_order Nat.compare.
Proof.
  split.
  - apply Nat.compare_eq_iff.
  - intros. apply Nat.compare_antisym.
  - intros a b c. rewrite !Nat.compare_lt_iff. lia.
Qed.
Lemma char_order : total_order char_cmp.
Proof.
  unfold char_cmp. split.
  - intros a b. rewrite N.compare_eq_iff. split; [|congruence]. intro H. rewrite <- (ascii_N_embedding a), H. apply ascii_N_embedding.
  - intros. apply N.compare_antisym.
  - intros a b c. rewrite !N.compare_lt_iff. lia.
Qed.
Lemma then_eq : forall a b, then_ord a b = Eq <-> a = Eq /\ b = Eq.
Proof. intros [] b; cbn; intuition discriminate. Qed.
Lemma then_rev : forall a b, CompOpp (then_ord a b) = then_ord (CompOpp a) (CompOpp b).
Proof. now intros [] b. Qed.
Lemma then_lt : forall a b, then_ord a b = Lt <-> a = Lt \/ (a = Eq /\ b = Lt).
Proof. intros [] b; cbn; intuition discriminate. Qed.
Lemma lt_eq : forall A (cmp : A -> A -> comparison), total_order cmp -> forall a b c,
  cmp a b = Lt -> cmp b c = Eq -> cmp a c = Lt.
Proof. intros A cmp T a b c H E. apply (to_eq _ T) in E. now subst. Qed.
Definition pair_cmp {A B} (f : A -> A -> comparison) (g : B -> B -> comparison) (x y : A * B) : comparison :=
  then_ord (f (fst x) (fst y)) (g (snd x) (snd y)).
Lemma pair_order : forall A B (f : A -> A -> comparison) (g : B -> B -> comparison),
  total_order f -> total_order g -> total_order (pair_cmp f g).
Proof.
  intros A B f g Tf Tg. unfold pair_cmp. split.
  - intros [a x] [b y]. cbn. rewrite then_eq, (to_eq _ Tf), (to_eq _ Tg). intuition congruence.
  - intros [a x] [b y]. cbn. now rewrite then_rev, <- (to_rev _ Tf), <- (to_rev _ Tg).
  - intros [a x] [b y] [c z]. cbn. rewrite !then_lt. intros [H|[H Hx]] [K|[K Ky]].
    + left. eapply (to_trans _ Tf); eauto.
    + left. apply (to_eq _ Tf) in K. now subst.
    + left. apply (to_eq _ Tf) in H. now subst.
    + right. apply (to_eq _ Tf) in H, K. subst. split; [now apply (to_eq _ Tf)|]. eapply (to_trans _ Tg); eauto.
Qed.
Lemma key_order : forall A B (f : A -> A -> comparison) (g : B -> B -> comparison) (key : A -> B),
  (forall a b, f a b = g (key a) (key b)) -> (forall a b, key a = key b -> a = b) -> total_order g -> total_order f.
Proof.
  intros A B f g key E Inj T. split.
  - intros a b. rewrite E, (to_eq _ T). split; [apply Inj|congruence].
  - intros a b. rewrite !E. apply (to_rev _ T).
  - intros a b c. rewrite !E. apply (to_trans _ T).
Qed.
Section Lists.
  Context {A} (f : A -> A -> comparison) (T : total_order f).
  Fixpoint list_cmp (l m : list A) : comparison :=
    match l, m with
    | [], [] => Eq | [], _ :: _ => Lt | _ :: _, [] => Gt
    | a :: l, b :: m => then_ord (f a b) (list_cmp l m)
    end.
  Lemma list_order : total_order list_cmp.
  Proof.
    split.
    - intro l. induction l as [|a l IH]; intros [|b m]; cbn; try (split; (discriminate || reflexivity)).
      rewrite then_eq, (to_eq _ T), IH. intuition congruence.
    - intro l. induction l as [|a l IH]; intros [|b m]; cbn; auto. now rewrite then_rev, <- IH, <- (to_rev _ T).
    - intro l. induction l as [|a l IH]; intros [|b m] [|c n]; cbn; auto; try discriminate. rewrite !then_lt.
      intros [H|[H Hx]] [K|[K Ky]].
      + left. eapply (to_trans _ T); eauto.
      + left. apply (to_eq _ T) in K. now subst.
      + left. apply (to_eq _ T) in H. now subst.
      + right. apply (to_eq _ T) in H, K. subst. split; [now apply (to_eq _ T)|]. eauto.
  Qed.
End Lists.
Lemma str_order : total_order str_cmp.
Proof.
  apply (key_order _ _ str_cmp (list_cmp char_cmp) list_ascii_of_string).
  - intro a. induction a as [|c a IH]; intros [|d b]; cbn; auto. now rewrite IH.
  - intros a b H. rewrite <- (string_of_list_ascii_of_string a), H. apply string_of_list_ascii_of_string.
  - apply list_order, char_order.
Qed.
Lemma strs_order : total_order strs_cmp.
Proof.
  apply (key_order _ _ strs_cmp (list_cmp str_cmp) (fun l => l)); auto.
  apply list_order, str_order.
Qed.

(** an error kind as a tuple *)
Definition kind_key (k : error_kind) : nat * (string * (list string * (nat * nat))) :=
  (kind_index k,
   match k with
   | UnexpectedToken c | IllegalCharacter c | ExpectedToken c => (String c "", ([], (0, 0)))
   | MalformedNumber s => (s, ([], (0, 0)))
   | VariableNotDeclared x l => (x, (l, (0, 0)))
   | TooFewArguments e g | TooManyArguments e g => ("", ([], (e, g)))
   | _ => ("", ([], (0, 0)))
   end).
Lemma then_eq_r : forall c, then_ord c Eq = c. Proof. now intros []. Qed.
Lemma kind_order : total_order kind_cmp.
Proof.
  apply (key_order _ _ kind_cmp (pair_cmp Nat.compare (pair_cmp str_cmp (pair_cmp strs_cmp (pair_cmp Nat.compare Nat.compare)))) kind_key).
  - intros a b. destruct a, b; unfold pair_cmp; cbn -[Nat.compare]; rewrite ?Nat.compare_refl; cbn [then_ord]; rewrite ?then_eq_r; try reflexivity.
  - intros a b H. destruct a, b; cbn in H; try discriminate H; try reflexivity; injection H; intros; subst; reflexivity.
  - repeat apply pair_order; auto using nat_order, str_order, strs_order.
Qed.
Lemma bind_error_order : total_order bind_error_cmp.
Proof.
  apply (key_order _ _ bind_error_cmp (pair_cmp Nat.compare str_cmp) (fun e => match e with OneVariable s => (0, s) | MultipleVariables s => (1, s) end)).
  - intros [s|s] [t|t]; reflexivity.
  - intros [s|s] [t|t] H; try discriminate H; injection H as ->; reflexivity.
  - apply pair_order; auto using nat_order, str_order.
Qed.
Lemma op_order : total_order op_cmp.
Proof.
  apply (key_order _ _ op_cmp Nat.compare operator_index); auto using nat_order. intros [] []; (discriminate || reflexivity).
Qed.

(** ** C75 *)
(** The orders of error kinds, binding errors, evaluation errors and operators
    are total orders that agree with [==]. *)
Theorem C75_total_orders :
  total_order kind_cmp /\ total_order bind_error_cmp /\ total_order eval_error_cmp /\ total_order op_cmp.
Proof. split; [apply kind_order|]. split; [apply bind_error_order|]. split; [apply str_order|apply op_order]. Qed.

(** Texts are in dictionary order. *)
Theorem C75_text_order : forall s t, str_cmp s t = Lt <-> before s t.
Proof.
  assert (P : forall p s t, str_cmp (p ++ s) (p ++ t) = str_cmp s t).
  { intros p s t. induction p as [|c p IH]; cbn; auto. now rewrite (proj2 (to_eq _ char_order c c) eq_refl), IH. }
  intros s t. split.
  - revert t. induction s as [|c s IH]; intros [|d t]; cbn; try discriminate.
    + intros _. left. exists d, t. reflexivity.
    + rewrite then_lt. intros [H|[H K]].
      * right. exists "", c, d, s, t. split; [reflexivity|]. split; [reflexivity|]. now apply N.compare_lt_iff.
      * apply (to_eq _ char_order) in H. subst d. destruct (IH t K) as [[e [r ->]]|[p [e [g [s' [t' [-> [-> L]]]]]]]].
        -- left. exists e, r. reflexivity.
        -- right. exists (String c p), e, g, s', t'. auto.
  - intros [[c [r ->]]|[p [c [d [s' [t' [-> [-> L]]]]]]]].
    + pose proof (P s "" (String c r)) as H. replace (s ++ "") with s in H by (clear; induction s as [|a s IH]; cbn; congruence). exact H.
    + rewrite P. cbn. apply then_lt. left. now apply N.compare_lt_iff.
Qed.

(** Errors and operators come in the order their documentation lists them, and
    then in the order of their data, first field first. *)
Lemma listed_nodup : forall a b l, NoDup l -> listed_before a b l -> listed_before b a l -> False.
Proof.
  intros a b l N [p [q [r E]]] [p' [q' [r' E']]].
  assert (K : forall (x : string) p1 r1 p2 r2, NoDup (p1 ++ x :: r1)%list -> (p1 ++ x :: r1 = p2 ++ x :: r2)%list -> r1 = r2).
  { intros x p1. induction p1 as [|y p1 IH]; intros r1 [|z p2] r2 Nd H; cbn in *.
    - now injection H.
    - injection H as -> ->. inversion Nd as [|? ? Hn _]; subst. elim Hn. apply in_or_app. right. now left.
    - injection H as -> <-. inversion Nd as [|? ? Hn _]; subst. elim Hn. apply in_or_app. right. now left.
    - injection H as -> H. inversion Nd; subst. eauto. }
  subst l. assert (E1 : (q ++ b :: r)%list = r').
  { apply (K a p (q ++ b :: r)%list (p' ++ b :: q')%list r'); auto. rewrite E'. now rewrite <- app_assoc. }
  subst r'. assert (X : r = (q' ++ a :: q ++ b :: r)%list).
  { apply (K b (p ++ a :: q)%list r p' (q' ++ a :: q ++ b :: r)%list); rewrite <- app_assoc; auto. }
  apply (f_equal (@List.length string)) in X. rewrite app_length in X. cbn in X. rewrite app_length in X. cbn in X. lia.
Qed.
Ltac listed := match goal with |- listed_before ?a ?b _ =>
  unfold documented_kinds, documented_operators;
  let rec go p l := match l with
    | a :: ?l' => let rec go2 q m := match m with b :: ?m' => exists (rev p), (rev q), m'; reflexivity | ?x :: ?m' => go2 (x :: q) m' end in go2 (@nil string) l'
    | ?x :: ?l' => go (x :: p) l' end in
  match goal with |- listed_before _ _ ?l => go (@nil string) l end end.
Lemma before_irrefl : forall s, ~ before s s.
Proof. intros s H. apply C75_text_order in H. rewrite (proj2 (to_eq _ str_order s s) eq_refl) in H. discriminate H. Qed.
Lemma strs_lt : forall l m, strs_cmp l m = Lt <-> names_before l m.
Proof.
  induction l as [|a l IH]; intros [|b m]; cbn; try (split; [discriminate|inversion 1; fail]); try (split; [constructor|reflexivity]).
  rewrite then_lt, C75_text_order, (to_eq _ str_order), IH. split.
  - intros [H|[-> H]]; [now apply NB_here|now apply NB_later].
  - inversion 1; subst; auto.
Qed.
Theorem C75_documented_order :
  (forall a b, kind_cmp a b = Lt <-> kind_before a b) /\
  (forall a b, bind_error_cmp a b = Lt <-> bind_before a b) /\
  (forall a b, eval_error_cmp a b = Lt <-> before a b) /\
  (forall a b, op_cmp a b = Lt <-> listed_before (operator_name a) (operator_name b) documented_operators).
Proof.
  assert (Nk : NoDup documented_kinds) by (unfold documented_kinds; repeat constructor; cbn; intuition discriminate).
  assert (No : NoDup documented_operators) by (unfold documented_operators; repeat constructor; cbn; intuition discriminate).
  assert (Irr : forall s l, NoDup l -> ~ listed_before s s l) by (intros s l N H; exact (listed_nodup s s l N H H)).
  split; [|split; [|split]].
  - intros a b. split.
    + destruct a, b; cbn; intro H; try discriminate H; try (apply KB_kind; cbn [kind_name]; listed).
      * apply KB_token. now apply N.compare_lt_iff.
      * apply KB_number. now apply C75_text_order.
      * apply KB_character. now apply N.compare_lt_iff.
      * apply KB_expected. now apply N.compare_lt_iff.
      * apply then_lt in H. rewrite (to_eq _ str_order) in H. destruct H as [H|[-> H]]; [apply KB_variable; now apply C75_text_order|apply KB_available; now apply strs_lt].
      * apply then_lt in H. rewrite Nat.compare_lt_iff, Nat.compare_eq_iff, Nat.compare_lt_iff in H. destruct H as [H|[-> H]]; [now apply KB_few|now apply KB_few_got].
      * apply then_lt in H. rewrite Nat.compare_lt_iff, Nat.compare_eq_iff, Nat.compare_lt_iff in H. destruct H as [H|[-> H]]; [now apply KB_many|now apply KB_many_got].
    + destruct 1 as [a b H|c d H|s t H|c d H|c d H|x y l m H|x l m H|e e' g g' H|e g g' H|e e' g g' H|e g g' H]; cbn [kind_cmp];
        try (rewrite then_lt); try (left; first [now apply C75_text_order|now apply Nat.compare_lt_iff]);
        try (right; split; [first [now apply (to_eq _ str_order)|now apply Nat.compare_eq_iff]|first [now apply strs_lt|now apply Nat.compare_lt_iff]]);
        try (now apply N.compare_lt_iff); try (now apply C75_text_order).
      destruct a, b; try reflexivity; exfalso; cbn [kind_name] in H;
        first [exact (Irr _ _ Nk H)|refine (listed_nodup _ _ _ Nk H _); listed].
  - intros [s|s] [t|t]; cbn; rewrite ?C75_text_order; split; intro H; try discriminate H; try reflexivity; try (constructor; auto; fail); inversion H; subst; auto.
  - apply C75_text_order.
  - intros a b. split.
    + destruct a, b; cbn; intro H; try discriminate H; listed.
    + intro H. destruct a, b; try reflexivity; exfalso; cbn [operator_name] in H;
        first [exact (Irr _ _ No H)|refine (listed_nodup _ _ _ No H _); listed].
Qed.

(** Sorting a list of errors has exactly one result. *)
Theorem C75_one_sorted_list : forall A (cmp : A -> A -> comparison), total_order cmp ->
  forall l m, Permutation l m -> sorted cmp l -> sorted cmp m -> l = m.
Proof.
  intros A cmp T l. induction l as [|a l IH]; intros m P Sl Sm.
  - now apply Permutation_nil in P.
  - destruct m as [|b m]; [now apply Permutation_sym, Permutation_nil in P|].
    inversion Sl as [|? ? Sl' Fa]; subst. inversion Sm as [|? ? Sm' Fb]; subst.
    assert (E : a = b).
    { rewrite Forall_forall in Fa, Fb.
      assert (Ib : In b (a :: l)) by (apply Permutation_in with (1 := Permutation_sym P); now left).
      assert (Ia : In a (b :: m)) by (apply Permutation_in with (1 := P); now left).
      destruct Ib as [E|Ib]; auto. destruct Ia as [E|Ia]; auto. specialize (Fa b Ib). specialize (Fb a Ia).
      apply (to_eq _ T). destruct (cmp a b) eqn:C; auto; [|congruence]. rewrite (to_rev _ T), C in Fb. now elim Fb. }
    subst b. f_equal. apply IH; auto. now apply Permutation_cons_inv in P.
Qed.

(** Symbols: every variable comes before every function, equal symbols compare
    equal unless they are NaN (and then they are not equal to themselves) ... *)
Theorem C75_symbols : forall a b,
  (symbol_eq a b = true -> symbol_cmp a b = Some Eq) /\
  symbol_cmp b a = option_map CompOpp (symbol_cmp a b) /\
  (symbol_cmp a b = None <-> exists x y, a = S_Variable x /\ b = S_Variable y /\ (is_nan x = true \/ is_nan y = true)).
Proof.
  assert (Cm : forall x y, fcmp y x = option_map CompOpp (fcmp x y)).
  { intros x y. unfold fcmp. rewrite Bcompare_swap. now destruct (Bcompare x y). }
  intros a b. split; [|split].
  - destruct a as [x|f], b as [y|g]; cbn; try discriminate.
    + unfold feq, fcmp, Beqb, SpecFloat.SFeqb, Bcompare. destruct (SpecFloat.SFcompare (B2SF x) (B2SF y)) as [[]|]; (discriminate || reflexivity).
    + intro H. f_equal. apply (to_eq _ str_order). unfold function_eqb in H. rewrite !andb_true_iff in H. apply String.eqb_eq. tauto.
  - destruct a as [x|f], b as [y|g]; cbn; auto. now rewrite (to_rev _ str_order).
  - destruct a as [x|f], b as [y|g]; cbn; (split; [|intros [x' [y' [E1 [E2 N]]]]; try discriminate E1; try discriminate E2]); try discriminate.
    + intro H. exists x, y. split; [reflexivity|]. split; [reflexivity|]. unfold fcmp, Bcompare in H.
      destruct x as [s|s| |s m e B], y as [t|t| |t n f C]; cbn in H |- *; auto; try discriminate; destruct s; try discriminate; destruct t; discriminate.
    + injection E1 as <-. injection E2 as <-. destruct N as [N|N]; [destruct x|destruct y]; try discriminate; auto. unfold fcmp, Bcompare. destruct x as [s|s| |s m e B]; reflexivity.
Qed.

(** Variables come before functions, variables are ordered by value and functions
    by name. *)
Theorem C75_symbols_order : forall a b,
  symbol_cmp a b = Some Lt <->
  match a, b with
  | S_Variable x, S_Variable y => flt x y = true
  | S_Variable _, S_Function _ => True
  | S_Function _, S_Variable _ => False
  | S_Function f, S_Function g => before (fn_name f) (fn_name g)
  end.
Proof.
  intros [x|f] [y|g]; cbn; try (split; (discriminate || auto; fail)).
  - unfold flt, fcmp, Bltb, Bcompare, SpecFloat.SFltb. destruct (SpecFloat.SFcompare (B2SF x) (B2SF y)) as [[]|]; split; (discriminate || reflexivity).
  - split; [discriminate|contradiction].
  - rewrite <- C75_text_order. split; [now injection 1|now intros ->].
Qed.

(** ... but symbols that compare equal need not be equal: functions are ordered
    by their names alone. *)
Theorem C75_symbols_equal_by_name :
  let f := S_Function (mk_function "f" (Static_user 0) (Some 1)) in
  let g := S_Function (mk_function "f" (Static_user 2) (Some 1)) in
  symbol_cmp f g = Some Eq /\ symbol_eq f g = false.
Proof. split; reflexivity. Qed.
Theorem C75_symbols_transitive : forall a b c,
  symbol_cmp a b = Some Lt -> symbol_cmp b c = Some Lt -> symbol_cmp a c = Some Lt.
Proof.
  intros [x|f] [y|g] [z|h]; cbn; try discriminate; auto.
  - intros H K. pose proof (PropertiesEq.chains_f64 x y z) as C. rewrite H, K in C. exact C.
  - intros H K. f_equal. injection H as H. injection K as K. eapply (to_trans _ str_order); eauto.
Qed.

(** ** The errors of three texts, sorted *)
Definition kind_of_text (s : string) : option error_kind :=
  option_map (fun e => fst (fst e)) (error_of (parse plain_config w0 ctx_default s)).
Example C75_witness : exists k1 k2 k3 k4,
  kind_of_text "2 +" = Some k1 /\ kind_of_text "1.2.3" = Some k2 /\ kind_of_text "1..2" = Some k3 /\ kind_of_text "max(1, )" = Some k4 /\
  sorted kind_cmp [k1; k3; k2; k4] /\ Permutation [k1; k2; k3; k4] [k1; k3; k2; k4].
Proof.
  exists UnexpectedEndOfExpression, (MalformedNumber "1.2.3"), (MalformedNumber "1..2"), MissingArgument.
  repeat (split; [vm_compute; reflexivity|]). split.
  - unfold sorted. repeat (apply SSorted_cons || apply SSorted_nil || apply Forall_cons || apply Forall_nil); vm_compute; discriminate.
  - apply perm_skip, perm_swap.
Qed.
