(** * The dump of an expression, word for word (C76, continued) *)
From Coq Require Import ZArith NArith List String Ascii Bool Lia Permutation.
From Verif Require Import F64 Syntax Builtins Context Element Parser Xprs Display DebugText SpecDebug SpecDumpText DebugFacts.
From Verif Require Import SpecParse ParserFacts SpecApi SpecNumber SpecDisplay DisplayFacts PropertiesParse PropertiesDebug TestWorld.
Import ListNotations.
Local Open Scope string_scope.

Lemma str_assoc : forall a b c : string, (a ++ b) ++ c = a ++ (b ++ c).
Proof. induction a as [|x a IH]; intros b c; cbn; [reflexivity|]. now rewrite IH. Qed.

Lemma tree_dump : forall e, tree_text e (compact (debug_element e)).
Proof.
  induction e as [n|op l r IHl IHr|op e IHe|f args Hargs|y] using element_ind'.
  - exact (TT_number n).
  - replace (compact (debug_element (BinOp op l r))) with
      ("BinOp(BinOp { op: " ++ operator_name op ++ ", lhs: " ++ compact (debug_element l) ++ ", rhs: " ++ compact (debug_element r) ++ " })"); [now constructor|].
    cbn [debug_element compact map fst snd]. unfold join. cbn [String.concat]. rewrite !str_assoc. destruct op; reflexivity.
  - replace (compact (debug_element (UnOp op e))) with
      ("UnOp(UnOp { op: " ++ operator_name op ++ ", operand: " ++ compact (debug_element e) ++ " })"); [now constructor|].
    cbn [debug_element compact map fst snd]. unfold join. cbn [String.concat]. rewrite !str_assoc. destruct op; reflexivity.
  - replace (compact (debug_element (Call f args))) with
      ("Function(FunctionCall { desc: Function { name: """ ++ fn_name f ++ """, func: " ++ pointer_name (fn_ptr f) ++
       ", nb_args: " ++ arity_text (fn_nb_args f) ++ " }, args: [" ++ String.concat ", " (map (fun a => compact (debug_element a)) args) ++ "] })").
    + constructor. induction Hargs as [|a l Ha _ IH]; cbn [map]; constructor; assumption.
    + cbn [debug_element compact map fst snd]. unfold debug_function. cbn [compact map fst snd]. rewrite map_map. unfold join, quoted.
      replace (compact (debug_pointer (fn_ptr f))) with (pointer_name (fn_ptr f)) by (destruct (fn_ptr f); reflexivity).
      replace (compact (debug_arity (fn_nb_args f))) with (arity_text (fn_nb_args f)) by (destruct (fn_nb_args f); reflexivity).
      cbn [String.concat]. rewrite !str_assoc. reflexivity.
  - replace (compact (debug_element (Var y))) with ("Variable(""" ++ y ++ """)"); [constructor|].
    cbn [debug_element compact map]. unfold join, quoted. cbn [String.concat]. rewrite !str_assoc. reflexivity.
Qed.

(** The one-line dump of an expression is exactly this text. *)
Theorem C76_dump_text : forall w x, fair_order w -> expression_text x (compact (debug_xprs w x)).
Proof.
  intros w x Hf. replace (compact (debug_xprs w x)) with
    ("Xprs { root: " ++ compact (debug_element (root x)) ++ ", vars: {" ++ String.concat ", " (map (fun y => """" ++ y ++ """") (hash_order w (vars x))) ++ "} }").
  - constructor; [apply tree_dump|apply Hf].
  - unfold debug_xprs, debug_vars. cbn [compact map fst snd]. rewrite map_map. unfold join. cbn [String.concat compact]. rewrite !str_assoc. reflexivity.
Qed.

(** ** On several lines *)
Lemma nlc_word : forall s r, word s -> no_last_commas (list_ascii_of_string s ++ r) = (list_ascii_of_string s ++ no_last_commas r)%list.
Proof.
  intros s r [_ H]. induction (list_ascii_of_string s) as [|c l IH]; [reflexivity|]. cbn [forallb] in H. apply andb_true_iff in H. destruct H as [Hc H].
  cbn [app no_last_commas]. replace (Ascii.eqb c ",") with false.
  - cbn [andb]. now rewrite IH.
  - symmetry. apply Ascii.eqb_neq. intros ->. discriminate Hc.
Qed.
Lemma nlc_plain : forall c r, Ascii.eqb c "," = false -> no_last_commas (c :: r) = c :: no_last_commas r.
Proof. intros c r H. cbn [no_last_commas]. now rewrite H. Qed.
Lemma begins_open : forall l, begins l -> match l with c :: _ => closes c | [] => false end = false.
Proof.
  intros l [c [t [-> H]]]. unfold stop, closes in *. cbn [existsb] in *. repeat (apply orb_false_iff in H; destruct H as [? H]).
  repeat match goal with E : Ascii.eqb c _ = false |- _ => rewrite E end. reflexivity.
Qed.
Lemma nlc_items : forall A (g g' : A -> list ascii) l x r, closes x = true -> (forall a s, In a l -> begins (g' a ++ s)%list) ->
  (forall a s, In a l -> no_last_commas (g' a ++ s) = g a ++ no_last_commas s)%list ->
  (no_last_commas (items true (map g' l) ++ x :: r) = items false (map g l) ++ x :: no_last_commas r)%list.
Proof.
  intros A g g' l x r Hx HB H. assert (Nx : Ascii.eqb x "," = false) by (destruct (Ascii.eqb_spec x ","); [subst; discriminate Hx|reflexivity]).
  assert (T : no_last_commas ("," :: x :: r)%char = x :: no_last_commas r).
  { cbn [no_last_commas]. rewrite Hx, Nx. reflexivity. }
  induction l as [|a l IH]; [cbn [map items app]; now apply nlc_plain|]. destruct l as [|b l].
  - cbn [map items]. rewrite <- app_assoc. cbn [app]. rewrite H by now left. now rewrite T.
  - change (items true (map g' (a :: b :: l))) with (g' a ++ ","%char :: items true (map g' (b :: l)))%list.
    change (items false (map g (a :: b :: l))) with (g a ++ ","%char :: items false (map g (b :: l)))%list.
    rewrite <- !app_assoc. cbn [app]. rewrite H by now left. f_equal. cbn [no_last_commas].
    assert (E : match (items true (map g' (b :: l)) ++ x :: r)%list with c :: _ => closes c | [] => false end = false).
    { apply begins_open. assert (K : exists q, (items true (map g' (b :: l)) ++ x :: r = g' b ++ q)%list).
      { cbn [map items]. destruct (map g' l); rewrite <- ?app_assoc; eauto. }
      destruct K as [q ->]. apply HB. right. now left. }
    rewrite E, andb_false_r. f_equal. apply IH; intros; [apply HB|apply H]; now right.
Qed.
Lemma nlc_flat : forall d, wf d -> forall r, no_last_commas (flat true d ++ r) = (flat false d ++ no_last_commas r)%list.
Proof.
  induction d as [t|n l IH|n l IH|l IH|l IH|k v IH] using dbg_ind'; intros W r; inversion W; subst; cbn [flat]; rewrite <- ?app_assoc; cbn [app]; rewrite <- ?app_assoc; cbn [app].
  - now apply nlc_word.
  - rewrite nlc_word by assumption. f_equal. rewrite nlc_plain by reflexivity. f_equal. apply nlc_items; [reflexivity| |]; intros a s Ha; rewrite Forall_forall in *; [now apply flat_begins; auto|auto].
  - rewrite nlc_word by assumption. f_equal. rewrite nlc_plain by reflexivity. f_equal. apply nlc_items; [reflexivity| |]; intros a s Ha; rewrite Forall_forall in *.
    + rewrite <- app_assoc. match goal with K : forall x, In x l -> word (fst x) |- begins (_ ++ ?q) => destruct (word_first (fst a) q (K a Ha)) as [c [u [E' K']]] end.
      exists c, u. split; [exact E'|now apply word_not_stop].
    + rewrite <- !app_assoc. rewrite nlc_word by auto. f_equal. cbn [app]. rewrite nlc_plain by reflexivity. f_equal. apply IH; auto.
  - rewrite nlc_plain by reflexivity. f_equal. apply nlc_items; [reflexivity| |]; intros a s Ha; rewrite Forall_forall in *; [now apply flat_begins; auto|auto].
  - rewrite nlc_plain by reflexivity. f_equal. apply nlc_items; [reflexivity| |]; intros a s Ha; rewrite Forall_forall in *; [now apply flat_begins; auto|auto].
  - rewrite nlc_word by assumption. f_equal. rewrite nlc_plain by reflexivity. f_equal. auto.
Qed.

(** The dump on several lines has the same words in the same order: it differs
    from the one-line dump in blanks, line ends and the commas after last items. *)
Theorem C76_same_words_on_several_lines : forall cfg w ctx x, fair_order w -> names_agree ctx -> obtained cfg w ctx x ->
  no_last_commas (letters (pretty (debug_xprs w x))) = letters (compact (debug_xprs w x)).
Proof.
  intros cfg w ctx x Hf Hag Hx. pose proof (xprs_wf cfg w ctx x Hf Hag Hx) as W.
  change (letters (pretty (debug_xprs w x))) with (squash (pretty (debug_xprs w x))). change (letters (compact (debug_xprs w x))) with (squash (compact (debug_xprs w x))).
  rewrite pretty_flat, compact_flat by exact W. pose proof (nlc_flat _ W []) as K. now rewrite !app_nil_r in K.
Qed.

Example C76_text_witness : exists x, parse default_config w0 ctx1 "-x + double(3 / y)" = Parse_ok x /\
  compact (debug_xprs w1 x) =
  "Xprs { root: BinOp(BinOp { op: Plus, lhs: UnOp(UnOp { op: Minus, operand: Variable(""x"") }), rhs: Function(FunctionCall { desc: Function { name: ""double"", func: Static, nb_args: Some(1) }, args: [BinOp(BinOp { op: Divide, lhs: Number(3.0), rhs: Variable(""y"") })] }) }), vars: {""x"", ""y""} }".
Proof.
  assert (T : ok_and (parse default_config w0 ctx1 "-x + double(3 / y)") (fun x => String.eqb (compact (debug_xprs w1 x))
  "Xprs { root: BinOp(BinOp { op: Plus, lhs: UnOp(UnOp { op: Minus, operand: Variable(""x"") }), rhs: Function(FunctionCall { desc: Function { name: ""double"", func: Static, nb_args: Some(1) }, args: [BinOp(BinOp { op: Divide, lhs: Number(3.0), rhs: Variable(""y"") })] }) }), vars: {""x"", ""y""} }") = true) by (vm_compute; reflexivity).
  apply ok_and_spec in T. destruct T as [x [P E]]. exists x. split; [exact P|]. now apply String.eqb_eq.
Qed.
