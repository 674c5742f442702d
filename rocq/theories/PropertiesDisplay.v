(** * Printing: the text of expressions and numbers (C11, C50) *)
From Coq Require Import ZArith NArith List String Ascii Bool Lia Reals Lra.
From Flocq Require Import Core BinarySingleNaN.
From Verif Require Import SpecChars CharFacts.
From Verif Require Import F64 Syntax Factorial Builtins Context Element Parser Xprs Display.
From Verif Require Import ParserFacts SpecParse ParserInv SpecTree TreeFacts SpecApi ParserResults SpecTokens SpecGrammar SpecNumber SpecNames SpecDisplay.
From Verif Require Import FloatFacts NumberFacts DisplayFacts TokenFacts LexFacts LexExec TokenParser TokenSim TokenMono GrammarFacts GrammarEquiv JuxtaFacts RegularFacts.
From Verif Require Import TestWorld PropertiesParse PropertiesGrammar PropertiesNames PropertiesEval PropertiesSimplify PropertiesOptimise.
Import ListNotations.
Local Open Scope string_scope.

(** ** tokens of a printed expression *)
Definition op_byte (op : operator) : ascii :=
  match op with
  | Factorial => "!" | Plus => "+" | Minus => "-" | Times => "*" | Divide => "/" | Power => "^" | Modulo => "%"
  end%char.
Lemma op_byte_shown : forall op, display_operator op = String (op_byte op) "".
Proof. destruct op; reflexivity. Qed.
Lemma op_byte_token : forall op, operator_token (TSym (op_byte op)) op.
Proof. destruct op; reflexivity. Qed.

Fixpoint with_commas (l : list (list token)) : list token :=
  match l with
  | [] => []
  | [a] => a
  | a :: l' => (a ++ TSym "," :: with_commas l')%list
  end.

Fixpoint shown (e : element) : list token :=
  match e with
  | Number n => if Bsign n then [TSym "-"; TNum (display_f64 (fneg n))] else [TNum (display_f64 n)]
  | Var x => [TId x]
  | BinOp op l r => TSym "(" :: shown l ++ TSym (op_byte op) :: shown r ++ [TSym ")"]
  | UnOp op a => TSym "(" :: TSym (op_byte op) :: shown a ++ [TSym ")"]
  | Call f args => TId (fn_name f) :: TSym "(" :: with_commas (map shown args) ++ [TSym ")"]
  end%list.

Lemma plain_char_number : forall c, plain_char c -> in_mantissa c = true.
Proof.
  intros c [H | ->]; [|reflexivity]. unfold decimal_digit in H.
  assert (B : forall b, (negb ((48 <=? N_of_ascii b)%N && (N_of_ascii b <=? 57)%N) || in_mantissa b) = true).
  { apply byte_cases. vm_compute. reflexivity. }
  specialize (B c). destruct H as [H1 H2]. apply N.leb_le in H1, H2. rewrite H1, H2 in B. exact B.
Qed.
Lemma decimal_is_digit : forall c, decimal_digit c -> a_digit c = true.
Proof.
  intros c H. unfold decimal_digit in H.
  assert (B : forall b, (negb ((48 <=? N_of_ascii b)%N && (N_of_ascii b <=? 57)%N) || a_digit b) = true).
  { apply byte_cases. vm_compute. reflexivity. }
  specialize (B c). destruct H as [H1 H2]. apply N.leb_le in H1, H2. rewrite H1, H2 in B. exact B.
Qed.

Lemma unsigned_tokens : forall v, unsigned v -> tokens_of (display_f64 v) [TNum (display_f64 v)].
Proof.
  intros v Hv. destruct (display_unsigned v Hv) as [c [p [Hc [-> _]]]].
  unfold tokens_of. rewrite las_sol. rewrite <- (app_nil_r (positional c p)) at 1.
  apply L_num; [|apply L_end]. destruct (positional_spec c p Hc) as [m [k [Hm _]]].
  apply NT_plain; [| |intros []|intros []].
  - destruct (positional_head c p) as [d [l [-> Hd]]]. cbn. now rewrite decimal_is_digit.
  - eapply Forall_impl; [|eapply mantissa_chars; eauto]. apply plain_char_number.
Qed.

Lemma separates_check : forall c, negb (in_name c) && negb (in_mantissa c) && negb (a_sign c) = true -> separates c.
Proof. intros c H. rewrite !andb_true_iff, !negb_true_iff in H. unfold separates. tauto. Qed.

Lemma sym_check : forall c s ts, negb (a_blank c) && negb (a_digit c) && negb (Ascii.eqb c ".") && negb (a_letter c) = true ->
  lexes s ts -> lexes (c :: s) (TSym c :: ts).
Proof. intros c s ts H Hl. rewrite !andb_true_iff, !negb_true_iff in H. apply L_sym; tauto. Qed.

Lemma close_tokens : forall text ts, tokens_of text ts -> lexes (list_ascii_of_string text ++ [")"%char]) (ts ++ [TSym ")"]).
Proof.
  intros text ts H. apply lexes_glue; [exact H|apply separates_check; reflexivity|].
  apply sym_check; [reflexivity|apply L_end].
Qed.

Lemma joined_tokens : forall texts tss, Forall2 tokens_of texts tss -> tokens_of (join ", " texts) (with_commas tss).
Proof.
  intros texts tss H. induction H as [|a ts l tss Ha Hl IH]; [apply L_end|].
  destruct Hl as [|b ts' l tss' Hb Hl]; [exact Ha|].
  change (join ", " (a :: b :: l)) with (a ++ ", " ++ join ", " (b :: l)).
  change (with_commas (ts :: ts' :: tss')) with (ts ++ TSym "," :: with_commas (ts' :: tss'))%list.
  unfold tokens_of. rewrite !list_ascii_app. apply lexes_glue; [exact Ha|apply separates_check; reflexivity|].
  apply sym_check; [reflexivity|]. apply L_ws; [reflexivity|exact IH].
Qed.

Lemma shown_tokens : forall ctx e, printable ctx e -> tokens_of (display_element e) (shown e).
Proof.
  intro ctx. induction e as [n|op l r IHl IHr|op a IH|f args IH|x0] using element_ind'; intro H; inversion H; subst; cbn [display_element shown].
  - match goal with Hfin : fis_finite n = true |- _ => rename Hfin into Hf end. destruct (Bsign n) eqn:Hs.
    + destruct (display_signed n Hf Hs) as [-> Hu]. apply sym_check; [reflexivity|]. now apply unsigned_tokens.
    + apply unsigned_tokens. now split.
  - specialize (IHl ltac:(assumption)). specialize (IHr ltac:(assumption)). unfold tokens_of.
    rewrite !list_ascii_app. apply sym_check; [reflexivity|].
    apply lexes_space; [exact IHl| |reflexivity]. rewrite op_byte_shown.
    cbn [list_ascii_of_string app]. apply sym_check; [destruct op; reflexivity|]. apply L_ws; [reflexivity|].
    now apply close_tokens.
  - specialize (IH ltac:(assumption)). unfold tokens_of. rewrite !list_ascii_app, op_byte_shown.
    apply sym_check; [reflexivity|]. cbn [list_ascii_of_string app]. apply sym_check; [destruct op; reflexivity|].
    now apply close_tokens.
  - apply call_tokens; [assumption|]. apply joined_tokens. clear H.
    match goal with Hall : Forall (printable ctx) args |- _ => rename Hall into Hf end.
    clear - IH Hf. induction args as [|a args IHa]; cbn [map]; constructor.
    + inversion IH; inversion Hf; subst. auto.
    + apply IHa; [now inversion IH|now inversion Hf].
  - now apply name_tokens.
Qed.

(** ** and their derivation *)
Section Derive.
  Variable pj : bool.
  Variable ctx : context.
  Variable quirks : bool.

  Definition prints_as (e : element) : Prop :=
    exists q, operand pj ctx quirks (shown e) (respelled e) q /\ 3 <= q /\ (~ minus_signed e -> q = 4).

  Lemma arguments_shown : forall args, args <> [] -> Forall prints_as args ->
    arguments pj ctx quirks (with_commas (map shown args)) (map respelled args).
  Proof.
    intros args Hn H. induction H as [|a args Ha Hargs IH]; [congruence|]. destruct Ha as [q [Ho _]].
    destruct args as [|b args].
    - cbn. eapply G_last. apply C_operand. exact Ho.
    - change (with_commas (map shown (a :: b :: args))) with (shown a ++ TSym "," :: with_commas (map shown (b :: args)))%list.
      cbn [map]. eapply G_more; [apply C_operand; exact Ho|]. apply IH. discriminate.
  Qed.

  Lemma printable_derives : forall e, printable ctx e -> prints_as e.
  Proof.
    induction e as [n|op l r IHl IHr|op a IH|f args IH|x0] using element_ind'; intro H; inversion H; subst; cbn [shown respelled].
    - unfold prints_as. cbn [shown respelled minus_signed]. destruct (Bsign n) eqn:Hs.
      + exists 3. split; [|split; [lia|intro C; now exfalso; apply C]].
        destruct (display_signed n ltac:(assumption) Hs) as [_ Hu].
        apply (O_sign pj ctx quirks "-"%char Minus [TNum (display_f64 (fneg n))] (Number (fneg n)) 4 true); [right; auto|].
        apply (C_operand pj ctx quirks 3 _ (Number (fneg n))). apply O_plain, R_number. now apply display_reads.
      + exists 4. split; [|split; [lia|auto]]. apply O_plain, R_number. apply display_reads. now split.
    - destruct (IHl ltac:(assumption)) as [ql [Hl [Hql Hql4]]]. destruct (IHr ltac:(assumption)) as [qr [Hr _]].
      exists 4. split; [|split; [lia|auto]]. apply O_plain. cbn [shown respelled].
      replace (shown l ++ TSym (op_byte op) :: shown r ++ [TSym ")"])%list
        with ((shown l ++ TSym (op_byte op) :: shown r) ++ [TSym ")"])%list by (rewrite <- app_assoc; reflexivity).
      eapply R_paren.
      apply (C_operator pj ctx quirks 0 (shown l) (respelled l) ql (bare_number (respelled l)) (TSym (op_byte op)) op (shown r) (respelled r) qr (bare_number (respelled r))).
      + apply C_operand. exact Hl.
      + apply op_byte_token.
      + destruct op; cbn; lia.
      + destruct op; cbn; try lia; [|congruence]. rewrite Hql4; auto.
      + congruence.
      + apply C_operand. exact Hr.
    - destruct (IH ltac:(assumption)) as [q [Ho _]].
      exists 4. split; [|split; [lia|auto]]. apply O_plain. cbn [shown respelled].
      change (TSym "(" :: TSym (op_byte op) :: shown a ++ [TSym ")"])%list with (TSym "(" :: (TSym (op_byte op) :: shown a) ++ [TSym ")"])%list.
      eapply R_paren. apply C_operand. eapply O_sign; [|apply C_operand; exact Ho].
      match goal with Hop : op = Plus \/ op = Minus |- _ => destruct Hop as [-> | ->] end; [left|right]; auto.
    - exists 4. split; [|split; [lia|auto]]. apply O_plain. cbn [shown respelled]. apply R_call; auto.
      + apply arguments_shown; auto.
        match goal with Hf : Forall (printable ctx) args |- _ => clear - IH Hf; induction Hf; constructor; inversion IH; auto end.
      + match goal with Ha : SpecGrammar.arity_ok f args |- _ => revert Ha end. unfold SpecGrammar.arity_ok. destruct (fn_nb_args f); auto. now rewrite map_length.
    - exists 4. split; [|split; [lia|auto]]. now apply O_plain, R_variable.
  Qed.
End Derive.

Lemma respelled_occurs : forall e y, occurs y (respelled e) -> occurs y e.
Proof.
  induction e as [n|op l r IHl IHr|op a IH|f args IH|x0] using element_ind'; intros y H; cbn [respelled] in H; auto.
  - destruct (Bsign n); auto. inversion H; subst. match goal with Hn : occurs y (Number _) |- _ => inversion Hn end.
  - inversion H; subst; [apply occ_binl|apply occ_binr]; auto.
  - inversion H; subst. apply occ_un. auto.
  - inversion H; subst. match goal with Hi : In _ (map _ _) |- _ => apply in_map_iff in Hi; destruct Hi as [b [<- Hb]] end.
    apply occ_arg with b; auto. rewrite Forall_forall in IH. auto.
Qed.

Lemma shown_nonempty : forall e, shown e <> [].
Proof. destruct e; cbn; try discriminate. destruct (Bsign n); discriminate. Qed.

(** ** C11 *)

(** Parsing the printed text of a printable expression, in either precedence
    mode, gives the same tree, with minus-signed numbers respelled. *)
Theorem C11_text_is_read_back : forall cfg w ctx e,
  optimize cfg = false -> fair_order w -> printable ctx e -> declared ctx e ->
  exists y, parse cfg w ctx (display_element e) = Parse_ok y /\ root y = respelled e.
Proof.
  intros cfg w ctx e Ho Hf Hp Hd. pose proof (shown_tokens ctx e Hp) as Hts.
  apply (C04_accepted_exactly cfg w ctx (display_element e) (shown e) (respelled e) Ho Hf).
  - apply (tokens_nonempty _ _ Hts). apply shown_nonempty.
  - exact Hts.
  - split.
    + destruct (printable_derives (pejmdas cfg) ctx true e Hp) as [q [Hq _]]. exists q, (bare_number (respelled e)). now apply C_operand.
    + intros s Hs v Hv. apply (Hd s Hs), respelled_occurs, Hv.
Qed.

Lemma respelled_unsigned : forall e, (forall n, sub (Number n) e -> Bsign n = false) -> respelled e = e.
Proof.
  induction e as [n|op l r IHl IHr|op a IH|f args IH|x0] using element_ind'; intro H; cbn [respelled]; auto.
  - now rewrite (H n (sub_refl _)).
  - f_equal; [apply IHl|apply IHr]; intros n Hn; apply H; [now apply sub_binl|now apply sub_binr].
  - f_equal. apply IH. intros n Hn. apply H. now apply sub_un.
  - f_equal. rewrite <- (map_id args) at 2. apply map_ext_in. intros b Hb. rewrite Forall_forall in IH. apply IH; auto.
    intros n Hn. apply H. eapply sub_arg; eauto.
Qed.

(** Without minus-signed numbers it is the same tree. *)
Theorem C11_round_trip : forall cfg w ctx e,
  optimize cfg = false -> fair_order w -> printable ctx e -> declared ctx e ->
  (forall n, sub (Number n) e -> Bsign n = false) ->
  exists y, parse cfg w ctx (display_element e) = Parse_ok y /\ root y = e.
Proof.
  intros cfg w ctx e Ho Hf Hp Hd Hn. destruct (C11_text_is_read_back cfg w ctx e Ho Hf Hp Hd) as [y [Hy Ey]].
  exists y. split; [exact Hy|]. rewrite Ey. now apply respelled_unsigned.
Qed.

Lemma respelled_means : forall w rho e, eval_element w rho (respelled e) = eval_element w rho e.
Proof.
  intros w rho. induction e as [n|op l r IHl IHr|op a IH|f args IH|x0] using element_ind'; cbn [respelled]; auto.
  - destruct (Bsign n) eqn:E; auto. cbn. now rewrite fneg_fneg.
  - cbn [eval_element]. now rewrite IHl, IHr.
  - cbn [eval_element]. now rewrite IH.
  - cbn [eval_element].
    assert (E : forall l, Forall (fun e => eval_element w rho (respelled e) = eval_element w rho e) l ->
      map_eval (eval_element w rho) (map respelled l) = map_eval (eval_element w rho) l).
    { induction 1 as [|b l Hb Hl IHl]; cbn; auto. now rewrite Hb, IHl. }
    now rewrite E.
Qed.

(** Minus-signed numbers or not, it has the same values. *)
Theorem C11_same_values : forall cfg w ctx x,
  optimize cfg = false -> fair_order w -> printable ctx (root x) -> declared ctx (root x) ->
  exists y, parse cfg w ctx (display_xprs x) = Parse_ok y /\
    forall rho, eval w y rho = eval w x rho.
Proof.
  intros cfg w ctx x Ho Hf Hp Hd. destruct (C11_text_is_read_back cfg w ctx (root x) Ho Hf Hp Hd) as [y [Hy Ey]].
  exists y. split; [exact Hy|]. intro rho. unfold eval. rewrite Ey. apply respelled_means.
Qed.

(** *** Which parsed expressions are printable *)
Lemma name_of_token : forall m rest, name_token m rest -> is_name (string_of_list_ascii m).
Proof. intros m rest [H1 [H2 _]]. unfold is_name. rewrite las_sol. repeat split; auto. Qed.

Definition named (t : token) : Prop := match t with TId s => is_name s | _ => True end.
Lemma lexes_named : forall l ts, lexes l ts -> Forall named ts.
Proof. intros l ts H. induction H; auto; constructor; cbn; auto. eapply name_of_token; eauto. Qed.

Lemma variable_name : forall ctx s x, stands_for ctx s = I_Variable x -> x = s.
Proof.
  intros ctx s x H. unfold stands_for in H. destruct (sget s (ctx_symbols ctx)) as [[v|f]|]; try discriminate H.
  unfold identifier_from_str in H.
  repeat match type of H with (if ?b then _ else _) = _ => destruct b; [discriminate H|] end. now injection H.
Qed.

Inductive no_factorial : element -> Prop :=
| NF_number : forall n, no_factorial (Number n)
| NF_var : forall x, no_factorial (Var x)
| NF_bin : forall op l r, op <> Factorial -> no_factorial l -> no_factorial r -> no_factorial (BinOp op l r)
| NF_un : forall op e, op <> Factorial -> no_factorial e -> no_factorial (UnOp op e)
| NF_call : forall f args, Forall no_factorial args -> no_factorial (Call f args).

Lemma derived_printable : forall pj ctx quirks, names_agree ctx ->
  (forall p ts t q n, chain pj ctx quirks p ts t q n -> Forall named ts -> no_factorial t ->
     (forall n, sub (Number n) t -> unsigned n) -> printable ctx t) /\
  (forall ts t q, operand pj ctx quirks ts t q -> Forall named ts -> no_factorial t ->
     (forall n, sub (Number n) t -> unsigned n) -> printable ctx t) /\
  (forall ts t, primary pj ctx quirks ts t -> Forall named ts -> no_factorial t ->
     (forall n, sub (Number n) t -> unsigned n) -> printable ctx t) /\
  (forall ts l, arguments pj ctx quirks ts l -> Forall named ts -> Forall no_factorial l ->
     (forall n a, In a l -> sub (Number n) a -> unsigned n) -> l <> [] /\ Forall (printable ctx) l).
Proof.
  intros pj ctx quirks Hag.
  assert (Hpow : forall l, (forall n, sub (Number n) l -> unsigned n) -> ~ minus_signed l).
  { intros l Hu Hm. destruct l; try contradiction. destruct (Hu n (sub_refl _)) as [_ E]. cbn in Hm. congruence. }
  apply chain_mutind; intros; auto.
  - (* operator *)
    match goal with Ht : Forall named (_ ++ _ :: _) |- _ => apply Forall_app in Ht; destruct Ht as [N1 N2]; inversion N2; subst end.
    match goal with Hn : no_factorial (BinOp _ _ _) |- _ => inversion Hn; subst end.
    match goal with Hu : forall n, sub (Number n) (BinOp _ ?a ?b) -> _ |- _ =>
      assert (U1 : forall n, sub (Number n) a -> unsigned n) by (intros; apply Hu; now apply sub_binl);
      assert (U2 : forall n, sub (Number n) b -> unsigned n) by (intros; apply Hu; now apply sub_binr) end.
    apply PR_bin; auto.
  - (* implicit *)
    match goal with Ht : Forall named (_ ++ _) |- _ => apply Forall_app in Ht; destruct Ht as [N1 N2] end.
    match goal with Hn : no_factorial (BinOp _ _ _) |- _ => inversion Hn; subst end.
    match goal with Hu : forall n, sub (Number n) (BinOp _ ?a ?b) -> _ |- _ =>
      assert (U1 : forall n, sub (Number n) a -> unsigned n) by (intros; apply Hu; now apply sub_binl);
      assert (U2 : forall n, sub (Number n) b -> unsigned n) by (intros; apply Hu; now apply sub_binr) end.
    apply PR_bin; auto.
  - (* bang *)
    match goal with Hn : no_factorial (UnOp Factorial _) |- _ => inversion Hn; congruence end.
  - (* sign *)
    match goal with Hn : no_factorial (UnOp _ _) |- _ => inversion Hn; subst end.
    apply PR_un.
    + match goal with Hs : sign_op _ _ |- _ => destruct Hs as [[_ ->]|[_ ->]]; auto end.
    + match goal with Ht : Forall named (_ :: _) |- _ => inversion Ht; subst end.
      match goal with Hih : Forall named _ -> no_factorial t -> _ |- _ => apply Hih; auto end.
      intros m Hm. match goal with Hu : forall n, sub (Number n) (UnOp _ _) -> _ |- _ => apply Hu; now apply sub_un end.
  - (* number *)
    apply PR_number. match goal with Hu : forall n, sub (Number n) _ -> unsigned n |- _ => apply (Hu v (sub_refl _)) end.
  - apply PR_number. match goal with Hu : forall n, sub (Number n) _ -> unsigned n |- _ => apply (Hu v (sub_refl _)) end.
  - (* variable *)
    match goal with Hs : stands_for ctx s = I_Variable _ |- _ => pose proof (variable_name _ _ _ Hs); subst end.
    match goal with Ht : Forall named [TId _] |- _ => inversion Ht; subst end. now apply PR_var.
  - (* call *)
    match goal with Ht : Forall named (_ :: _ :: _) |- _ => inversion Ht as [|? ? T1 T2]; subst; inversion T2 as [|? ? _ T3]; subst; apply Forall_app in T3; destruct T3 as [T3 _] end.
    match goal with Hn : no_factorial (Call _ _) |- _ => inversion Hn; subst end.
    match goal with Hs : stands_for ctx s = I_Function _ |- _ => destruct (Hag _ _ Hs T1) as [A1 A2] end.
    match goal with Hih : Forall named ts -> Forall no_factorial _ -> _ |- _ => destruct Hih as [I1 I2]; auto end.
    { intros m b Hb Hm. match goal with Hu : forall n, sub (Number n) (Call _ _) -> _ |- _ => apply Hu; eapply sub_arg; eauto end. }
    now apply PR_call.
  - (* parentheses *)
    match goal with Hih : Forall named ts -> no_factorial t -> _, Ht : Forall named (_ :: _) |- _ => apply Hih; auto;
      inversion Ht as [|? ? _ T2]; subst; apply Forall_app in T2; apply T2 end.
  - split; [discriminate|]. constructor; [|constructor].
    match goal with Hih : Forall named ts -> no_factorial t -> _ |- _ => apply Hih; auto end.
    + match goal with Hn : Forall no_factorial [_] |- _ => now inversion Hn end.
    + intros m Hm. match goal with Hu : forall n a, In a [_] -> _ |- _ => apply (Hu m t); [now left|exact Hm] end.
  - split; [discriminate|].
    match goal with Ht : Forall named (_ ++ _ :: _) |- _ => apply Forall_app in Ht; destruct Ht as [N1 N2]; inversion N2; subst end.
    match goal with Hn : Forall no_factorial (_ :: _) |- _ => inversion Hn; subst end.
    constructor.
    + match goal with Hih : Forall named ts -> no_factorial t -> _ |- _ => apply Hih; auto end.
      intros m Hm. match goal with Hu : forall n a, In a (_ :: _) -> _ |- _ => apply (Hu m t); [now left|exact Hm] end.
    + match goal with Hih : Forall named ts' -> Forall no_factorial _ -> _ |- _ => apply Hih; auto end.
      intros m b Hb Hm. match goal with Hu : forall n a, In a (_ :: _) -> _ |- _ => apply (Hu m b); [now right|exact Hm] end.
Qed.

(** Every expression that plain parsing returns, with no factorial and with
    non-negative finite numbers, is printed as a text that parses to it: in the
    same context, and in either precedence mode. *)
Theorem C11_parsed_expressions : forall cfg cfg' w ctx input x,
  optimize cfg = false -> optimize cfg' = false -> fair_order w -> names_agree ctx ->
  parse cfg w ctx input = Parse_ok x -> no_factorial (root x) ->
  (forall n, sub (Number n) (root x) -> fis_finite n = true /\ Bsign n = false) ->
  parse cfg' w ctx (display_xprs x) = Parse_ok x.
Proof.
  intros cfg cfg' w ctx input x Ho Ho' Hf Hag Hx Hn Hu.
  assert (Hne : input <> "").
  { intros ->. rewrite parse_empty in Hx. destruct (overflow_checks cfg); discriminate Hx. }
  destruct (lexes_total (bytes input)) as [ts Hts].
  destruct (proj1 (C04_accepted_exactly cfg w ctx input ts (root x) Ho Hf Hne Hts) (ex_intro _ x (conj Hx eq_refl))) as [[q [n Hd]] Hdecl].
  assert (Hp : printable ctx (root x)).
  { destruct (derived_printable (pejmdas cfg) ctx true Hag) as [D _]. eapply D; eauto. eapply lexes_named; eauto. }
  destruct (C11_round_trip cfg' w ctx (root x) Ho' Hf Hp Hdecl) as [y [Hy Ey]]; [intros m Hm; now apply Hu|].
  unfold display_xprs. rewrite Hy. f_equal.
  (* the variables are determined by the tree *)
  assert (V : forall c i z, i <> "" -> parse c w ctx i = Parse_ok z -> vars z = find_variables (root z) []).
  { intros c i z Hi Hz. destruct (lexes_total (bytes i)) as [us Hus].
    pose proof (parse_outcome c w ctx i us Hi Hus) as E. rewrite Hz in E. cbn [outcome_of] in E. symmetry in E.
    apply token_gives in E. destruct E as [rest [_ E]]. exact E. }
  assert (Hne' : display_element (root x) <> "").
  { apply (tokens_nonempty _ _ (shown_tokens ctx _ Hp)). apply shown_nonempty. }
  pose proof (V _ _ _ Hne Hx) as V1. pose proof (V _ _ _ Hne' Hy) as V2.
  destruct x as [rx vx], y as [ry vy]. cbn [root vars] in *. subst. reflexivity.
Qed.

Lemma is_name_test : forall s, (match list_ascii_of_string s with c :: _ => a_letter c | [] => false end &&
  forallb in_name (list_ascii_of_string s))%bool = true -> is_name s.
Proof.
  intros s H. apply andb_true_iff in H. destruct H as [H1 H2]. apply is_name_check; [|exact H2].
  destruct (list_ascii_of_string s); [discriminate H1|exact H1].
Qed.

(** The default context satisfies the condition on names. *)
Lemma default_names_agree : names_agree ctx_default.
Proof.
  intros s f H _. change (identifier_from_str s = I_Function f) in H.
  change (is_name (fn_name f) /\ identifier_from_str (fn_name f) = I_Function f).
  unfold identifier_from_str in H.
  repeat match type of H with (if ?b then _ else _) = _ => destruct b;
    [first [discriminate H | injection H as <-; split; [apply is_name_test; reflexivity|reflexivity]]|] end.
  discriminate H.
Qed.

(** *** An example, and what lies outside *)
Fixpoint no_factorial_b (e : element) : bool :=
  match e with
  | Number _ | Var _ => true
  | BinOp op l r => negb (operator_eqb op Factorial) && (no_factorial_b l && no_factorial_b r)
  | UnOp op a => negb (operator_eqb op Factorial) && no_factorial_b a
  | Call f args => forallb no_factorial_b args
  end%bool.
Lemma no_factorial_test : forall e, no_factorial_b e = true -> no_factorial e.
Proof.
  induction e using element_ind'; cbn [no_factorial_b]; intro T.
  - constructor.
  - apply andb_true_iff in T. destruct T as [T1 T]. apply andb_true_iff in T. destruct T as [T2 T3].
    constructor; auto. intros ->. discriminate T1.
  - apply andb_true_iff in T. destruct T as [T1 T]. constructor; auto. intros ->. discriminate T1.
  - constructor. rewrite forallb_forall in T. rewrite Forall_forall in *. auto.
  - constructor.
Qed.
Fixpoint numbers_b (e : element) : bool :=
  match e with
  | Number n => fis_finite n && negb (Bsign n)
  | Var _ => true
  | BinOp _ l r => numbers_b l && numbers_b r
  | UnOp _ a => numbers_b a
  | Call _ args => forallb numbers_b args
  end%bool.
Lemma numbers_test : forall e, numbers_b e = true ->
  forall n, sub (Number n) e -> fis_finite n = true /\ Bsign n = false.
Proof.
  induction e using element_ind'; cbn [numbers_b]; intros T m S; inversion S; subst; eauto.
  - apply andb_true_iff in T. destruct T as [T1 T2]. now rewrite negb_true_iff in T2.
  - apply andb_true_iff in T. destruct T. eauto.
  - apply andb_true_iff in T. destruct T. eauto.
  - rewrite forallb_forall in T. rewrite Forall_forall in H. eauto.
Qed.

Example C11_round_trip_applies : exists x,
  parse plain_config w0 ctx_default "-x^2 + 0.1max(y, 3e-7)2.50 % (1 - a)(b)" = Parse_ok x /\
  display_xprs x = "((-(x ^ 2)) + ((((0.1 * max(y, 0.0000003)) * 2.5) % (1 - a)) * b))" /\
  parse pejmdas_plain w0 ctx_default (display_xprs x) = Parse_ok x.
Proof.
  set (text := "-x^2 + 0.1max(y, 3e-7)2.50 % (1 - a)(b)").
  destruct (parses_ok (parse plain_config w0 ctx_default text)) as [x Hx]; [vm_compute; reflexivity|].
  exists x. split; [exact Hx|].
  assert (E : display_xprs x = "((-(x ^ 2)) + ((((0.1 * max(y, 0.0000003)) * 2.5) % (1 - a)) * b))").
  { assert (H : ok_and (parse plain_config w0 ctx_default text)
       (fun x => String.eqb (display_xprs x) "((-(x ^ 2)) + ((((0.1 * max(y, 0.0000003)) * 2.5) % (1 - a)) * b))") = true) by (vm_compute; reflexivity).
    rewrite Hx in H. cbn [ok_and] in H. now apply String.eqb_eq in H. }
  split; [exact E|].
  apply (C11_parsed_expressions plain_config pejmdas_plain w0 ctx_default text x); [reflexivity|reflexivity|apply w0_fair|apply default_names_agree|exact Hx| |].
  - assert (H : ok_and (parse plain_config w0 ctx_default text) (fun x => no_factorial_b (root x)) = true) by (vm_compute; reflexivity).
    rewrite Hx in H. cbn [ok_and] in H. now apply no_factorial_test.
  - assert (H : ok_and (parse plain_config w0 ctx_default text) (fun x => numbers_b (root x)) = true) by (vm_compute; reflexivity).
    rewrite Hx in H. cbn [ok_and] in H. intros n Hn. now apply (numbers_test (root x)).
Qed.

(** A factorial is printed before its operand, and that text is rejected. *)
Theorem C11_factorials_do_not_read_back : exists x e,
  parse plain_config w0 ctx_default "x!" = Parse_ok x /\ display_xprs x = "(!x)" /\
  parse plain_config w0 ctx_default (display_xprs x) = Parse_err e.
Proof.
  destruct (parses_to (parse plain_config w0 ctx_default "x!") (UnOp Factorial (Var "x"))) as [x [Hx Ex]]; [vm_compute; reflexivity|].
  eexists x, _. split; [exact Hx|].
  unfold display_xprs. rewrite Ex. split; [reflexivity|]. vm_compute. reflexivity.
Qed.

(** A negative number put under a power by [simplify_for] changes the meaning of
    the text: (-2)^y is printed as "(-2 ^ y)", which reads as -(2^y). *)
Definition w_sq : world :=
  let f := fun x : f64 => x in
  let g := fun x y : f64 => fmul x x in
  mk_world f f f f f f f f f f f f g f f f f g g f false false (fun s => s) (fun _ _ => None).
Theorem C11_negative_bases_read_back_differently : exists x x' y,
  parse plain_config w_sq ctx_default "x^y" = Parse_ok x /\
  simplify_for plain_config w_sq x ("x", fneg (lit "2")) = Val x' /\
  display_xprs x' = "(-2 ^ y)" /\ parse plain_config w_sq ctx_default (display_xprs x') = Parse_ok y /\
  eval w_sq x' [("y", lit "2")] = Val (Eval_ok (lit "4")) /\
  eval w_sq y [("y", lit "2")] = Val (Eval_ok (fneg (lit "4"))).
Proof.
  destruct (parses_to (parse plain_config w_sq ctx_default "x^y") (BinOp Power (Var "x") (Var "y"))) as [x [Hx Ex]]; [vm_compute; reflexivity|].
  set (t := BinOp Power (Number (fneg (lit "2"))) (Var "y")).
  destruct (parses_to (parse plain_config w_sq ctx_default "(-2 ^ y)") (UnOp Minus (BinOp Power (Number (lit "2")) (Var "y")))) as [y [Hy Ey]]; [vm_compute; reflexivity|].
  exists x, (mk_xprs t (set_remove "x" (vars x))), y.
  assert (D : display_element t = "(-2 ^ y)") by (apply String.eqb_eq; vm_compute; reflexivity).
  split; [exact Hx|]. split; [|split; [exact D|split; [|split]]].
  - unfold simplify_for, simplify_for_in_place. rewrite Ex. cbn [fst snd].
    assert (S : match el_simplify_for plain_config w_sq "x" (fneg (lit "2")) (BinOp Power (Var "x") (Var "y")) with
                | Val e => same_tree e t | Boom _ => false end = true) by (vm_compute; reflexivity).
    destruct (el_simplify_for _ _ _ _ _) as [e|]; [|discriminate S]. apply same_tree_eq in S. subst e. reflexivity.
  - unfold display_xprs. cbn [root]. rewrite D. exact Hy.
  - apply eval_check. vm_compute. reflexivity.
  - unfold eval. rewrite Ey. apply eval_check. vm_compute. reflexivity.
Qed.

(** An overflowing literal is printed as a word that reads as a variable. *)
Theorem C11_infinities_read_back_as_names : exists x y,
  parse plain_config w0 ctx_default "1e999" = Parse_ok x /\ display_xprs x = "inf" /\
  parse plain_config w0 ctx_default (display_xprs x) = Parse_ok y /\ root y = Var "inf".
Proof.
  destruct (parses_to (parse plain_config w0 ctx_default "1e999") (Number finf)) as [x [Hx Ex]]; [vm_compute; reflexivity|].
  destruct (parses_to (parse plain_config w0 ctx_default "inf") (Var "inf")) as [y [Hy Ey]]; [vm_compute; reflexivity|].
  exists x, y. split; [exact Hx|]. unfold display_xprs. rewrite Ex. split; [reflexivity|]. split; [exact Hy|exact Ey].
Qed.

(** A function is printed by its own name; if the context uses that name for
    something else, the text reads as something else. *)
Theorem C11_shadowed_names_read_back_differently : exists x y,
  let ctx := with_var ctx_default "recip" (lit "3") in
  parse plain_config w0 ctx "invert(x)" = Parse_ok x /\ display_xprs x = "recip(x)" /\
  parse plain_config w0 ctx (display_xprs x) = Parse_ok y /\ root y = BinOp Times (Number (lit "3")) (Var "x").
Proof.
  cbv zeta. set (ctx := with_var ctx_default "recip" (lit "3")).
  destruct (parses_to (parse plain_config w0 ctx "invert(x)") (Call (builtin_function B_RECIP) [Var "x"])) as [x [Hx Ex]]; [vm_compute; reflexivity|].
  destruct (parses_to (parse plain_config w0 ctx "recip(x)") (BinOp Times (Number (lit "3")) (Var "x"))) as [y [Hy Ey]]; [vm_compute; reflexivity|].
  exists x, y. split; [exact Hx|]. unfold display_xprs. rewrite Ex. split; [reflexivity|]. split; [exact Hy|exact Ey].
Qed.

(** ** C50: the text of a number *)
(** [spelled text c p]: digits and at most one point that write c * 10^p, with
    exactly as many digits after the point as p asks for (no exponent, no
    trailing ".0"), and no zero in front except a single one before the point. *)
Definition spelled (text : string) (c p : Z) : Prop :=
  exists m, mantissa (bytes text) m (Z.to_nat (- p)) /\ m = (c * 10 ^ (Z.max 0 p))%Z /\
    match bytes text with
    | z :: rest => z = "0"%char -> match rest with d :: _ => d = "."%char | [] => True end
    | [] => False
    end.

Lemma positional_spelled : forall c p, (0 < c)%Z -> spelled (string_of_list_ascii (positional c p)) c p.
Proof.
  intros c p Hc. unfold spelled, bytes. rewrite las_sol. unfold positional.
  destruct (digits_of_spec (Z.to_N c)) as [Hd [Hn Hv]]. rewrite Z2N.id in Hv by lia.
  destruct (digits_of_head (Z.to_N c)) as [d0 [l0 [E0 N0]]]; [lia|].
  set (ds := digits_of (Z.to_N c)) in *. destruct (Z.leb_spec 0 p) as [Hp|Hp].
  - exists (digits_value (ds ++ repeat "0"%char (Z.to_nat p))). split; [|split].
    + replace (Z.to_nat (- p)) with 0%nat by lia.
      apply M_integer; [apply Forall_app; split; [exact Hd|apply zeros_digits]|]. intro E. apply app_eq_nil in E. tauto.
    + rewrite digits_value_app, digits_value_zeros, repeat_length, Hv, Z2Nat.id by auto. rewrite Z.max_r by auto. lia.
    + rewrite E0. cbn. intro. contradiction.
  - set (k := Z.to_nat (- p)). replace (Z.max 0 p) with 0%Z by lia.
    destruct (Nat.leb_spec (List.length ds) k) as [Hl|Hl].
    + exists (digits_value (["0"%char] ++ (repeat "0"%char (k - List.length ds) ++ ds))). split; [|split].
      * replace k with (List.length (repeat "0"%char (k - List.length ds) ++ ds)) at 3 by (rewrite app_length, repeat_length; lia).
        apply (M_point ["0"%char]); [repeat constructor; unfold decimal_digit; cbn; lia|apply Forall_app; split; [apply zeros_digits|auto]|discriminate].
      * rewrite !digits_value_app, digits_value_zeros, Hv. cbn [digits_value]. cbn. lia.
      * reflexivity.
    + exists (digits_value (firstn (List.length ds - k) ds ++ skipn (List.length ds - k) ds)). split; [|split].
      * replace k with (List.length (skipn (List.length ds - k) ds)) at 5 by (rewrite skipn_length; lia).
        apply M_point.
        -- apply Forall_forall. intros x Hx. eapply Forall_forall; [exact Hd|]. rewrite <- (firstn_skipn (List.length ds - k) ds). apply in_or_app. auto.
        -- apply Forall_forall. intros x Hx. eapply Forall_forall; [exact Hd|]. rewrite <- (firstn_skipn (List.length ds - k) ds). apply in_or_app. auto.
        -- rewrite firstn_skipn. exact Hn.
      * rewrite firstn_skipn, Hv. cbn. lia.
      * rewrite E0 in *. destruct (List.length (d0 :: l0) - k)%nat eqn:El; [lia|]. cbn. intro. contradiction.
Qed.

(** The text of a positive number reads back as it, and no decimal with fewer
    significant digits does; of the decimals with as many places, it is the nearest. *)
Theorem C50_shortest_text : forall v : f64, fis_finite v = true -> (0 < B2R v)%R ->
  exists c p, (0 < c)%Z /\ spelled (display_f64 v) c p /\
    correctly_rounded (IZR c * powerRZ 10 p) v /\
    (forall c' p', (0 < c')%Z -> correctly_rounded (IZR c' * powerRZ 10 p') v ->
       (p' <= p)%Z /\ forall n, (0 <= n)%Z -> (c' < 10 ^ n)%Z -> (c < 10 ^ n)%Z) /\
    (forall c', (0 < c')%Z -> correctly_rounded (IZR c' * powerRZ 10 p) v ->
       (Rabs (IZR c * powerRZ 10 p - B2R v) <= Rabs (IZR c' * powerRZ 10 p - B2R v))%R).
Proof.
  intros v Hf Hv.
  assert (Hs : Bsign v = false).
  { destruct v as [s|s| |s m e B]; try discriminate Hf; cbn in Hv; [lra|]. destruct s; [|reflexivity]. exfalso.
    cbn in Hv. unfold Defs.F2R in Hv. cbn in Hv. pose proof (Raux.bpow_gt_0 Zaux.radix2 e).
    pose proof (IZR_lt (Z.neg m) 0 ltac:(lia)). nra. }
  destruct (display_unsigned v (conj Hf Hs)) as [c [p [_ [Et [_ Hb]]]]]. specialize (Hb Hv).
  pose proof Hb as [Hc [Hr [Hna Hcl]]]. exists c, p. split; [exact Hc|]. rewrite Et.
  split; [now apply positional_spelled|]. split; [exact Hr|]. split; [|exact Hcl].
  intros c' p' Hc' Hr'. split; [now apply (Hna c')|]. intros n Hn Hl. eapply best_fewest; eauto.
Qed.

(** Every finite number without sign, zero included, reads back as a literal. *)
Theorem C50_reads_back : forall cfg w ctx v, optimize cfg = false -> fair_order w ->
  fis_finite v = true -> Bsign v = false ->
  exists x, parse cfg w ctx (display_f64 v) = Parse_ok x /\ root x = Number v /\
    forall rho, eval w x rho = Val (Eval_ok v).
Proof.
  intros cfg w ctx v Ho Hf Hv Hs.
  destruct (C11_round_trip cfg w ctx (Number v) Ho Hf) as [x [Hx Ex]].
  - now apply PR_number.
  - intros s _ y Hy. inversion Hy.
  - intros n Hn. inversion Hn; subst. exact Hs.
  - exists x. split; [exact Hx|]. split; [exact Ex|]. intro rho. unfold eval. rewrite Ex. reflexivity.
Qed.

(** Different numbers have different texts. *)
Theorem C50_texts_distinct : forall v v', display_f64 v = display_f64 v' -> v = v'.
Proof.
  assert (Hr : forall v, unsigned v -> literal_value (display_f64 v) = Some v) by apply display_reads.
  assert (Hhead : forall v, unsigned v -> exists d l, bytes (display_f64 v) = d :: l /\ decimal_digit d).
  { intros v Hv. destruct (display_unsigned v Hv) as [c [p [_ [E _]]]]. rewrite E. unfold bytes. rewrite las_sol. apply positional_head. }
  assert (Hcase : forall v, (v = fnan) \/ (v = finf) \/ (v = fneg finf) \/ unsigned v \/
     (fis_finite v = true /\ Bsign v = true)).
  { intros [s|s| |s m e B]; auto; destruct s; cbn; unfold unsigned; cbn; auto 7. }
  assert (Hd : forall c, decimal_digit c -> c <> "N"%char /\ c <> "i"%char /\ c <> "-"%char).
  { intros c Hc. unfold decimal_digit in Hc. repeat split; intros ->; cbn in Hc; lia. }
  assert (Hpos : forall v s a, unsigned v -> display_f64 v = String a s -> decimal_digit a).
  { intros v s a Hv E. destruct (Hhead v Hv) as [d [l [E' D]]]. rewrite E in E'. cbn in E'. injection E' as -> _. exact D. }
  assert (Hneg : forall v, fis_finite v = true -> Bsign v = true -> exists d s, display_f64 v = String "-" (String d s) /\ decimal_digit d).
  { intros v Hv Hs. destruct (display_signed v Hv Hs) as [E U]. destruct (Hhead _ U) as [d [l [E' D]]].
    rewrite E. destruct (display_f64 (fneg v)) as [|a s] eqn:Es; [discriminate E'|]. cbn in E'. injection E' as -> _.
    exists d, s. split; [reflexivity|exact D]. }
  assert (Hsym : forall v v', display_f64 v = display_f64 v' -> unsigned v -> v = v').
  { intros v v' E U. destruct (Hcase v') as [->|[->|[->|[U'|[H1 H2]]]]].
    - exfalso. destruct (Hd _ (Hpos v _ _ U E)) as [N _]. now apply N.
    - exfalso. destruct (Hd _ (Hpos v _ _ U E)) as [_ [N _]]. now apply N.
    - exfalso. destruct (Hd _ (Hpos v _ _ U E)) as [_ [_ N]]. now apply N.
    - pose proof (Hr v U) as R1. pose proof (Hr v' U') as R2. rewrite E in R1. congruence.
    - exfalso. destruct (Hneg v' H1 H2) as [d [s [E' _]]]. rewrite E' in E. destruct (Hd _ (Hpos v _ _ U E)) as [_ [_ N]]. now apply N. }
  intros v v' E. destruct (Hcase v) as [->|[->|[->|[U|[H1 H2]]]]].
  - destruct (Hcase v') as [->|[->|[->|[U'|[H1' H2']]]]]; try reflexivity; try discriminate E.
    + symmetry. apply Hsym; auto.
    + destruct (Hneg v' H1' H2') as [d [s [E' _]]]. rewrite E' in E. discriminate E.
  - destruct (Hcase v') as [->|[->|[->|[U'|[H1' H2']]]]]; try reflexivity; try discriminate E.
    + symmetry. apply Hsym; auto.
    + destruct (Hneg v' H1' H2') as [d [s [E' _]]]. rewrite E' in E. discriminate E.
  - destruct (Hcase v') as [->|[->|[->|[U'|[H1' H2']]]]]; try reflexivity; try discriminate E.
    + symmetry. apply Hsym; auto.
    + destruct (Hneg v' H1' H2') as [d [s [E' D]]]. rewrite E' in E. cbn in E. injection E as <- _. exfalso.
      destruct (Hd _ D) as [_ [N _]]. now apply N.
  - apply Hsym; auto.
  - destruct (Hcase v') as [->|[->|[->|[U'|[H1' H2']]]]].
    + destruct (Hneg v H1 H2) as [d [s [E' _]]]. rewrite E' in E. discriminate E.
    + destruct (Hneg v H1 H2) as [d [s [E' _]]]. rewrite E' in E. discriminate E.
    + destruct (Hneg v H1 H2) as [d [s [E' D]]]. rewrite E' in E. cbn in E. injection E as -> _. exfalso.
      destruct (Hd _ D) as [_ [N _]]. now apply N.
    + symmetry. apply Hsym; auto.
    + destruct (display_signed v H1 H2) as [E1 U1]. destruct (display_signed v' H1' H2') as [E2 U2].
      rewrite E1, E2 in E. cbn in E. injection E as E. pose proof (Hsym _ _ E U1) as X.
      rewrite <- (fneg_fneg v), X. apply fneg_fneg.
Qed.

(** Signs, zeros and special values. *)
Theorem C50_special_texts : forall v,
  (v = fnan -> display_f64 v = "NaN") /\ (v = finf -> display_f64 v = "inf") /\
  (v = fzero -> display_f64 v = "0") /\
  (v <> fnan -> Bsign v = false -> display_f64 (fneg v) = "-" ++ display_f64 v).
Proof.
  intro v. repeat split; try (intros ->; reflexivity).
  intros Hn Hs. destruct v as [s|s| |s m e B]; cbn in Hs; try subst s; try reflexivity; [now destruct Hn|].
  cbn [display_f64 fneg Bopp fabs Babs negb]. destruct (shortest_decimal _ m e) as [c p]. reflexivity.
Qed.

Example C50_examples :
  display_f64 (fadd (lit "0.1") (lit "0.2")) = "0.30000000000000004" /\
  display_f64 (lit "1e21") = "1000000000000000000000" /\
  display_f64 (fneg (lit "1234.50")) = "-1234.5" /\
  display_f64 (lit "5e-7") = "0.0000005" /\
  display_f64 (fdiv (lit "1") (lit "3")) = "0.3333333333333333" /\
  display_f64 f64_PI = "3.141592653589793".
Proof. repeat split; apply String.eqb_eq; vm_compute; reflexivity. Qed.
