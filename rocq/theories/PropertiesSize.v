(** * The size of a parsed expression (C64) *)
From Coq Require Import ZArith NArith List String Ascii Bool Lia.
From Verif Require Import SpecChars CharFacts.
From Verif Require Import F64 Syntax Factorial Builtins Context Element Parser Xprs.
From Verif Require Import ParserFacts SpecParse SpecTree TreeFacts SimplifyFacts SpecApi ParserResults.
From Verif Require Import SpecTokens SpecGrammar SpecRegular TokenFacts LexFacts LexExec TokenParser TokenSim TokenMono GrammarFacts GrammarEquiv JuxtaFacts.
From Verif Require Import RegularFacts TestWorld PropertiesParse PropertiesGrammar PropertiesEval PropertiesSimplify PropertiesOptimise PropertiesDefault.
Import ListNotations.
Local Open Scope nat_scope.

(** How deeply operations and calls are nested: the depth to which evaluating,
    simplifying, printing and dropping the expression recurse. *)
Fixpoint height (e : element) : nat :=
  match e with
  | Number _ | Var _ => 1
  | BinOp _ l r => 1 + Nat.max (height l) (height r)
  | UnOp _ a => 1 + height a
  | Call _ args => 1 + fold_right (fun a n => Nat.max (height a) n) 0 args
  end.

Lemma height_nodes : forall e, height e <= nodes e.
Proof.
  induction e as [n|op l r IHl IHr|op e IHe|f args Hargs|x] using element_ind'; cbn [height nodes]; try lia.
  assert (fold_right (fun a n => Nat.max (height a) n) 0 args <= fold_right (fun a n => nodes a + n) 0 args); [|lia].
  induction Hargs as [|a l Ha _ IH]; cbn; lia.
Qed.

Lemma nodes_pos : forall e, 1 <= nodes e.
Proof. destruct e; cbn; lia. Qed.

Definition total (args : list element) : nat := fold_right (fun a n => nodes a + n) 0 args.
Lemma total_app : forall a b, total (a ++ b) = total a + total b.
Proof. induction a as [|x a IH]; intro b; cbn; [reflexivity|]. fold (total (a ++ b)). rewrite IH. fold (total a). lia. Qed.

Section Bound.
  Variable cfg : config.
  Variable w : world.
  Variable ctx : context.

  (** A result that pays for itself: at most two nodes per token, less one. *)
  Definition paid (ts : list token) (r : tres element) : Prop :=
    match r with TOk e rest => nodes e + 1 + 2 * List.length rest <= 2 * List.length ts | _ => True end.

  Lemma consume_length : forall c ts b r, t_consume c ts = (b, r) ->
    if b then List.length ts = S (List.length r) else r = ts.
  Proof.
    intros c ts b r H. destruct ts as [|[s|s|k] ts]; cbn in H; try (injection H as <- <-; reflexivity).
    destruct (Ascii.eqb k c); injection H as <- <-; reflexivity.
  Qed.

  Section Open.
    Variable elem : nat -> list token -> tres element.
    Hypothesis He : forall p ts, paid ts (elem p ts).

    Lemma goi_length : forall el p ts o r, t_goi cfg el p ts = (o, r) -> List.length r <= List.length ts.
    Proof.
      intros el p ts o r H. unfold t_goi in H. destruct ts as [|t ts]; [injection H as <- <-; auto|].
      destruct (match t with TSym c => operator_of_byte c | _ => None end) as [op|].
      - destruct (get_for_op op <=? p); injection H as <- <-; cbn; lia.
      - destruct (implicit_precedence cfg <=? p); [injection H as <- <-; auto|].
        destruct (juxtaposable _ _); injection H as <- <-; auto.
    Qed.

    Lemma paid_loop : forall b p el ts N, nodes el + 1 + 2 * List.length ts <= N ->
      match t_loop cfg elem b p el ts with TOk e rest => nodes e + 1 + 2 * List.length rest <= N | _ => True end.
    Proof.
      induction b as [|b IH]; intros p el ts N H; cbn [t_loop]; auto.
      destruct (t_goi cfg el p ts) as [[[op k]|] r] eqn:G; pose proof (goi_length _ _ _ _ _ G) as L.
      - pose proof (He k r) as P. destruct (elem k r) as [rhs r'| | |]; cbn [tbind]; auto. cbn [paid] in P.
        apply IH. cbn [nodes]. lia.
      - lia.
    Qed.

    Lemma paid_arguments : forall b acc ts,
      match t_arguments elem b acc ts with
      | TOk args rest => total args + 1 + 2 * List.length rest <= total acc + 2 * List.length ts
      | _ => True
      end.
    Proof.
      induction b as [|b IH]; intros acc ts; cbn [t_arguments]; auto.
      unfold t_argument. pose proof (He NO_PRECEDENCE ts) as P.
      destruct (elem NO_PRECEDENCE ts) as [arg r|k f u|p|]; cbn [tbind]; auto; [|destruct k; cbn; auto].
      cbn [paid] in P. destruct r as [|t r]; auto. destruct t as [s|s|c]; auto.
      assert (T : total (acc ++ [arg]) = total acc + nodes arg) by (rewrite total_app; cbn; lia).
      destruct (Ascii.eqb c ",").
      - specialize (IH (acc ++ [arg]) r). destruct (t_arguments elem b (acc ++ [arg]) r); auto. cbn [List.length] in P. lia.
      - destruct (Ascii.eqb c ")"); auto. rewrite T. lia.
    Qed.

    Lemma paid_atom : forall b ts, paid ts (t_atom ctx elem b ts).
    Proof.
      intros b [|[s|s|c] ts]; cbn [t_atom]; [exact I| | |].
      - unfold t_number. destruct (parse_f64 _); cbn; auto. lia.
      - unfold t_identifier. destruct (resolve ctx s) as [f|v|x].
        + destruct (t_consume "(" ts) as [[|] r] eqn:C; [|exact I]. apply consume_length in C.
          pose proof (paid_arguments b [] r) as P. destruct (t_arguments elem b [] r) as [args r2| | |]; cbn [tbind]; try exact I.
          unfold t_assert. destruct (t_consume ")" r2) as [[|] r3] eqn:C2; cbn [tbind]; [|exact I]. apply consume_length in C2.
          assert (Q : paid (TId s :: ts) (TOk (Call f args) r3)).
          { cbn [paid nodes List.length]. fold (total args). cbn [total fold_right] in P. unfold total in *. lia. }
          unfold t_arity. destruct (fn_nb_args f); [destruct (Nat.compare _ _); try exact I|]; exact Q.
        + cbn. lia.
        + cbn. lia.
      - destruct (Ascii.eqb c "+"); [|destruct (Ascii.eqb c "-"); [|destruct (Ascii.eqb c "("); [|destruct (Ascii.eqb c ")"); exact I]]].
        + pose proof (He UNOP_PRECEDENCE ts) as P. destruct (elem UNOP_PRECEDENCE ts); cbn in *; auto. lia.
        + pose proof (He UNOP_PRECEDENCE ts) as P. destruct (elem UNOP_PRECEDENCE ts); cbn in *; auto. lia.
        + pose proof (He NO_PRECEDENCE ts) as P. destruct (elem NO_PRECEDENCE ts) as [e r| | |]; cbn [tbind]; try exact I.
          unfold t_assert. destruct (t_consume ")" r) as [[|] r3] eqn:C2; cbn [tbind]; [|exact I]. apply consume_length in C2.
          cbn [paid List.length] in *. lia.
    Qed.
  End Open.

  Lemma finish_size : forall e e', finish_element cfg w e = Val e' -> nodes e' <= nodes e.
  Proof.
    intros e e' H. unfold finish_element in H. destruct (optimize cfg); [|injection H as <-; auto].
    rewrite !nodes_size. eapply simplify_size; eauto.
  Qed.

  Lemma paid_element : forall b p ts, paid ts (t_element cfg w ctx b p ts).
  Proof.
    induction b as [|b IH]; intros p ts; cbn [t_element]; [exact I|].
    pose proof (paid_atom (t_element cfg w ctx b) IH b ts) as P.
    destruct (t_atom ctx (t_element cfg w ctx b) b ts) as [el r| | |]; cbn [tbind]; try exact I. cbn [paid] in P.
    destruct (t_consume "!" r) as [bang r2] eqn:C. apply consume_length in C.
    assert (Q : nodes (if bang then UnOp Factorial el else el) + 1 + 2 * List.length r2 <= 2 * List.length ts).
    { destruct bang; cbn [nodes]; [lia|]. subst r2. exact P. }
    pose proof (paid_loop (t_element cfg w ctx b) IH b p _ r2 _ Q) as L.
    destruct (t_loop cfg (t_element cfg w ctx b) b p _ r2) as [el2 r3| | |]; cbn [tbind]; try exact I.
    unfold t_lift. destruct (finish_element cfg w el2) as [e'|] eqn:F; [|exact I]. apply finish_size in F. cbn [paid]. lia.
  Qed.
End Bound.

Lemma lexes_length : forall s ts, lexes s ts -> List.length ts <= List.length s.
Proof.
  induction 1 as [|c s ts Hw H IH|m s ts Hm H IH|m s ts Hm H IH|c s ts Hw Hd Hp Ha H IH]; cbn; try lia.
  - apply number_token_head in Hm. rewrite app_length. destruct m; [destruct Hm|]. cbn. lia.
  - destruct Hm as [Hm _]. rewrite app_length. destruct m; [destruct Hm|]. cbn. lia.
Qed.

(** An expression has at most two nodes per token of its text, less one; hence
    per byte.  Every configuration, every accepted text. *)
Theorem C64_size_linear : forall cfg w ctx input ts x, tokens_of input ts -> parse cfg w ctx input = Parse_ok x ->
  nodes (root x) + 1 <= 2 * List.length ts /\ List.length ts <= String.length input /\ height (root x) <= nodes (root x).
Proof.
  intros cfg w ctx input ts x Hts Hx.
  assert (Hne : input <> ""%string).
  { intros ->. rewrite parse_empty in Hx. destruct (overflow_checks cfg); discriminate Hx. }
  pose proof (parse_outcome cfg w ctx input ts Hne Hts) as Hp. rewrite Hx in Hp. cbn [outcome_of] in Hp. symmetry in Hp.
  destruct (token_gives _ _ _ _ Hp) as [rest [E _]]. unfold t_parse in E.
  pose proof (paid_element cfg w ctx (parse_budget input) NO_PRECEDENCE ts) as P.
  destruct (t_element cfg w ctx (parse_budget input) NO_PRECEDENCE ts) as [t r| | |]; cbn [tbind] in E; try discriminate E.
  destruct r as [|u r]; [|discriminate E]. assert (Et : t = root x) by congruence. subst t. cbn [paid] in P. cbn [List.length] in P. split; [lia|]. split; [|apply height_nodes].
  apply lexes_length in Hts. rewrite <- (string_of_list_ascii_of_string input). now rewrite string_length_list.
Qed.

(** The bound is reached: "2x" has three nodes. *)
Example C64_size_tight : exists x, parse debug_plain w0 ctx_default "2x" = Parse_ok x /\ nodes (root x) + 1 = 2 * String.length "2x".
Proof.
  destruct (ok_and_spec (parse debug_plain w0 ctx_default "2x") (fun x => Nat.eqb (nodes (root x)) 3)) as [x [Hx E]]; [vm_compute; reflexivity|].
  exists x. split; [exact Hx|]. apply Nat.eqb_eq in E. rewrite E. reflexivity.
Qed.

(** ** Nesting has no limit of its own *)
Fixpoint nested_text (n : nat) : string :=
  match n with 0 => "x"%string | S n => ("sin(" ++ nested_text n ++ ")")%string end.
Fixpoint nested_tokens (n : nat) : list token :=
  match n with 0 => [TId "x"] | S n => TId "sin" :: TSym "(" :: nested_tokens n ++ [TSym ")"] end.
Fixpoint nested_tree (n : nat) : element :=
  match n with 0 => Var "x" | S n => Call (builtin_function B_SIN) [nested_tree n] end.

Lemma nested_lexes : forall n, tokens_of (nested_text n) (nested_tokens n).
Proof.
  induction n as [|n IH]; [apply tokens_check; vm_compute; reflexivity|]. cbn [nested_text nested_tokens].
  apply tokens_parens in IH. unfold tokens_of in *.
  change (list_ascii_of_string ("sin(" ++ nested_text n ++ ")")) with (list_ascii_of_string "sin" ++ list_ascii_of_string ("(" ++ nested_text n ++ ")")).
  change (TId "sin") with (TId (string_of_list_ascii (list_ascii_of_string "sin"))).
  apply L_name; [|exact IH]. split; [reflexivity|]. split; [repeat constructor|]. cbn. discriminate.
Qed.

Lemma nested_sentence : forall pj n, prim pj ctx_default (nested_tokens n) (nested_tree n).
Proof.
  induction n as [|n IH]; cbn [nested_tokens nested_tree]; [now apply P_variable|].
  apply P_call; [reflexivity| |reflexivity]. apply A_last, U_term, T_factor, K_signed, S_power, W_postfix, F_prim. exact IH.
Qed.

Lemma nested_adjacent : forall n P, adjacent P (nested_tokens n) ->
  P (TSym ")") (TSym ")") \/ P (TId "sin") (TSym "(") \/ P (TSym "(") (TId "sin") \/ P (TSym "(") (TId "x") \/ P (TId "x") (TSym ")").
Proof.
  assert (H : forall n P r, adjacent P (nested_tokens n ++ r) ->
    P (TSym ")") (TSym ")") \/ P (TId "sin") (TSym "(") \/ P (TSym "(") (TId "sin") \/ P (TSym "(") (TId "x") \/ P (TId "x") (TSym ")") \/
    (exists c r', r = c :: r' /\ P (TId "x") c) \/ (exists c r', r = c :: r' /\ P (TSym ")") c) \/ adjacent P r).
  { induction n as [|n IH]; intros P r [u [a [b [v [E HP]]]]]; cbn [nested_tokens app] in E.
    - destruct u as [|y u]; cbn in E; injection E as <- E; [subst r; do 5 right; left; eauto|].
      do 7 right. exists u, a, b, v. auto.
    - destruct u as [|y u]; cbn in E; [injection E as <- <- E; auto|injection E as <- E].
      destruct u as [|y u]; cbn in E; injection E as <- E.
      + destruct n; cbn in E; injection E as <- E; auto.
      + rewrite <- app_assoc in E. destruct (IH P ([TSym ")"] ++ r)) as [K|[K|[K|[K|[K|[K|[K|K]]]]]]]; auto 10.
        * exists u, a, b, v. auto.
        * destruct K as [c [r' [K1 K2]]]. injection K1 as <- <-. auto 10.
        * destruct K as [c [r' [K1 K2]]]. injection K1 as <- <-. auto 10.
        * destruct K as [u' [a' [b' [v' [K1 K2]]]]]. destruct u' as [|y' u']; cbn in K1; injection K1 as <- K1.
          -- do 6 right. left. eauto.
          -- do 7 right. exists u', a', b', v'. auto. }
  intros n P Ha. destruct (H n P [] ltac:(now rewrite app_nil_r)) as [K|[K|[K|[K|[K|[K|[K|K]]]]]]]; auto.
  - destruct K as [c [r' [K _]]]. discriminate K.
  - destruct K as [c [r' [K _]]]. discriminate K.
  - destruct K as [u [a [b [v [K _]]]]]. destruct u; discriminate K.
Qed.

Lemma nested_clear : forall n, clear_tokens ctx_default (nested_tokens n).
Proof.
  intro n. split; intro H; apply nested_adjacent in H; cbn in H.
  - intuition discriminate.
  - destruct H as [H|[H|[H|[H|H]]]]; destruct H as [_ [s H]]; discriminate H.
Qed.

Lemma nested_fixed : forall cfg w n, simplify cfg w (nested_tree n) = Val (nested_tree n).
Proof.
  intros cfg w. induction n as [|n IH]; [reflexivity|]. cbn [nested_tree simplify map_out]. rewrite IH. cbn [bind].
  unfold simplify_call. destruct n; reflexivity.
Qed.

Lemma nested_kept : forall cfg w e t, simplified_from cfg w e t -> forall n, e = nested_tree n -> t = nested_tree n.
Proof.
  intros cfg w. apply (simplified_ind2 cfg w (fun e t _ => forall n, e = nested_tree n -> t = nested_tree n)
    (fun l l' _ => forall n, l = [nested_tree n] -> l' = [nested_tree n])).
  - intros v n E. exact E.
  - intros v n E. exact E.
  - intros op l r l' r' _ _ _ _ n E. destruct n; discriminate E.
  - intros op a a' _ _ n E. destruct n; discriminate E.
  - intros f args args' _ IH n E. destruct n as [|n]; [discriminate E|]. cbn in E. injection E as -> ->. cbn. f_equal. now apply IH.
  - intros a a1 a2 _ IH S n E. rewrite (IH n E) in S. rewrite nested_fixed in S. congruence.
  - intros n E. discriminate E.
  - intros a a' l l' _ IH Sl _ n E. injection E as -> ->. inversion Sl. f_equal. now apply IH.
Qed.

Theorem C64_nesting_unbounded : forall cfg w n, fair_order w ->
  exists x, parse cfg w ctx_default (nested_text n) = Parse_ok x /\ height (root x) = n + 1 /\
    String.length (nested_text n) = 5 * n + 1.
Proof.
  intros cfg w n Hf.
  assert (S : sentence (pejmdas cfg) ctx_default (nested_tokens n) (nested_tree n)).
  { apply U_term, T_factor, K_signed, S_power, W_postfix, F_prim, nested_sentence. }
  assert (D : declared ctx_default (nested_tree n)) by (intros l Hl; discriminate Hl).
  assert (E : exists x, parse cfg w ctx_default (nested_text n) = Parse_ok x /\ root x = nested_tree n).
  { destruct (optimize cfg) eqn:Ho.
    - destruct (C05_default_sentences_are_accepted cfg w ctx_default _ _ _ Ho Hf (default_context_returns w) (nested_lexes n) (nested_clear n) S D) as [x [Hx [Z _]]].
      exists x. split; [exact Hx|]. eapply nested_kept; eauto.
    - exact (C05_sentences_are_accepted cfg w ctx_default _ _ _ Ho Hf (nested_lexes n) S D). }
  destruct E as [x [Hx Ex]]. exists x. split; [exact Hx|]. rewrite Ex. split.
  - clear. induction n as [|n IH]; cbn [nested_tree height fold_right]; lia.
  - clear. induction n as [|n IH]; [reflexivity|]. cbn [nested_text]. cbn [String.append String.length].
    assert (A : forall a b, String.length (a ++ b) = String.length a + String.length b) by (induction a as [|c a IHa]; intro b; cbn; [|rewrite IHa]; reflexivity).
    rewrite A, IH. cbn. lia.
Qed.
