(** * C12: numeric literals *)
From Coq Require Import ZArith NArith List String Ascii Bool Lia Reals Lra.
From Flocq Require Import Core BinarySingleNaN.
From Verif Require Import SpecChars CharFacts.
From Verif Require Import F64 Syntax Factorial Builtins Context Element Parser Xprs.
From Verif Require Import ParserFacts SpecParse SpecTree TreeFacts ParserResults SpecTokens SpecGrammar SpecNumber SpecNames.
From Verif Require Import FloatFacts NumberFacts ConstantFacts TokenFacts LexFacts LexExec TokenParser TokenSim TokenMono GrammarFacts.
From Verif Require Import TestWorld PropertiesParse PropertiesGrammar PropertiesNames.
Import ListNotations.
Local Open Scope string_scope.

Lemma literal_outcome : forall cfg w ctx input s, tokens_of input [TNum s] ->
  outcome_of (parse cfg w ctx input) =
  match literal_value s with
  | Some v => token_outcome w ctx (TOk (Number v) [])
  | None => Fails (MalformedNumber s)
  end.
Proof.
  intros cfg w ctx input s Hts.
  assert (Hne : input <> "") by (apply (tokens_nonempty input [TNum s]); [exact Hts|discriminate]).
  rewrite (parse_outcome cfg w ctx input [TNum s] Hne Hts).
  assert (E : t_parse cfg w ctx (parse_budget input) [TNum s] =
    match literal_value s with Some v => TOk (Number v) [] | None => TErr (MalformedNumber s) [TNum s] [TNum s] end).
  { unfold t_parse, parse_budget. cbn [Nat.add t_element t_atom]. unfold t_number. fold (literal_value s).
    destruct (literal_value s); cbn; auto. unfold finish_element. destruct (optimize cfg); reflexivity. }
  rewrite E. now destruct (literal_value s).
Qed.

(** A number token evaluates to the f64 nearest to the decimal it writes, of any
    length; one that writes no decimal number is an error. *)
Theorem C12_literals_correctly_rounded : forall cfg w ctx input s,
  fair_order w -> tokens_of input [TNum s] ->
  (forall d, decimal s d -> exists v,
     parse cfg w ctx input = Parse_ok (mk_xprs (Number v) []) /\ correctly_rounded d v) /\
  ((forall d, ~ decimal s d) -> outcome_of (parse cfg w ctx input) = Fails (MalformedNumber s)).
Proof.
  intros cfg w ctx input s Hf Hts. pose proof (literal_outcome cfg w ctx input s Hts) as H. split.
  - intros d Hd.
    assert (Hv : exists v, correctly_rounded d v).
    { destruct Hd as [a [b [m [k [x [_ [Hm [_ ->]]]]]]]]. assert (Hp : (0 <= m)%Z).
      { inversion Hm; subst; apply digits_value_nonneg; auto. apply Forall_app; auto. }
      exists (f64_of_dec (Z.to_N m) (x - Z.of_nat k)). pose proof (f64_of_dec_correct (Z.to_N m) (x - Z.of_nat k)) as H'.
      now rewrite Z2N.id in H' by auto. }
    destruct Hv as [v Hv]. exists v. split; auto.
    assert (E : literal_value s = Some v) by (apply parse_f64_correct; eauto). rewrite E in H.
    rewrite (constant_outcome w ctx v Hf) in H. now apply outcome_gives.
  - intro Hn. destruct (literal_value s) as [v|] eqn:E; auto. exfalso.
    apply parse_f64_correct in E. destruct E as [d [Hd _]]. now apply (Hn d).
Qed.

(** The same inside any expression: the grammar's literals. *)
Theorem C12_literals_in_expressions : forall s v,
  literal_value s = Some v <-> exists d, decimal s d /\ correctly_rounded d v.
Proof. exact parse_f64_correct. Qed.

(** Correct rounding determines the result. *)
Theorem C12_rounding_is_a_function : forall d v v', (0 <= d)%R ->
  correctly_rounded d v -> correctly_rounded d v' -> v = v'.
Proof. exact correctly_rounded_unique. Qed.

(** An e that is not followed by digits is the constant. *)
Definition digit_text (s : string) : Prop := all_digits (list_ascii_of_string s) /\ s <> "".

Lemma digit_iff : forall c, a_digit c = true <-> decimal_digit c.
Proof.
  intro c. unfold a_digit, between, decimal_digit. rewrite andb_true_iff, !N.leb_le. change (N_of_ascii "0") with 48%N. change (N_of_ascii "9") with 57%N. tauto.
Qed.

Lemma digit_text_number : forall s, digit_text s ->
  head_is (fun c => a_digit c || Ascii.eqb c ".") (list_ascii_of_string s) /\
  Forall (fun c => in_mantissa c = true) (list_ascii_of_string s).
Proof.
  intros s [Hs Hne]. split.
  - destruct s as [|c s]; [congruence|]. cbn. inversion Hs; subst. apply orb_true_iff. left. now apply digit_iff.
  - eapply Forall_impl; [|exact Hs]. intros c Hc. unfold in_mantissa. apply digit_iff in Hc. now rewrite Hc.
Qed.

Lemma digit_text_decimal : forall s, digit_text s -> decimal s (IZR (digits_value (list_ascii_of_string s))).
Proof.
  intros s [Hs Hne]. exists (list_ascii_of_string s), [], (digits_value (list_ascii_of_string s)), 0%nat, 0%Z.
  split; [|split; [|split]].
  - rewrite app_nil_r. clear Hne. induction Hs as [|c l Hc Hl IH]; auto. cbn. rewrite IH.
    destruct (Ascii.eqb_spec c "_") as [->|]; auto. destruct Hc as [_ Hc]. cbn in Hc. lia.
  - apply M_integer; auto. destruct s; [congruence|discriminate].
  - constructor.
  - cbn. lra.
Qed.

Lemma digit_tokens : forall s, digit_text s -> tokens_of s [TNum s].
Proof.
  intros s Hs. destruct (digit_text_number s Hs) as [H1 H2]. unfold tokens_of.
  rewrite <- (string_of_list_ascii_of_string s) at 2. rewrite <- (app_nil_r (list_ascii_of_string s)) at 1.
  apply L_num; [|apply L_end]. apply NT_plain; auto.
Qed.

Theorem C12_trailing_e_is_the_constant : forall cfg w ctx s,
  optimize cfg = false -> fair_order w -> digit_text s -> ctx_get ctx "e" = None ->
  exists x v, parse cfg w ctx (s ++ "e") = Parse_ok x /\ root x = BinOp Times (Number v) (Number f64_E) /\
  correctly_rounded (IZR (digits_value (list_ascii_of_string s))) v.
Proof.
  intros cfg w ctx s Ho Hf Hs Hc. destruct (digit_text_number s Hs) as [H1 H2].
  destruct (proj1 (C12_literals_correctly_rounded plain_config w0 ctx_default s s w0_fair
    (digit_tokens s Hs)) _ (digit_text_decimal s Hs)) as [v [_ Hv]].
  assert (Hlit : literal_value s = Some v) by (apply C12_literals_in_expressions; eauto using digit_text_decimal).
  assert (Hts : tokens_of (s ++ "e") [TNum s; TId "e"]).
  { unfold tokens_of. rewrite list_ascii_app. rewrite <- (string_of_list_ascii_of_string s) at 2. apply L_num.
    - apply NT_plain; auto; cbn; auto.
    - apply (tokens_check "e"). reflexivity. }
  assert (He : stands_for ctx "e" = I_Constant f64_E). { rewrite stands_context, Hc. reflexivity. }
  destruct (C05_sentences_are_accepted cfg w ctx (s ++ "e") _ (BinOp Times (Number v) (Number f64_E)) Ho Hf Hts) as [x [Hx Hr]].
  - assert (Hn : signed (pejmdas cfg) ctx [TNum s] (Number v)) by (apply S_power, W_postfix, F_prim, P_number; exact Hlit).
    assert (Hcst : signed (pejmdas cfg) ctx [TId "e"] (Number f64_E)) by (apply S_power, W_postfix, F_prim, P_constant; exact He).
    apply U_term. change [TNum s; TId "e"] with ([TNum s] ++ [TId "e"])%list. destruct (pejmdas cfg) eqn:E.
    + apply T_factor. apply K_implicit; auto. apply K_signed; auto. reflexivity.
    + apply T_implicit; auto. apply T_factor, K_signed; auto. reflexivity.
  - intros e _ y Hy. inversion Hy; subst; match goal with H : occurs _ (Number _) |- _ => inversion H end.
  - eauto.
Qed.

(** ... and one followed by digits is an exponent. *)
Theorem C12_exponent_digits : forall cfg w ctx s t, fair_order w -> digit_text s -> digit_text t ->
  exists v, parse cfg w ctx (s ++ "e" ++ t) = Parse_ok (mk_xprs (Number v) []) /\
  correctly_rounded (IZR (digits_value (list_ascii_of_string s)) * powerRZ 10 (digits_value (list_ascii_of_string t))) v.
Proof.
  intros cfg w ctx s t Hf Hs Ht. destruct (digit_text_number s Hs) as [H1 H2]. destruct Ht as [Ht Htn].
  apply (C12_literals_correctly_rounded cfg w ctx _ (s ++ "e" ++ t) Hf).
  - unfold tokens_of. rewrite <- (string_of_list_ascii_of_string (s ++ "e" ++ t)) at 2.
    rewrite <- (app_nil_r (list_ascii_of_string (s ++ "e" ++ t))) at 1. apply L_num; [|apply L_end].
    rewrite list_ascii_app. apply NT_exp; auto.
    + destruct t; [congruence|discriminate].
    + eapply Forall_impl; [|exact Ht]. intros c Hc. now apply digit_iff.
  - destruct Hs as [Hs Hsn]. exists (list_ascii_of_string s), ("e"%char :: list_ascii_of_string t), (digits_value (list_ascii_of_string s)), 0%nat, (digits_value (list_ascii_of_string t)).
    assert (Hstrip : forall l, all_digits l -> filter (fun c => negb (Ascii.eqb c "_")) l = l).
    { intros l Hl. induction Hl as [|c l Hc Hl IH]; auto. cbn. rewrite IH. destruct (Ascii.eqb_spec c "_") as [->|]; auto.
      destruct Hc as [_ Hc]. cbn in Hc. lia. }
    split; [|split; [|split]].
    + rewrite list_ascii_app. rewrite filter_app. rewrite (Hstrip _ Hs). f_equal.
      change (list_ascii_of_string ("e" ++ t)) with ("e"%char :: list_ascii_of_string t). cbn [filter Ascii.eqb Bool.eqb negb]. now rewrite (Hstrip _ Ht).
    + apply M_integer; auto. destruct s; [congruence|discriminate].
    + apply X_bare; auto. destruct t; [congruence|discriminate].
    + now rewrite Z.sub_0_r.
Qed.

(** witnesses *)
Example C12_witness : tokens_of " 1_0.5e-2 " [TNum "1_0.5e-2"] /\ decimal "1_0.5e-2" (105 * powerRZ 10 (-3)) /\
  tokens_of "1.2.3" [TNum "1.2.3"] /\ (forall d, ~ decimal "1.2.3" d) /\ digit_text "12".
Proof.
  split; [apply tokens_check; reflexivity|]. split; [|split; [apply tokens_check; reflexivity|split]].
  - exists ["1"; "0"; "."; "5"]%char, ["e"; "-"; "2"]%char, 105%Z, 1%nat, (-2)%Z. split; [reflexivity|]. split; [|split].
    + apply (M_point ["1"; "0"]%char ["5"%char]); try discriminate; repeat constructor; cbn; lia.
    + apply (X_minus "e" ["2"%char]); try discriminate; auto; repeat constructor; cbn; lia.
    + reflexivity.
  - intros d Hd. pose proof (literal_outcome plain_config w0 ctx_default "1.2.3" "1.2.3" (tokens_check "1.2.3" _ eq_refl)) as H.
    destruct (proj1 (C12_literals_correctly_rounded plain_config w0 ctx_default "1.2.3" "1.2.3" w0_fair (tokens_check "1.2.3" _ eq_refl)) d Hd) as [v [Hp _]].
    rewrite Hp in H. vm_compute in H. discriminate H.
  - split; [|discriminate]. repeat constructor; cbn; lia.
Qed.

(** A tie resolved to even, and an overflow. *)
Example C12_tie : exists v, parse plain_config w0 ctx_default "9007199254740993" = Parse_ok (mk_xprs (Number v) []) /\
  B2R v = IZR 9007199254740992.
Proof.
  destruct (proj1 (C12_literals_correctly_rounded plain_config w0 ctx_default "9007199254740993" "9007199254740993" w0_fair
    (tokens_check "9007199254740993" _ eq_refl)) (IZR 9007199254740993)) as [v [Hp Hv]].
  - apply (digit_text_decimal "9007199254740993"). split; [|discriminate]. repeat constructor; cbn; lia.
  - exists v. split; [exact Hp|].
    assert (E : v = f64_of_dec 9007199254740993 0).
    { eapply correctly_rounded_unique; [|exact Hv|]; [lra|]. pose proof (f64_of_dec_correct 9007199254740993 0) as H.
      cbn [Z.of_N powerRZ] in H. now rewrite Rmult_1_r in H. }
    rewrite E. assert (E2 : f64_of_dec 9007199254740993 0 = f64_of_dec 9007199254740992 0) by (apply same_f64_eq; vm_compute; reflexivity).
    rewrite E2. change (f64_of_dec 9007199254740992 0) with (f64_of_Z (9007199254740992 * 10 ^ 0)).
    apply f64_of_Z_small. cbn. lia.
Qed.

(** ** C44: the values of the constants *)
Theorem C44_pi_is_nearest_to_pi : forall cfg w ctx, fair_order w -> ctx_get ctx "pi" = None ->
  exists v, parse cfg w ctx "pi" = Parse_ok (mk_xprs (Number v) []) /\ correctly_rounded PI v.
Proof.
  intros cfg w ctx Hf Hc. exists f64_PI. split; [|exact pi_nearest].
  now apply (C14_builtins_second cfg w ctx "pi" Hf (is_name_check "pi" eq_refl eq_refl) Hc).
Qed.

Theorem C44_e_is_nearest_to_e : forall cfg w ctx, fair_order w -> ctx_get ctx "e" = None ->
  exists v, parse cfg w ctx "e" = Parse_ok (mk_xprs (Number v) []) /\ correctly_rounded (exp 1) v.
Proof.
  intros cfg w ctx Hf Hc. exists f64_E. split; [|exact e_nearest].
  now apply (C14_builtins_second cfg w ctx "e" Hf (is_name_check "e" eq_refl eq_refl) Hc).
Qed.
