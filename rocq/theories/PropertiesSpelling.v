(** * How words are written does not matter (C94) *)
From Coq Require Import ZArith NArith List String Ascii Bool Lia Permutation Reals Lra.
From Verif Require Import F64 Syntax Factorial Builtins Context Element Parser Xprs SpecChars SpecTokens SpecGrammar SpecScan SpecNumber SpecSpelling.
From Verif Require Import NumberFacts DisplayFacts SpecParse SpecTree TreeFacts TokenFacts TokenParser TokenMono TokenSim GrammarFacts TwoRunsFacts ParserResults LexExec.
From Verif Require Import PropertiesParse PropertiesGrammar PropertiesScan PropertiesNumber TestWorld.
Import ListNotations.
Local Open Scope string_scope.

Lemma decimal_value : forall s d, decimal s d -> exists v, literal_value s = Some v /\ correctly_rounded d v.
Proof.
  intros s d Hd.
  assert (Hv : exists v, correctly_rounded d v).
  { destruct Hd as [a [b [m [k [x [_ [Hm [_ ->]]]]]]]]. assert (Hp : (0 <= m)%Z).
    { inversion Hm; subst; apply digits_value_nonneg; auto. apply Forall_app; auto. }
    exists (f64_of_dec (Z.to_N m) (x - Z.of_nat k)). pose proof (f64_of_dec_correct (Z.to_N m) (x - Z.of_nat k)) as H'.
    now rewrite Z2N.id in H' by auto. }
  destruct Hv as [v Hv]. exists v. split; auto. apply parse_f64_correct; eauto.
Qed.

Lemma begins_byte : forall class s, class zero = false -> class (token_byte (TNum s)) = begins_with class s.
Proof. intros class [|c s] H; cbn; auto. Qed.

Lemma reads_ok : forall ctx ctx' t t', reads_the_same ctx ctx' t t' ->
  match t, t' with
  | TId x, TId y => resolve ctx x = resolve ctx' y /\ a_small (token_byte t) = a_small (token_byte t')
  | TNum s, TNum s' => literal_value s = literal_value s' /\ (literal_value s = None -> s = s') /\ a_digit (token_byte t) = a_digit (token_byte t')
  | TSym c, TSym d => c = d
  | _, _ => False
  end.
Proof.
  intros ctx ctx' t t' [c|s|s s' d Hd Hd' Hb|x y Hs Hb]; auto.
  - destruct (decimal_value s d Hd) as [v [E Hv]].
    assert (E' : literal_value s' = Some v) by (apply C12_literals_in_expressions; eauto).
    rewrite E, E'. split; [reflexivity|]. split; [discriminate|]. now rewrite !begins_byte.
  - rewrite !resolve_stands. split; [exact Hs|]. change (token_byte (TId x)) with (token_byte (TNum x)). change (token_byte (TId y)) with (token_byte (TNum y)).
    now rewrite !begins_byte.
Qed.

(** Two texts whose words read the same, one after the other, are answered the
    same. *)
Theorem C94_only_the_reading_matters : forall cfg w ctx ctx' a b ts us,
  a <> "" -> b <> "" -> tokens_of a ts -> tokens_of b us -> Forall2 (reads_the_same ctx ctx') ts us ->
  get_expected_vars ctx = get_expected_vars ctx' ->
  match parse cfg w ctx a, parse cfg w ctx' b with
  | Parse_ok x, Parse_ok y => x = y
  | Parse_err e, Parse_err e' => same_failure ctx ctx' a b e e'
  | Parse_panic p, Parse_panic q => p = q
  | _, _ => False
  end.
Proof.
  intros cfg w ctx ctx' a b ts us Ha Hb Hts Hus HR He.
  assert (Hn : parse cfg w ctx a <> Parse_diverges) by apply C01_parse_terminates.
  pose proof (same_parse cfg w w ctx ctx' (reads_the_same ctx ctx') (reads_ok ctx ctx') (fun e => eq_refl) (parse_budget a) ts us HR) as S.
  pose proof (sim_parse cfg w ctx a (nonempty_bytes _ Ha) ts Hts) as A.
  pose proof (sim_parse cfg w ctx' b (nonempty_bytes _ Hb) us Hus) as B.
  assert (Fa : t_parse cfg w ctx (parse_budget a) ts <> TFuel) by now apply parse_not_fuel.
  assert (Fb : t_parse cfg w ctx' (parse_budget b) us <> TFuel) by now apply parse_not_fuel.
  assert (Fc : t_parse cfg w ctx' (parse_budget a) us <> TFuel).
  { intro E. rewrite E in S. destruct (t_parse cfg w ctx (parse_budget a) ts); cbn in S; congruence || contradiction. }
  rewrite (same_answer cfg w ctx' (parse_budget b) (parse_budget a) us Fb Fc) in B. clear Fa Fb Fc.
  unfold parse in *. rewrite <- He.
  destruct (parse_impl cfg w ctx a) as [[r vs] c|e c|p|], (t_parse cfg w ctx (parse_budget a) ts) as [t rest|k f u|q|]; try contradiction;
    destruct (t_parse cfg w ctx' (parse_budget a) us) as [t' rest'|k' f' u'|q'|]; cbn in S; try contradiction;
    destruct (parse_impl cfg w ctx' b) as [[r' vs'] c'|e' c'|p'|]; try contradiction; auto; try congruence.
  - destruct A as [-> ->], B as [-> ->]. destruct S as [-> _]. destruct (get_expected_vars ctx) as [expected|]; auto.
    destruct (set_diff _ _); auto. left. eexists _, _. split; reflexivity.
  - destruct S as [K [F U]]. right. exists k, k', f, u, f', u'. split; [exact A|]. split; [exact B|]. split; [exact F|]. split; [exact U|].
    destruct K as [K|[t [t' [_ [-> ->]]]]]; [now left|]. right. eauto.
Qed.

Theorem C94_accepted_alike : forall cfg w ctx ctx' a b ts us,
  a <> "" -> b <> "" -> tokens_of a ts -> tokens_of b us -> Forall2 (reads_the_same ctx ctx') ts us ->
  get_expected_vars ctx = get_expected_vars ctx' ->
  forall x, parse cfg w ctx a = Parse_ok x <-> parse cfg w ctx' b = Parse_ok x.
Proof.
  intros cfg w ctx ctx' a b ts us Ha Hb Hts Hus HR He x.
  pose proof (C94_only_the_reading_matters cfg w ctx ctx' a b ts us Ha Hb Hts Hus HR He) as H.
  destruct (parse cfg w ctx a), (parse cfg w ctx' b); try contradiction; split; intro E; try discriminate E; now rewrite <- E, H.
Qed.

(** ** Spellings of the same number *)
Definition digits (s : string) : Prop := all_digits (list_ascii_of_string s).

Lemma underscore_digits : forall l, all_digits l -> filter (fun c => negb (Ascii.eqb c "_")) l = l.
Proof.
  induction 1 as [|c l Hc Hl IH]; cbn; auto. destruct (Ascii.eqb_spec c "_") as [->|]; cbn; [|now rewrite IH].
  exfalso. unfold decimal_digit in Hc. cbn in Hc. lia.
Qed.

(** underscores anywhere *)
Theorem C94_underscores : forall s s' d,
  filter (fun c => negb (Ascii.eqb c "_")) (list_ascii_of_string s) = filter (fun c => negb (Ascii.eqb c "_")) (list_ascii_of_string s') ->
  decimal s d -> decimal s' d.
Proof. intros s s' d E [a [b [m [k [x [H R]]]]]]. exists a, b, m, k, x. rewrite <- E. auto. Qed.

(** zeros in front *)
Theorem C94_leading_zero : forall s d, decimal s d -> decimal ("0" ++ s) d.
Proof.
  intros s d [a [b [m [k [x [H [Hm R]]]]]]]. exists ("0"%char :: a), b, m, k, x. cbn. split; [now rewrite H|]. split; [|exact R].
  assert (Z : decimal_digit "0") by (unfold decimal_digit; cbn; lia).
  destruct Hm as [i Hi Hn|i f Hi Hf Hn].
  - replace (digits_value i) with (digits_value ("0"%char :: i)) by (cbn; lia).
    apply M_integer; [now constructor|discriminate].
  - replace (digits_value (i ++ f)) with (digits_value (("0"%char :: i) ++ f)) by (cbn; lia).
    apply (M_point ("0"%char :: i) f); [now constructor|auto|discriminate].
Qed.

(** a capital E *)
Definition capital_e (c : ascii) : ascii := if Ascii.eqb c "e" then "E"%char else c.
Definition with_capital_e (s : string) : string := string_of_list_ascii (map capital_e (list_ascii_of_string s)).

Lemma capital_digits : forall l, all_digits l -> map capital_e l = l.
Proof.
  induction 1 as [|c l Hc Hl IH]; cbn; auto. rewrite IH. unfold capital_e. destruct (Ascii.eqb_spec c "e") as [->|]; auto.
  exfalso. unfold decimal_digit in Hc. cbn in Hc. lia.
Qed.

Theorem C94_capital_e : forall s d, decimal s d -> decimal (with_capital_e s) d.
Proof.
  intros s d [a [b [m [k [x [H [Hm [Hx ->]]]]]]]].
  assert (F : forall l, filter (fun c => negb (Ascii.eqb c "_")) (map capital_e l) = map capital_e (filter (fun c => negb (Ascii.eqb c "_")) l)).
  { induction l as [|c l IH]; cbn; auto. unfold capital_e at 1. destruct (Ascii.eqb_spec c "e") as [->|]; cbn; [now rewrite IH|].
    destruct (Ascii.eqb c "_"); cbn; now rewrite IH. }
  exists a, (map capital_e b), m, k, x. unfold with_capital_e. rewrite list_ascii_of_string_of_list_ascii, F, H, map_app.
  split; [|split; [exact Hm|split; [|reflexivity]]].
  - f_equal. inversion Hm; subst; [now apply capital_digits|]. rewrite map_app. cbn. now rewrite !capital_digits.
  - assert (C : forall c, c = "e"%char \/ c = "E"%char -> capital_e c = "e"%char \/ capital_e c = "E"%char) by (intros c [-> | ->]; cbn; auto).
    inversion Hx; subst; cbn [map]; rewrite ?capital_digits by auto; [constructor|apply X_bare|apply X_plus|apply X_minus]; auto.
Qed.

Lemma underscore_exponent : forall e x, exponent e x -> filter (fun c => negb (Ascii.eqb c "_")) e = e.
Proof.
  intros e x H. destruct H as [|c ds [-> | ->] Hd _|c ds [-> | ->] Hd _|c ds [-> | ->] Hd _]; cbn; rewrite ?underscore_digits; auto.
Qed.

Lemma las_app : forall a b, list_ascii_of_string (a ++ b) = (list_ascii_of_string a ++ list_ascii_of_string b)%list.
Proof. induction a as [|c a IH]; intro b; cbn; [reflexivity|]. now rewrite IH. Qed.

Lemma decimal_point : forall i f e x, digits i -> digits f -> i ++ f <> "" -> exponent (list_ascii_of_string e) x ->
  decimal (i ++ "." ++ f ++ e)
    (IZR (digits_value (list_ascii_of_string (i ++ f))) * powerRZ 10 (x - Z.of_nat (List.length (list_ascii_of_string f)))).
Proof.
  intros i f e x Hi Hf Hn He.
  exists (list_ascii_of_string i ++ "."%char :: list_ascii_of_string f)%list, (list_ascii_of_string e), (digits_value (list_ascii_of_string i ++ list_ascii_of_string f)), (List.length (list_ascii_of_string f)), x.
  split; [|split; [|split; [exact He|rewrite las_app; reflexivity]]].
  - rewrite !las_app, !filter_app. cbn. rewrite !underscore_digits, (underscore_exponent _ _ He) by auto. now rewrite <- app_assoc.
  - apply M_point; auto. rewrite <- las_app. destruct (i ++ f); [congruence|discriminate].
Qed.

(** a point, and zeros behind it *)
Theorem C94_trailing_zeros : forall i f e x n,
  digits i -> digits f -> i ++ f <> "" -> exponent (list_ascii_of_string e) x ->
  exists d, decimal (i ++ "." ++ f ++ e) d /\
            decimal (i ++ "." ++ (f ++ string_of_list_ascii (repeat "0"%char n)) ++ e) d /\
            (f = "" -> decimal (i ++ e) d).
Proof.
  intros i f e x n Hi Hf Hn He. eexists. split; [eapply decimal_point; eauto|]. split.
  - set (z := string_of_list_ascii (repeat "0"%char n)).
    assert (Lz : list_ascii_of_string z = repeat "0"%char n) by apply list_ascii_of_string_of_list_ascii.
    assert (Hz : digits (f ++ z)). { unfold digits, all_digits. rewrite las_app, Lz. apply Forall_app. split; [exact Hf|apply DisplayFacts.zeros_digits]. }
    replace (IZR (digits_value (list_ascii_of_string (i ++ f))) * powerRZ 10 (x - Z.of_nat (List.length (list_ascii_of_string f))))%R with
      (IZR (digits_value (list_ascii_of_string (i ++ (f ++ z)))) * powerRZ 10 (x - Z.of_nat (List.length (list_ascii_of_string (f ++ z)))))%R.
    { apply decimal_point; auto. destruct i; [|discriminate]. cbn in *. destruct f; [congruence|discriminate]. }
    rewrite !las_app, app_assoc, DisplayFacts.digits_value_app, Lz, DisplayFacts.digits_value_zeros, app_length, repeat_length, Z.add_0_r, mult_IZR.
    rewrite <- las_app. rewrite Rmult_assoc. f_equal.
    replace (IZR (10 ^ Z.of_nat n)) with (powerRZ 10 (Z.of_nat n)).
    2:{ rewrite <- pow_powerRZ, <- pow_IZR. reflexivity. }
    rewrite <- powerRZ_add by lra. f_equal. lia.
  - intros ->. cbn. exists (list_ascii_of_string i), (list_ascii_of_string e), (digits_value (list_ascii_of_string i)), 0, x.
    rewrite las_app, filter_app, underscore_digits, (underscore_exponent _ _ He) by auto. split; [reflexivity|].
    assert (E : forall s : string, s ++ "" = s) by (induction s as [|c s IH]; cbn; [reflexivity|now rewrite IH]). rewrite E in *. split; [|split; [exact He|reflexivity]].
    apply M_integer; auto. destruct i; [congruence|discriminate].
Qed.

(** What a text begins with does matter after an operand. *)
Theorem C94_first_digit_matters_refuted :
  tokens_of "x .5" [TId "x"; TNum ".5"] /\ tokens_of "x 0.5" [TId "x"; TNum "0.5"] /\
  (exists d, decimal ".5" d /\ decimal "0.5" d) /\
  (exists x, parse default_config w0 ctx_default "x 0.5" = Parse_ok x) /\
  outcome_of (parse default_config w0 ctx_default "x .5") = Fails (UnexpectedToken ".").
Proof.
  split; [apply tokens_check; vm_compute; reflexivity|]. split; [apply tokens_check; vm_compute; reflexivity|]. split.
  - assert (H5 : digits "5") by (repeat constructor; unfold decimal_digit; cbn; lia).
    destruct (C94_trailing_zeros "" "5" "" 0 0) as [d [H _]]; [constructor|exact H5|discriminate|constructor|].
    exists d. split; [exact H|]. apply (C94_leading_zero _ _ H).
  - split; [|vm_compute; reflexivity].
    destruct (parse default_config w0 ctx_default "x 0.5") as [x|e|p|] eqn:E; [eauto| | |];
      exfalso; assert (K : match parse default_config w0 ctx_default "x 0.5" with Parse_ok _ => true | _ => false end = true) by (vm_compute; reflexivity);
      rewrite E in K; discriminate K.
Qed.

Definition spelt : string := "2.50x + 1e3 - pi".
Definition spelt' : string := "02.5x+1_000.0-k".
Definition other_context : context := with_var ctx_default "k" f64_PI.
Example C94_witness :
  tokens_of spelt [TNum "2.50"; TId "x"; TSym "+"; TNum "1e3"; TSym "-"; TId "pi"] /\
  tokens_of spelt' [TNum "02.5"; TId "x"; TSym "+"; TNum "1_000.0"; TSym "-"; TId "k"] /\
  Forall2 (reads_the_same ctx_default other_context)
    [TNum "2.50"; TId "x"; TSym "+"; TNum "1e3"; TSym "-"; TId "pi"]
    [TNum "02.5"; TId "x"; TSym "+"; TNum "1_000.0"; TSym "-"; TId "k"] /\
  get_expected_vars ctx_default = get_expected_vars other_context /\
  match parse default_config w0 ctx_default spelt with Parse_ok _ => true | _ => false end = true.
Proof.
  split; [apply tokens_check; vm_compute; reflexivity|]. split; [apply tokens_check; vm_compute; reflexivity|]. split.
  - assert (D : forall c, In c ["0"; "1"; "2"; "3"; "5"]%char -> decimal_digit c).
    { intros c H. unfold decimal_digit. repeat (destruct H as [<-|H]; [cbn; lia|]). contradiction. }
    repeat apply Forall2_cons; try apply Forall2_nil; try apply Same_symbol.
    + destruct (C94_trailing_zeros "2" "5" "" 0 1) as [d [H [H1 _]]]; [repeat constructor; apply D; cbn; tauto|repeat constructor; apply D; cbn; tauto|discriminate|constructor|].
      apply (Same_value _ _ _ _ d); [exact H1|apply (C94_leading_zero _ _ H)|reflexivity].
    + apply Same_meaning; reflexivity.
    + apply (Same_value _ _ _ _ 1000); [| |reflexivity].
      * exists ["1"%char], ["e"; "3"]%char, 1%Z, 0, 3%Z. split; [reflexivity|]. split; [|split].
        -- apply (M_integer ["1"%char]); [repeat constructor; apply D; cbn; tauto|discriminate].
        -- apply (X_bare "e" ["3"%char]); [now left|repeat constructor; apply D; cbn; tauto|discriminate].
        -- unfold powerRZ, Z.of_nat, Z.sub, Z.add, Z.opp, Z.pos_sub, Pos.to_nat, Pos.of_succ_nat. cbn [Pos.iter_op Nat.add pow]. lra.
      * exists ["1"; "0"; "0"; "0"; "."; "0"]%char, [], 10000%Z, 1, 0%Z. split; [reflexivity|]. split; [|split].
        -- apply (M_point ["1"; "0"; "0"; "0"]%char ["0"]%char); [repeat constructor; apply D; cbn; tauto|repeat constructor; apply D; cbn; tauto|discriminate].
        -- constructor.
        -- unfold powerRZ, Z.of_nat, Z.sub, Z.add, Z.opp, Z.pos_sub, Pos.to_nat, Pos.of_succ_nat. cbn [Pos.iter_op Nat.add pow]. lra.
    + apply Same_meaning; reflexivity.
  - split; [reflexivity|vm_compute; reflexivity].
Qed.
