(** * What a dump of a context or a parser tells (C96) *)
From Coq Require Import ZArith NArith List String Ascii Bool Lia Permutation Reals.
From Verif Require Import F64 Syntax Builtins Context Parser Xprs Display SpecUtf8 SpecLiteral DebugText DebugErrors DebugContext SpecDebug SpecDump DebugFacts LiteralFacts DebugLiteralFacts.
From Verif Require Import SpecParse ParserFacts SpecApi SpecNumber SpecTokens SpecGrammar SpecContext DisplayFacts PropertiesParse PropertiesDebug PropertiesUtf8 PropertiesHash PropertiesUnwrap PropertiesContext TestWorld.
Import ListNotations.
Local Open Scope string_scope.

(** ** Words without quotes *)
Lemma number_char_bare : forall c, number_char c -> bare_char c = true.
Proof.
  intros c H. unfold bare_char. destruct (number_char_facts c H) as [-> _]. cbn [andb]. apply negb_true_iff. unfold is_quote.
  apply orb_false_iff. split; apply Ascii.eqb_neq; intros ->; unfold number_char, plain_char, decimal_digit in H; cbn in H;
    repeat (destruct H as [H|H]); try lia; discriminate H.
Qed.
Lemma debug_chars : forall (Q : ascii -> bool), (forall c, number_char c -> Q c = true) ->
  forallb Q (list_ascii_of_string "NaN") = true -> forallb Q (list_ascii_of_string "inf") = true ->
  forall v, forallb Q (list_ascii_of_string (debug_f64 v)) = true.
Proof.
  intros Q HQ Hnan Hinf.
  assert (N : forall l, Forall number_char l -> forallb Q l = true).
  { intros l H. apply forallb_forall. intros c Hc. rewrite Forall_forall in H. auto. }
  assert (P : forall u : f64, u = finf \/ u = fzero \/ (fis_finite u = true /\ (0 < BinarySingleNaN.B2R u)%R) -> forallb Q (list_ascii_of_string (debug_f64 u)) = true).
  { intros u [->|[->|[Hf Hp]]]; [exact Hinf| |].
    - apply N. change (list_ascii_of_string (debug_f64 fzero)) with ["0"; "."; "0"]%char. constructor; [left; left; unfold decimal_digit; cbn; lia|]. constructor; [left; right; reflexivity|]. constructor; [left; left; unfold decimal_digit; cbn; lia|constructor].
    - destruct (debug_positive u Hf Hp) as [c [p [Hc [-> _]]]]. rewrite list_ascii_of_string_of_list_ascii. apply N.
      destruct (shown_decimal u c p) as [m [k [Hl _]]]; [lia|]. now apply decimal_chars in Hl. }
  intro v. destruct (f64_classes v) as [->|[->|[->|[H|[u [-> Hu]]]]]]; [exact Hnan|now apply P; auto|now apply P; auto|now apply P; auto|].
  destruct (positive_not_nan u Hu) as [Hn Hs]. rewrite (debug_neg u Hn Hs). cbn [append list_ascii_of_string forallb]. rewrite (P u Hu).
  rewrite HQ; [reflexivity|]. unfold number_char. auto.
Qed.
Lemma debug_bare : forall v, bare (debug_f64 v).
Proof. intro v. split; [apply debug_word|]. apply debug_chars; [apply number_char_bare|reflexivity|reflexivity]. Qed.
Lemma debug_quiet : forall v, quiet_s (debug_f64 v).
Proof.
  intro v. apply quiet_const. apply debug_chars; [|reflexivity|reflexivity]. intros c H. apply N.leb_le. unfold number_char, plain_char, decimal_digit in H.
  destruct H as [[H|H]|[->|[->|[->| ->]]]]; try subst c; unfold code in *; cbn; lia.
Qed.
Lemma sassoc : forall a b c : string, (a ++ b) ++ c = a ++ (b ++ c).
Proof. induction a as [|x a IH]; intros b c; cbn; [reflexivity|]. now rewrite IH. Qed.

(** ** Symbols *)
Lemma arity_wfq : forall n, wfq (debug_arity n).
Proof.
  intros [n|]; cbn [debug_arity]; [|constructor; left; closed_bare].
  constructor; [closed_bare|discriminate|]. constructor; [|constructor]. constructor. left. apply digits_bare.
Qed.
Lemma pointer_wfq : forall p, wfq (debug_pointer p).
Proof. intros []; constructor; left; closed_bare. Qed.
Lemma symbol_wfq : forall shown s, usual shown -> symbol_in_utf8 s -> wfq (debug_symbol shown s).
Proof.
  intros shown [v|f] Hu Hs; cbn [debug_symbol symbol_in_utf8] in *; (constructor; [closed_bare|discriminate|]; constructor; [|constructor]).
  - constructor. left. apply debug_bare.
  - unfold debug_function_escaped. constructor; [closed_bare|discriminate|repeat (constructor; [closed_bare|]); constructor|].
    constructor; [cbn [snd]; constructor; now apply debug_str_token|]. constructor; [apply pointer_wfq|]. constructor; [apply arity_wfq|constructor].
Qed.
Lemma symbol_told : forall shown s t, usual shown -> symbol_in_utf8 s -> symbol_in_utf8 t -> debug_symbol shown s = debug_symbol shown t ->
  shown_alike (Some s) (Some t).
Proof.
  intros shown [v|f] [v'|g] Hu Hs Ht E; cbn [debug_symbol symbol_in_utf8] in *; try discriminate E.
  - assert (E' : debug_f64 v = debug_f64 v') by congruence. apply C76_number_texts_distinct in E'. subst v'. constructor.
  - unfold debug_function_escaped in E.
    assert (E1 : debug_str shown (fn_name f) = debug_str shown (fn_name g)) by congruence.
    assert (E2 : debug_pointer (fn_ptr f) = debug_pointer (fn_ptr g)) by congruence.
    assert (E3 : debug_arity (fn_nb_args f) = debug_arity (fn_nb_args g)) by congruence.
    constructor; [eapply debug_str_inj; eauto| |].
    + destruct (fn_nb_args f), (fn_nb_args g); cbn [debug_arity] in E3; try discriminate E3; [|reflexivity]. f_equal. apply display_nat_inj. congruence.
    + unfold closure. destruct (fn_ptr f), (fn_ptr g); cbn in E2; try discriminate E2; reflexivity.
Qed.

(** ** Maps *)
Lemma sget_permutation : forall {A} (m n : smap A) k, NoDup (map fst m) -> Permutation m n -> sget k m = sget k n.
Proof.
  intros A m n k Hm P. assert (Hn : NoDup (map fst n)) by (eapply Permutation_NoDup; [apply Permutation_map, P|exact Hm]).
  destruct (sget k m) as [v|] eqn:E.
  - symmetry. apply sget_entry; [exact Hn|]. apply sget_entry in E; [|exact Hm]. eapply Permutation_in; eauto.
  - destruct (sget k n) as [v|] eqn:E'; [|reflexivity]. apply sget_entry in E'; [|exact Hn].
    apply (Permutation_in _ (Permutation_sym P)) in E'. apply sget_entry in E'; [|exact Hm]. congruence.
Qed.
Definition entry_of (shown : N -> bool) (ks : string * symbol) : dbg := D_entry (debug_str shown (fst ks)) (debug_symbol shown (snd ks)).
Lemma debug_symbols_entries : forall shown w m, fair_order w -> NoDup (map fst m) ->
  exists es, Permutation m es /\ debug_symbols shown w m = D_set (map (entry_of shown) es).
Proof.
  intros shown w m Hf Hn. exists (flat_map (fun k => match sget k m with Some s => [(k, s)] | None => [] end) (hash_order w (map fst m))). split.
  - assert (E : m = flat_map (fun k => match sget k m with Some s => [(k, s)] | None => [] end) (map fst m)).
    { assert (G : forall l, (forall k s, In (k, s) l -> sget k m = Some s) -> l = flat_map (fun k => match sget k m with Some s => [(k, s)] | None => [] end) (map fst l)).
      { induction l as [|[k s] l IH]; intro H; [reflexivity|]. cbn [map fst flat_map]. rewrite (H k s) by now left. cbn [app]. f_equal. apply IH. intros. apply H. now right. }
      apply G. intros k s H. now apply sget_entry. }
    rewrite E at 1. apply Permutation_flat_map. apply Hf.
  - unfold debug_symbols. f_equal. induction (hash_order w (map fst m)) as [|k l IH]; [reflexivity|]. cbn [flat_map]. rewrite IH, map_app.
    destruct (sget k m); reflexivity.
Qed.

Lemma entries_told : forall shown es es', usual shown ->
  Forall (fun ks => is_str (fst ks) /\ symbol_in_utf8 (snd ks)) es -> Forall (fun ks => is_str (fst ks) /\ symbol_in_utf8 (snd ks)) es' ->
  map (entry_of shown) es = map (entry_of shown) es' -> forall k, shown_alike (sget k es) (sget k es').
Proof.
  intros shown es es' Hu H. revert es'. induction H as [|[k s] es [Hk Hs] _ IH]; intros [|[k' s'] es'] H' E x; try discriminate E; [constructor|].
  cbn [map] in E. assert (E1 : entry_of shown (k, s) = entry_of shown (k', s')) by congruence.
  assert (E2 : map (entry_of shown) es = map (entry_of shown) es') by congruence. clear E. unfold entry_of in E1. cbn [fst snd] in *.
  assert (Ek : debug_str shown k = debug_str shown k') by congruence. assert (Es : debug_symbol shown s = debug_symbol shown s') by congruence.
  inversion H' as [|? ? [Hk' Hs'] H'']; subst. cbn [fst snd] in *. apply debug_str_inj in Ek; auto. subst k'. cbn [sget].
  destruct (String.eqb x k); [eapply symbol_told; eauto|]. apply IH; auto.
Qed.

Lemma words_told : forall shown l l', usual shown -> Forall is_str l -> Forall is_str l' ->
  map (fun x => D_word (debug_str shown x)) l = map (fun x => D_word (debug_str shown x)) l' -> l = l'.
Proof.
  intros shown l l' Hu H. revert l'. induction H as [|x l Hx _ IH]; intros [|y l'] H' E; try discriminate E; [reflexivity|]. cbn [map] in E.
  inversion H'; subst. f_equal; [eapply debug_str_inj; eauto; congruence|]. apply IH; [assumption|congruence].
Qed.

Lemma Forall_permutation : forall {A} (P : A -> Prop) l l', Permutation l l' -> Forall P l -> Forall P l'.
Proof. intros A P l l' Hp H. rewrite Forall_forall in *. intros x Hx. apply H. eapply Permutation_in; [apply Permutation_sym, Hp|exact Hx]. Qed.

Lemma context_wfq : forall shown w c, usual shown -> fair_order w -> proper c -> in_utf8 c -> wfq (debug_context shown w c).
Proof.
  intros shown w c Hu Hf [Hp _] [H1 H2]. unfold debug_context. constructor; [closed_bare|discriminate|repeat (constructor; [closed_bare|]); constructor|].
  constructor; [|constructor; [|constructor]]; cbn [snd].
  - destruct (debug_symbols_entries shown w _ Hf Hp) as [es [P ->]]. constructor. apply (Forall_permutation _ _ _ P) in H1.
    rewrite Forall_forall in *. intros d Hd. apply in_map_iff in Hd. destruct Hd as [[k s] [<- Hk]]. destruct (H1 _ Hk) as [K1 K2]. cbn [fst snd] in *.
    constructor; [now apply debug_str_token|now apply symbol_wfq].
  - destruct (ctx_expected c) as [s|]; cbn [debug_expected]; [|constructor; left; closed_bare].
    constructor; [closed_bare|discriminate|]. constructor; [|constructor]. constructor. specialize (H2 s eq_refl). apply (Forall_permutation _ _ _ (Hf s)) in H2.
    rewrite Forall_forall in *. intros d Hd. apply in_map_iff in Hd. destruct Hd as [x [<- Hx]]. constructor. apply debug_str_token; auto.
Qed.

Lemma context_told : forall shown w w' c c', usual shown -> fair_order w -> fair_order w' -> proper c -> proper c' -> in_utf8 c -> in_utf8 c' ->
  debug_context shown w c = debug_context shown w' c' ->
  (forall name, shown_alike (ctx_get c name) (ctx_get c' name)) /\ same_expected (get_expected_vars c) (get_expected_vars c').
Proof.
  intros shown w w' c c' Hu Hf Hf' [Hp _] [Hp' _] [H1 H2] [H1' H2'] E. unfold debug_context in E.
  assert (E1 : debug_symbols shown w (ctx_symbols c) = debug_symbols shown w' (ctx_symbols c')) by congruence.
  assert (E2 : debug_expected shown w (ctx_expected c) = debug_expected shown w' (ctx_expected c')) by congruence. clear E. split.
  - destruct (debug_symbols_entries shown w _ Hf Hp) as [es [P Es]]. destruct (debug_symbols_entries shown w' _ Hf' Hp') as [es' [P' Es']].
    rewrite Es, Es' in E1. intro name. unfold ctx_get. rewrite (sget_permutation _ _ name Hp P), (sget_permutation _ _ name Hp' P').
    apply (entries_told shown); auto; [eapply Forall_permutation; eauto|eapply Forall_permutation; eauto|congruence].
  - unfold get_expected_vars. destruct (ctx_expected c) as [s|], (ctx_expected c') as [s'|]; cbn [debug_expected] in E2; try discriminate E2; [|exact I].
    cbn [same_expected]. assert (E : hash_order w s = hash_order w' s').
    { apply (words_told shown); auto; [eapply Forall_permutation; [apply Hf|auto]|eapply Forall_permutation; [apply Hf'|auto]|congruence]. }
    intro x. split; intro Hx.
    + apply (Permutation_in _ (Hf s)) in Hx. rewrite E in Hx. exact (Permutation_in _ (Permutation_sym (Hf' s')) Hx).
    + apply (Permutation_in _ (Hf' s')) in Hx. rewrite <- E in Hx. exact (Permutation_in _ (Permutation_sym (Hf s)) Hx).
Qed.

(** The dump of a context, on one line or on several, tells what every name
    means, as far as it is shown, and which variables are declared. *)
Theorem C96_dump_tells_context : forall shown w w' c c', usual shown -> fair_order w -> fair_order w' ->
  proper c -> proper c' -> in_utf8 c -> in_utf8 c' ->
  compact (debug_context shown w c) = compact (debug_context shown w' c') \/
  pretty (debug_context shown w c) = pretty (debug_context shown w' c') ->
  (forall name, shown_alike (ctx_get c name) (ctx_get c' name)) /\ same_expected (get_expected_vars c) (get_expected_vars c').
Proof.
  intros shown w w' c c' Hu Hf Hf' Hp Hp' H H' E. apply (context_told shown w w'); auto.
  destruct E as [E|E]; [apply compact_determines in E|apply pretty_determines in E]; auto using context_wfq.
Qed.

(** So does the dump of a parser. *)
Theorem C96_dump_tells_parser : forall shown w w' c c', usual shown -> fair_order w -> fair_order w' ->
  proper c -> proper c' -> in_utf8 c -> in_utf8 c' ->
  compact (debug_parser shown w c) = compact (debug_parser shown w' c') \/
  pretty (debug_parser shown w c) = pretty (debug_parser shown w' c') ->
  (forall name, shown_alike (ctx_get c name) (ctx_get c' name)) /\ same_expected (get_expected_vars c) (get_expected_vars c').
Proof.
  intros shown w w' c c' Hu Hf Hf' Hp Hp' H H' E. apply (context_told shown w w'); auto.
  assert (Q : forall v a, fair_order v -> proper a -> in_utf8 a -> wfq (debug_parser shown v a)).
  { intros v a K1 K2 K3. constructor; [closed_bare|discriminate|repeat (constructor; [closed_bare|]); constructor|]. constructor; [|constructor]. now apply context_wfq. }
  assert (D : debug_parser shown w c = debug_parser shown w' c') by (destruct E as [E|E]; [apply compact_determines in E|apply pretty_determines in E]; auto).
  unfold debug_parser in D. congruence.
Qed.

(** If there are no functions of the user's in it, the dump tells everything:
    parsers that print the same give the same answers for every text. *)
Theorem C96_same_dump_same_answers : forall shown cfg w h c c' input, usual shown -> fair_order w -> fair_order (with_order w h) ->
  proper c -> proper c' -> in_utf8 c -> in_utf8 c' ->
  (forall name f, ctx_get c name <> Some (S_Function f)) ->
  compact (debug_parser shown w c) = compact (debug_parser shown (with_order w h) c') ->
  same_outcome (get_expected_vars c) eq (parse cfg w c input) (parse cfg (with_order w h) c' input).
Proof.
  intros shown cfg w h c c' input Hu Hw Hw' Hp Hp' H H' Nf E. destruct (C96_dump_tells_parser shown w (with_order w h) c c') as [K1 K2]; auto.
  apply C68_same_names_parse_alike; auto. intro name. specialize (K1 name). inversion K1 as [E1 E2|v E1 E2|f g F1 F2 F3 E1 E2]; auto.
  exfalso. eapply Nf; eauto.
Qed.

(** ** The text itself *)
Theorem C96_dump_text : forall shown w c, usual shown -> fair_order w -> proper c -> in_utf8 c ->
  context_text c (compact (debug_context shown w c)).
Proof.
  intros shown w c Hu Hf [Hp _] [H1 H2]. destruct (debug_symbols_entries shown w _ Hf Hp) as [es [P Es]].
  assert (S : forall s, symbol_in_utf8 s -> symbol_text s (compact (debug_symbol shown s))).
  { intros [v|f] Hs; [exact (ST_variable v)|]. cbn [symbol_in_utf8] in Hs.
    replace (compact (debug_symbol shown (S_Function f))) with
      ("Function(Function { name: " ++ debug_str shown (fn_name f) ++ ", func: " ++ (if closure f then "Dyn" else "Static") ++ ", nb_args: " ++
       match fn_nb_args f with None => "None" | Some n => "Some(" ++ display_nat n ++ ")" end ++ " })").
    - econstructor; [now apply C92_strings_as_literals|reflexivity|reflexivity].
    - cbn [debug_symbol compact map join]. unfold debug_function_escaped. cbn [compact map join snd fst].
      replace (compact (debug_pointer (fn_ptr f))) with (if closure f then "Dyn" else "Static") by (unfold closure; destruct (fn_ptr f); reflexivity).
      replace (compact (debug_arity (fn_nb_args f))) with (match fn_nb_args f with None => "None" | Some n => "Some(" ++ display_nat n ++ ")" end)
        by (destruct (fn_nb_args f); reflexivity).
      unfold join. cbn [String.concat]. rewrite !sassoc. reflexivity. }
  replace (compact (debug_context shown w c)) with
    ("Context { symbols: {" ++ String.concat ", " (map (fun ks => debug_str shown (fst ks) ++ ": " ++ compact (debug_symbol shown (snd ks))) es) ++ "}, expected_vars: " ++
     compact (debug_expected shown w (ctx_expected c)) ++ " }").
  - apply (CT c es); [exact P| |].
    + apply (Forall_permutation _ _ _ P) in H1. clear P Es. induction H1 as [|[k s] l [Hk Hs] _ IH]; cbn [map]; constructor; [|exact IH].
      constructor; [now apply C92_strings_as_literals|now apply S].
    + destruct (ctx_expected c) as [s|]; cbn [debug_expected]; [|constructor].
      change (compact (D_tuple "Some" [D_set (map (fun x => D_word (debug_str shown x)) (hash_order w s))])) with
        ("Some(" ++ ("{" ++ join ", " (map compact (map (fun x => D_word (debug_str shown x)) (hash_order w s))) ++ "}") ++ ")").
      rewrite map_map. cbn [compact]. rewrite !sassoc.
      apply (EXT_some s (hash_order w s) (map (fun x => debug_str shown x) (hash_order w s))); [apply Hf|].
      specialize (H2 s eq_refl). apply (Forall_permutation _ _ _ (Hf s)) in H2. clear - H2 Hu. induction H2 as [|x l Hx _ IH]; cbn [map]; constructor; [|exact IH].
      now apply C92_strings_as_literals.
  - unfold debug_context. rewrite Es. cbn [compact map fst snd]. rewrite map_map. unfold entry_of, join. cbn [compact String.concat]. rewrite !sassoc. reflexivity.
Qed.

(** One line without control characters, whatever the names contain. *)
Theorem C96_one_line : forall shown w c, usual shown -> fair_order w -> proper c -> in_utf8 c ->
  Forall (fun a => 32 <= N_of_ascii a)%N (list_ascii_of_string (compact (debug_parser shown w c))).
Proof.
  assert (C : forall s, forallb (fun a => (32 <=? code a)%N) (list_ascii_of_string s) = true -> quiet_s s) by (intros; now apply quiet_const).
  intros shown w c Hu Hf [Hp _] [H1 H2]. apply quiet_compact.
  constructor; [now apply C|constructor; [now apply C|constructor]|]. constructor; [|constructor]. cbn [snd].
  constructor; [now apply C|constructor; [now apply C|constructor; [now apply C|constructor]]|]. constructor; [|constructor; [|constructor]]; cbn [snd].
  - destruct (debug_symbols_entries shown w _ Hf Hp) as [es [P ->]]. constructor. apply (Forall_permutation _ _ _ P) in H1.
    rewrite Forall_forall in *. intros d Hd. apply in_map_iff in Hd. destruct Hd as [[k s] [<- Hk]]. destruct (H1 _ Hk) as [K1 K2]. cbn [fst snd] in *.
    constructor; [now apply debug_str_quiet|]. destruct s as [v|f]; cbn [debug_symbol symbol_in_utf8 snd] in *; (constructor; [now apply C|]; constructor; [|constructor]).
    + constructor. apply debug_quiet.
    + constructor; [now apply C|constructor; [now apply C|constructor; [now apply C|constructor; [now apply C|constructor]]]|].
      constructor; [cbn [snd]; constructor; now apply debug_str_quiet|]. constructor; [|constructor; [|constructor]]; cbn [snd].
      * destruct (fn_ptr f); constructor; now apply C.
      * destruct (fn_nb_args f); cbn [debug_arity]; [|constructor; now apply C]. constructor; [now apply C|]. constructor; [|constructor]. constructor. apply digits_quiet.
  - destruct (ctx_expected c) as [s|]; cbn [debug_expected]; [|constructor; now apply C].
    constructor; [now apply C|]. constructor; [|constructor]. constructor. specialize (H2 s eq_refl). apply (Forall_permutation _ _ _ (Hf s)) in H2.
    rewrite Forall_forall in *. intros d Hd. apply in_map_iff in Hd. destruct Hd as [x [<- Hx]]. constructor. apply debug_str_quiet; auto.
Qed.

(** ** Limits *)
(** Which function it is, is not shown: these parsers print the same and give
    different values. *)
Definition with_twice : context := with_fn ctx_default (mk_function "f" (Static_user 0) (Some 1)).
Definition with_one : context := with_fn ctx_default (mk_function "f" (Static_user 2) (Some 1)).
Theorem C96_functions_not_told_refuted : forall shown,
  compact (debug_parser shown w0 with_twice) = compact (debug_parser shown w0 with_one) /\
  pretty (debug_parser shown w0 with_twice) = pretty (debug_parser shown w0 with_one) /\
  (exists x y, parse default_config w0 with_twice "f(3)" = Parse_ok x /\ parse default_config w0 with_one "f(3)" = Parse_ok y /\
     eval w0 x [] = Val (Eval_ok (lit "6")) /\ eval w0 y [] = Val (Eval_ok (lit "1"))).
Proof.
  intro shown. split; [reflexivity|]. split; [reflexivity|].
  assert (T1 : ok_and (parse default_config w0 with_twice "f(3)") (fun x => is_val (eval_element_unchecked w0 [] (root x)) (lit "6")) = true) by (vm_compute; reflexivity).
  assert (T2 : ok_and (parse default_config w0 with_one "f(3)") (fun x => is_val (eval_element_unchecked w0 [] (root x)) (lit "1")) = true) by (vm_compute; reflexivity).
  apply ok_and_spec in T1, T2. destruct T1 as [x [P1 E1]], T2 as [y [P2 E2]]. exists x, y. split; [exact P1|]. split; [exact P2|].
  split; unfold eval; apply PropertiesOptimise.eval_check; assumption.
Qed.

(** ** Concrete cases *)
(** Names that cannot be written in expressions, an accented letter, NaN and the
    zeros, a closure. *)
Definition odd_context : context :=
  with_expected_vars
    (with_fn (with_var (with_var ctx_default ("a""" ++ String "010" "") fnan) e_acute (fneg fzero)) (mk_function "g" (Dyn_user 7) None)) ["x"; "y z"].
Example C96_witness :
  proper odd_context /\ in_utf8 odd_context /\ fair_order w1 /\
  compact (debug_context shown_latin w0 ctx_default) = "Context { symbols: {}, expected_vars: None }" /\
  compact (debug_parser shown_latin w1 odd_context) =
    "Parser { ctx: Context { symbols: {""a\""\n"": Variable(NaN), """ ++ e_acute ++ """: Variable(-0.0), ""g"": Function(Function { name: ""g"", func: Dyn, nb_args: None })}, expected_vars: Some({""y z"", ""x""}) } }" /\
  pretty (debug_context shown_latin w0 with_twice) =
    "Context {" ++ nl ++ "    symbols: {" ++ nl ++ "        ""f"": Function(" ++ nl ++ "            Function {" ++ nl ++
    "                name: ""f""," ++ nl ++ "                func: Static," ++ nl ++ "                nb_args: Some(" ++ nl ++
    "                    1," ++ nl ++ "                )," ++ nl ++ "            }," ++ nl ++ "        )," ++ nl ++ "    }," ++ nl ++
    "    expected_vars: None," ++ nl ++ "}".
Proof.
  assert (A : forall s, forallb (fun c => (code c <? 128)%N) (list_ascii_of_string s) = true -> is_str s).
  { intros s H. unfold is_str. induction (list_ascii_of_string s) as [|c l IH]; [constructor|]. cbn [forallb] in H. apply andb_true_iff in H. destruct H as [Hc H].
    apply (utf8_cons [c] (code c)); [|auto]. constructor. unfold within. apply N.ltb_lt in Hc. lia. }
  split.
  { split; [|intros s [= <-]; repeat constructor; cbn; intuition discriminate].
    change (map fst (ctx_symbols odd_context)) with ["g"; e_acute; "a""" ++ String "010" ""]. repeat constructor; cbn; intuition discriminate. }
  split.
  { split.
    - change (ctx_symbols odd_context) with [("g", S_Function (mk_function "g" (Dyn_user 7) None)); (e_acute, S_Variable (fneg fzero)); ("a""" ++ String "010" "", S_Variable fnan)].
      constructor; [split; [|cbn [snd symbol_in_utf8]]; now apply A|]. constructor; [split; [cbn [fst]|exact I]|].
      + unfold is_str. change (list_ascii_of_string e_acute) with ([ascii_of_N 195; ascii_of_N 169] ++ [])%list. eapply utf8_cons; [|constructor]. apply U2; unfold within, code; cbn; lia.
      + constructor; [split; [now apply A|exact I]|constructor].
    - intros s [= <-]. repeat constructor; now apply A. }
  split; [exact w1_fair|]. repeat split; apply String.eqb_eq; vm_compute; reflexivity.
Qed.
