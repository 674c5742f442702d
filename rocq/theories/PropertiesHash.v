(** * Errors as keys of hash maps (C79) *)
From Coq Require Import ZArith NArith List String Ascii Bool Lia Permutation.
From Verif Require Import F64 Syntax Builtins Context Parser Xprs Order ErrorOrd HashFeed SpecUtf8 SpecOrder SpecParse TreeFacts ParserFacts ParserInv ParserResults SpecApi SpecTree PropertiesParse PropertiesErrors PropertiesUtf8 TestWorld PropertiesSorting.
Import ListNotations.
Local Open Scope list_scope.

(** ** What a Rust value of these types can be
    The model has unbounded numbers and byte strings where Rust has [u8],
    [usize] and UTF-8. *)
Definition usize (n : N) : Prop := (n < 2 ^ 64)%N.
Definition kind_in_range (k : error_kind) : Prop :=
  match k with
  | MalformedNumber s => is_str s
  | VariableNotDeclared x l => is_str x /\ Forall is_str l /\ usize (N.of_nat (List.length l))
  | TooFewArguments e g | TooManyArguments e g => e < 256 /\ usize (N.of_nat g)
  | _ => True
  end.
Definition in_range (e : parse_error) : Prop :=
  kind_in_range (pe_kind e) /\ usize (pe_offset e) /\ usize (pe_length e) /\ is_str (pe_src e).
Definition bind_error_text (e : bind_error) : string := match e with OneVariable s | MultipleVariables s => s end.

(** ** Feeds can be read back *)
(** [reads P f]: what was fed can be told from the stream, whatever follows *)
Definition reads {A} (P : A -> Prop) (f : A -> list N) : Prop :=
  forall a b r s, P a -> P b -> f a ++ r = f b ++ s -> a = b /\ r = s.

Lemma le_reads : forall k, reads (fun n => (n < 256 ^ N.of_nat k)%N) (le_bytes k).
Proof.
  induction k as [|k IH]; intros a b r s Ha Hb E.
  - cbn in *. split; [lia|exact E].
  - cbn [le_bytes app] in E. injection E as E1 E2.
    assert (P : (256 ^ N.of_nat (S k) = 256 * 256 ^ N.of_nat k)%N) by (rewrite Nnat.Nat2N.inj_succ, N.pow_succ_r'; reflexivity).
    rewrite P in Ha, Hb.
    destruct (IH (a / 256)%N (b / 256)%N r s) as [E3 E4]; [apply N.div_lt_upper_bound; lia|apply N.div_lt_upper_bound; lia|exact E2|].
    split; [|exact E4]. rewrite (N.div_mod a 256), (N.div_mod b 256) by lia. congruence.
Qed.

Lemma usize_reads : reads usize feed_usize.
Proof. intros a b r s Ha Hb E. apply (le_reads 8 a b r s Ha Hb E). Qed.
Lemma u8_reads : reads (fun n => n < 256) feed_u8.
Proof.
  intros a b r s Ha Hb E. destruct (le_reads 1 (N.of_nat a) (N.of_nat b) r s) as [H K]; [cbn; lia|cbn; lia|exact E|]. split; [lia|exact K].
Qed.
Lemma discriminant_reads : reads (fun n => n < 256) feed_discriminant.
Proof.
  intros a b r s Ha Hb E. destruct (le_reads 8 (N.of_nat a) (N.of_nat b) r s) as [H K]; [cbn; lia|cbn; lia|exact E|]. split; [lia|exact K].
Qed.
Lemma char_reads : reads (fun _ => True) feed_char.
Proof.
  intros a b r s _ _ E. pose proof (N_ascii_bounded a). pose proof (N_ascii_bounded b).
  destruct (le_reads 4 (N_of_ascii a) (N_of_ascii b) r s) as [H1 K]; [cbn; lia|cbn; lia|exact E|]. split; [|exact K].
  rewrite <- (ascii_N_embedding a), <- (ascii_N_embedding b). now rewrite H1.
Qed.

(** no byte of UTF-8 is 0xff *)
Lemma utf8_no_ff : forall l, utf8 l -> Forall (fun c => N_of_ascii c <> 255%N) l.
Proof.
  assert (C : forall l n, utf8_char l n -> Forall (fun c => N_of_ascii c <> 255%N) l).
  { intros l n H. inversion H; subst; unfold within, code in *; repeat constructor; lia. }
  induction 1 as [|l n r H Hr IH]; [constructor|]. apply Forall_app. split; [eapply C; eauto|exact IH].
Qed.

Lemma str_reads : reads is_str feed_str.
Proof.
  intros a b r s Ha Hb. unfold feed_str. rewrite <- !app_assoc. cbn [app]. intros E.
  assert (G : forall l m, Forall (fun c => N_of_ascii c <> 255%N) l -> Forall (fun c => N_of_ascii c <> 255%N) m ->
    map N_of_ascii l ++ 255%N :: r = map N_of_ascii m ++ 255%N :: s -> l = m /\ r = s).
  { induction l as [|c l IH]; intros [|d m] Fl Fm K; cbn in K.
    - injection K as K. auto.
    - injection K as K _. inversion Fm; subst. congruence.
    - injection K as K _. inversion Fl; subst. congruence.
    - injection K as K1 K2. inversion Fl; subst. inversion Fm; subst. destruct (IH m) as [-> ->]; auto. split; [|reflexivity].
      rewrite <- (ascii_N_embedding c), <- (ascii_N_embedding d). now rewrite K1. }
  destruct (G _ _ (utf8_no_ff _ Ha) (utf8_no_ff _ Hb) E) as [K ->]. split; [|reflexivity].
  rewrite <- (string_of_list_ascii_of_string a), <- (string_of_list_ascii_of_string b). now rewrite K.
Qed.

Lemma strs_reads : reads (fun l => Forall is_str l /\ usize (N.of_nat (List.length l))) feed_strs.
Proof.
  intros a b r s [Fa La] [Fb Lb] E. unfold feed_strs in E. rewrite <- !app_assoc in E.
  apply (usize_reads _ _ _ _ La Lb) in E. destruct E as [L E]. apply Nnat.Nat2N.inj in L. clear La Lb.
  revert b Fb L E. induction a as [|x a IH]; intros [|y b] Fb L E; try discriminate L; cbn in E.
  - auto.
  - rewrite <- !app_assoc in E. inversion Fa; subst. inversion Fb; subst. apply (str_reads x y) in E; auto. destruct E as [-> E].
    injection L as L. destruct (IH H2 b) as [-> ->]; auto.
Qed.

Lemma kind_reads : reads kind_in_range feed_kind.
Proof.
  intros a b r s Ha Hb E. unfold feed_kind in E. rewrite <- !app_assoc in E.
  apply (discriminant_reads (kind_index a) (kind_index b)) in E; [|destruct a; cbn; lia|destruct b; cbn; lia].
  destruct E as [I E].
  destruct a, b; try discriminate I; cbn [app kind_in_range] in *; auto.
  1,3,4: apply char_reads in E; auto; destruct E as [-> ->]; auto.
  - apply str_reads in E; auto. destruct E as [-> ->]. auto.
  - rewrite <- !app_assoc in E. destruct Ha as [Ha1 Ha2], Hb as [Hb1 Hb2]. apply str_reads in E; auto. destruct E as [-> E].
    apply strs_reads in E; auto. destruct E as [-> ->]. auto.
  - rewrite <- !app_assoc in E. destruct Ha, Hb. apply u8_reads in E; auto. destruct E as [-> E]. apply usize_reads in E; auto. destruct E as [E ->].
    apply Nnat.Nat2N.inj in E. subst. auto.
  - rewrite <- !app_assoc in E. destruct Ha, Hb. apply u8_reads in E; auto. destruct E as [-> E]. apply usize_reads in E; auto. destruct E as [E ->].
    apply Nnat.Nat2N.inj in E. subst. auto.
Qed.

Lemma parse_error_reads : reads in_range feed_parse_error.
Proof.
  intros [k o l t] [k' o' l' t'] r s [H1 [H2 [H3 H4]]] [K1 [K2 [K3 K4]]] E. cbn [pe_kind pe_offset pe_length pe_src] in *.
  unfold feed_parse_error in E. cbn [pe_kind pe_offset pe_length pe_src] in E. rewrite <- !app_assoc in E.
  apply kind_reads in E; auto. destruct E as [-> E]. apply usize_reads in E; auto. destruct E as [-> E].
  apply usize_reads in E; auto. destruct E as [-> E]. apply str_reads in E; auto. destruct E as [-> ->]. auto.
Qed.

Lemma bind_error_reads : reads (fun e => is_str (bind_error_text e)) feed_bind_error.
Proof.
  intros [x|x] [y|y] r s Ha Hb E; cbn [feed_bind_error bind_error_text] in *; rewrite <- !app_assoc in E;
    apply discriminant_reads in E; try lia; destruct E as [I E]; try discriminate I; apply str_reads in E; auto; destruct E as [-> ->]; auto.
Qed.

Lemma operator_reads : reads (fun _ => True) feed_operator.
Proof.
  intros a b r s _ _ E. apply (discriminant_reads (operator_index a) (operator_index b)) in E; [|destruct a; cbn; lia|destruct b; cbn; lia].
  destruct E as [I ->]. split; [|reflexivity]. destruct a, b; cbn in I; congruence.
Qed.

(** ** Equality *)
Lemma strings_eq : forall l m,
  (fix go (l m : list string) : bool :=
     match l, m with [], [] => true | a :: l, b :: m => String.eqb a b && go l m | _, _ => false end) l m = true <-> l = m.
Proof.
  induction l as [|a l IH]; intros [|b m]; try (split; [discriminate|congruence]); [split; reflexivity|].
  rewrite andb_true_iff, IH, String.eqb_eq. split; [intros [-> ->]; reflexivity|intro E; injection E; auto].
Qed.
Lemma kind_eq_iff : forall a b, kind_eq a b = true <-> a = b.
Proof.
  destruct a, b; cbn [kind_eq]; try (split; [discriminate|congruence]); try (split; reflexivity);
    rewrite ?andb_true_iff, ?strings_eq, ?String.eqb_eq, ?Ascii.eqb_eq, ?Nat.eqb_eq;
    (split; [intros H; try destruct H; congruence|intro H; injection H; auto]).
Qed.
Lemma parse_error_eq_iff : forall a b, parse_error_eq a b = true <-> a = b.
Proof.
  intros [k o l t] [k' o' l' t']. unfold parse_error_eq. cbn [pe_kind pe_offset pe_length pe_src].
  rewrite !andb_true_iff, kind_eq_iff, !N.eqb_eq, String.eqb_eq. split; [intros [[-> [-> ->]] ->]; reflexivity|intro E; injection E; auto].
Qed.
Lemma bind_error_eq_iff : forall a b, bind_error_eq a b = true <-> a = b.
Proof. intros [x|x] [y|y]; cbn; try (split; congruence); rewrite String.eqb_eq; split; congruence. Qed.

(** Two errors are equal exactly if they agree in everything, and equality goes
    with the orders of C75. *)
Theorem C79_equality :
  (forall a b, parse_error_eq a b = true <->
     pe_kind a = pe_kind b /\ pe_offset a = pe_offset b /\ pe_length a = pe_length b /\ pe_src a = pe_src b) /\
  (forall a b, kind_eq a b = true <-> kind_cmp a b = Eq) /\
  (forall a b, bind_error_eq a b = true <-> bind_error_cmp a b = Eq) /\
  (forall a b, eval_error_eq a b = true <-> eval_error_cmp a b = Eq) /\
  (forall a b, operator_eqb a b = true <-> op_cmp a b = Eq).
Proof.
  split; [|split; [|split; [|split]]]; intros a b.
  - rewrite parse_error_eq_iff. destruct a, b; cbn. split; [intro E; injection E; auto|intros [-> [-> [-> ->]]]; reflexivity].
  - rewrite kind_eq_iff. symmetry. apply kind_order.
  - rewrite bind_error_eq_iff. symmetry. apply bind_error_order.
  - unfold eval_error_eq. rewrite String.eqb_eq. symmetry. apply str_order.
  - destruct a, b; cbn; split; congruence.
Qed.

(** The contract of hash maps, for any hasher: equal errors feed it the same,
    and different errors feed it different data, neither a prefix of the other;
    so only the hasher itself can make them collide. *)
Theorem C79_parse_errors : forall a b r s, in_range a -> in_range b ->
  (feed_parse_error a ++ r = feed_parse_error b ++ s <-> parse_error_eq a b = true /\ r = s).
Proof.
  intros a b r s Ha Hb. rewrite parse_error_eq_iff. split; [now apply parse_error_reads|intros [-> ->]; reflexivity].
Qed.
Theorem C79_kinds : forall a b r s, kind_in_range a -> kind_in_range b ->
  (feed_kind a ++ r = feed_kind b ++ s <-> kind_eq a b = true /\ r = s).
Proof. intros a b r s Ha Hb. rewrite kind_eq_iff. split; [now apply kind_reads|intros [-> ->]; reflexivity]. Qed.
Theorem C79_bind_errors : forall a b r s, is_str (bind_error_text a) -> is_str (bind_error_text b) ->
  (feed_bind_error a ++ r = feed_bind_error b ++ s <-> bind_error_eq a b = true /\ r = s).
Proof. intros a b r s Ha Hb. rewrite bind_error_eq_iff. split; [now apply bind_error_reads|intros [-> ->]; reflexivity]. Qed.
Theorem C79_eval_errors : forall a b r s, is_str a -> is_str b ->
  (feed_eval_error a ++ r = feed_eval_error b ++ s <-> eval_error_eq a b = true /\ r = s).
Proof. intros a b r s Ha Hb. unfold eval_error_eq. rewrite String.eqb_eq. split; [now apply str_reads|intros [-> ->]; reflexivity]. Qed.
Theorem C79_operators : forall a b r s,
  (feed_operator a ++ r = feed_operator b ++ s <-> operator_eqb a b = true /\ r = s).
Proof.
  intros a b r s. split.
  - intros E. apply operator_reads in E; auto. destruct E as [-> ->]. split; [destruct b; reflexivity|reflexivity].
  - intros [E ->]. destruct a, b; try discriminate E; reflexivity.
Qed.

(** ** The errors that parsing reports *)
Lemma builtin_arity : forall name f n, identifier_from_str name = I_Function f -> fn_nb_args f = Some n -> n < 256.
Proof.
  intros name f n. unfold identifier_from_str.
  repeat match goal with |- context [if ?b then _ else _] => destruct b end;
    intros E; try discriminate E; injection E as <-; cbn; intro H; try discriminate H; injection H as <-; lia.
Qed.

Lemma malformed_text : forall cfg w ctx input e s, parse cfg w ctx input = Parse_err e -> pe_kind e = MalformedNumber s -> is_str s.
Proof.
  intros cfg w ctx input e s He Hk. pose proof (C45_errors_truthful _ _ _ _ _ He) as Ht. unfold error_truthful in Ht. rewrite Hk in Ht.
  destruct Ht as [_ [Hne [Hl [_ [o [Ho [Hle Hs]]]]]]].
  assert (Hlen : 0 < List.length (bytes input)).
  { unfold bytes. destruct s; [congruence|cbn in Hle; lia]. }
  unfold parse in He. pose proof (fine_parse cfg w ctx input 0 Hlen eq_refl) as Hf.
  destruct (parse_impl cfg w ctx input) as [[r vs] c|e' c|q|]; try discriminate He.
  - destruct (get_expected_vars ctx) as [ex|]; [|discriminate He]. destruct (set_diff _ _); [discriminate He|].
    injection He as <-. discriminate Hk.
  - injection He as ->. cbn in Hf. destruct Hf as [[_ [Hc Hp]] Hspan]. unfold span_seen in Hspan. rewrite Hk in Hspan.
    unfold is_str. apply utf8_seven. rewrite <- Hs. intros b Hin. apply In_nth_error in Hin. destruct Hin as [i Hi].
    assert (i < String.length s).
    { assert (i < List.length (firstn (String.length s) (skipn o (list_ascii_of_string input)))) by (apply nth_error_Some; congruence).
      rewrite firstn_length in *. lia. }
    rewrite nth_firstn in Hi by assumption. rewrite nth_error_skipn in Hi. apply (Hp (o + i)); [lia|lia|exact Hi].
Qed.

(** What a context of a Rust program can be *)
Definition context_in_range (ctx : context) : Prop :=
  (forall name f n, sget name (ctx_symbols ctx) = Some (S_Function f) -> fn_nb_args f = Some n -> n < 256) /\
  (forall s, get_expected_vars ctx = Some s -> Forall is_str s /\ usize (N.of_nat (List.length s))).

(** The errors of parsing are in the range for which the theorems above speak. *)
Theorem C79_reported_errors : forall cfg w ctx input e, fair_order w -> context_in_range ctx ->
  is_str input -> usize (N.of_nat (String.length input)) ->
  parse cfg w ctx input = Parse_err e -> in_range e.
Proof.
  intros cfg w ctx input e Hw [Hf Hx] Hu Hl He. unfold usize in *.
  pose proof (C45_errors_truthful _ _ _ _ _ He) as Ht. unfold error_truthful in Ht. destruct Ht as [Hsrc Ht].
  assert (Har : forall name f n, names_function ctx name f -> fn_nb_args f = Some n -> n < 256).
  { intros name f n [H|[_ H]] Hn; [eapply Hf; eauto|eapply builtin_arity; eauto]. }
  rewrite list_ascii_length in Ht. unfold in_range. rewrite Hsrc. unfold usize.
  destruct (pe_kind e) as [|t|m|t|t|v av|want got|want got|] eqn:Hk; cbn [kind_in_range]; unfold usize.
  - destruct Ht as [-> [[o [-> Ho]]|[_ ->]]]; repeat split; auto; lia.
  - destruct Ht as [-> [o [-> Ho]]]. apply nth_error_Some_lt in Ho. rewrite list_ascii_length in Ho. repeat split; auto; lia.
  - pose proof (malformed_text _ _ _ _ _ _ He Hk). destruct Ht as [_ [-> [_ [o [-> [Hle _]]]]]]. repeat split; auto; lia.
  - destruct Ht as [-> [_ [o [-> Ho]]]]. apply nth_error_Some_lt in Ho. rewrite list_ascii_length in Ho. repeat split; auto; lia.
  - destruct Ht as [-> [_ [o [-> [Ho _]]]]]. repeat split; auto; lia.
  - destruct Ht as [-> ->]. destruct (C51_undeclared_variable_texts cfg cfg w ctx input e v av Hw He Hk) as [s [Hs [Hnot [Hp _]]]].
    destruct (Hx s Hs) as [Hstr Hn].
    assert (Hv : is_str v).
    { pose proof (C16_expected_variables cfg w ctx input s Hw Hs) as H16.
      destruct (parse cfg w (without_expected ctx) input) as [x|e'|q|] eqn:Ex.
      - destruct H16 as [[_ H16]|[v' [av' [Ho [_ [_ H16]]]]]]; rewrite H16 in He; [discriminate He|].
        injection He as <-. cbn [pe_kind] in Hk. injection Hk as -> ->.
        destruct (C13_variables_are_input_identifiers _ _ _ _ _ _ Ex Ho) as [_ [_ [_ Ha]]].
        unfold is_str. apply utf8_seven. intros b Hb. rewrite Forall_forall in Ha. specialize (Ha b Hb). unfold seven, code. lia.
      - exfalso. rewrite H16 in He. injection He as <-. eapply no_expected_no_undeclared; [|exact Ex|exact Hk]. reflexivity.
      - rewrite H16 in He. discriminate He.
      - rewrite H16 in He. discriminate He. }
    repeat split; auto; try lia.
    + eapply Permutation_Forall; eauto.
    + rewrite <- (Permutation_length Hp). exact Hn.
  - destruct Ht as (_ & o & l & n & name & f & -> & -> & Hn & Hle & _ & Hnf & Hnb). specialize (Har _ _ _ Hnf Hnb). repeat split; auto; lia.
  - destruct Ht as (_ & o & l & n & name & f & -> & -> & Hn & Hle & _ & Hnf & Hnb). specialize (Har _ _ _ Hnf Hnb). repeat split; auto; lia.
  - destruct Ht as [-> [o [-> Ho]]]. repeat split; auto; lia.
Qed.

(** So for the errors of any two texts, of any two parsers: same data if and only
    if equal. *)
Theorem C79_reported_errors_hash : forall cfg cfg' w w' ctx ctx' input input' e e' r s,
  fair_order w -> fair_order w' -> context_in_range ctx -> context_in_range ctx' ->
  is_str input -> is_str input' -> usize (N.of_nat (String.length input)) -> usize (N.of_nat (String.length input')) ->
  parse cfg w ctx input = Parse_err e -> parse cfg' w' ctx' input' = Parse_err e' ->
  (feed_parse_error e ++ r = feed_parse_error e' ++ s <-> parse_error_eq e e' = true /\ r = s).
Proof. intros. apply C79_parse_errors; [apply (C79_reported_errors cfg w ctx input)|apply (C79_reported_errors cfg' w' ctx' input')]; assumption. Qed.

Example C79_witness :
  fair_order w0 /\ context_in_range ctx1 /\
  is_str "max(1, 2" /\ usize (N.of_nat (String.length "max(1, 2")) /\
  (exists e, parse default_config w0 ctx1 "max(1, 2" = Parse_err e /\ in_range e) /\
  error_of (parse default_config w0 ctx1 "sin(1, 2)") = Some (TooManyArguments 1 2, 0%N, 9%N) /\
  error_of (parse default_config w0 ctx1 "1.2.3") = Some (MalformedNumber "1.2.3", 0%N, 5%N) /\
  error_of (parse default_config w0 ctx1 "z") = Some (VariableNotDeclared "z" ["x"; "y"]%string, 0%N, 1%N).
Proof.
  assert (A : forall s, forallb (fun c => (code c <=? 127)%N) (list_ascii_of_string s) = true -> is_str s).
  { intros s H. rewrite forallb_forall in H. apply utf8_seven. intros b Hb. apply N.leb_le. now apply H. }
  assert (W : fair_order w0) by (intro l; apply Permutation_refl).
  assert (C : context_in_range ctx1).
  { split.
    - intros name f n H Hn. unfold ctx1, with_expected_vars, with_fn, with_var in H.
      cbn [ctx_symbols ctx_default] in H. rewrite !sget_sinsert in H.
      destruct (String.eqb name (fn_name double_fn)); [|destruct (String.eqb name "k"); discriminate].
      injection H as <-. cbn in Hn. injection Hn as <-. lia.
    - intros s H. injection H as <-. split; [repeat constructor; apply A; reflexivity|reflexivity]. }
  assert (I : is_str "max(1, 2") by (apply A; reflexivity).
  split; [exact W|]. split; [exact C|]. split; [exact I|]. split; [reflexivity|]. split; [|repeat split; vm_compute; reflexivity].
  destruct (parse default_config w0 ctx1 "max(1, 2") as [x|e|p|] eqn:E.
  2:{ exists e. split; [reflexivity|]. apply (C79_reported_errors _ _ _ _ _ W C I eq_refl E). }
  all: exfalso; assert (error_of (parse default_config w0 ctx1 "max(1, 2") <> None) as N by (vm_compute; discriminate);
    rewrite E in N; now apply N.
Qed.
