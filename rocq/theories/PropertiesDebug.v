(** * Properties: Debug texts (C76) *)
From Coq Require Import ZArith NArith List String Ascii Bool Lia Permutation Reals Lra.
From Flocq Require Import Core BinarySingleNaN.
From Verif Require Import F64 FloatFacts Syntax Builtins Context Parser Xprs Display Repl
  SpecChars SpecTokens SpecNumber SpecNames SpecGrammar SpecDisplay NumberFacts DisplayFacts DebugText SpecDebug DebugFacts
  ParserResults  TreeFacts SpecTree IdentityFacts PropertiesSimplify PropertiesDisplay PropertiesDefault PropertiesError TestWorld.
Import ListNotations.
Local Open Scope string_scope.

(** ** Numbers *)
Lemma display_Z_exponent : forall z, exponent ("e"%char :: list_ascii_of_string (display_Z z)) z.
Proof.
  intro z. unfold display_Z. destruct (digits_of_spec (Z.to_N (Z.abs z))) as [Hd [Hn Hv]]. rewrite Z2N.id in Hv by lia.
  rewrite las_app, las_sol. destruct (Z.ltb_spec z 0).
  - replace z with (- digits_value (digits_of (Z.to_N (Z.abs z))))%Z at 2 by lia. cbn. now apply X_minus; [left| |].
  - replace z with (digits_value (digits_of (Z.to_N (Z.abs z))))%Z at 2 by lia. cbn. now apply X_bare; [left| |].
Qed.

Lemma scientific_list : forall c p, (0 <= c)%Z -> decimal_list (scientific c p) c p.
Proof.
  intros c p Hc. unfold scientific. destruct (digits_of_spec (Z.to_N c)) as [Hd [Hn Hv]]. rewrite Z2N.id in Hv by lia.
  destruct (digits_of (Z.to_N c)) as [|d rest]; [congruence|].
  exists (d :: match rest with [] => [] | _ => "."%char :: rest end)%list,
    ("e"%char :: list_ascii_of_string (display_Z (p + Z.of_nat (List.length rest))))%list, (List.length rest), (p + Z.of_nat (List.length rest))%Z.
  split; [reflexivity|]. split; [|split; [apply display_Z_exponent|lia]].
  rewrite <- Hv. destruct rest as [|d2 rest]; [now apply M_integer|].
  apply (M_point [d] (d2 :: rest)).
  - inversion Hd; subst. constructor; [assumption|constructor].
  - inversion Hd; subst. assumption.
  - discriminate.
Qed.

Definition shown_list (v : f64) (c p : Z) : list ascii :=
  if flt (fabs v) (f64_of_dec 1 (-4)) || negb (flt (fabs v) (f64_of_dec 1 16)) then scientific c p
  else (positional c p ++ (if (0 <=? p)%Z then [".";"0"]%char else []))%list.

(** what the digits write *)
Lemma shown_decimal : forall v c p, (0 <= c)%Z -> exists m k, decimal_list (shown_list v c p) m k /\
  (IZR m * powerRZ 10 k = IZR c * powerRZ 10 p)%R.
Proof.
  intros v c p Hc. unfold shown_list. destruct (_ || _).
  - exists c, p. split; [now apply scientific_list|reflexivity].
  - destruct (Z.leb_spec 0 p) as [Hp|Hp].
    + unfold positional. destruct (digits_of_spec (Z.to_N c)) as [Hd [Hn Hv]]. rewrite Z2N.id in Hv by lia.
      destruct (Z.leb_spec 0 p); [|lia]. set (ds := digits_of (Z.to_N c)) in *.
      set (i := (ds ++ repeat "0"%char (Z.to_nat p))%list).
      exists (digits_value (i ++ ["0"%char])), (-1)%Z. split.
      * exists (i ++ "."%char :: ["0"%char])%list, [], 1%nat, 0%Z. split; [now rewrite app_nil_r|]. split; [|split; [constructor|reflexivity]].
        apply M_point; [unfold i; apply Forall_app; split; [exact Hd|apply zeros_digits]|repeat constructor; unfold decimal_digit; cbn; lia|].
        destruct i; discriminate.
      * rewrite digits_value_app. cbn [digits_value List.length]. unfold i. rewrite digits_value_app, digits_value_zeros, repeat_length, Hv, Z2Nat.id by lia.
        rewrite (powerRZ_pos_Z p) by exact Hp.
        match goal with |- (IZR ?a * _ = _)%R => replace a with (c * 10 ^ p * 10)%Z by (generalize (10 ^ p)%Z; intro q; cbn; ring) end.
        rewrite !mult_IZR. change (powerRZ 10 (-1)) with (/ (10 * 1))%R. generalize (IZR (10 ^ p)). intro q. field.
    + rewrite app_nil_r. destruct (positional_spec c p Hc) as [m [k [Hm He]]]. exists m, (- Z.of_nat k)%Z. split; [|exact He].
      exists (positional c p), [], k, 0%Z. split; [now rewrite app_nil_r|]. split; [exact Hm|]. split; [constructor|lia].
Qed.

Definition number_char (c : ascii) : Prop := plain_char c \/ c = "e"%char \/ c = "E"%char \/ c = "+"%char \/ c = "-"%char.
Lemma digits_number : forall l, all_digits l -> Forall number_char l.
Proof. intros l H. eapply Forall_impl; [|exact H]. intros c Hc. left. now left. Qed.
Lemma decimal_chars : forall l m k, decimal_list l m k -> Forall number_char l.
Proof.
  intros l m k [a [b [k' [x [-> [Hm [Hx _]]]]]]]. apply Forall_app. split.
  - eapply Forall_impl; [|eapply mantissa_chars; exact Hm]. intros c Hc. now left.
  - inversion Hx as [|c ds Hc Hd Hn|c ds Hc Hd Hn|c ds Hc Hd Hn]; subst; [constructor| | |];
      (constructor; [unfold number_char; tauto|]); repeat (constructor; [unfold number_char; tauto|]); now apply digits_number.
Qed.
Lemma number_char_facts : forall c, number_char c -> word_char c = true /\ Ascii.eqb c "_" = false.
Proof.
  intros c Hc. split.
  - unfold word_char. apply negb_true_iff. cbn [existsb].
    repeat (apply orb_false_iff; split); try reflexivity; apply Ascii.eqb_neq; intros ->;
      unfold number_char, plain_char, decimal_digit in Hc; cbn in Hc; repeat (destruct Hc as [Hc|Hc]); try lia; discriminate Hc.
  - apply Ascii.eqb_neq. intros ->. unfold number_char, plain_char, decimal_digit in Hc. cbn in Hc. repeat (destruct Hc as [Hc|Hc]); try lia; discriminate Hc.
Qed.

Lemma debug_positive : forall v : f64, fis_finite v = true -> (0 < B2R v)%R -> exists c p, (0 < c)%Z /\
  debug_f64 v = string_of_list_ascii (shown_list v c p) /\ correctly_rounded (IZR c * powerRZ 10 p) v /\
  display_f64 v = string_of_list_ascii (positional c p) /\ best v c p /\ Bsign v = false.
Proof.
  intros [s|s| |s m e H] Hf Hp; try discriminate Hf; [cbn in Hp; lra|].
  assert (s = false) as ->.
  { destruct s; [|reflexivity]. exfalso. cbn in Hp. unfold Defs.F2R in Hp. cbn in Hp. pose proof (Raux.bpow_gt_0 Zaux.radix2 e).
    pose proof (IZR_lt (Z.neg m) 0 ltac:(lia)). nra. }
  pose proof (shortest_decimal_best m e H) as Hb. cbv zeta in Hb. unfold debug_f64, display_f64, shown_list. cbn [fabs Babs].
  destruct (shortest_decimal (B754_finite false m e H) m e) as [c p]. exists c, p.
  pose proof Hb as [Hc [Hr _]]. split; [exact Hc|]. split; [reflexivity|]. split; [exact Hr|]. split; [reflexivity|]. split; [exact Hb|reflexivity].
Qed.

Lemma filter_all : forall A (f : A -> bool) l, (forall x, In x l -> f x = true) -> filter f l = l.
Proof. intros A f l H. induction l as [|a l IH]; [reflexivity|]. cbn. rewrite H by now left. f_equal. apply IH. intros. apply H. now right. Qed.

Lemma decimal_parses : forall l m k v d, decimal_list l m k -> (IZR m * powerRZ 10 k = d)%R -> correctly_rounded d v -> parse_f64 l = Some v.
Proof.
  intros l m k v d Hl Hd Hr. pose proof (decimal_chars _ _ _ Hl) as Hch.
  assert (E : filter (fun c => negb (Ascii.eqb c "_")) l = l).
  { apply filter_all. intros c Hc. rewrite Forall_forall in Hch. destruct (number_char_facts c (Hch c Hc)) as [_ ->]. reflexivity. }
  pose proof (parse_f64_correct (string_of_list_ascii l) v) as K. rewrite las_sol in K. unfold strip_underscores in K. rewrite E in K.
  apply K. exists d. split; [|exact Hr]. destruct Hl as [a [b [k' [x [-> [Hm [Hx ->]]]]]]].
  exists a, b, m, k', x. rewrite las_sol, E. rewrite <- Hd. auto.
Qed.

(** the first byte of a number without sign *)
Lemma shown_head : forall v c p, exists d l, shown_list v c p = d :: l /\ decimal_digit d.
Proof.
  intros v c p. unfold shown_list. destruct (_ || _).
  - unfold scientific. destruct (digits_of_spec (Z.to_N c)) as [Hd [Hn _]]. destruct (digits_of (Z.to_N c)) as [|d rest]; [congruence|].
    inversion Hd; subst. eauto.
  - destruct (positional_head c p) as [d [l [-> Hd]]]. cbn. eauto.
Qed.

Lemma debug_neg : forall v, v <> fnan -> Bsign v = false -> debug_f64 (fneg v) = "-" ++ debug_f64 v.
Proof.
  intros [s|s| |s m e H] Hn Hs; cbn in Hs; try subst s; try reflexivity; [now destruct Hn|].
  cbn [debug_f64 fneg Bopp fabs Babs negb]. destruct (shortest_decimal _ m e) as [c p]. reflexivity.
Qed.

Lemma f64_classes : forall v : f64, v = fnan \/ v = finf \/ v = fzero \/ (fis_finite v = true /\ (0 < B2R v)%R) \/
  exists u, v = fneg u /\ (u = finf \/ u = fzero \/ (fis_finite u = true /\ (0 < B2R u)%R)).
Proof.
  assert (P : forall m e H, (0 < B2R (B754_finite false m e H : f64))%R).
  { intros m e H. cbn. unfold Defs.F2R. cbn. pose proof (Raux.bpow_gt_0 Zaux.radix2 e). pose proof (IZR_lt 0 (Z.pos m) ltac:(lia)). nra. }
  intros [s|s| |s m e H]; auto.
  - destruct s; [|auto]. do 4 right. exists fzero. split; [reflexivity|auto].
  - destruct s; [|auto]. do 4 right. exists finf. split; [reflexivity|auto].
  - destruct s; [|right; right; right; left; split; [reflexivity|apply P]].
    do 4 right. exists (B754_finite false m e H). split; [reflexivity|]. right. right. split; [reflexivity|apply P].
Qed.

Lemma positive_not_nan : forall u : f64, u = finf \/ u = fzero \/ (fis_finite u = true /\ (0 < B2R u)%R) -> u <> fnan /\ Bsign u = false.
Proof.
  intros u [->|[->|[Hf Hp]]]; try (split; [discriminate|reflexivity]).
  destruct (debug_positive u Hf Hp) as [c [p [_ [_ [_ [_ [_ Hs]]]]]]]. split; [|exact Hs]. intros ->. discriminate Hf.
Qed.

Lemma unsigned_reads : forall u : f64, u = finf \/ u = fzero \/ (fis_finite u = true /\ (0 < B2R u)%R) ->
  unsigned_from_str (list_ascii_of_string (debug_f64 u)) = Some u /\
  (exists c l, list_ascii_of_string (debug_f64 u) = c :: l /\ Ascii.eqb c "-" = false /\ Ascii.eqb c "+" = false).
Proof.
  intros u [->|[->|[Hf Hp]]].
  - split; [reflexivity|]. do 2 eexists. split; [reflexivity|split; reflexivity].
  - split; [reflexivity|]. do 2 eexists. split; [reflexivity|split; reflexivity].
  - destruct (debug_positive u Hf Hp) as [c [p [Hc [-> [Hr _]]]]]. rewrite las_sol.
    destruct (shown_decimal u c p) as [m [k [Hl He]]]; [lia|]. unfold unsigned_from_str. rewrite (decimal_parses _ _ _ u _ Hl He Hr).
    split; [reflexivity|]. destruct (shown_head u c p) as [d [l [-> Hd]]]. exists d, l. split; [reflexivity|].
    unfold decimal_digit in Hd. split; apply Ascii.eqb_neq; intros ->; cbn in Hd; lia.
Qed.

(** [str::parse::<f64>] reads the text of every f64 as that f64. *)
Theorem C76_number_reads_back : forall v : f64, f64_from_str (list_ascii_of_string (debug_f64 v)) = Some v.
Proof.
  assert (U : forall u : f64, u = finf \/ u = fzero \/ (fis_finite u = true /\ (0 < B2R u)%R) ->
    f64_from_str (list_ascii_of_string (debug_f64 u)) = Some u).
  { intros u Hu. destruct (unsigned_reads u Hu) as [Hr [c [l [E [N1 N2]]]]]. unfold f64_from_str. rewrite E in *. rewrite N1, N2. exact Hr. }
  intro v. destruct (f64_classes v) as [->|[->|[->|[H|[u [-> Hu]]]]]].
  - reflexivity.
  - apply U. auto.
  - apply U. auto.
  - apply U. auto.
  - destruct (positive_not_nan u Hu) as [Hn Hs]. rewrite (debug_neg u Hn Hs). cbn [append list_ascii_of_string f64_from_str].
    change (Ascii.eqb "-" "-") with true. cbn iota. destruct (unsigned_reads u Hu) as [-> _]. reflexivity.
Qed.

(** Different numbers, 0.0 and -0.0 among them, have different texts. *)
Corollary C76_number_texts_distinct : forall v v', debug_f64 v = debug_f64 v' -> v = v'.
Proof. intros v v' E. pose proof (C76_number_reads_back v) as H. rewrite E, C76_number_reads_back in H. now injection H. Qed.

Lemma debug_word : forall v, word (debug_f64 v).
Proof.
  assert (U : forall u : f64, u = finf \/ u = fzero \/ (fis_finite u = true /\ (0 < B2R u)%R) -> word (debug_f64 u)).
  { intros u [->|[->|[Hf Hp]]]; try (split; [discriminate|reflexivity]).
    destruct (debug_positive u Hf Hp) as [c [p [Hc [-> _]]]]. split.
    - destruct (shown_head u c p) as [d [l [-> _]]]. discriminate.
    - rewrite las_sol. apply forallb_forall. intros x Hx. destruct (shown_decimal u c p) as [m [k [Hl _]]]; [lia|].
      apply decimal_chars in Hl. rewrite Forall_forall in Hl. now apply number_char_facts, Hl. }
  intro v. destruct (f64_classes v) as [->|[->|[->|[H|[u [-> Hu]]]]]].
  - split; [discriminate|reflexivity].
  - apply U. auto.
  - apply U. auto.
  - apply U. auto.
  - destruct (positive_not_nan u Hu) as [Hn Hs]. rewrite (debug_neg u Hn Hs). destruct (U u Hu) as [_ Hw]. split; [discriminate|exact Hw].
Qed.

(** ** Trees *)
Lemma name_char_word : forall c, in_name c = true -> word_char c = true.
Proof.
  intros c H. destruct (word_char c) eqn:E; [reflexivity|]. unfold word_char in E. apply negb_false_iff in E. cbn [existsb] in E.
  repeat (apply orb_true_iff in E; destruct E as [E|E]); try discriminate E; apply Ascii.eqb_eq in E; subst c; discriminate H.
Qed.
Lemma quoted_word : forall s, is_name s -> word (quoted s).
Proof.
  intros s [H1 [H2 _]]. unfold quoted. split; [discriminate|]. cbn. rewrite las_app, forallb_app. apply andb_true_iff. split; [|reflexivity].
  apply forallb_forall. intros c Hc. rewrite Forall_forall in H2. now apply name_char_word, H2.
Qed.
Lemma quoted_inj : forall s t, quoted s = quoted t -> s = t.
Proof.
  intros s t E. unfold quoted in E. cbn in E. injection E as E. apply (f_equal list_ascii_of_string) in E. rewrite !las_app in E.
  apply app_inj_tail in E. now apply las_inj.
Qed.
Lemma display_nat_word : forall n, word (display_nat n).
Proof.
  intro n. unfold display_nat. destruct (digits_of_spec (N.of_nat n)) as [Hd [Hn _]]. split.
  - destruct (digits_of (N.of_nat n)); [congruence|discriminate].
  - rewrite las_sol. apply forallb_forall. intros c Hc. apply digits_number in Hd. rewrite Forall_forall in Hd. now apply number_char_facts, Hd.
Qed.
Lemma display_nat_inj : forall n m, display_nat n = display_nat m -> n = m.
Proof.
  intros n m E. unfold display_nat in E. apply (f_equal list_ascii_of_string) in E. rewrite !las_sol in E.
  destruct (digits_of_spec (N.of_nat n)) as [_ [_ V1]]. destruct (digits_of_spec (N.of_nat m)) as [_ [_ V2]]. rewrite E in V1. lia.
Qed.

Ltac closed_word := split; [discriminate|reflexivity].
Lemma operator_wf : forall op, wf (debug_operator op).
Proof. intros []; constructor; closed_word. Qed.
Lemma function_wf : forall f, is_name (fn_name f) -> wf (debug_function f).
Proof.
  intros f Hf. unfold debug_function. apply WF_struct; [closed_word|discriminate|repeat (constructor; [closed_word|]); constructor|].
  constructor; [constructor; now apply quoted_word|]. constructor.
  - cbn. unfold debug_pointer. destruct (fn_ptr f); constructor; closed_word.
  - constructor; [|constructor]. cbn. unfold debug_arity. destruct (fn_nb_args f); [|constructor; closed_word].
    apply WF_tuple; [closed_word|discriminate|]. constructor; [|constructor]. constructor. apply display_nat_word.
Qed.
Lemma element_wf : forall ctx e, well_named ctx e -> wf (debug_element e).
Proof.
  intros ctx. induction e as [n|op l r IHl IHr|op e IHe|f args Hargs|y] using element_ind'; intro W; cbn [debug_element].
  - apply WF_tuple; [closed_word|discriminate|]. constructor; [|constructor]. constructor. apply debug_word.
  - destruct W as [W1 W2]. apply WF_tuple; [closed_word|discriminate|]. constructor; [|constructor].
    apply WF_struct; [closed_word|discriminate|repeat (constructor; [closed_word|]); constructor|].
    constructor; [apply operator_wf|]. constructor; [now apply IHl|]. constructor; [now apply IHr|constructor].
  - destruct W as [_ W]. apply WF_tuple; [closed_word|discriminate|]. constructor; [|constructor].
    apply WF_struct; [closed_word|discriminate|repeat (constructor; [closed_word|]); constructor|].
    constructor; [apply operator_wf|]. constructor; [now apply IHe|constructor].
  - apply well_named_call in W. destruct W as [[Wn _] Wa]. apply WF_tuple; [closed_word|discriminate|]. constructor; [|constructor].
    apply WF_struct; [closed_word|discriminate|repeat (constructor; [closed_word|]); constructor|].
    constructor; [now apply function_wf|]. constructor; [|constructor]. cbn. constructor. rewrite Forall_forall in *. intros d Hd.
    apply in_map_iff in Hd. destruct Hd as [a [<- Ha]]. apply Hargs; auto.
  - destruct W as [W _]. apply WF_tuple; [closed_word|discriminate|]. constructor; [|constructor]. constructor. now apply quoted_word.
Qed.

Lemma debug_element_inj : forall ctx e e', well_named ctx e -> well_named ctx e' -> debug_element e = debug_element e' -> e = e'.
Proof.
  intros ctx. induction e as [n|op l r IHl IHr|op e IHe|f args Hargs|y] using element_ind'; intros e' W W' E.
  - destruct e' as [n'|op' l' r'|op' a'|f' args'|y']; try discriminate E. cbn [debug_element] in E. injection E as E.
    f_equal. now apply C76_number_texts_distinct.
  - destruct e' as [n'|op' l' r'|op' a'|f' args'|y']; try discriminate E. cbn [debug_element] in E. injection E as Eo El Er.
    destruct W as [W1 W2], W' as [W1' W2']. rewrite (IHl l' W1 W1' El), (IHr r' W2 W2' Er).
    f_equal. destruct op, op'; try reflexivity; discriminate Eo.
  - destruct e' as [n'|op' l' r'|op' a'|f' args'|y']; try discriminate E. cbn [debug_element] in E. injection E as Eo Ea.
    destruct W as [_ W], W' as [_ W']. rewrite (IHe a' W W' Ea). f_equal. destruct op, op'; try reflexivity; discriminate Eo.
  - destruct e' as [n'|op' l' r'|op' a'|f' args'|y']; try discriminate E. cbn [debug_element] in E. unfold debug_function in E.
    injection E as En Ep Ear Eargs. apply well_named_call in W, W'. destruct W as [[_ [S1 _]] Wa], W' as [[_ [S2 _]] Wa'].
    assert (En' : fn_name f = fn_name f') by (apply quoted_inj; unfold quoted; cbn; now rewrite En). rewrite <- En' in S2. rewrite S1 in S2. injection S2 as ->. f_equal.
    clear - Hargs Eargs Wa Wa'. revert args' Eargs Wa'. induction args as [|a args IH]; intros [|a' args'] E Wa'; try discriminate E; [reflexivity|].
    cbn in E. injection E as E1 E2. inversion Hargs; inversion Wa; inversion Wa'; subst. f_equal; auto.
  - destruct e' as [n'|op' l' r'|op' a'|f' args'|y']; try discriminate E. cbn [debug_element] in E. injection E as E.
    f_equal. apply quoted_inj. unfold quoted. cbn. now rewrite E.
Qed.

(** ** Expressions that were parsed, and perhaps partially evaluated *)
Definition obtained (cfg : config) (w : world) (ctx : context) (x : xprs) : Prop :=
  exists input y l, parse cfg w ctx input = Parse_ok y /\ simplify_for_multiple cfg w y l = Val x.

Lemma free_named : forall ctx e y, well_named ctx e -> free y e -> is_name y.
Proof.
  intros ctx. induction e as [n|op l r IHl IHr|op e IHe|f args Hargs|z] using element_ind'; intros y W H.
  - destruct H.
  - destruct W, H; eauto.
  - destruct W. eauto.
  - apply well_named_call in W. destruct W as [_ W]. apply free_iff in H. inversion H; subst.
    rewrite Forall_forall in *. match goal with K : occurs _ ?a, I : In ?a args |- _ => apply free_iff in K; apply (Hargs a I); auto end.
  - destruct W. cbn in H. subst. assumption.
Qed.

Lemma obtained_named : forall cfg w ctx x, names_agree ctx -> obtained cfg w ctx x ->
  well_named ctx (root x) /\ Forall is_name (vars x).
Proof.
  intros cfg w ctx x Hag [input [y [l [Hp Hl]]]]. pose proof (parsed_well_named _ _ _ _ _ Hag Hp) as W.
  assert (V : Forall is_name (vars y)).
  { destruct (parse_ok_inv _ _ _ _ _ Hp) as [c E]. pose proof (parse_impl_basic cfg w ctx input) as B. rewrite E in B. cbn in B.
    rewrite B. apply Forall_forall. intros v Hv. apply find_variables_In in Hv. destruct Hv as [Hv|[]]. eapply free_named; eauto. }
  apply C32_multiple_is_iteration in Hl. clear Hp. induction Hl as [x|x [name v] x1 l x' Hs Hl IH]; [auto|].
  apply simplify_for_inv in Hs. destruct Hs as [Hs Hv]. apply IH.
  - eapply (proj2 (well_named_preserve cfg w ctx)); eauto.
  - rewrite Hv. rewrite Forall_forall in *. intros z Hz. apply V. unfold set_remove in Hz. apply filter_In in Hz. tauto.
Qed.

Lemma xprs_wf : forall cfg w ctx x, fair_order w -> names_agree ctx -> obtained cfg w ctx x -> wf (debug_xprs w x).
Proof.
  intros cfg w ctx x Hf Hag Ho. destruct (obtained_named _ _ _ _ Hag Ho) as [W V]. unfold debug_xprs.
  apply WF_struct; [closed_word|discriminate|repeat (constructor; [closed_word|]); constructor|].
  constructor; [cbn; eapply element_wf; eauto|]. constructor; [|constructor]. cbn. unfold debug_vars. constructor.
  apply Forall_forall. intros d Hd. apply in_map_iff in Hd. destruct Hd as [v [<- Hv]]. constructor. apply quoted_word.
  rewrite Forall_forall in V. apply V. eapply Permutation_in; [apply Permutation_sym, Hf|exact Hv].
Qed.

(** The dump, on one line or on several, tells which expression it is. *)
Theorem C76_dump_determines_expression : forall cfg cfg' w w' ctx x y,
  fair_order w -> fair_order w' -> names_agree ctx -> obtained cfg w ctx x -> obtained cfg' w' ctx y ->
  pretty (debug_xprs w x) = pretty (debug_xprs w' y) \/ compact (debug_xprs w x) = compact (debug_xprs w' y) ->
  root x = root y /\ Permutation (vars x) (vars y).
Proof.
  intros cfg cfg' w w' ctx x y Hf Hf' Hag Hx Hy E.
  assert (D : debug_xprs w x = debug_xprs w' y).
  { pose proof (xprs_wf _ _ _ _ Hf Hag Hx). pose proof (xprs_wf _ _ _ _ Hf' Hag Hy).
    destruct E as [E|E]; [now apply pretty_injective|now apply compact_injective]. }
  unfold debug_xprs in D. injection D as Dr Dv. split.
  - eapply debug_element_inj; [| |exact Dr]; eapply obtained_named; eauto.
  - assert (Ev : hash_order w (vars x) = hash_order w' (vars y)).
    { revert Dv. generalize (hash_order w (vars x)) (hash_order w' (vars y)). clear. induction l as [|a l IH]; intros [|b l'] E; try discriminate E; [reflexivity|].
      cbn in E. injection E as E1 E2. f_equal; [|auto]. apply quoted_inj. unfold quoted. cbn. now rewrite E1. }
    eapply perm_trans; [apply Hf|]. rewrite Ev. apply Permutation_sym, Hf'.
Qed.

(** The dump on several lines is indented by four blanks for each bracket. *)
Theorem C76_dump_is_indented : forall cfg w ctx x, fair_order w -> names_agree ctx -> obtained cfg w ctx x ->
  well_indented (pretty (debug_xprs w x)).
Proof. intros cfg w ctx x Hf Hag Hx. apply pretty_scan. eapply xprs_wf; eauto. Qed.

(** The other one has no line ends. *)
Lemma join_none : forall P l, (forall s, In s l -> ~ In P (list_ascii_of_string s)) -> ~ In P (list_ascii_of_string ", ") ->
  ~ In P (list_ascii_of_string (join ", " l)).
Proof.
  intros P l H Hs. induction l as [|a l IH]; [intros []|]. destruct l as [|b l]; [apply H; now left|].
  change (join ", " (a :: b :: l)) with (a ++ ", " ++ join ", " (b :: l)). rewrite !las_app. intro K.
  apply in_app_or in K. destruct K as [K|K]; [apply (H a); [now left|exact K]|]. apply in_app_or in K. destruct K as [K|K]; [now apply Hs|].
  apply IH; [|exact K]. intros s Hin. apply H. now right.
Qed.
Lemma compact_line : forall d, wf d -> ~ In "010"%char (list_ascii_of_string (compact d)).
Proof.
  assert (N : forall s, word s -> ~ In "010"%char (list_ascii_of_string s)).
  { intros s [_ H] K. rewrite forallb_forall in H. specialize (H _ K). discriminate H. }
  assert (NS : ~ In "010"%char (list_ascii_of_string ", ")) by (cbn; intros [K|[K|[]]]; discriminate K).
  assert (AP : forall a b, ~ In "010"%char (list_ascii_of_string a) -> ~ In "010"%char (list_ascii_of_string b) -> ~ In "010"%char (list_ascii_of_string (a ++ b))).
  { intros a b Ha Hb K. rewrite las_app in K. apply in_app_or in K. tauto. }
  assert (J : forall l, Forall (fun d => wf d -> ~ In "010"%char (list_ascii_of_string (compact d))) l -> Forall wf l ->
     ~ In "010"%char (list_ascii_of_string (join ", " (map compact l)))).
  { intros l IH W. apply join_none; [|exact NS]. intros s Hs. apply in_map_iff in Hs. destruct Hs as [d [<- Hd]]. rewrite Forall_forall in *. auto. }
  assert (C : forall s, existsb (Ascii.eqb "010") (list_ascii_of_string s) = false -> ~ In "010"%char (list_ascii_of_string s)).
  { intros s E K. assert (X : existsb (Ascii.eqb "010") (list_ascii_of_string s) = true) by (apply existsb_exists; exists "010"%char; split; [exact K|apply Ascii.eqb_refl]). congruence. }
  induction d as [t|n l IH|n l IH|l IH|l IH|k v IH] using dbg_ind'; intro W; inversion W; subst; cbn [compact].
  - now apply N.
  - apply AP; [now apply N|]. apply AP; [now apply C|]. apply AP; [now apply J|now apply C].
  - apply AP; [now apply N|]. apply AP; [now apply C|]. apply AP; [|now apply C]. apply join_none; [|exact NS].
    intros s Hs. apply in_map_iff in Hs. destruct Hs as [f [<- Hf]]. rewrite Forall_forall in *. apply AP; [apply N; auto|]. apply AP; [now apply C|]. apply IH; auto.
  - apply AP; [now apply C|]. apply AP; [now apply J|now apply C].
  - apply AP; [now apply C|]. apply AP; [now apply J|now apply C].
  - apply AP; [now apply N|]. apply AP; [now apply C|auto].
Qed.
Theorem C76_compact_is_one_line : forall cfg w ctx x, fair_order w -> names_agree ctx -> obtained cfg w ctx x ->
  ~ In "010"%char (list_ascii_of_string (compact (debug_xprs w x))).
Proof. intros cfg w ctx x Hf Hag Hx. apply compact_line. eapply xprs_wf; eauto. Qed.

(** ** How a number is written *)
(** From 1e-4 to below 1e16 as by Display, with ".0" where that has no point;
    otherwise with one digit before the point and an exponent, from the same
    shortest digits. *)
Theorem C76_number_notation : forall v : f64, fis_finite v = true -> (0 < B2R v)%R ->
  ((B2R (lit "1e-4") <= B2R v < B2R (lit "1e16"))%R ->
   debug_f64 v = display_f64 v ++ (if existsb (Ascii.eqb ".") (list_ascii_of_string (display_f64 v)) then "" else ".0")) /\
  ((B2R v < B2R (lit "1e-4") \/ B2R (lit "1e16") <= B2R v)%R ->
   exists d rest x xs c p,
     debug_f64 v = string_of_list_ascii (d :: (match rest with [] => [] | _ => "."%char :: rest end) ++ "e"%char :: xs)%list /\
     all_digits (d :: rest) /\ d <> "0"%char /\ exponent ("e"%char :: xs) x /\ ~ In "+"%char xs /\
     digits_value (d :: rest) = c /\ p = (x - Z.of_nat (List.length rest))%Z /\
     correctly_rounded (IZR c * powerRZ 10 p) v /\
     (forall c' p', (0 < c')%Z -> correctly_rounded (IZR c' * powerRZ 10 p') v ->
        (p' <= p)%Z /\ forall n, (0 <= n)%Z -> (c' < 10 ^ n)%Z -> (c < 10 ^ n)%Z) /\
     (forall c', (0 < c')%Z -> correctly_rounded (IZR c' * powerRZ 10 p) v ->
        (Rabs (IZR c * powerRZ 10 p - B2R v) <= Rabs (IZR c' * powerRZ 10 p - B2R v))%R)).
Proof.
  intros v Hf Hp. destruct (debug_positive v Hf Hp) as [c [p [Hc [Ed [Hr [Es [Hb Hs]]]]]]].
  assert (Ea : fabs v = v) by (destruct v as [s|s| |s m e H]; cbn in Hs; try subst s; reflexivity).
  assert (L4 : lit "1e-4" = f64_of_dec 1 (-4)) by (apply same_f64_eq; vm_compute; reflexivity).
  assert (L16 : lit "1e16" = f64_of_dec 1 16) by (apply same_f64_eq; vm_compute; reflexivity).
  assert (F4 : is_finite (f64_of_dec 1 (-4)) = true) by (vm_compute; reflexivity).
  assert (F16 : is_finite (f64_of_dec 1 16) = true) by (vm_compute; reflexivity).
  rewrite L4, L16, Ed, Es. unfold shown_list. rewrite Ea, !flt_num by assumption. split.
  - intros [H1 H2]. rewrite Rlt_bool_false by exact H1. rewrite Rlt_bool_true by exact H2. cbn [orb negb]. rewrite las_sol.
    assert (SA : forall a b, string_of_list_ascii (a ++ b)%list = string_of_list_ascii a ++ string_of_list_ascii b).
    { intros a b. induction a as [|z a IH]; cbn; [reflexivity|]. now rewrite IH. }
    rewrite SA. f_equal. unfold positional. destruct (digits_of_spec (Z.to_N c)) as [Hd [Hn Hv]]. set (ds := digits_of (Z.to_N c)) in *.
    assert (ND : forall l, all_digits l -> existsb (Ascii.eqb ".") l = false).
    { intros l H. induction H as [|z l Hz Hl IH]; [reflexivity|]. cbn [existsb]. rewrite IH, orb_false_r. apply Ascii.eqb_neq. intros <-. unfold decimal_digit in Hz. cbn in Hz. lia. }
    destruct (Z.leb_spec 0 p).
    + rewrite ND; [reflexivity|]. apply Forall_app. split; [exact Hd|apply zeros_digits].
    + destruct (Nat.leb _ _); [reflexivity|]. rewrite existsb_app. cbn [existsb]. change (Ascii.eqb "." ".") with true. rewrite orb_true_r. reflexivity.
  - intro H. assert (E : Rlt_bool (B2R v) (B2R (f64_of_dec 1 (-4))) || negb (Rlt_bool (B2R v) (B2R (f64_of_dec 1 16))) = true).
    { destruct H as [H|H]; [now rewrite Rlt_bool_true|]. rewrite (Rlt_bool_false _ _ H). apply orb_true_r. }
    rewrite E. unfold scientific. destruct (digits_of_spec (Z.to_N c)) as [Hd [Hn Hv]]. destruct (digits_of_head (Z.to_N c)) as [d0 [l0 [E0 N0]]]; [lia|].
    rewrite Z2N.id in Hv by lia. rewrite E0 in *.
    exists d0, l0, (p + Z.of_nat (List.length l0))%Z, (list_ascii_of_string (display_Z (p + Z.of_nat (List.length l0)))), c, p.
    split; [reflexivity|]. split; [exact Hd|]. split; [exact N0|]. split; [apply display_Z_exponent|]. split.
    { unfold display_Z. rewrite las_app, las_sol. intro K. apply in_app_or in K. destruct K as [K|K].
      - destruct (_ <? 0)%Z; cbn in K; [destruct K as [K|[]]; discriminate K|destruct K].
      - destruct (digits_of_spec (Z.to_N (Z.abs (p + Z.of_nat (List.length l0))))) as [Hd' _]. unfold all_digits in Hd'. rewrite Forall_forall in Hd'.
        specialize (Hd' _ K). unfold decimal_digit in Hd'. cbn in Hd'. lia. }
    split; [exact Hv|]. split; [lia|]. split; [exact Hr|]. pose proof Hb as [_ [_ [Hna Hcl]]]. split; [|exact Hcl].
    intros c' p' Hc' Hr'. split; [now apply (Hna c')|]. intros n Hn' Hl. exact (best_fewest v c p Hf Hp Hb c' p' n Hc' Hn' Hr' Hl).
Qed.

(** Special values and signs. *)
Theorem C76_special_numbers : forall v,
  (v = fnan -> debug_f64 v = "NaN") /\ (v = finf -> debug_f64 v = "inf") /\ (v = fzero -> debug_f64 v = "0.0") /\
  (v <> fnan -> Bsign v = false -> debug_f64 (fneg v) = "-" ++ debug_f64 v).
Proof. intro v. split; [now intros ->|]. split; [now intros ->|]. split; [now intros ->|]. apply debug_neg. Qed.

(** A function is shown by its name, its arity and whether it is a closure: when
    the context has another function of the name a built-in goes by, the two
    have the same dump. *)
Theorem C76_shadowed_functions_look_alike : exists x y,
  let ctx := with_fn ctx_default (mk_function "recip" (Static_user 7) (Some 1)) in
  parse plain_config w0 ctx "invert(x)" = Parse_ok x /\ parse plain_config w0 ctx "recip(x)" = Parse_ok y /\
  pretty (debug_xprs w0 x) = pretty (debug_xprs w0 y) /\ root x <> root y.
Proof.
  cbv zeta. set (ctx := with_fn _ _).
  destruct (ok_and_spec (parse plain_config w0 ctx "invert(x)") (fun x => same_tree (root x) (Call (builtin_function B_RECIP) [Var "x"]) &&
    (if list_eq_dec string_dec (vars x) ["x"] then true else false))) as [[rx vx] [Hx Ex]]; [vm_compute; reflexivity|].
  destruct (ok_and_spec (parse plain_config w0 ctx "recip(x)") (fun x => same_tree (root x) (Call (mk_function "recip" (Static_user 7) (Some 1)) [Var "x"]) &&
    (if list_eq_dec string_dec (vars x) ["x"] then true else false))) as [[ry vy] [Hy Ey]]; [vm_compute; reflexivity|].
  cbn [root vars] in *. apply andb_true_iff in Ex, Ey. destruct Ex as [E1 E2], Ey as [E3 E4]. apply same_tree_eq in E1, E3.
  destruct (list_eq_dec string_dec vx ["x"]) as [->|]; [|discriminate E2]. destruct (list_eq_dec string_dec vy ["x"]) as [->|]; [|discriminate E4]. subst rx ry.
  eexists _, _. split; [exact Hx|]. split; [exact Hy|]. clear. split; [reflexivity|]. discriminate.
Qed.

(** ** Witnesses *)
Example C76_texts :
  map debug_f64 [lit "1e16"; lit "9999999999999998"; lit "123456789012345680"; lit "1e-4"; lit "0.00001"; lit "0.1"; fneg (lit "7"); lit "1e300"; lit "5e-324"] =
  ["1e16"; "9999999999999998.0"; "1.2345678901234568e17"; "0.0001"; "1e-5"; "0.1"; "-7.0"; "1e300"; "5e-324"].
Proof.
  assert (K : forall l l', forallb (fun p => String.eqb (fst p) (snd p)) (combine l l') = true -> List.length l = List.length l' -> l = l').
  { induction l as [|a l IH]; intros [|b l'] H E; try discriminate E; [reflexivity|]. cbn in H. apply andb_true_iff in H. destruct H as [H1 H2].
    apply String.eqb_eq in H1. injection E as E. f_equal; auto. }
  apply K; vm_compute; reflexivity.
Qed.

Local Notation "a ;; b" := (a ++ nl ++ b) (at level 61, right associativity).
Example C76_dump :
  pretty (debug_xprs w0 (mk_xprs (BinOp Plus (Call (builtin_function B_SIN) [Var "x"]) (UnOp Minus (Number (lit "2")))) ["x"])) =
  "Xprs {" ;;
  "    root: BinOp(" ;;
  "        BinOp {" ;;
  "            op: Plus," ;;
  "            lhs: Function(" ;;
  "                FunctionCall {" ;;
  "                    desc: Function {" ;;
  "                        name: ""sin""," ;;
  "                        func: Static," ;;
  "                        nb_args: Some(" ;;
  "                            1," ;;
  "                        )," ;;
  "                    }," ;;
  "                    args: [" ;;
  "                        Variable(" ;;
  "                            ""x""," ;;
  "                        )," ;;
  "                    ]," ;;
  "                }," ;;
  "            )," ;;
  "            rhs: UnOp(" ;;
  "                UnOp {" ;;
  "                    op: Minus," ;;
  "                    operand: Number(" ;;
  "                        2.0," ;;
  "                    )," ;;
  "                }," ;;
  "            )," ;;
  "        }," ;;
  "    )," ;;
  "    vars: {" ;;
  "        ""x""," ;;
  "    }," ;;
  "}" /\
  compact (debug_xprs w0 (mk_xprs (BinOp Plus (Number (lit "1")) (Var "x")) ["x"])) =
  "Xprs { root: BinOp(BinOp { op: Plus, lhs: Number(1.0), rhs: Variable(""x"") }), vars: {""x""} }".
Proof. split; apply String.eqb_eq; vm_compute; reflexivity. Qed.

Example C76_witness : exists x y, fair_order w0 /\ names_agree ctx_default /\
  obtained default_config w0 ctx_default x /\ obtained plain_config w0 ctx_default y /\
  pretty (debug_xprs w0 x) = pretty (debug_xprs w0 y) /\ root x = BinOp Plus (Call (builtin_function B_SIN) [Var "x"]) (Number (lit "1e20")) /\
  fis_finite (lit "1e20") = true /\ (0 < B2R (lit "1e20"))%R.
Proof.
  set (t := BinOp Plus (Call (builtin_function B_SIN) [Var "x"]) (Number (lit "1e20"))).
  destruct (ok_and_spec (parse default_config w0 ctx_default "sin(x) + 1e20") (fun x => same_tree (root x) t &&
    (if list_eq_dec string_dec (vars x) ["x"] then true else false))) as [[rx vx] [Hx Ex]]; [vm_compute; reflexivity|].
  destruct (ok_and_spec (parse plain_config w0 ctx_default "(sin (x))+100_000e15") (fun x => same_tree (root x) t &&
    (if list_eq_dec string_dec (vars x) ["x"] then true else false))) as [[ry vy] [Hy Ey]]; [vm_compute; reflexivity|].
  cbn [root vars] in *. apply andb_true_iff in Ex, Ey. destruct Ex as [E1 E2], Ey as [E3 E4]. apply same_tree_eq in E1, E3.
  destruct (list_eq_dec string_dec vx ["x"]) as [->|]; [|discriminate E2]. destruct (list_eq_dec string_dec vy ["x"]) as [->|]; [|discriminate E4]. subst rx ry.
  exists (mk_xprs t ["x"]), (mk_xprs t ["x"]). split; [exact w0_fair|]. split; [exact default_names_agree|].
  split; [exists "sin(x) + 1e20", (mk_xprs t ["x"]), []; split; [exact Hx|reflexivity]|].
  split; [exists "(sin (x))+100_000e15", (mk_xprs t ["x"]), []; split; [exact Hy|reflexivity]|]. clear.
  split; [reflexivity|]. split; [reflexivity|].
  destruct (B2R_of (lit "1e20") false 6103515625000000 14) as [-> F]; [vm_compute; reflexivity|]. split; [exact F|]. unfold F2R. cbn. lra.
Qed.
