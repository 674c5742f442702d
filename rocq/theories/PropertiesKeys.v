(** * Properties: printed expressions as keys (C102) *)
From Coq Require Import ZArith NArith List String Ascii Bool Lia Permutation Reals Lra.
From Flocq Require Import Core BinarySingleNaN.
From Verif Require Import F64 FloatFacts Syntax Builtins Context Parser Xprs Display Element Order SpecOrder SimplifyFacts
  SpecChars SpecTokens SpecNumber SpecNames SpecGrammar SpecDisplay SpecKeys SpecTree TreeFacts NumberFacts DisplayFacts DebugText DebugFacts
  ParserResults PropertiesDisplay PropertiesSimplify PropertiesDefault PropertiesError PropertiesEq PropertiesDebug IdentityFacts TestWorld.
Import ListNotations.
Local Open Scope string_scope.

Local Notation las := list_ascii_of_string.

(** ** Numbers and names as words *)
Lemma plain_word : forall c, plain_char c -> word_char c = true.
Proof. intros c Hc. apply number_char_facts. now left. Qed.

Lemma display_classes : forall v, v = fnan \/ v = finf \/ (exists d l, las (display_f64 v) = d :: l /\ decimal_digit d) \/
  (exists l, las (display_f64 v) = "-"%char :: l).
Proof.
  intros v. destruct v as [s|s| |s m e B] eqn:E; auto.
  - destruct s; [right; right; right; eexists; reflexivity|]. right. right. left. do 2 eexists. split; [reflexivity|]. unfold decimal_digit. cbn. lia.
  - destruct s; [right; right; right; eexists; reflexivity|auto].
  - destruct s.
    + right. right. right. rewrite <- E. destruct (display_signed v) as [-> _]; [now rewrite E|now rewrite E|]. eexists. reflexivity.
    + right. right. left. rewrite <- E. destruct (display_unsigned v) as [c [p [_ [-> _]]]]; [rewrite E; split; reflexivity|].
      rewrite las_sol. destruct (positional_head c p) as [d [l [-> Hd]]]. eauto.
Qed.

Lemma display_word : forall v, word (display_f64 v).
Proof.
  assert (U : forall u, unsigned u -> word (display_f64 u)).
  { intros u Hu. destruct (display_unsigned u Hu) as [c [p [Hc [-> _]]]]. split.
    - destruct (positional_head c p) as [d [l [-> _]]]. discriminate.
    - rewrite las_sol. apply forallb_forall. intros x Hx. destruct (positional_spec c p Hc) as [m [k [Hm _]]].
      apply mantissa_chars in Hm. rewrite Forall_forall in Hm. now apply plain_word, Hm. }
  intro v. destruct v as [s|s| |s m e B] eqn:E; try (destruct s; split; [discriminate|reflexivity|discriminate|reflexivity]); [split; [discriminate|reflexivity]|].
  destruct s.
  - rewrite <- E. destruct (display_signed v) as [-> Hu]; [now rewrite E|now rewrite E|]. destruct (U _ Hu) as [_ Hw]. split; [discriminate|exact Hw].
  - apply U. split; reflexivity.
Qed.

Lemma name_word : forall s, is_name s -> word s.
Proof.
  intros s [H1 [H2 _]]. split.
  - intros ->. destruct H1.
  - apply forallb_forall. intros c Hc. rewrite Forall_forall in H2. now apply name_char_word, H2.
Qed.

Lemma number_or_name : forall v s, is_name s -> display_f64 v = s -> (v = finf /\ s = "inf") \/ (v = fnan /\ s = "NaN").
Proof.
  intros v s [H1 _] E. destruct (display_classes v) as [->|[->|[[d [l [El Hd]]]|[l El]]]]; auto.
  - exfalso. rewrite E in El. rewrite El in H1. cbn [head_is] in H1. unfold decimal_digit in Hd.
    unfold a_letter, a_capital, a_small in H1. apply orb_true_iff in H1. destruct H1 as [H1|H1]; apply andb_true_iff in H1; destruct H1 as [H1 H3];
      apply N.leb_le in H1, H3; [change (N_of_ascii "A") with 65%N in H1|change (N_of_ascii "a") with 97%N in H1]; lia.
  - exfalso. rewrite E in El. rewrite El in H1. discriminate H1.
Qed.

(** ** Where the text of an expression ends *)
Definition halt (c : ascii) : bool := existsb (Ascii.eqb c) [" "; ")"; ","]%char.
Definition halted (r : list ascii) : Prop := match r with [] => True | c :: _ => halt c = true end.
Lemma halt_cases : forall c, halt c = true -> c = " "%char \/ c = ")"%char \/ c = ","%char.
Proof.
  intros c H. unfold halt in H. cbn [existsb] in H. repeat (apply orb_true_iff in H; destruct H as [H|H]); try discriminate H; apply Ascii.eqb_eq in H; auto.
Qed.
Lemma halted_no_word : forall r, halted r -> no_word r.
Proof. intros [|c r]; [auto|]. cbn [halted no_word]. intro H. destruct (halt_cases c H) as [->|[->| ->]]; reflexivity. Qed.
Lemma halted_not_open : forall r t, halted r -> r <> ("("%char :: t)%list.
Proof. intros r t H ->. discriminate H. Qed.

(** the bytes up to the first bracket or blank *)
Lemma first_run : forall ctx e r, well_named ctx e -> exists b rest, (las (display_element e) ++ r = b ++ rest)%list /\
  forallb word_char b = true /\ (rest = r \/ exists t, rest = "("%char :: t /\ (b = [] \/ head_is a_letter b)).
Proof.
  intros ctx e r W. destruct e as [n|op l r2|op a|f args|y].
  - exists (las (display_f64 n)), r. split; [reflexivity|]. split; [apply display_word|now left].
  - exists [], (las (display_element (BinOp op l r2)) ++ r)%list. split; [reflexivity|]. split; [reflexivity|]. right. eexists. split; [reflexivity|now left].
  - exists [], (las (display_element (UnOp op a)) ++ r)%list. split; [reflexivity|]. split; [reflexivity|]. right. eexists. split; [reflexivity|now left].
  - apply well_named_call in W. destruct W as [[Wn _] _]. cbn [display_element].
    exists (las (fn_name f)), (las ("(" ++ join ", " (map display_element args) ++ ")") ++ r)%list. split; [now rewrite las_app, app_assoc_reverse|].
    split; [now apply name_word|]. right. eexists. split; [reflexivity|]. right. apply Wn.
  - destruct W as [W _]. exists (las y), r. split; [reflexivity|]. split; [now apply name_word|now left].
Qed.

Lemma operator_byte : forall op, exists c, las (display_operator op) = [c] /\ word_char c = true /\ a_letter c = false.
Proof. intros []; eexists; (split; [reflexivity|split; reflexivity]). Qed.
Lemma operator_inj : forall op op', display_operator op = display_operator op' -> op = op'.
Proof. intros [] [] E; try reflexivity; discriminate E. Qed.

(** an operator in front is never a left operand *)
Lemma unary_not_binary : forall ctx a l c s s', well_named ctx a -> well_named ctx l -> word_char c = true -> a_letter c = false ->
  (c :: las (display_element a) ++ ")"%char :: s = las (display_element l) ++ " "%char :: s')%list -> False.
Proof.
  intros ctx a l c s s' Wa Wl Hc Hl E.
  destruct (first_run ctx a (")"%char :: s) Wa) as [b [rest [E1 [Hb Hr]]]]. destruct (first_run ctx l (" "%char :: s') Wl) as [b' [rest' [E2 [Hb' Hr']]]].
  rewrite E1, E2 in E. change (c :: b ++ rest)%list with ((c :: b) ++ rest)%list in E.
  assert (K : (c :: b) = b' /\ rest = rest').
  { apply word_split; auto.
    - cbn. now rewrite Hc.
    - destruct Hr as [->|[t [-> _]]]; reflexivity.
    - destruct Hr' as [->|[t [-> _]]]; reflexivity. }
  destruct K as [<- <-]. destruct Hr' as [->|[t [-> [K|K]]]].
  - destruct Hr as [K|[t [K _]]]; discriminate K.
  - discriminate K.
  - cbn in K. congruence.
Qed.

Lemma las_cons : forall c s, las (String c s) = c :: las s.
Proof. reflexivity. Qed.

Lemma display_begins : forall ctx e r, well_named ctx e -> exists c t, (las (display_element e) ++ r = c :: t)%list /\ halt c = false.
Proof.
  intros ctx e r W. assert (K : forall s, word s -> exists c t, (las s ++ r = c :: t)%list /\ halt c = false).
  { intros s Hs. destruct (word_first s r Hs) as [c [t [E Hc]]]. exists c, t. split; [exact E|]. destruct (halt c) eqn:Eh; [|reflexivity].
    destruct (halt_cases c Eh) as [->|[->| ->]]; discriminate Hc. }
  destruct e as [n|op l r2|op a|f args|y].
  - apply K, display_word.
  - do 2 eexists. split; reflexivity.
  - do 2 eexists. split; reflexivity.
  - apply well_named_call in W. destruct W as [[Wn _] _]. cbn [display_element]. rewrite las_app, app_assoc_reverse.
    destruct (word_first (fn_name f) (las ("(" ++ join ", " (map display_element args) ++ ")") ++ r) (name_word _ Wn)) as [c [t [E Hc]]].
    exists c, t. split; [exact E|]. destruct (halt c) eqn:Eh; [|reflexivity].
    destruct (halt_cases c Eh) as [->|[->| ->]]; discriminate Hc.
  - apply K, name_word, W.
Qed.

Definition splits (ctx : context) (e : element) : Prop := well_named ctx e -> forall e' r r', well_named ctx e' -> halted r -> halted r' ->
  (las (display_element e) ++ r = las (display_element e') ++ r')%list -> alike e e' /\ r = r'.

Lemma join_more : forall a b l, join ", " (a :: b :: l) = a ++ ", " ++ join ", " (b :: l).
Proof. reflexivity. Qed.

Lemma arguments_split : forall ctx args, Forall (splits ctx) args -> Forall (well_named ctx) args ->
  forall args' r r', Forall (well_named ctx) args' -> args <> [] -> args' <> [] ->
  (las (join ", " (map display_element args)) ++ ")"%char :: r = las (join ", " (map display_element args')) ++ ")"%char :: r')%list ->
  Forall2 alike args args' /\ r = r'.
Proof.
  intros ctx args Hs. induction Hs as [|a args Ha Hs IH]; intros W args' r r' W' N N' E; [congruence|].
  destruct args' as [|a' args']; [congruence|]. inversion W as [|? ? Wa Wr]; inversion W' as [|? ? Wa' Wr']; subst. cbn [map] in E.
  assert (J : forall l s, exists t, (las (join ", " (map display_element (l : list element))) ++ ")"%char :: s = t)%list) by eauto.
  destruct args as [|b args], args' as [|b' args'].
  - cbn [map] in E. change (join ", " [display_element a]) with (display_element a) in E. change (join ", " [display_element a']) with (display_element a') in E.
    destruct (Ha Wa a' _ _ Wa' (eq_refl : halted (")"%char :: r)) (eq_refl : halted (")"%char :: r')) E) as [K1 K2].
    injection K2 as ->. auto.
  - exfalso. cbn [map] in E. change (join ", " [display_element a]) with (display_element a) in E. rewrite join_more, las_app, app_assoc_reverse in E.
    destruct (Ha Wa a' _ _ Wa' (eq_refl : halted (")"%char :: r)) (eq_refl : halted (las (", " ++ join ", " (display_element b' :: map display_element args')) ++ ")"%char :: r')%list) E) as [_ K2].
    discriminate K2.
  - exfalso. cbn [map] in E. change (join ", " [display_element a']) with (display_element a') in E. rewrite join_more, las_app, app_assoc_reverse in E.
    destruct (Ha Wa a' _ _ Wa' (eq_refl : halted (las (", " ++ join ", " (display_element b :: map display_element args)) ++ ")"%char :: r)%list) (eq_refl : halted (")"%char :: r')) E) as [_ K2].
    discriminate K2.
  - cbn [map] in E. rewrite !join_more in E. rewrite !(las_app (display_element _)), !app_assoc_reverse in E.
    destruct (Ha Wa a' _ _ Wa' (eq_refl : halted (las (", " ++ join ", " (display_element b :: map display_element args)) ++ ")"%char :: r)%list)
      (eq_refl : halted (las (", " ++ join ", " (display_element b' :: map display_element args')) ++ ")"%char :: r')%list) E) as [K1 K2].
    rewrite !(las_app ", ") in K2. cbn [las app] in K2. injection K2 as K2.
    destruct (IH Wr (b' :: args') r r' Wr') as [K3 ->]; [discriminate|discriminate|exact K2|]. auto.
Qed.

Lemma display_split : forall ctx e, splits ctx e.
Proof.
  intros ctx. induction e as [n|op l r IHl IHr|op e IHe|f args Hargs|y] using element_ind'; intros W e' s s' W' Hs Hs' E.
  - destruct e' as [n'|op' l' r'|op' a'|f' args'|y'].
    + cbn [display_element] in E. apply word_split' in E; [|apply display_word|apply display_word|now apply halted_no_word|now apply halted_no_word].
      destruct E as [E ->]. apply C50_texts_distinct in E. subst. split; [constructor|reflexivity].
    + exfalso. cbn [display_element] in E. destruct (word_first (display_f64 n) s (display_word n)) as [c [t [Ec Hc]]]. rewrite Ec in E. injection E as -> _. discriminate Hc.
    + exfalso. cbn [display_element] in E. destruct (word_first (display_f64 n) s (display_word n)) as [c [t [Ec Hc]]]. rewrite Ec in E. injection E as -> _. discriminate Hc.
    + exfalso. apply well_named_call in W'. destruct W' as [[Wn _] _]. cbn [display_element] in E. rewrite (las_app (fn_name f')), app_assoc_reverse in E.
      apply word_split' in E; [|apply display_word|now apply name_word|now apply halted_no_word|reflexivity]. destruct E as [_ E].
      eapply halted_not_open; [exact Hs|exact E].
    + destruct W' as [Wy _]. cbn [display_element] in E. apply word_split' in E; [|apply display_word|now apply name_word|now apply halted_no_word|now apply halted_no_word].
      destruct E as [E ->]. split; [|reflexivity]. destruct (number_or_name n y' Wy E) as [[-> ->]|[-> ->]]; constructor.
  - destruct W as [W1 W2]. cbn [display_element] in E. rewrite las_app in E. cbn [las app] in E. rewrite !(las_app (display_element l)), !app_assoc_reverse in E.
    destruct e' as [n'|op' l' r'|op' a'|f' args'|y'].
    + exfalso. cbn [display_element] in E. destruct (word_first (display_f64 n') s' (display_word n')) as [c [t [Ec Hc]]]. rewrite Ec in E. injection E as <- _. discriminate Hc.
    + destruct W' as [W1' W2']. cbn [display_element] in E. rewrite (las_app "(" (_ ++ _ ++ _ ++ _ ++ _ ++ _)) in E. cbn [las app] in E. rewrite !(las_app (display_element l')), !app_assoc_reverse in E.
      injection E as E. apply IHl in E; [|exact W1|exact W1'|reflexivity|reflexivity]. destruct E as [E1 E2].
      rewrite !las_app in E2. destruct (operator_byte op) as [c [Ec _]], (operator_byte op') as [c' [Ec' _]]. rewrite Ec, Ec' in E2. cbn [las app] in E2.
      injection E2 as Eo E2. rewrite !las_app, !app_assoc_reverse in E2. cbn [las app] in E2.
      apply IHr in E2; [|exact W2|exact W2'|reflexivity|reflexivity]. destruct E2 as [E2 E3]. injection E3 as ->.
      assert (op = op') as -> by (apply operator_inj, las_inj; congruence). split; [now constructor|reflexivity].
    + exfalso. destruct W' as [_ W']. cbn [display_element] in E. rewrite (las_app "(" (_ ++ _ ++ _)) in E. cbn [las app] in E. injection E as E.
      destruct (operator_byte op') as [c' [Ec' [Hc' Hl']]]. rewrite (las_app (display_operator op')), Ec', (las_app (display_element a')) in E. rewrite !app_assoc_reverse in E. cbn [las app] in E.
      symmetry in E. eapply unary_not_binary; [exact W'|exact W1|exact Hc'|exact Hl'|exact E].
    + exfalso. apply well_named_call in W'. destruct W' as [[Wn _] _]. cbn [display_element] in E. rewrite (las_app (fn_name f')), app_assoc_reverse in E.
      destruct (word_first (fn_name f') (las ("(" ++ join ", " (map display_element args') ++ ")") ++ s') (name_word _ Wn)) as [c [t [Ec Hc]]]. rewrite Ec in E. injection E as <- _. discriminate Hc.
    + exfalso. destruct W' as [Wy _]. cbn [display_element] in E. destruct (word_first y' s' (name_word _ Wy)) as [c [t [Ec Hc]]]. rewrite Ec in E. injection E as <- _. discriminate Hc.
  - destruct W as [_ W]. cbn [display_element] in E. rewrite (las_app "(" (_ ++ _ ++ _)) in E. cbn [las app] in E.
    destruct (operator_byte op) as [c [Ec [Hc Hl]]]. rewrite (las_app (display_operator op)), Ec, (las_app (display_element e)), !app_assoc_reverse in E. cbn [las app] in E.
    destruct e' as [n'|op' l' r'|op' a'|f' args'|y'].
    + exfalso. cbn [display_element] in E. destruct (word_first (display_f64 n') s' (display_word n')) as [d [t [Ed Hd]]]. rewrite Ed in E. injection E as <- _. discriminate Hd.
    + exfalso. destruct W' as [W1' W2']. cbn [display_element] in E. rewrite (las_app "(" (_ ++ _ ++ _ ++ _ ++ _ ++ _)) in E. cbn [las app] in E. rewrite !(las_app (display_element l')), !app_assoc_reverse in E.
      injection E as E. eapply unary_not_binary; [exact W|exact W1'|exact Hc|exact Hl|exact E].
    + destruct W' as [_ W']. cbn [display_element] in E. rewrite (las_app "(" (_ ++ _ ++ _)) in E. cbn [las app] in E.
      destruct (operator_byte op') as [c' [Ec' _]]. rewrite (las_app (display_operator op')), Ec', (las_app (display_element a')), !app_assoc_reverse in E. cbn [las app] in E.
      injection E as <- E. apply IHe in E; [|exact W|exact W'|reflexivity|reflexivity]. destruct E as [E1 E2]. injection E2 as ->.
      assert (op = op') as -> by (apply operator_inj, las_inj; congruence). split; [now constructor|reflexivity].
    + exfalso. apply well_named_call in W'. destruct W' as [[Wn _] _]. cbn [display_element] in E. rewrite (las_app (fn_name f')), app_assoc_reverse in E.
      destruct (word_first (fn_name f') (las ("(" ++ join ", " (map display_element args') ++ ")") ++ s') (name_word _ Wn)) as [d [t [Ed Hd]]]. rewrite Ed in E. injection E as <- _. discriminate Hd.
    + exfalso. destruct W' as [Wy _]. cbn [display_element] in E. destruct (word_first y' s' (name_word _ Wy)) as [d [t [Ed Hd]]]. rewrite Ed in E. injection E as <- _. discriminate Hd.
  - apply well_named_call in W. destruct W as [[Wn [S1 [N1 _]]] Wa]. cbn [display_element] in E. rewrite (las_app (fn_name f)), app_assoc_reverse in E.
    destruct e' as [n'|op' l' r'|op' a'|f' args'|y'].
    + exfalso. cbn [display_element] in E. apply word_split' in E; [|now apply name_word|apply display_word|reflexivity|now apply halted_no_word]. destruct E as [_ E].
      symmetry in E. eapply halted_not_open; [exact Hs'|exact E].
    + exfalso. cbn [display_element] in E. destruct (word_first (fn_name f) (las ("(" ++ join ", " (map display_element args) ++ ")") ++ s) (name_word _ Wn)) as [d [t [Ed Hd]]]. rewrite Ed in E. injection E as -> _. discriminate Hd.
    + exfalso. cbn [display_element] in E. destruct (word_first (fn_name f) (las ("(" ++ join ", " (map display_element args) ++ ")") ++ s) (name_word _ Wn)) as [d [t [Ed Hd]]]. rewrite Ed in E. injection E as -> _. discriminate Hd.
    + apply well_named_call in W'. destruct W' as [[Wn' [S2 [N2 _]]] Wa']. cbn [display_element] in E. rewrite (las_app (fn_name f')), app_assoc_reverse in E.
      apply word_split' in E; [|now apply name_word|now apply name_word|reflexivity|reflexivity]. destruct E as [En E].
      rewrite <- En in S2. rewrite S1 in S2. injection S2 as ->.
      cbn [append las app] in E. injection E as E. rewrite !las_app, !app_assoc_reverse in E. cbn [las app] in E.
      eapply arguments_split in E; [|exact Hargs|exact Wa|exact Wa'|exact N1|exact N2]. destruct E as [E ->]. split; [now constructor|reflexivity].
    + exfalso. destruct W' as [Wy _]. cbn [display_element] in E. apply word_split' in E; [|now apply name_word|now apply name_word|reflexivity|now apply halted_no_word]. destruct E as [_ E].
      symmetry in E. eapply halted_not_open; [exact Hs'|exact E].
  - destruct W as [Wy _]. cbn [display_element] in E.
    destruct e' as [n'|op' l' r'|op' a'|f' args'|y'].
    + cbn [display_element] in E. apply word_split' in E; [|now apply name_word|apply display_word|now apply halted_no_word|now apply halted_no_word].
      destruct E as [E ->]. split; [|reflexivity]. symmetry in E. destruct (number_or_name n' y Wy E) as [[-> ->]|[-> ->]]; constructor.
    + exfalso. cbn [display_element] in E. destruct (word_first y s (name_word _ Wy)) as [c [t [Ec Hc]]]. rewrite Ec in E. injection E as -> _. discriminate Hc.
    + exfalso. cbn [display_element] in E. destruct (word_first y s (name_word _ Wy)) as [c [t [Ec Hc]]]. rewrite Ec in E. injection E as -> _. discriminate Hc.
    + exfalso. apply well_named_call in W'. destruct W' as [[Wn _] _]. cbn [display_element] in E. rewrite (las_app (fn_name f')), app_assoc_reverse in E.
      apply word_split' in E; [|now apply name_word|now apply name_word|now apply halted_no_word|reflexivity]. destruct E as [_ E].
      eapply halted_not_open; [exact Hs|exact E].
    + destruct W' as [Wy' _]. cbn [display_element] in E. apply word_split' in E; [|now apply name_word|now apply name_word|now apply halted_no_word|now apply halted_no_word].
      destruct E as [-> ->]. split; [constructor|reflexivity].
Qed.

Lemma alike_display : forall e e', alike e e' -> display_element e = display_element e'.
Proof.
  induction e as [n|op l r IHl IHr|op e IHe|f args Hargs|y] using element_ind'; intros e' H; inversion H; subst; try reflexivity; cbn [display_element].
  - now rewrite (IHl l'), (IHr r').
  - now rewrite (IHe a').
  - assert (M : map display_element args = map display_element args'); [|now rewrite M].
    clear H. match goal with K : Forall2 alike args _ |- _ => revert Hargs; induction K as [|a a' l l' Ha Hl IH]; intro Hargs; [reflexivity|] end.
    inversion Hargs; subst. cbn. f_equal; auto.
Qed.

(** ** C102 *)
(** Two expressions have the same text exactly if they are the same but for
    infinite and NaN constants looking like variables. *)
Theorem C102_same_text_iff_alike : forall cfg cfg' w w' ctx x y,
  names_agree ctx -> obtained cfg w ctx x -> obtained cfg' w' ctx y ->
  (display_xprs x = display_xprs y <-> alike (root x) (root y)).
Proof.
  intros cfg cfg' w w' ctx x y Hag Hx Hy. split; [|apply alike_display].
  destruct (obtained_named _ _ _ _ Hag Hx) as [Wx _]. destruct (obtained_named _ _ _ _ Hag Hy) as [Wy _]. intro E.
  apply (display_split ctx (root x) Wx (root y) [] []); [exact Wy|exact I|exact I|]. unfold display_xprs in E. now rewrite E.
Qed.

Lemma alike_same_vars : forall e e', alike e e' ->
  (forall y, y = "inf" \/ y = "NaN" -> ~ occurs y e /\ ~ occurs y e') -> e = e'.
Proof.
  induction e as [n|op l r IHl IHr|op e IHe|f args Hargs|y] using element_ind'; intros e' H N; inversion H; subst; try reflexivity.
  - exfalso. apply (N "inf"); [auto|constructor].
  - exfalso. apply (N "NaN"); [auto|constructor].
  - f_equal; [apply IHl|apply IHr]; auto; intros y Hy; destruct (N y Hy) as [N1 N2]; split; intro K; (apply N1 + apply N2); ((now apply occ_binl) + (now apply occ_binr)).
  - f_equal; apply IHe; auto; intros y Hy; destruct (N y Hy) as [N1 N2]; split; intro K; (apply N1 + apply N2); now constructor.
  - f_equal. match goal with K : Forall2 alike args ?l |- _ => revert K N; generalize l end. clear H. intros l K N.
    assert (Ha : forall a a', In a args -> In a' l -> forall y, y = "inf" \/ y = "NaN" -> ~ occurs y a /\ ~ occurs y a').
    { intros a a' I1 I2 y Hy. destruct (N y Hy) as [N1 N2]. split; intro O; [apply N1|apply N2]; econstructor; eauto. }
    clear N. induction K as [|a a' m m' K1 K2 IH]; [reflexivity|]. inversion Hargs; subst. f_equal.
    + match goal with Q : forall e', alike a e' -> _ |- _ => apply Q; [exact K1|] end. apply Ha; now left.
    + apply IH; auto. intros b b' I1 I2. apply Ha; now right.
  - exfalso. destruct (N "inf" (or_introl eq_refl)) as [K _]. apply K. constructor.
  - exfalso. destruct (N "NaN" (or_intror eq_refl)) as [K _]. apply K. constructor.
Qed.

Lemma alike_same_numbers : forall e e', alike e e' ->
  (forall n, sub (Number n) e \/ sub (Number n) e' -> fis_finite n = true) -> e = e'.
Proof.
  induction e as [n|op l r IHl IHr|op e IHe|f args Hargs|y] using element_ind'; intros e' H N; inversion H; subst; try reflexivity.
  - discriminate (N finf (or_introl (sub_refl _))).
  - discriminate (N fnan (or_introl (sub_refl _))).
  - f_equal; [apply IHl|apply IHr]; auto; intros n [K|K]; apply N; [left|right|left|right]; ((now apply sub_binl) + (now apply sub_binr)).
  - f_equal; apply IHe; auto; intros n [K|K]; apply N; [left|right]; now constructor.
  - f_equal. match goal with K : Forall2 alike args ?l |- _ => revert K N; generalize l end. clear H. intros l K N.
    assert (Ha : forall a a', In a args -> In a' l -> forall n, sub (Number n) a \/ sub (Number n) a' -> fis_finite n = true).
    { intros a a' I1 I2 n [O|O]; apply N; [left|right]; econstructor; eauto. }
    clear N. induction K as [|a a' m m' K1 K2 IH]; [reflexivity|]. inversion Hargs; subst. f_equal.
    + match goal with Q : forall e', alike a e' -> _ |- _ => apply Q; [exact K1|] end. apply Ha; now left.
    + apply IH; auto. intros b b' I1 I2. apply Ha; now right.
  - discriminate (N finf (or_intror (sub_refl _))).
  - discriminate (N fnan (or_intror (sub_refl _))).
Qed.

(** So the text tells which expression it is if no variable is called "inf" or
    "NaN", or if all constants are finite. *)
Theorem C102_text_is_a_key : forall cfg cfg' w w' ctx x y,
  names_agree ctx -> obtained cfg w ctx x -> obtained cfg' w' ctx y -> display_xprs x = display_xprs y ->
  (forall v, v = "inf" \/ v = "NaN" -> ~ occurs v (root x) /\ ~ occurs v (root y)) \/
  (forall n, sub (Number n) (root x) \/ sub (Number n) (root y) -> fis_finite n = true) ->
  root x = root y.
Proof.
  intros cfg cfg' w w' ctx x y Hag Hx Hy E [N|N]; apply (C102_same_text_iff_alike _ _ _ _ _ _ _ Hag Hx Hy) in E;
    [now apply alike_same_vars|now apply alike_same_numbers].
Qed.

(** A result stored under the text is the result of every expression with that
    text, for the same values of the variables. *)
Theorem C102_stored_results : forall cfg cfg' w w' ctx x y,
  names_agree ctx -> obtained cfg w ctx x -> obtained cfg' w' ctx y -> display_xprs x = display_xprs y ->
  (forall v, v = "inf" \/ v = "NaN" -> ~ occurs v (root x) /\ ~ occurs v (root y)) \/
  (forall n, sub (Number n) (root x) \/ sub (Number n) (root y) -> fis_finite n = true) ->
  forall w'' rho, eval w'' x rho = eval w'' y rho.
Proof.
  intros cfg cfg' w w' ctx x y Hag Hx Hy E N w'' rho. unfold eval.
  now rewrite (C102_text_is_a_key _ _ _ _ _ _ _ Hag Hx Hy E N).
Qed.

(** For parsed expressions the same text implies ==. *)
Theorem C102_same_text_equal : forall cfg w ctx s t x y,
  names_agree ctx -> parse cfg w ctx s = Parse_ok x -> parse cfg w ctx t = Parse_ok y -> display_xprs x = display_xprs y ->
  (forall n, sub (Number n) (root x) \/ sub (Number n) (root y) -> fis_finite n = true) -> no_binary_factorial (root x) ->
  xprs_eq x y = Val true.
Proof.
  intros cfg w ctx s t x y Hag Hx Hy E N Hn.
  assert (R : root x = root y).
  { eapply (C102_text_is_a_key cfg cfg w w ctx); [exact Hag| | |exact E|now right].
    - exists s, x, []. split; [exact Hx|now destruct x].
    - exists t, y, []. split; [exact Hy|now destruct y]. }
  apply (C38_parsed_eq_is_tree_eq _ _ _ _ _ _ _ _ Hx Hy Hn). rewrite <- R.
  destruct (C38_eq_decides_equality (root x) (root x) Hn) as [c [Ec Hc]]. apply Hc.
  assert (K : el_eq (root x) (root x) = Val true).
  { apply C38_eq_reflexive_iff; [exact Hn|]. intros n Hs. assert (F : fis_finite n = true) by (apply N; now left). destruct n; try discriminate F; reflexivity. }
  rewrite K in Ec. now injection Ec.
Qed.

(** ** Limits *)
(** "1e999" and "inf" have the same text; so have calls of two functions when the
    context uses the name of a built-in for another function, or when there are
    two contexts; == expressions can have different texts; and after a
    substitution two expressions with the same text can differ in the variables
    they list, and are then not ==. *)
Theorem C102_limits :
  (exists x y, parse plain_config w0 ctx_default "1e999" = Parse_ok x /\ parse plain_config w0 ctx_default "inf" = Parse_ok y /\
     display_xprs x = display_xprs y /\ root x <> root y) /\
  (exists x y, let ctx := with_fn ctx_default (mk_function "recip" (Static_user 7) (Some 1)) in
     parse plain_config w0 ctx "invert(x)" = Parse_ok x /\ parse plain_config w0 ctx "recip(x)" = Parse_ok y /\
     display_xprs x = display_xprs y /\ root x <> root y) /\
  (exists x y, parse plain_config w0 (with_fn ctx_default (mk_function "f" (Static_user 1) (Some 1))) "f(x)" = Parse_ok x /\
     parse plain_config w0 (with_fn ctx_default (mk_function "f" (Static_user 2) (Some 1))) "f(x)" = Parse_ok y /\
     display_xprs x = display_xprs y /\ root x <> root y) /\
  (exists x y, parse plain_config w0 ctx_default "2x + max(y, 3)" = Parse_ok x /\ parse plain_config w0 ctx_default "max(y,3)+x*2" = Parse_ok y /\
     xprs_eq x y = Val true /\ display_xprs x <> display_xprs y) /\
  (exists x0 x y, parse plain_config w0 ctx_default "y + 0*x" = Parse_ok x0 /\ simplify_for_multiple plain_config w0 x0 [("z", fone)] = Val x /\
     parse plain_config w0 ctx_default "y" = Parse_ok y /\ display_xprs x = display_xprs y /\ xprs_eq x y = Val false).
Proof.
  assert (G : forall ctx ctx' s t a b, let ra := parse plain_config w0 ctx s in let rb := parse plain_config w0 ctx' t in
    ok_and ra (fun x => same_tree (root x) a) = true -> ok_and rb (fun x => same_tree (root x) b) = true ->
    display_element a = display_element b -> a <> b ->
    exists x y, parse plain_config w0 ctx s = Parse_ok x /\ parse plain_config w0 ctx' t = Parse_ok y /\ display_xprs x = display_xprs y /\ root x <> root y).
  { intros ctx ctx' s t a b ra rb Ha Hb E N. destruct (ok_and_spec _ _ Ha) as [x [Hx Ex]]. destruct (ok_and_spec _ _ Hb) as [y [Hy Ey]].
    apply same_tree_eq in Ex, Ey. exists x, y. unfold display_xprs. rewrite Ex, Ey. auto. }
  split; [apply (G ctx_default ctx_default "1e999" "inf" (Number finf) (Var "inf")); [vm_compute; reflexivity|vm_compute; reflexivity|reflexivity|discriminate]|].
  split; [cbv zeta; apply (G _ _ "invert(x)" "recip(x)" (Call (builtin_function B_RECIP) [Var "x"]) (Call (mk_function "recip" (Static_user 7) (Some 1)) [Var "x"]));
    [vm_compute; reflexivity|vm_compute; reflexivity|reflexivity|discriminate]|].
  split; [apply (G _ _ "f(x)" "f(x)" (Call (mk_function "f" (Static_user 1) (Some 1)) [Var "x"]) (Call (mk_function "f" (Static_user 2) (Some 1)) [Var "x"]));
    [vm_compute; reflexivity|vm_compute; reflexivity|reflexivity|discriminate]|].
  split.
  - destruct C38_witness_trees as [x [y [Hx [Hy [Rx [Ry [_ E]]]]]]]. exists x, y. split; [exact Hx|]. split; [exact Hy|]. split; [exact E|].
    unfold display_xprs. rewrite Rx, Ry. cbn [display_element]. intro K. injection K as K. discriminate K.
  - set (t := BinOp Plus (Var "y") (BinOp Times (Number fzero) (Var "x"))).
    destruct (ok_and_spec (parse plain_config w0 ctx_default "y + 0*x") (fun x => same_tree (root x) t &&
      (if list_eq_dec string_dec (vars x) ["x"; "y"] then true else false))) as [[rx vx] [Hx Ex]]; [vm_compute; reflexivity|].
    destruct (ok_and_spec (parse plain_config w0 ctx_default "y") (fun x => same_tree (root x) (Var "y") &&
      (if list_eq_dec string_dec (vars x) ["y"] then true else false))) as [[ry vy] [Hy Ey]]; [vm_compute; reflexivity|].
    cbn [root vars] in *. apply andb_true_iff in Ex, Ey. destruct Ex as [E1 E2], Ey as [E3 E4]. apply same_tree_eq in E1, E3.
    destruct (list_eq_dec string_dec vx ["x"; "y"]) as [->|]; [|discriminate E2]. destruct (list_eq_dec string_dec vy ["y"]) as [->|]; [|discriminate E4]. subst rx ry.
    exists (mk_xprs t ["x"; "y"]), (mk_xprs (Var "y") ["x"; "y"]), (mk_xprs (Var "y") ["y"]).
    split; [exact Hx|]. split; [reflexivity|]. split; [exact Hy|]. split; reflexivity.
Qed.

(** ** Witness *)
Example C102_witness : exists x y, names_agree ctx_default /\ parse default_config w0 ctx_default "2x + max(-y, 3.50)!" = Parse_ok x /\
  parse default_config w0 ctx_default "(2 * x) + (max(-(y), 7/2))!" = Parse_ok y /\ display_xprs x = display_xprs y /\
  display_xprs x = "((2 * x) + (!max((-y), 3.5)))" /\
  (forall n, sub (Number n) (root x) \/ sub (Number n) (root y) -> fis_finite n = true) /\ no_binary_factorial (root x).
Proof.
  set (t := BinOp Plus (BinOp Times (Number (lit "2")) (Var "x")) (UnOp Factorial (Call (builtin_function B_MAX) [UnOp Minus (Var "y"); Number (lit "3.5")]))).
  destruct (parses_to (parse default_config w0 ctx_default "2x + max(-y, 3.50)!") t) as [x [Hx Rx]]; [vm_compute; reflexivity|].
  destruct (parses_to (parse default_config w0 ctx_default "(2 * x) + (max(-(y), 7/2))!") t) as [y [Hy Ry]]; [vm_compute; reflexivity|].
  exists x, y. split; [exact default_names_agree|]. split; [exact Hx|]. split; [exact Hy|]. unfold display_xprs. rewrite Rx, Ry. clear Hx Hy.
  split; [reflexivity|]. split; [apply String.eqb_eq; vm_compute; reflexivity|]. split.
  - assert (G : forall a b n, fis_finite a = true -> fis_finite b = true ->
      sub (Number n) (BinOp Plus (BinOp Times (Number a) (Var "x")) (UnOp Factorial (Call (builtin_function B_MAX) [UnOp Minus (Var "y"); Number b]))) -> fis_finite n = true).
    { intros a b n Fa Fb H. inversion H as [|? ? ? H1|? ? ? H1| |]; subst.
      - inversion H1 as [|? ? ? H2|? ? ? H2| |]; subst; inversion H2; subst; exact Fa.
      - inversion H1 as [| | |? ? H2|]; subst. inversion H2 as [| | | |? ? c Hin H3]; subst. destruct Hin as [<-|[<-|[]]].
        + inversion H3 as [| | |? ? H4|]; subst. inversion H4.
        + inversion H3; subst. exact Fb. }
    intros n H. apply (G (lit "2") (lit "3.5") n); [reflexivity|reflexivity|]. tauto.
  - apply no_bf_iff. unfold t. cbn [no_bf]. repeat split; discriminate.
Qed.
