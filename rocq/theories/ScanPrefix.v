(** * Prefixes of the automaton's runs *)
From Coq Require Import ZArith NArith List String Ascii Bool Lia.
From Verif Require Import F64 Syntax Factorial Builtins Context Element Parser ParserFacts.
From Verif Require Import SpecChars CharFacts SpecTokens SpecTree SpecGrammar SpecScan TokenFacts LexFacts.
Import ListNotations.
Local Open Scope nat_scope.

(** ** Where tokens begin *)
Lemma head_prefix : forall p a b, ~ head_is p (a ++ b) -> ~ head_is p a.
Proof. intros p [|x a] b H; cbn in *; auto. Qed.

Lemma exponent_prefix : forall a b, ~ exponent_follows (a ++ b) -> ~ exponent_follows a.
Proof.
  intros [|x [|y a]] b H H'; cbn in *; auto. apply H. destruct H' as [H1 [H2|[H2 H3]]]; auto. split; auto. right. split; auto.
  destruct a as [|z a]; [contradiction|exact H3].
Qed.

Lemma number_prefix : forall m a b, number_token m (a ++ b) -> number_token m a.
Proof.
  intros m a b H. inversion H; subst; [apply NT_plain|apply NT_exp|apply NT_signed_exp]; eauto using head_prefix, exponent_prefix.
Qed.

Lemma name_prefix : forall m a b, name_token m (a ++ b) -> name_token m a.
Proof. intros m a b [H1 [H2 H3]]. repeat split; eauto using head_prefix. Qed.

Lemma token_nonblank : forall m s, number_token m s \/ name_token m s -> m <> [] /\ forall l, ~ head_is a_blank (m ++ l).
Proof.
  intros m s [H|[H _]].
  - apply number_token_head in H. destruct m as [|c m]; [contradiction|]. split; [discriminate|]. intro l. cbn in *.
    apply num_start in H. destruct H as [_ [_ H]]. congruence.
  - destruct m as [|c m]; [contradiction|]. split; [discriminate|]. intro l. cbn in *. byte_class H. congruence.
Qed.

(** dividing a text between two of its tokens *)
Lemma lexes_split : forall s ts, lexes s ts -> forall pre rest, ts = pre ++ rest ->
  exists a b, s = a ++ b /\ lexes a pre /\ lexes b rest /\ ~ head_is a_blank b.
Proof.
  induction 1 as [|c s ts Hw H IH|m s ts Hm H IH|m s ts Hm H IH|c s ts Hw Hd Hp Ha H IH]; intros pre rest E.
  - symmetry in E. apply app_eq_nil in E. destruct E as [-> ->]. exists [], []. repeat split; try constructor. cbn. auto.
  - destruct (IH pre rest E) as [a [b [-> [Ha [Hb Hn]]]]]. exists (c :: a), b. repeat split; auto. now apply L_ws.
  - destruct pre as [|t pre]; cbn in E; [subst rest|injection E as <- E].
    + exists [], (m ++ s). repeat split; [constructor|now apply L_num|]. eapply token_nonblank; eauto.
    + destruct (IH pre rest E) as [a [b [-> [Hla [Hlb Hn]]]]]. exists (m ++ a), b. rewrite app_assoc. repeat split; auto.
      apply L_num; eauto using number_prefix.
  - destruct pre as [|t pre]; cbn in E; [subst rest|injection E as <- E].
    + exists [], (m ++ s). repeat split; [constructor|now apply L_name|]. eapply token_nonblank; eauto.
    + destruct (IH pre rest E) as [a [b [-> [Hla [Hlb Hn]]]]]. exists (m ++ a), b. rewrite app_assoc. repeat split; auto.
      apply L_name; eauto using name_prefix.
  - destruct pre as [|t pre]; cbn in E; [subst rest|injection E as <- E].
    + exists [], (c :: s). repeat split; [constructor|now apply L_sym|]. cbn. congruence.
    + destruct (IH pre rest E) as [a [b [-> [Hla [Hlb Hn]]]]]. exists (c :: a), b. repeat split; auto. now apply L_sym.
Qed.

(** the bytes of a text that are not whitespace are those of its tokens *)
Definition token_text (t : token) : list ascii :=
  match t with TNum s | TId s => list_ascii_of_string s | TSym c => [c] end.
Definition solid (s : list ascii) : list ascii := filter (fun c => negb (a_blank c)) s.

Lemma solid_app : forall a b, solid (a ++ b) = solid a ++ solid b.
Proof. intros. apply filter_app. Qed.

Lemma solid_all : forall (p : ascii -> bool) m, (forall c, p c = true -> a_blank c = false) -> Forall (fun c => p c = true) m -> solid m = m.
Proof. intros p m Hp H. induction H as [|c m Hc H IH]; auto. cbn. rewrite (Hp c Hc). cbn. f_equal. exact IH. Qed.

Lemma classes_solid : forall c, (in_mantissa c = true \/ exponent_mark c = true \/ a_sign c = true \/ a_digit c = true \/ in_name c = true) -> a_blank c = false.
Proof.
  assert (H : forall c, (negb (in_mantissa c || exponent_mark c || a_sign c || a_digit c || in_name c) || negb (a_blank c))%bool = true).
  { apply byte_cases. vm_compute. reflexivity. }
  intros c Hc. specialize (H c).
  assert (E : (in_mantissa c || exponent_mark c || a_sign c || a_digit c || in_name c)%bool = true) by (rewrite !orb_true_iff; tauto).
  rewrite E in H. cbn in H. now apply negb_true_iff in H.
Qed.

Lemma number_solid : forall m s, number_token m s -> solid m = m.
Proof.
  intros m s H. apply (solid_all (fun c => in_mantissa c || exponent_mark c || a_sign c || a_digit c)%bool).
  - intros c Hc. apply classes_solid. rewrite !orb_true_iff in Hc. tauto.
  - assert (W : forall (p : ascii -> bool) l, (forall c, p c = true -> (in_mantissa c || exponent_mark c || a_sign c || a_digit c)%bool = true) ->
      Forall (fun c => p c = true) l -> Forall (fun c => (in_mantissa c || exponent_mark c || a_sign c || a_digit c)%bool = true) l)
      by (intros p l Hp Hl; induction Hl; constructor; auto).
    inversion H; subst; repeat (apply Forall_app; split); repeat (constructor; [rewrite !orb_true_iff; tauto|]);
      try (eapply W; [|eassumption]; intros c Hc; rewrite !orb_true_iff; tauto).
Qed.

Lemma lexes_solid : forall s ts, lexes s ts -> solid s = flat_map token_text ts.
Proof.
  induction 1 as [|c s ts Hw H IH|m s ts Hm H IH|m s ts Hm H IH|c s ts Hw Hd Hp Ha H IH]; auto.
  - cbn. now rewrite Hw.
  - rewrite solid_app, IH. cbn. rewrite list_ascii_of_string_of_list_ascii. f_equal. eapply number_solid; eauto.
  - rewrite solid_app, IH. cbn. rewrite list_ascii_of_string_of_list_ascii. f_equal.
    apply (solid_all in_name); [intros c Hc; apply classes_solid; auto|]. now destruct Hm as [_ [Hm _]].
  - cbn. rewrite Hw. cbn. f_equal. exact IH.
Qed.

Lemma tokens_begin_unique : forall input o o' ts, tokens_begin input o ts -> tokens_begin input o' ts -> o = o'.
Proof.
  assert (W : forall input o d ts, tokens_begin input o ts -> tokens_begin input (o + S d) ts -> False).
  { intros input o d ts [Ho [Hl Hn]] [Ho' [Hl' Hn']]. apply lexes_solid in Hl. apply lexes_solid in Hl'.
    assert (E : skipn (o + S d) (list_ascii_of_string input) = skipn (S d) (skipn o (list_ascii_of_string input))).
    { clear. revert o. induction (list_ascii_of_string input) as [|c l IH]; intros [|o]; cbn; auto; try (destruct d; reflexivity). apply IH. }
    rewrite E in Hl'. pose proof (list_ascii_length input) as HL. rewrite <- HL in Ho'.
    assert (Hlen : List.length (skipn o (list_ascii_of_string input)) > d) by (rewrite skipn_length; lia).
    destruct (skipn o (list_ascii_of_string input)) as [|c l]; [cbn in Hlen; lia|]. cbn [skipn head_is] in *.
    rewrite <- (firstn_skipn d l), <- Hl' in Hl. cbn in Hl. destruct (a_blank c); [congruence|]. cbn in Hl.
    fold (solid (firstn d l ++ skipn d l)) in Hl. rewrite solid_app in Hl.
    apply (f_equal (@List.length ascii)) in Hl. cbn in Hl. rewrite app_length in Hl. lia. }
  intros input o o' ts H H'. destruct (Nat.lt_trichotomy o o') as [L|[L|L]]; auto; exfalso.
  - replace o' with (o + S (o' - o - 1)) in H' by lia. eauto.
  - replace o with (o' + S (o - o' - 1)) in H by lia. eauto.
Qed.

(** the text before the place where some tokens begin *)
Lemma text_before : forall input pre rest u, tokens_of input (pre ++ rest) -> tokens_begin input u rest ->
  lexes (firstn u (list_ascii_of_string input)) pre.
Proof.
  intros input pre rest u Ht Hu. destruct (lexes_split _ _ Ht pre rest eq_refl) as [a [b [E [Ha [Hb Hn]]]]].
  assert (Hb' : tokens_begin input (List.length a) rest).
  { split; [rewrite <- list_ascii_length, E, app_length; lia|]. rewrite E, skipn_app, skipn_all, Nat.sub_diag. cbn. auto. }
  rewrite (tokens_begin_unique _ _ _ _ Hu Hb'), E, firstn_app, firstn_all, Nat.sub_diag, firstn_O, app_nil_r. exact Ha.
Qed.

(** ** Runs *)
(** equal up to the recorded starts of calls *)
Definition same_frame (a b : frame) : Prop :=
  match a, b with
  | Group x, Group y => x = y
  | Arguments_of f n _, Arguments_of g m _ => f = g /\ n = m
  | _, _ => False
  end.
Definition same_mode (a b : mode) : Prop :=
  match a, b with
  | Paren f _, Paren g _ => f = g
  | Paren _ _, _ | _, Paren _ _ => False
  | _, _ => a = b
  end.

Lemma same_within : forall s s', Forall2 same_frame s s' -> within_call s = within_call s'.
Proof.
  intros s s' H. induction H as [|a b s s' Hab H IH]; auto. unfold within_call in *. cbn [existsb]. rewrite IH. destruct a, b; cbn in Hab; tauto.
Qed.

Section Runs.
  Variable ctx : context.

  (** a step does not look beyond its token *)
  Definition same_step (r r' : (mode * list frame) + verdict) (ts ts' : list token) : Prop :=
    match r with
    | inl (m, s) => exists m' s', r' = inl (m', s') /\ same_mode m m' /\ Forall2 same_frame s s'
    | inr (Rejects k _ u) => u = ts /\ exists f', r' = inr (Rejects k f' ts')
    | inr Accepts => False
    end.

  Ltac stop := cbn [same_step misfit]; split; [reflexivity|eexists; reflexivity].
  Ltac go := cbn [same_step]; eexists _, _; split; [reflexivity|split; [first [reflexivity|exact I]|auto]].

  Lemma operand_same : forall first s s' t r r', Forall2 same_frame s s' ->
    same_step (read_operand ctx first s t (t :: r)) (read_operand ctx first s' t (t :: r')) (t :: r) (t :: r').
  Proof.
    intros first s s' t r r' Hs. destruct t as [x|x|c]; cbn [read_operand].
    - destruct (literal_value x); [go|stop].
    - destruct (stands_for ctx x); go.
    - destruct (Ascii.eqb c "+" || Ascii.eqb c "-")%bool; [go|].
      destruct (Ascii.eqb c "("); [go; constructor; cbn; auto|].
      destruct (Ascii.eqb c ")"); [|stop]. cbn [misfit]. rewrite (same_within _ _ Hs). stop.
  Qed.

  Lemma close_same : forall bare s s' t r r', Forall2 same_frame s s' ->
    same_step (read_close bare s t (t :: r)) (read_close bare s' t (t :: r')) (t :: r) (t :: r').
  Proof.
    intros bare s s' t r r' Hs. destruct Hs as [|a b s s' Hab Hs]; [stop|]. destruct a as [x|f n fr], b as [y|g m fr']; cbn in Hab; try contradiction.
    - subst y. cbn [read_close]. destruct t as [z|z|c]; try stop.
      destruct (Ascii.eqb c ")") eqn:E; [apply Ascii.eqb_eq in E; subst c; go|].
      destruct c as [[] [] [] [] [] [] [] []]; try stop; discriminate E.
    - destruct Hab as [<- <-]. cbn [read_close].
      assert (Hmis : same_step (inr (misfit s (t :: r))) (inr (misfit s' (t :: r'))) (t :: r) (t :: r')).
      { cbn [misfit]. rewrite (same_within _ _ Hs). stop. }
      destruct t as [z|z|c]; try exact Hmis.
      destruct (Ascii.eqb c ",") eqn:E1; [apply Ascii.eqb_eq in E1; subst c; go; constructor; cbn; auto|].
      destruct (Ascii.eqb c ")") eqn:E2.
      + apply Ascii.eqb_eq in E2; subst c. destruct (fn_nb_args f) as [k|]; [|go].
        destruct (Nat.compare (S n) k); [go|stop|stop].
      + destruct c as [[] [] [] [] [] [] [] []]; try exact Hmis; [discriminate E2|discriminate E1].
  Qed.

  Lemma token_same : forall m m' s s' t r r', same_mode m m' -> Forall2 same_frame s s' ->
    same_step (read_token ctx m s t (t :: r)) (read_token ctx m' s' t (t :: r')) (t :: r) (t :: r').
  Proof.
    intros m m' s s' t r r' Hm Hs. destruct m as [first|f fr|bare pf], m' as [first'|f' fr'|bare' pf']; cbn in Hm; try contradiction; try discriminate Hm.
    - injection Hm as <-. now apply operand_same.
    - subst f'. cbn [read_token]. destruct t as [z|z|c]; try stop.
      destruct (Ascii.eqb c "(") eqn:E; [apply Ascii.eqb_eq in E; subst c; go; constructor; cbn; auto|].
      destruct c as [[] [] [] [] [] [] [] []]; try stop; discriminate E.
    - injection Hm as <- <-. cbn [read_token].
      assert (Hmul : same_step (if multiplies bare t then read_operand ctx false s t (t :: r) else read_close bare s t (t :: r))
                (if multiplies bare t then read_operand ctx false s' t (t :: r') else read_close bare s' t (t :: r')) (t :: r) (t :: r')).
      { destruct (multiplies bare t); [now apply operand_same|now apply close_same]. }
      destruct t as [z|z|c]; try exact Hmul.
      destruct (Ascii.eqb c "!" && pf)%bool; [go|]. destruct (is_operator c); [go|]. exact Hmul.
  Qed.

  (** a rejected sequence divides at the token that cannot be read *)
  Lemma scan_divides : forall ts m s k f u, scan ctx m s ts = Rejects k f u ->
    exists pre m1 s1, ts = pre ++ u /\
      (forall m' s' r, same_mode m m' -> Forall2 same_frame s s' ->
         exists m2 s2, same_mode m1 m2 /\ Forall2 same_frame s1 s2 /\ scan ctx m' s' (pre ++ r) = scan ctx m2 s2 r) /\
      match u with
      | [] => True
      | t :: r => exists f', read_token ctx m1 s1 t (t :: r) = inr (Rejects k f' u)
      end /\
      ((pre = [] /\ m1 = m /\ s1 = s) \/ exists pre' t m0 s0 r0, pre = pre' ++ [t] /\ read_token ctx m0 s0 t r0 = inl (m1, s1)).
  Proof.
    induction ts as [|t r IH]; intros m s k f u H.
    - exists [], m, s. assert (u = []) as ->.
      { cbn in H. destruct m; cbn in H; [congruence|congruence|]. destruct s as [|[|]]; cbn in H; congruence. }
      split; [reflexivity|]. split; [|auto]. intros m' s' r Hm Hs. exists m', s'. auto.
    - cbn [scan] in H. destruct (read_token ctx m s t (t :: r)) as [[m1 s1]|v] eqn:E.
      + destruct (IH _ _ _ _ _ H) as [pre [m2 [s2 [-> [Hp [Hu Hl]]]]]]. exists (t :: pre), m2, s2. split; [reflexivity|].
        split; [|split; [exact Hu|]].
        2:{ right. destruct Hl as [[-> [-> ->]]|[pre' [t' [m0 [s0 [r0 [-> E0]]]]]]].
            - exists [], t, m, s, (t :: u). auto.
            - exists (t :: pre'), t', m0, s0, r0. auto. }
        intros m' s' r' Hm Hs. pose proof (token_same m m' s s' t (pre ++ u) (pre ++ r') Hm Hs) as Ht. rewrite E in Ht. cbn in Ht.
        destruct Ht as [m1' [s1' [Er [Hm1 Hs1]]]]. destruct (Hp m1' s1' r' Hm1 Hs1) as [m3 [s3 [Hm3 [Hs3 E3]]]].
        exists m3, s3. split; auto. split; auto. cbn [app scan]. rewrite Er. exact E3.
      + subst v. exists [], m, s.
        pose proof (token_same m m s s t r r) as Ht. rewrite E in Ht. cbn in Ht.
        assert (Hm : same_mode m m) by (destruct m; cbn; auto).
        assert (Hs : Forall2 same_frame s s) by (clear; induction s as [|[|] s IHs]; constructor; cbn; auto).
        destruct (Ht Hm Hs) as [-> _]. split; [reflexivity|]. split; [|split; [eauto|auto]].
        intros m' s' r' Hm' Hs'. exists m', s'. auto.
  Qed.

  Lemma same_refl : forall m s, same_mode m m /\ Forall2 same_frame s s.
  Proof. intros m s. split; [destruct m; cbn; auto|]. induction s as [|[|] s IHs]; constructor; cbn; auto. Qed.

  (** ** Completing a prefix *)
  Definition ends_well (v : verdict) : Prop :=
    v = Accepts \/ exists n m f u, v = Rejects (TooManyArguments n m) f u.
  Inductive filler : token -> Prop :=
  | F_one : filler (TNum "1")
  | F_open : filler (TSym "(")
  | F_comma : filler (TSym ",")
  | F_close : filler (TSym ")").

  (** no number follows a number or ")"; [b]: may a number come first? *)
  Fixpoint tidy (b : bool) (suf : list token) : Prop :=
    match suf with
    | [] => True
    | TNum _ :: r => b = true /\ tidy false r
    | TSym c :: r => tidy (negb (Ascii.eqb c ")")) r
    | TId _ :: _ => False
    end.

  Lemma one_value : exists v, literal_value "1" = Some v.
  Proof.
    assert (H : match literal_value "1" with Some _ => true | None => false end = true) by (vm_compute; reflexivity).
    destruct (literal_value "1") as [v|]; [now exists v|discriminate H].
  Qed.

  Lemma read_one : forall first s r, scan ctx (Need first) s (TNum "1" :: r) = scan ctx (Have first true) s r.
  Proof. intros first s r. cbn [scan read_token read_operand]. destruct one_value as [v ->]. reflexivity. Qed.

  Lemma complete_have : forall s bare pf, exists suf, Forall filler suf /\ tidy false suf /\ ends_well (scan ctx (Have bare pf) s suf).
  Proof.
    induction s as [|fr s IH]; intros bare pf.
    - exists []. split; [constructor|]. split; [exact I|]. left. reflexivity.
    - destruct fr as [first|f n from].
      + destruct (IH (first && bare)%bool true) as [suf [Hf [Ht Hw]]]. exists (TSym ")" :: suf).
        split; [constructor; auto; constructor|]. split; [exact Ht|]. exact Hw.
      + (* the missing arguments, then the parenthesis *)
        destruct (IH false true) as [suf [Hf [Ht Hw]]].
        destruct (fn_nb_args f) as [m|] eqn:En.
        2:{ exists (TSym ")" :: suf). split; [constructor; auto; constructor|]. split; [exact Ht|].
            cbn [scan read_token read_close]. rewrite En. exact Hw. }
        assert (Hd : forall d n bare pf, d = m - S n -> exists suf, Forall filler suf /\ tidy false suf /\
                  ends_well (scan ctx (Have bare pf) (Arguments_of f n from :: s) suf)).
        { clear n bare pf. induction d as [|d IHd]; intros n bare pf Ed.
          - exists (TSym ")" :: suf). split; [constructor; auto; constructor|]. split; [exact Ht|]. cbn [scan read_token read_close].
            change (Ascii.eqb ")" "!" && pf)%bool with false. cbn [is_operator existsb Ascii.eqb Bool.eqb multiplies orb].
            rewrite En. destruct (Nat.compare (S n) m) eqn:Ec.
            + exact Hw.
            + apply nat_compare_lt in Ec. lia.
            + right. eauto.
          - destruct (IHd (S n) true true ltac:(lia)) as [suf' [Hf' [Ht' Hw']]]. exists (TSym "," :: TNum "1" :: suf').
            split; [repeat constructor; auto|]. split; [cbn; auto|]. rewrite <- read_one in Hw'. exact Hw'. }
        eapply Hd. reflexivity.
  Qed.

  Lemma complete : forall m s, exists suf, Forall filler suf /\
    tidy (match m with Need _ => true | _ => false end) suf /\ ends_well (scan ctx m s suf).
  Proof.
    intros [first|f fr|bare pf] s.
    - destruct (complete_have s first true) as [suf [Hf [Ht Hw]]]. exists (TNum "1" :: suf). split; [constructor; auto; constructor|].
      split; [cbn; auto|]. now rewrite read_one.
    - destruct (complete_have (Arguments_of f 0 fr :: s) true true) as [suf [Hf [Ht Hw]]]. exists (TSym "(" :: TNum "1" :: suf).
      split; [repeat (constructor; auto)|]. split; [cbn; auto|]. rewrite <- read_one in Hw. exact Hw.
    - apply complete_have.
  Qed.

  (** a text for the fillers *)
  Fixpoint spell (ts : list token) : list ascii :=
    match ts with [] => [] | t :: r => (" "%char :: token_text t) ++ spell r end.
  Lemma spell_lexes : forall ts, Forall filler ts -> lexes (spell ts) ts.
  Proof.
    induction ts as [|t ts IH]; intro H; [constructor|]. inversion H as [|? ? Ht Hts]; subst. specialize (IH Hts).
    cbn [spell app]. apply L_ws; [reflexivity|].
    assert (Hsep : forall p, p " "%char = false -> ~ head_is p (spell ts)).
    { intros p Hp. destruct ts; cbn; auto. congruence. }
    destruct Ht; cbn [token_text].
    - apply (L_num ["1"%char]); auto. apply NT_plain; try (repeat constructor; fail); try (apply Hsep; reflexivity).
      destruct ts as [|t ts]; cbn; auto. destruct (token_text t ++ spell ts); intros H'; [exact H'|]. now destruct H' as [H' _].
    - apply L_sym; auto.
    - apply L_sym; auto.
    - apply L_sym; auto.
  Qed.
End Runs.
