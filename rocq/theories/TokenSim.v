(** * The byte parser simulates the token parser *)
From Coq Require Import ZArith NArith List String Ascii Bool Lia.
From Verif Require Import SpecChars CharFacts.
From Verif Require Import F64 Syntax Factorial Builtins Context Element Parser ParserFacts.
From Verif Require Import SpecTokens SpecScan TokenFacts TokenParser.
Import ListNotations.
Local Open Scope nat_scope.

Lemma skipn_add : forall A a b (l : list A), skipn (a + b) l = skipn b (skipn a l).
Proof. induction a; intros b l; cbn; auto. destruct l; auto. destruct b; auto. Qed.

Section Sim.
  Variable cfg : config.
  Variable w : world.
  Variable ctx : context.
  Variable input : string.
  Let bs := bytes input.
  Let len := List.length bs.
  Hypothesis Hne : 0 < len.

  Definition at_tokens (c : nat) (ts : list token) : Prop := c <= len /\ lexes (skipn c bs) ts.

  Definition sim {A} (c0 : nat) (r : pres A) (t : tres A) : Prop :=
    match r, t with
    | POk a c, TOk a' ts => a = a' /\ c0 <= c /\ at_tokens c ts
    | PErr e c, TErr k f u => c0 <= c /\ error_matches input e k f u /\ (forall t, k = UnexpectedToken t -> tokens_begin input c f)
    | PPanic p, TPanic q => p = q
    | PFuel, TFuel => True
    | _, _ => False
    end.

  Lemma begins : forall c ts, at_tokens c ts -> ~ head_is a_blank (skipn c bs) -> tokens_begin input c ts.
  Proof.
    intros c ts [Hc Hl] Hn. split; [|split; auto]. unfold len, bs, bytes in Hc.
    now rewrite list_ascii_length in Hc.
  Qed.

  Lemma sim_weaken : forall A c0 c1 (r : pres A) t, c0 <= c1 -> sim c1 r t -> sim c0 r t.
  Proof. intros A c0 c1 [a c|e c|p|] [a' ts|k f u|q|] Hc H; cbn in *; intuition; lia. Qed.

  Lemma sim_bind : forall A B c0 (r : pres A) t (f : A -> nat -> pres B) g,
    sim c0 r t ->
    (forall a c ts, c0 <= c -> at_tokens c ts -> sim c0 (f a c) (g a ts)) ->
    sim c0 (pbind r f) (tbind t g).
  Proof.
    intros A B c0 [a c|e c|p|] [a' ts|k fr up|q|] f g H Hf; cbn in *; try contradiction; auto.
    destruct H as [<- [Hc Ha]]. auto.
  Qed.

  Lemma sim_fail : forall A c0 k off n c o f u x y, off = Val o -> c0 <= c ->
    tokens_begin input x f -> tokens_begin input y u -> (o, n) = span_for k input x y ->
    (forall t, k = UnexpectedToken t -> x = c) ->
    @sim A c0 (fail input k off n c) (TErr k f u).
  Proof.
    intros A c0 k off n c o f u x y -> Hc Hx Hy Hs Hk. cbn. split; auto. split.
    - split; [reflexivity|]. split; [reflexivity|]. exists x, y. auto.
    - intros t Ht. now rewrite <- (Hk t Ht).
  Qed.

  Lemma usub_val : forall a b, b <= a -> usub cfg a b = Val (N.of_nat (a - b)).
  Proof. intros a b H. unfold usub. apply Nat.leb_le in H. now rewrite H. Qed.

  Lemma skipn_prefix : forall c m s, skipn c bs = m ++ s -> skipn (c + List.length m) bs = s.
  Proof.
    intros c m s H. rewrite skipn_add, H.
    rewrite skipn_app, skipn_all, Nat.sub_diag. reflexivity.
  Qed.

  Lemma prefix_len_run : forall p m s, Forall (fun c => p c = true) m -> ~ head_is p s ->
    prefix_len p (m ++ s) = List.length m.
  Proof.
    induction 1 as [|c m Hc Hm IH]; intro Hs; cbn.
    - destruct s as [|c s]; auto. cbn in Hs. cbn. destruct (p c); auto. now elim Hs.
    - rewrite Hc. auto.
  Qed.

  Lemma skip_while_run_eq : forall p c m s, skipn c bs = m ++ s ->
    Forall (fun c => p c = true) m -> ~ head_is p s -> skip_while input p c = c + List.length m.
  Proof. intros p c m s E Hm Hs. unfold skip_while. fold bs. now rewrite E, prefix_len_run. Qed.

  Lemma nth_skipn : forall c b s, skipn c bs = b :: s -> nth_error bs c = Some b.
  Proof. intros c b s E. rewrite <- (Nat.add_0_r c), <- nth_error_skipn, E. reflexivity. Qed.

  Lemma skipn_len : forall c m s, c <= len -> skipn c bs = m ++ s -> c + List.length m <= len.
  Proof.
    intros c m s Hc E. assert (H : List.length (skipn c bs) = len - c) by apply skipn_length.
    rewrite E, app_length in H. lia.
  Qed.

  (** after skipping whitespace, the first byte is the first token's *)
  Lemma lex_skip_ws : forall s ts, lexes s ts -> exists ws s', s = ws ++ s' /\
    Forall (fun c => a_blank c = true) ws /\ ~ head_is a_blank s' /\ lexes s' ts.
  Proof.
    induction 1 as [|c s ts Hw H IH|m s ts Hm H IH|m s ts Hm H IH|c s ts Hw Hd Hp Ha H IH].
    - exists [], []. repeat split; auto. constructor.
    - destruct IH as [ws [s' [-> [Hf [Hn Hl]]]]]. exists (c :: ws), s'. repeat split; auto.
    - exists [], (m ++ s). repeat split; auto; [|now constructor].
      apply number_token_head in Hm. destruct m as [|c m]; [contradiction|]. cbn in *.
      apply num_start in Hm. destruct Hm as [_ [_ Hm]]. congruence.
    - exists [], (m ++ s). repeat split; auto; [|now constructor].
      destruct Hm as [Hm _]. destruct m as [|c m]; [contradiction|]. cbn in *. byte_class Hm. congruence.
    - exists [], (c :: s). repeat split; auto; [|now constructor]. cbn. congruence.
  Qed.

  Lemma next_trim_tokens : forall c ts, at_tokens c ts ->
    exists c', next_trim input c = (match ts with [] => None | t :: _ => Some (token_byte t) end, c') /\
      c <= c' /\ at_tokens c' ts /\ ~ head_is a_blank (skipn c' bs) /\
      (ts = [] -> c' = len) /\ (ts <> [] -> c' < len).
  Proof.
    intros c ts [Hc Hl]. destruct (lex_skip_ws _ _ Hl) as [ws [s' [E [Fw [Nw Hl']]]]].
    exists (c + List.length ws). unfold next_trim. chars.
    rewrite (skip_while_run_eq _ _ _ _ E Fw Nw). pose proof (skipn_prefix _ _ _ E) as E'.
    pose proof (skipn_len _ _ _ Hc E) as Hle.
    assert (Hlen : List.length s' = len - (c + List.length ws)) by (rewrite <- E'; apply skipn_length).
    rewrite E'. split; [|split; [lia|split; [split; [lia|rewrite E'; auto]|split; auto]]].
    - f_equal. unfold current. fold bs. destruct Hl' as [|x s ts Hw H|m s ts Hm H|m s ts Hm H|x s ts Hw Hd Hp Ha H].
      + apply nth_error_None. cbn in Hlen. lia.
      + exfalso. apply Nw. exact Hw.
      + apply number_token_head in Hm. destruct m as [|x m]; [contradiction|]. cbn. eapply nth_skipn. cbn in E'. eauto.
      + destruct Hm as [Hm _]. destruct m as [|x m]; [contradiction|]. cbn. eapply nth_skipn. cbn in E'. eauto.
      + cbn. eapply nth_skipn. eauto.
    - split.
      + intros ->. destruct s' as [|x s']; [cbn in Hlen; lia|]. exfalso.
        apply lexes_cons_inv in Hl'. destruct Hl' as [[Hw _]|[[_ [_ [m [r [u [_ [_ [E0 _]]]]]]]]|[[_ [_ [_ [m [r [u [_ [_ [E0 _]]]]]]]]]|[_ [_ [_ [u [E0 _]]]]]]]]; try discriminate.
        now apply Nw.
      + intro Hts. destruct s' as [|x s']; [|cbn in Hlen; lia]. exfalso. apply Hts.
        eapply lexes_unique; [exact Hl'|constructor].
  Qed.

  (** the bytes of the first token *)
  Lemma first_token : forall c t ts, at_tokens c (t :: ts) -> ~ head_is a_blank (skipn c bs) ->
    exists m r, skipn c bs = m ++ r /\ lexes r ts /\
    match t with
    | TNum s => s = string_of_list_ascii m /\ number_token m r
    | TId s => s = string_of_list_ascii m /\ name_token m r
    | TSym b => m = [b] /\ a_blank b = false /\ a_digit b || Ascii.eqb b "." = false /\ a_letter b = false
    end.
  Proof.
    intros c t ts [Hc Hl] Hn. destruct (skipn c bs) as [|x s] eqn:E.
    - assert (H := lexes_unique _ _ _ Hl L_end). discriminate.
    - apply lexes_cons_inv in Hl.
      destruct Hl as [[Hw _]|[[_ [_ [m [r [u [E1 [Hm [E0 H]]]]]]]]|[[_ [_ [_ [m [r [u [E1 [Hm [E0 H]]]]]]]]]|[Hw [Hd [Ha [u [E0 H]]]]]]]].
      + now elim Hn.
      + injection E0 as -> ->. exists m, r. auto.
      + injection E0 as -> ->. exists m, r. auto.
      + injection E0 as -> ->. exists [x], s. split; [reflexivity|]. split; [exact H|]. repeat split; auto.
  Qed.

  Lemma at_sym : forall c b ts, at_tokens c (TSym b :: ts) -> ~ head_is a_blank (skipn c bs) ->
    at_tokens (S c) ts.
  Proof.
    intros c b ts H Hn. destruct (first_token _ _ _ H Hn) as [m [r [E [Hl [-> _]]]]]. destruct H as [Hc _].
    pose proof (skipn_len _ _ _ Hc E) as Hle. pose proof (skipn_prefix _ _ _ E) as Es. cbn in Hle, Es.
    rewrite Nat.add_1_r in *. split; [lia|]. now rewrite Es.
  Qed.

  (** the first byte tells the kind of the first token *)
  Lemma first_byte : forall c t ts, at_tokens c (t :: ts) -> ~ head_is a_blank (skipn c bs) ->
    match t with
    | TNum s => a_digit (token_byte t) || Ascii.eqb (token_byte t) "." = true
    | TId s => a_letter (token_byte t) = true /\ a_digit (token_byte t) || Ascii.eqb (token_byte t) "." = false
    | TSym b => a_digit b || Ascii.eqb b "." = false /\ a_letter b = false
    end.
  Proof.
    intros c t ts H Hn. destruct (first_token _ _ _ H Hn) as [m [r [E [Hl Ht]]]]. destruct t as [s|s|b].
    - destruct Ht as [-> Hm]. apply number_token_head in Hm. destruct m as [|x m]; [contradiction|]. exact Hm.
    - destruct Ht as [-> [Hm _]]. destruct m as [|x m]; [contradiction|]. cbn in *. split; auto. byte_class Hm.
      apply orb_false_iff. auto.
    - tauto.
  Qed.

  Lemma consume_tokens : forall tok c ts, at_tokens c ts ->
    a_digit tok || Ascii.eqb tok "." = false -> a_letter tok = false ->
    exists c', consume_if_eq input tok c = (fst (t_consume tok ts), c') /\ c <= c' /\ at_tokens c' (snd (t_consume tok ts)) /\
      (if fst (t_consume tok ts) then exists x, c' = S x /\ c <= x /\ tokens_begin input x ts else tokens_begin input c' ts).
  Proof.
    intros tok c ts H Hd Ha. destruct (next_trim_tokens c ts H) as [c' [E [Hc [H' [Hn _]]]]].
    pose proof (begins _ _ H' Hn) as Hbg.
    unfold consume_if_eq. rewrite E. destruct ts as [|t ts]; [exists c'; cbn; auto|].
    pose proof (first_byte _ _ _ H' Hn) as Hb.
    destruct (Ascii.eqb (token_byte t) tok) eqn:Eb.
    - destruct t as [s|s|b].
      + apply Ascii.eqb_eq in Eb. rewrite Eb in Hb. congruence.
      + apply Ascii.eqb_eq in Eb. rewrite Eb in Hb. destruct Hb. congruence.
      + cbn in Eb. cbn. rewrite Eb. exists (S c'). split; [reflexivity|]. split; [lia|].
        cbn. split; [eapply at_sym; eauto|]. exists c'. auto.
    - exists c'. assert (Et : t_consume tok (t :: ts) = (false, t :: ts)).
      { destruct t; auto. cbn in *. now rewrite Eb. }
      rewrite Et. cbn. auto.
  Qed.

  Lemma sim_assert : forall tok c ts, at_tokens c ts ->
    a_digit tok || Ascii.eqb tok "." = false -> a_letter tok = false ->
    sim c (assert_eq_consume input tok c) (t_assert tok ts).
  Proof.
    intros tok c ts H Hd Ha. destruct (consume_tokens tok c ts H Hd Ha) as [c' [E [Hc [H' Hx]]]].
    unfold assert_eq_consume, t_assert. rewrite E. destruct (t_consume tok ts) as [[] r]; cbn [fst snd] in *; [cbn; auto|].
    unfold err_expected_token. eapply sim_fail; eauto; try reflexivity; try discriminate.
  Qed.

  (** ** get_operator_infos *)
  Lemma operator_not_word : forall b, a_digit b || Ascii.eqb b "." = true \/ a_letter b = true -> operator_of_byte b = None.
  Proof.
    assert (H : forall b, (implb (a_digit b || Ascii.eqb b "." || a_letter b)
                (match operator_of_byte b with None => true | _ => false end))%bool = true).
    { apply byte_cases. vm_compute. reflexivity. }
    intros b Hb. specialize (H b).
    replace (a_digit b || Ascii.eqb b "." || a_letter b)%bool with true in H.
    - cbn in H. destruct (operator_of_byte b); auto. discriminate.
    - symmetry. apply orb_true_iff. tauto.
  Qed.

  Lemma lower_alpha : forall b, a_small b = true -> a_letter b = true.
  Proof. intros b H. unfold a_letter. rewrite H. apply orb_true_r. Qed.

  Lemma goi_tokens : forall el p c ts, at_tokens c ts ->
    exists c', get_operator_infos cfg input el p c = (fst (t_goi cfg el p ts), c') /\ c <= c' /\
      at_tokens c' (snd (t_goi cfg el p ts)).
  Proof.
    intros el p c ts H. destruct (next_trim_tokens c ts H) as [c' [E [Hc [H' [Hn _]]]]].
    unfold get_operator_infos. chars. rewrite E. destruct ts as [|t ts]; [exists c'; cbn; auto|].
    pose proof (first_byte _ _ _ H' Hn) as Hb. unfold t_goi.
    assert (Eo : operator_of_byte (token_byte t) = match t with TSym b => operator_of_byte b | _ => None end).
    { destruct t; cbn [token_byte]; auto; apply operator_not_word; tauto. }
    rewrite Eo. destruct (match t with TSym b => operator_of_byte b | _ => None end) as [op|] eqn:Eop.
    - destruct t as [s|s|b]; try discriminate.
      destruct (get_for_op op <=? p); [exists c'; auto|]. exists (S c'). cbn. split; auto. split; [lia|].
      eapply at_sym; eauto.
    - destruct (implicit_precedence cfg <=? p); [exists c'; auto|].
      assert (Ej : (if a_small (token_byte t) || Ascii.eqb (token_byte t) "(" then true
                    else if a_digit (token_byte t) then negb (is_number_node el) else false)
                   = juxtaposable (is_number_node el) t).
      { destruct t as [s|s|b]; unfold juxtaposable.
        - replace (a_small (token_byte (TNum s))) with false.
          2:{ symmetry. destruct (a_small _) eqn:El; auto. apply lower_alpha in El. apply num_start in Hb. destruct Hb as [_ [Hb _]]. congruence. }
          replace (Ascii.eqb (token_byte (TNum s)) "(") with false.
          2:{ symmetry. destruct (Ascii.eqb (token_byte (TNum s)) "(") eqn:El; auto. apply Ascii.eqb_eq in El. rewrite El in Hb. discriminate. }
          cbn [orb]. destruct (a_digit _); reflexivity.
        - destruct Hb as [Ha Hb]. apply orb_false_iff in Hb. destruct Hb as [Hb _]. rewrite Hb.
          replace (Ascii.eqb (token_byte (TId s)) "(") with false.
          2:{ symmetry. destruct (Ascii.eqb (token_byte (TId s)) "(") eqn:El; auto. apply Ascii.eqb_eq in El. rewrite El in Ha. discriminate. }
          rewrite orb_false_r. destruct (a_small _); reflexivity.
        - cbn [token_byte] in *. destruct Hb as [Hb Ha]. apply orb_false_iff in Hb. destruct Hb as [Hb _]. rewrite Hb.
          replace (a_small b) with false.
          2:{ symmetry. destruct (a_small b) eqn:El; auto. apply lower_alpha in El. congruence. }
          cbn [orb]. destruct (Ascii.eqb b "("); reflexivity. }
      rewrite <- Ej. clear Ej. exists c'.
      destruct (a_small (token_byte t) || Ascii.eqb (token_byte t) "("); [auto|].
      destruct (a_digit (token_byte t)); [|auto]. destruct el; cbn [is_number_node negb]; auto.
  Qed.

  (** ** numbers and names *)
  Lemma slice_run : forall c m s, skipn c bs = m ++ s -> slice input c (c + List.length m) = string_of_list_ascii m.
  Proof.
    intros c m s E. unfold slice. fold bs. rewrite E. replace (c + List.length m - c) with (List.length m) by lia.
    now rewrite firstn_app, firstn_all, Nat.sub_diag, firstn_O, app_nil_r.
  Qed.

  Lemma current_skipn : forall c, current input c = hd_error (skipn c bs).
  Proof.
    intro c. unfold current. fold bs. rewrite <- (Nat.add_0_r c) at 1. rewrite <- nth_error_skipn.
    destruct (skipn c bs); reflexivity.
  Qed.
  Lemma next_at_skipn : forall c n, next_at input c n = nth_error (skipn c bs) n.
  Proof. intros. unfold next_at. fold bs. now rewrite nth_error_skipn. Qed.

  Lemma number_end : forall c m r, skipn c bs = m ++ r -> number_token m r ->
    let c1 := skip_while input in_mantissa c in
    let might := matches exponent_mark (current input c1) in
    let signed := might && matches a_sign (next input c1) && matches a_digit (next_at input c1 2) in
    let isexp := might && matches a_digit (next input c1) in
    skip_while input a_digit (c1 + ((if signed then 1 else 0) * 2 + (if isexp then 1 else 0))) = c + List.length m.
  Proof.
    intros c m r E Hm. cbv zeta. unfold next. rewrite !next_at_skipn, current_skipn.
    destruct Hm as [m r Hh F N X|m e ds r Hh F He Hn Fd Nd|m e sg ds r Hh F He Hs Hn Fd Nd].
    - rewrite (skip_while_run_eq _ _ _ _ E F N). pose proof (skipn_prefix _ _ _ E) as E1. rewrite E1.
      assert (Hdig : ~ head_is a_digit r).
      { destruct r as [|x r]; auto. cbn in *. intro Hd. apply N. byte_class Hd. auto. }
      assert (Hz : (if matches exponent_mark (hd_error r) && matches a_sign (nth_error r 1) && matches a_digit (nth_error r 2) then 1 else 0) * 2
               + (if matches exponent_mark (hd_error r) && matches a_digit (nth_error r 1) then 1 else 0) = 0).
      { destruct r as [|x [|y r]]; cbn in *; auto.
        - destruct (exponent_mark x); auto.
        - destruct (exponent_mark x) eqn:Ex; cbn; auto. destruct (a_digit y) eqn:Ey; [elim X; auto|].
          destruct (a_sign y) eqn:Es; cbn; auto. destruct r as [|z r]; cbn in *; auto. destruct (a_digit z) eqn:Ez; auto.
          elim X; auto. }
      rewrite Hz, Nat.add_0_r. rewrite (skip_while_run_eq a_digit (c + List.length m) [] r); auto.
    - rewrite <- app_assoc in E. cbn in E.
      rewrite (skip_while_run_eq _ _ _ _ E F (exp_not_number _ _ He)). pose proof (skipn_prefix _ _ _ E) as E1. rewrite E1.
      destruct ds as [|d ds]; [congruence|]. inversion Fd as [|d' ds' Hd Fd']; subst.
      cbn [hd_error nth_error matches app]. rewrite He, Hd. cbn [andb].
      assert (a_sign d = false) as -> by (byte_class Hd; auto). cbn [andb Nat.add Nat.mul].
      rewrite (skip_while_run_eq a_digit (c + List.length m + 1) (d :: ds) r); auto.
      + rewrite app_length. cbn. lia.
      + rewrite skipn_add, E1. reflexivity.
    - rewrite <- app_assoc in E. cbn in E.
      rewrite (skip_while_run_eq _ _ _ _ E F (exp_not_number _ _ He)). pose proof (skipn_prefix _ _ _ E) as E1. rewrite E1.
      destruct ds as [|d ds]; [congruence|]. inversion Fd as [|d' ds' Hd Fd']; subst.
      cbn [hd_error nth_error matches app]. rewrite He, Hs, Hd. cbn [andb].
      assert (a_digit sg = false) as -> by (byte_class Hs; auto). cbn [andb Nat.add Nat.mul].
      rewrite (skip_while_run_eq a_digit (c + List.length m + 2) (d :: ds) r); auto.
      + rewrite app_length. cbn. lia.
      + rewrite skipn_add, E1. reflexivity.
  Qed.

  Lemma string_length_list : forall l, String.length (string_of_list_ascii l) = List.length l.
  Proof. induction l; cbn; auto. Qed.

  Lemma sim_number : forall c s ts, at_tokens c (TNum s :: ts) -> ~ head_is a_blank (skipn c bs) ->
    sim c (parse_number cfg input c) (t_number s ts).
  Proof.
    intros c s ts H Hn. destruct (first_token _ _ _ H Hn) as [m [r [E [Hl [-> Hm]]]]]. pose proof H as H0. destruct H as [Hc _].
    unfold parse_number, t_number. chars. cbv zeta. rewrite (number_end c m r E Hm). rewrite (slice_run _ _ _ E).
    destruct (parse_f64 _) as [num|].
    - cbn. split; auto. split; [lia|]. split; [eapply skipn_len; eauto|]. now rewrite (skipn_prefix _ _ _ E).
    - unfold err_malformed_number.
      eapply sim_fail with (x := c) (y := c); [apply usub_val; rewrite string_length_list; lia|lia|now apply begins|now apply begins| |discriminate].
      cbn. f_equal. rewrite string_length_list. f_equal. lia.
  Qed.

  Section Open.
    Variable elem : nat -> nat -> pres element.
    Variable telem : nat -> list token -> tres element.
    Hypothesis Helem : forall p c ts, at_tokens c ts -> sim c (elem p c) (telem p ts).

    Lemma sim_loop : forall b p el c ts, at_tokens c ts ->
      sim c (binop_loop cfg input elem b p el c) (t_loop cfg telem b p el ts).
    Proof.
      induction b as [|b IH]; intros p el c ts H; cbn [binop_loop t_loop]; [exact I|].
      destruct (goi_tokens el p c ts H) as [c' [E [Hc H']]]. rewrite E.
      destruct (t_goi cfg el p ts) as [[[op k]|] ts']; cbn [fst snd] in *.
      - apply sim_weaken with c'; auto. apply sim_bind; [auto|]. intros a c2 ts2 Hc2 H2.
        eapply sim_weaken; [exact Hc2|]. auto.
      - cbn. auto.
    Qed.

    Lemma sim_argument : forall c ts, at_tokens c ts -> 1 <= c ->
      sim c (argument cfg input elem c) (t_argument telem ts).
    Proof.
      intros c ts H Hc. unfold argument, t_argument. pose proof (Helem NO_PRECEDENCE c ts H) as Hs.
      destruct (elem NO_PRECEDENCE c) as [a c'|e c'|p|], (telem NO_PRECEDENCE ts) as [a' ts'|k f u|q|]; cbn in Hs; try contradiction; auto.
      pose proof Hs as [Hc' [[Ek [_ [x [y [Hx [Hy Hsp]]]]]] Hk]]. rewrite Ek. destruct k; try exact Hs.
      unfold err_missing_argument. specialize (Hk _ eq_refl).
      eapply sim_fail with (x := c') (y := y); [apply usub_val; lia|lia|exact Hk|exact Hy|reflexivity|discriminate].
    Qed.

    Lemma sim_unexpected_end : forall A c0 c, c = len -> c0 <= c ->
      @sim A c0 (err_unexpected_end cfg input c) (TErr UnexpectedEndOfExpression [] []).
    Proof.
      intros A c0 c -> Hc. unfold err_unexpected_end.
      assert (Hb : tokens_begin input len []).
      { assert (E : skipn len bs = []) by apply skipn_all. apply begins; [split; [lia|]|]; rewrite E; [constructor|cbn; auto]. }
      eapply sim_fail with (x := len) (y := len); [apply usub_val; lia|lia|auto|auto| |discriminate].
      cbn. unfold len, bs, bytes. now rewrite list_ascii_length.
    Qed.

    Lemma sim_unexpected_token : forall A c0 c t ts, tokens_begin input c ts -> c0 <= c ->
      @sim A c0 (err_unexpected_token input t c) (TErr (UnexpectedToken t) ts ts).
    Proof.
      intros A c0 c t ts Hb Hc. unfold err_unexpected_token.
      eapply sim_fail with (x := c) (y := c); auto.
    Qed.

    Lemma sim_arguments : forall b args c ts, at_tokens c ts -> 1 <= c ->
      sim c (parse_arguments cfg input elem b args c) (t_arguments telem b args ts).
    Proof.
      induction b as [|b IH]; intros args c ts H Hc; cbn [parse_arguments t_arguments]; [exact I|].
      apply sim_bind; [now apply sim_argument|]. intros a c1 ts1 Hc1 H1.
      destruct (next_trim_tokens c1 ts1 H1) as [c2 [E [Hc2 [H2 [Hn [Hend _]]]]]]. rewrite E.
      destruct ts1 as [|t ts1].
      - apply sim_unexpected_end; [now apply Hend|lia].
      - pose proof (begins _ _ H2 Hn) as Hbg. pose proof (first_byte _ _ _ H2 Hn) as Hb. destruct t as [s|s|x].
        + assert (Ascii.eqb (token_byte (TNum s)) "," = false) as ->.
          { destruct (Ascii.eqb (token_byte (TNum s)) ",") eqn:Ex; auto. apply Ascii.eqb_eq in Ex. rewrite Ex in Hb. discriminate. }
          assert (Ascii.eqb (token_byte (TNum s)) ")" = false) as ->.
          { destruct (Ascii.eqb (token_byte (TNum s)) ")") eqn:Ex; auto. apply Ascii.eqb_eq in Ex. rewrite Ex in Hb. discriminate. }
          apply sim_unexpected_token; [exact Hbg|lia].
        + destruct Hb as [Hb _].
          assert (Ascii.eqb (token_byte (TId s)) "," = false) as ->.
          { destruct (Ascii.eqb (token_byte (TId s)) ",") eqn:Ex; auto. apply Ascii.eqb_eq in Ex. rewrite Ex in Hb. discriminate. }
          assert (Ascii.eqb (token_byte (TId s)) ")" = false) as ->.
          { destruct (Ascii.eqb (token_byte (TId s)) ")") eqn:Ex; auto. apply Ascii.eqb_eq in Ex. rewrite Ex in Hb. discriminate. }
          apply sim_unexpected_token; [exact Hbg|lia].
        + cbn [token_byte]. destruct (Ascii.eqb x ",").
          * apply sim_weaken with (S c2); [lia|]. apply IH; [eapply at_sym; eauto|lia].
          * destruct (Ascii.eqb x ")"); [cbn; repeat split; auto; try lia; apply H2|].
            apply sim_unexpected_token; [exact Hbg|lia].
    Qed.

    Lemma sim_arity : forall f args start x from upto ts c0, at_tokens (S x) ts -> c0 <= S x ->
      tokens_begin input start from -> tokens_begin input x upto ->
      sim c0 (check_arity input f args start (S x)) (t_arity f args from upto ts).
    Proof.
      intros f args start x from upto ts c0 H Hc Hf Hu. unfold check_arity, t_arity. destruct (fn_nb_args f) as [n|]; [|cbn; auto].
      destruct (Nat.compare (List.length args) n); [cbn; auto| |].
      - unfold err_too_few. eapply sim_fail; eauto; try reflexivity; try discriminate.
      - unfold err_too_many. eapply sim_fail; eauto; try reflexivity; try discriminate.
    Qed.

    Lemma sim_identifier : forall b c s ts, at_tokens c (TId s :: ts) -> ~ head_is a_blank (skipn c bs) ->
      sim c (parse_identifier cfg ctx input elem b c) (t_identifier ctx telem b s ts).
    Proof.
      intros b c s ts H Hn. destruct (first_token _ _ _ H Hn) as [m [r [E [Hl [-> Hm]]]]].
      pose proof (begins _ _ H Hn) as Hbg. destruct H as [Hc _].
      destruct Hm as [Hh [F N]]. unfold parse_identifier, t_identifier. chars. cbv zeta.
      rewrite (skip_while_run_eq _ _ _ _ E F N), (slice_run _ _ _ E).
      assert (H1 : at_tokens (c + List.length m) ts).
      { split; [eapply skipn_len; eauto|]. now rewrite (skipn_prefix _ _ _ E). }
      destruct (resolve ctx (string_of_list_ascii m)) as [f|v|x].
      - destruct (consume_tokens "(" _ _ H1 eq_refl eq_refl) as [c1 [E1 [Hc1 [H2 Hx1]]]]. rewrite E1.
        destruct (t_consume "(" ts) as [[] r1] eqn:Et; cbn [fst snd] in *.
        + assert (1 <= c1).
          { destruct m; [contradiction|]. cbn in Hc1. lia. }
          apply sim_weaken with c1; [lia|]. apply sim_bind; [apply sim_arguments; auto|].
          intros args c2 ts2 Hc2 H3. apply sim_weaken with c2; [lia|].
          destruct (consume_tokens ")" _ _ H3 eq_refl eq_refl) as [c3 [E3 [Hc3 [H4 Hx3]]]].
          unfold assert_eq_consume, t_assert. rewrite E3. destruct (t_consume ")" ts2) as [[] r3]; cbn [fst snd pbind tbind] in *.
          * destruct Hx3 as [x [-> [Hx Hx3]]]. apply sim_arity; auto.
          * apply (sim_fail element c2 (ExpectedToken ")") (Val (N.of_nat c3)) 0%N c3 (N.of_nat c3) ts2 ts2 c3 c3); auto.
        + unfold err_expected_token. eapply sim_fail; eauto; try reflexivity; try discriminate; lia.
      - cbn. split; auto. split; [lia|auto].
      - cbn. split; auto. split; [lia|auto].
    Qed.

    Lemma sim_atom : forall b c ts, at_tokens c ts ->
      sim c (atom cfg ctx input elem b c) (t_atom ctx telem b ts).
    Proof.
      intros b c ts H. destruct (next_trim_tokens c ts H) as [c0 [E [Hc0 [H0 [Hn [Hend _]]]]]].
      unfold atom. chars. rewrite E. destruct ts as [|t ts].
      - apply sim_unexpected_end; [now apply Hend|lia].
      - pose proof (begins _ _ H0 Hn) as Hbg. pose proof (first_byte _ _ _ H0 Hn) as Hb. apply sim_weaken with c0; auto. destruct t as [s|s|x].
        + rewrite Hb. apply sim_number; auto.
        + destruct Hb as [Ha Hb]. rewrite Hb, Ha. apply sim_identifier; auto.
        + cbn [token_byte]. destruct Hb as [Hb Ha]. rewrite Hb, Ha. cbn [t_atom].
          pose proof (at_sym _ _ _ H0 Hn) as H1.
          destruct (Ascii.eqb x "+").
          { apply sim_weaken with (S c0); [lia|]. apply sim_bind; [auto|]. intros a c1 ts1 Hc1 H2. cbn. auto. }
          destruct (Ascii.eqb x "-").
          { apply sim_weaken with (S c0); [lia|]. apply sim_bind; [auto|]. intros a c1 ts1 Hc1 H2. cbn. auto. }
          destruct (Ascii.eqb x "(").
          { apply sim_weaken with (S c0); [lia|]. apply sim_bind; [auto|]. intros a c1 ts1 Hc1 H2.
            apply sim_weaken with c1; auto. apply sim_bind; [apply sim_assert; auto|].
            intros _ c2 ts2 Hc2 H3. cbn. auto. }
          destruct (Ascii.eqb x ")"); [now apply sim_unexpected_token|].
          unfold err_illegal_character. eapply sim_fail; eauto; try reflexivity; try discriminate.
    Qed.
  End Open.

  Lemma sim_element : forall b p c ts, at_tokens c ts ->
    sim c (element_at cfg w ctx input b p c) (t_element cfg w ctx b p ts).
  Proof.
    induction b as [|b IH]; intros p c ts H; cbn [element_at t_element]; [exact I|].
    apply sim_bind; [apply sim_atom; auto|]. intros el c1 ts1 Hc1 H1.
    destruct (consume_tokens "!" _ _ H1 eq_refl eq_refl) as [c2 [E [Hc2 [H2 _]]]]. rewrite E.
    destruct (t_consume "!" ts1) as [bang r2]; cbn [fst snd] in *.
    apply sim_weaken with c2; [lia|]. apply sim_bind; [apply sim_loop; auto|].
    intros el' c3 ts3 Hc3 H3. unfold plift, t_lift. destruct (finish_element cfg w el'); cbn; auto.
  Qed.

  (** the whole parser *)
  Theorem sim_parse : forall ts, tokens_of input ts ->
    match parse_impl cfg w ctx input, t_parse cfg w ctx (parse_budget input) ts with
    | POk (r, vs) _, TOk r' _ => r = r' /\ vs = find_variables r []
    | PErr e _, TErr k f u => error_matches input e k f u
    | PPanic p, TPanic q => p = q
    | PFuel, TFuel => True
    | _, _ => False
    end.
  Proof.
    intros ts Hts. assert (H : at_tokens 0 ts) by (split; [lia|exact Hts]).
    pose proof (sim_element (parse_budget input) NO_PRECEDENCE 0 ts H) as Hs. unfold parse_impl, t_parse.
    destruct (element_at _ _ _ _ _ _ _) as [a c|e c|p|], (t_element _ _ _ _ _ _) as [a' ts'|k f u|q|];
      cbn in Hs; try contradiction; cbn [pbind tbind]; try tauto.
    destruct Hs as [<- [_ H1]]. destruct (next_trim_tokens c ts' H1) as [c2 [E [Hc2 [H2 [Hn [Hend _]]]]]]. rewrite E.
    destruct ts' as [|t ts']; cbn; auto.
    split; [reflexivity|]. split; [reflexivity|]. exists c2, c2. split; [now apply begins|]. split; [now apply begins|reflexivity].
  Qed.
End Sim.
