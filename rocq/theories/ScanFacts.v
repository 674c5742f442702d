(** * The parser computes the verdict of the automaton *)
From Coq Require Import ZArith NArith List String Ascii Bool Lia.
From Verif Require Import F64 Syntax Factorial Builtins Context Element Parser.
From Verif Require Import SpecChars SpecTokens SpecTree SpecGrammar SpecScan TokenFacts TokenParser GrammarFacts.
Import ListNotations.
Local Open Scope nat_scope.

Lemma operator_is_operator : forall c, is_operator c = match operator_of_byte c with Some _ => true | None => false end.
Proof.
  assert (H : forall c, Bool.eqb (is_operator c) (match operator_of_byte c with Some _ => true | None => false end) = true).
  { apply byte_cases. vm_compute. reflexivity. }
  intro c. apply Bool.eqb_prop. apply H.
Qed.

Definition relabel (stack : list frame) (k : error_kind) : error_kind :=
  match k with
  | UnexpectedToken _ => if within_call stack then MissingArgument else k
  | _ => k
  end.

Definition bang_first (ts : list token) : bool :=
  match ts with TSym c :: _ => Ascii.eqb c "!" | _ => false end.

(** nothing continues the operand [el] *)
Definition stopped (el : element) (ts : list token) : Prop :=
  match ts with
  | [] => True
  | t :: _ => match t with TSym c => is_operator c = false | _ => True end /\ multiplies (bare_number el) t = false
  end.

Section Scan.
  Variable cfg : config.
  Variable w : world.
  Variable ctx : context.
  Hypothesis Hopt : optimize cfg = false.

  Notation sc := (scan ctx).

  Lemma have_postfix : forall bare stack ts, bang_first ts = false ->
    sc (Have bare true) stack ts = sc (Have bare false) stack ts.
  Proof.
    intros bare stack [|[s|s|c] r] H; try reflexivity. cbn in H. cbn [scan read_token].
    rewrite H. reflexivity.
  Qed.

  Lemma have_operator : forall bare stack c r, is_operator c = true ->
    sc (Have bare false) stack (TSym c :: r) = sc (Need false) stack r.
  Proof. intros bare stack c r H. cbn [scan read_token]. rewrite andb_false_r, H. reflexivity. Qed.

  Lemma have_multiplies : forall bare stack t r, match t with TSym c => is_operator c = false | _ => True end ->
    multiplies bare t = true -> sc (Have bare false) stack (t :: r) = sc (Need false) stack (t :: r).
  Proof.
    intros bare stack [s|s|c] r Ho Hm; cbn [scan read_token].
    - now rewrite Hm.
    - now rewrite Hm.
    - rewrite andb_false_r, Ho, Hm. reflexivity.
  Qed.

  Lemma have_close : forall el stack t r, stopped el (t :: r) ->
    sc (Have (bare_number el) false) stack (t :: r) =
    match read_close (bare_number el) stack t (t :: r) with
    | inl (m', stack') => sc m' stack' r
    | inr v => v
    end.
  Proof.
    intros el stack [s|s|c] r [Ho Hm]; cbn [scan read_token].
    - now rewrite Hm.
    - now rewrite Hm.
    - rewrite andb_false_r, Ho, Hm. reflexivity.
  Qed.

  Lemma bang_spec : forall r, t_consume "!" r = match r with TSym c :: r' => if Ascii.eqb c "!" then (true, r') else (false, r) | _ => (false, r) end.
  Proof. intros [|[s|s|c] r]; reflexivity. Qed.

  Section Open.
    Variable elem : nat -> list token -> tres element.
    Hypothesis He : forall p ts first stack,
      match elem p ts with
      | TOk el rest => sc (Need first) stack ts = sc (Have (first && bare_number el) false) stack rest /\
          (p < 5 -> bang_first rest = false) /\ (p = 0 -> stopped el rest)
      | TErr k f u => sc (Need first) stack ts = Rejects (relabel stack k) f u
      | TPanic _ => False
      | TFuel => True
      end.

    Lemma goi_none : forall el p ts ts', t_goi cfg el p ts = (None, ts') -> ts' = ts /\
      (p < 5 -> bang_first ts = false) /\ (p = 0 -> stopped el ts).
    Proof.
      intros el p [|t r] ts' H; cbn [t_goi] in H; [injection H as <-; cbn; auto|].
      destruct (match t with TSym c => operator_of_byte c | _ => None end) as [op|] eqn:Eo.
      - destruct (get_for_op op <=? p) eqn:El; [|discriminate H]. injection H as <-. split; auto.
        apply Nat.leb_le in El. split.
        + intro Hp. destruct t as [s|s|c]; auto. cbn. destruct (Ascii.eqb c "!") eqn:Ec; auto.
          apply Ascii.eqb_eq in Ec. subst c. injection Eo as <-. cbn in El. lia.
        + intros ->. destruct op; cbn in El; lia.
      - assert (Ho : match t with TSym c => is_operator c = false | _ => True end).
        { destruct t; auto. now rewrite operator_is_operator, Eo. }
        assert (Hb : bang_first (t :: r) = false).
        { destruct t as [s|s|c]; auto. cbn. destruct (Ascii.eqb c "!") eqn:Ec; auto.
          apply Ascii.eqb_eq in Ec. subst c. discriminate Eo. }
        destruct (implicit_precedence cfg <=? p) eqn:El.
        + injection H as <-. split; auto. split; auto. intros ->. unfold implicit_precedence in El.
          destruct (pejmdas cfg); cbn in El; discriminate El.
        + destruct (juxtaposable (is_number_node el) t) eqn:Ej; [discriminate H|]. injection H as <-.
          split; auto. split; auto. intros _. split; auto.
    Qed.

    Lemma goi_some : forall el p ts op k ts' first stack, t_goi cfg el p ts = (Some (op, k), ts') ->
      sc (Have (first && bare_number el) false) stack ts = sc (Need false) stack ts'.
    Proof.
      intros el p [|t r] op k ts' first stack H; cbn [t_goi] in H; [discriminate H|].
      destruct (match t with TSym c => operator_of_byte c | _ => None end) as [op'|] eqn:Eo.
      - destruct (get_for_op op' <=? p); [discriminate H|]. injection H as <- <- <-. destruct t as [s|s|c]; try discriminate Eo.
        apply have_operator. now rewrite operator_is_operator, Eo.
      - destruct (implicit_precedence cfg <=? p); [discriminate H|].
        destruct (juxtaposable (is_number_node el) t) eqn:Ej; [|discriminate H]. injection H as <- <- <-.
        apply have_multiplies.
        + destruct t; auto. now rewrite operator_is_operator, Eo.
        + destruct t as [s|s|c]; auto. cbn in *. apply andb_true_iff in Ej. destruct Ej as [-> Ej].
          unfold is_number_node in Ej. destruct (bare_number el); [discriminate Ej|]. now rewrite andb_false_r.
    Qed.

    Lemma scan_loop : forall b p el ts first stack,
      match t_loop cfg elem b p el ts with
      | TOk el' rest => sc (Have (first && bare_number el) false) stack ts = sc (Have (first && bare_number el') false) stack rest /\
          (p < 5 -> bang_first rest = false) /\ (p = 0 -> stopped el' rest)
      | TErr k f u => sc (Have (first && bare_number el) false) stack ts = Rejects (relabel stack k) f u
      | TPanic _ => False
      | TFuel => True
      end.
    Proof.
      induction b as [|b IH]; intros p el ts first stack; cbn [t_loop]; [exact I|].
      destruct (t_goi cfg el p ts) as [[[op k]|] ts'] eqn:E.
      - rewrite (goi_some _ _ _ _ _ _ first stack E). pose proof (He k ts' false stack) as H1.
        destruct (elem k ts') as [rhs r|k1 f1 u1|q|]; cbn [tbind]; auto.
        destruct H1 as [-> _]. specialize (IH p (BinOp op el rhs) r first stack). cbn [bare_number] in IH.
        rewrite andb_false_r in IH. exact IH.
      - apply goi_none in E. destruct E as [-> E]. auto.
    Qed.

    Lemma scan_arguments : forall b acc ts f from stack,
      match t_arguments elem b acc ts with
      | TOk l rest => exists n bare r, List.length l = S n /\ rest = TSym ")" :: r /\
          sc (Need true) (Arguments_of f (List.length acc) from :: stack) ts =
          sc (Have bare false) (Arguments_of f n from :: stack) rest
      | TErr k g u => sc (Need true) (Arguments_of f (List.length acc) from :: stack) ts = Rejects (relabel stack k) g u
      | TPanic _ => False
      | TFuel => True
      end.
    Proof.
      induction b as [|b IH]; intros acc ts f from stack; cbn [t_arguments]; [exact I|]. unfold t_argument.
      pose proof (He NO_PRECEDENCE ts true (Arguments_of f (List.length acc) from :: stack)) as H1.
      destruct (elem NO_PRECEDENCE ts) as [arg r|k g u|q|]; cbn [tbind]; auto.
      2:{ destruct k; exact H1. }
      destruct H1 as [-> [_ Hs]]. specialize (Hs eq_refl). cbn [andb].
      destruct r as [|t r]; [reflexivity|]. rewrite (have_close _ _ _ _ Hs). cbn [read_close].
      destruct t as [s|s|c]; [reflexivity|reflexivity|].
      destruct (Ascii.eqb c ",") eqn:Ec; [apply Ascii.eqb_eq in Ec; subst c|].
      - specialize (IH (acc ++ [arg])%list r f from stack). rewrite app_length, Nat.add_1_r in IH. exact IH.
      - destruct (Ascii.eqb c ")") eqn:Ep; [apply Ascii.eqb_eq in Ep; subst c|].
        + exists (List.length acc), (bare_number arg), r. rewrite app_length, Nat.add_1_r. auto.
        + assert (E : match c with ","%char => inl (Need true, Arguments_of f (S (List.length acc)) from :: stack)
             | ")"%char => (match fn_nb_args f with
                | None => inl (Have false true, stack)
                | Some m => match Nat.compare (S (List.length acc)) m with
                  | Eq => inl (Have false true, stack)
                  | Lt => inr (Rejects (TooFewArguments m (S (List.length acc))) from (TSym c :: r))
                  | Gt => inr (Rejects (TooManyArguments m (S (List.length acc))) from (TSym c :: r)) end end)
             | _ => inr (misfit stack (TSym c :: r)) end = inr (misfit stack (TSym c :: r)))
            by (destruct c as [[] [] [] [] [] [] [] []]; try reflexivity; discriminate).
          rewrite E. reflexivity.
    Qed.

    Lemma scan_atom : forall b ts first stack,
      match t_atom ctx elem b ts with
      | TOk el rest => sc (Need first) stack ts = sc (Have (first && bare_number el) true) stack rest
      | TErr k f u => sc (Need first) stack ts = Rejects (relabel stack k) f u
      | TPanic _ => False
      | TFuel => True
      end.
    Proof.
      intros b [|t r] first stack; [reflexivity|]. destruct t as [s|s|c]; cbn [t_atom scan read_token read_operand].
      - unfold t_number. fold (literal_value s). destruct (literal_value s); [|reflexivity]. cbn. now rewrite andb_true_r.
      - unfold t_identifier. rewrite resolve_stands. destruct (stands_for ctx s) as [f|v|x].
        2:{ cbn. now rewrite andb_true_r. } 2:{ cbn. now rewrite andb_false_r. }
        destruct (t_consume "(" r) as [[] r1] eqn:Ec.
        + assert (Er : r = TSym "(" :: r1).
          { destruct r as [|[s'|s'|c] r]; try discriminate Ec. cbn in Ec. destruct (Ascii.eqb c "(") eqn:E; [|discriminate Ec].
            apply Ascii.eqb_eq in E. injection Ec as <-. now subst c. }
          subst r. cbn [scan read_token].
          pose proof (scan_arguments b [] r1 f (TId s :: TSym "(" :: r1) stack) as Ha. cbn [List.length] in Ha.
          destruct (t_arguments elem b [] r1) as [l rest|k g u|q|]; cbn [tbind]; auto.
          destruct Ha as [n [bare [r2 [Hl [-> ->]]]]]. unfold t_assert, t_consume. cbn [Ascii.eqb Bool.eqb tbind].
          unfold t_arity. rewrite Hl. cbn [scan read_token read_close andb].
          destruct (fn_nb_args f) as [m|]; [|cbn; now rewrite andb_false_r].
          change (Ascii.eqb ")" "!" && false)%bool with false. cbn [is_operator existsb Ascii.eqb Bool.eqb multiplies].
          destruct (Nat.compare (S n) m); cbn [bare_number]; try rewrite andb_false_r; reflexivity.
        + destruct r as [|t r]; [reflexivity|]. destruct t as [s'|s'|c]; try reflexivity. cbn in Ec.
          destruct (Ascii.eqb c "(") eqn:E; [discriminate Ec|]. cbn [scan read_token].
          assert (E' : match c with "("%char => inl (Need true, Arguments_of f 0 (TId s :: TSym c :: r) :: stack)
                       | _ => inr (Rejects (ExpectedToken "(") (TSym c :: r) (TSym c :: r)) end
                       = inr (Rejects (ExpectedToken "(") (TSym c :: r) (TSym c :: r)))
            by (destruct c as [[] [] [] [] [] [] [] []]; try reflexivity; discriminate).
          rewrite E'. reflexivity.
      - destruct (Ascii.eqb c "+") eqn:E1.
        { pose proof (He UNOP_PRECEDENCE r false stack) as H1. cbn [orb].
          destruct (elem UNOP_PRECEDENCE r) as [e r1|k f u|q|]; cbn [tbind]; auto.
          destruct H1 as [-> [Hb _]]. cbn [bare_number]. rewrite andb_false_r. symmetry. apply have_postfix. apply Hb. cbv. lia. }
        destruct (Ascii.eqb c "-") eqn:E2.
        { pose proof (He UNOP_PRECEDENCE r false stack) as H1. cbn [orb].
          destruct (elem UNOP_PRECEDENCE r) as [e r1|k f u|q|]; cbn [tbind]; auto.
          destruct H1 as [-> [Hb _]]. cbn [bare_number]. rewrite andb_false_r. symmetry. apply have_postfix. apply Hb. cbv. lia. }
        cbn [orb]. destruct (Ascii.eqb c "(") eqn:E3.
        { pose proof (He NO_PRECEDENCE r true (Group first :: stack)) as H1.
          destruct (elem NO_PRECEDENCE r) as [e r1|k f u|q|]; cbn [tbind]; auto.
          destruct H1 as [-> [_ Hs]]. specialize (Hs eq_refl). cbn [andb]. unfold t_assert.
          destruct r1 as [|t r1]; [reflexivity|]. rewrite (have_close _ _ _ _ Hs). cbn [read_close].
          destruct t as [s|s|x]; [reflexivity|reflexivity|]. cbn [t_consume].
          destruct (Ascii.eqb x ")") eqn:Ex; [apply Ascii.eqb_eq in Ex; subst x; reflexivity|]. cbn [tbind].
          assert (E' : match x with ")"%char => inl (Have (first && bare_number e) true, stack)
                       | _ => inr (Rejects (ExpectedToken ")") (TSym x :: r1) (TSym x :: r1)) end
                       = inr (Rejects (ExpectedToken ")") (TSym x :: r1) (TSym x :: r1)))
            by (destruct x as [[] [] [] [] [] [] [] []]; try reflexivity; discriminate).
          rewrite E'. reflexivity. }
        destruct (Ascii.eqb c ")") eqn:E4; [|reflexivity]. apply Ascii.eqb_eq in E4. subst c. reflexivity.
    Qed.
  End Open.

  Lemma scan_element : forall b p ts first stack,
    match t_element cfg w ctx b p ts with
    | TOk el rest => sc (Need first) stack ts = sc (Have (first && bare_number el) false) stack rest /\
        (p < 5 -> bang_first rest = false) /\ (p = 0 -> stopped el rest)
    | TErr k f u => sc (Need first) stack ts = Rejects (relabel stack k) f u
    | TPanic _ => False
    | TFuel => True
    end.
  Proof.
    induction b as [|b IH]; intros p ts first stack; cbn [t_element]; [exact I|].
    pose proof (scan_atom _ IH b ts first stack) as Ha.
    destruct (t_atom ctx (t_element cfg w ctx b) b ts) as [el r|k f u|q|]; cbn [tbind]; auto. rewrite Ha.
    destruct (t_consume "!" r) as [bang r2] eqn:Ec.
    assert (E : sc (Have (first && bare_number el) true) stack r =
                sc (Have (first && bare_number (if bang then UnOp Factorial el else el)) false) stack r2).
    { rewrite bang_spec in Ec. destruct r as [|[s|s|c] r]; try (injection Ec as <- <-; reflexivity).
      destruct (Ascii.eqb c "!") eqn:Eb.
      - apply Ascii.eqb_eq in Eb. subst c. injection Ec as <- <-. cbn [bare_number]. rewrite andb_false_r. reflexivity.
      - injection Ec as <- <-. apply have_postfix. exact Eb. }
    rewrite E. pose proof (scan_loop _ IH b p (if bang then UnOp Factorial el else el) r2 first stack) as Hl.
    destruct (t_loop _ _ _ _ _ _) as [el' r3|k f u|q|]; cbn [tbind]; auto.
    unfold t_lift, finish_element. rewrite Hopt. exact Hl.
  Qed.

  Theorem scan_parse : forall b ts,
    match t_parse cfg w ctx b ts with
    | TOk _ _ => verdict_of ctx ts = Accepts
    | TErr k f u => verdict_of ctx ts = Rejects k f u
    | TPanic _ => False
    | TFuel => True
    end.
  Proof.
    intros b ts. pose proof (scan_element b NO_PRECEDENCE ts true []) as H. unfold t_parse, verdict_of.
    destruct (t_element cfg w ctx b NO_PRECEDENCE ts) as [el rest|k f u|q|]; cbn [tbind]; auto.
    - destruct H as [-> [_ Hs]]. specialize (Hs eq_refl). cbn [andb]. destruct rest as [|t r]; [reflexivity|].
      rewrite (have_close _ _ _ _ Hs). reflexivity.
    - rewrite H. destruct k; reflexivity.
  Qed.
End Scan.
