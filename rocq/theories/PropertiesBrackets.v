(** * C87: which brackets can be left out *)
From Coq Require Import ZArith NArith List String Ascii Bool Lia.
From Flocq Require Import BinarySingleNaN.
From Verif Require Import SpecChars CharFacts.
From Verif Require Import F64 Syntax Factorial Builtins Context Element Parser Xprs Display.
From Verif Require Import ParserFacts SpecParse ParserInv SpecTree TreeFacts SpecApi ParserResults SpecTokens SpecGrammar SpecNumber SpecNames SpecDisplay SpecBrackets.
From Verif Require Import SimplifyFacts SpecRegular SpecScan SpecRewrite OptFacts FlatFacts ScanFacts ScanPrefix.
From Verif Require Import FloatFacts NumberFacts DisplayFacts TokenFacts LexFacts LexExec TokenParser TokenSim TokenMono GrammarFacts GrammarEquiv JuxtaFacts RegularFacts.
From Verif Require Import TestWorld PropertiesParse PropertiesGrammar PropertiesNames PropertiesEval PropertiesSimplify PropertiesEq PropertiesOptimise PropertiesScan PropertiesDisplay PropertiesNormal PropertiesDefault.
Import ListNotations.
Local Open Scope string_scope.

(** ** tokens *)
Definition in_brackets (b : bool) (ts : list token) : list token :=
  if b then (TSym "(" :: ts ++ [TSym ")"])%list else ts.

Fixpoint written (e : element) : list token :=
  match e with
  | Number n => [TNum (display_f64 n)]
  | Var x => [TId x]
  | BinOp op l r => in_brackets (bracket_left op l) (written l) ++ TSym (op_byte op) :: in_brackets (bracket_right op r) (written r)
  | UnOp Factorial a => in_brackets (negb (atomic a)) (written a) ++ [TSym "!"]
  | UnOp op a => TSym (op_byte op) :: in_brackets (bracket_sign a) (written a)
  | Call f args => TId (fn_name f) :: TSym "(" :: with_commas (map written args) ++ [TSym ")"]
  end%list.

Lemma bracket_tokens : forall b text ts, tokens_of text ts -> tokens_of (bracket b text) (in_brackets b ts).
Proof. intros [] text ts H; [|exact H]. now apply tokens_parens. Qed.

Lemma lean_tokens : forall ctx e, writable ctx e -> tokens_of (lean e) (written e).
Proof.
  intro ctx. induction e as [n|op l r IHl IHr|op a IH|f args IH|x0] using element_ind'; intro H; inversion H; subst; cbn [lean written].
  - apply unsigned_tokens. now split.
  - specialize (IHl ltac:(assumption)). specialize (IHr ltac:(assumption)). unfold tokens_of. rewrite !list_ascii_app.
    apply lexes_space; [now apply bracket_tokens| |reflexivity]. rewrite op_byte_shown.
    cbn [list_ascii_of_string app]. apply sym_check; [destruct op; reflexivity|]. apply L_ws; [reflexivity|]. now apply bracket_tokens.
  - specialize (IH ltac:(assumption)).
    assert (S : forall b, op = Plus \/ op = Minus -> tokens_of (display_operator op ++ bracket b (lean a)) (TSym (op_byte op) :: in_brackets b (written a))).
    { intros b K. unfold tokens_of. rewrite list_ascii_app, op_byte_shown. cbn [list_ascii_of_string app].
      apply sym_check; [destruct K as [-> | ->]; reflexivity|]. now apply bracket_tokens. }
    match goal with Ho : op = Plus \/ _ |- _ => destruct Ho as [-> |[-> | ->]] end; [apply S; auto|apply S; auto|].
    unfold tokens_of. rewrite list_ascii_app. apply lexes_glue; [now apply bracket_tokens|apply separates_check; reflexivity|].
    apply sym_check; [reflexivity|apply L_end].
  - apply call_tokens; [assumption|]. apply joined_tokens. clear H.
    match goal with Hall : Forall (writable ctx) args |- _ => rename Hall into Hf end.
    clear - IH Hf. induction args as [|a args IHa]; cbn [map]; constructor.
    + inversion IH; inversion Hf; subst. auto.
    + apply IHa; [now inversion IH|now inversion Hf].
  - now apply name_tokens.
Qed.

(** ** the lean text is derived *)
(** the strongest operator that may follow [e] and apply to all of it *)
Fixpoint hold (e : element) : nat :=
  match e with
  | UnOp Factorial _ => 5
  | UnOp _ _ => 3
  | BinOp op _ r => Nat.min (strength op) (if bracket_right op r then 4 else hold r)
  | _ => 4
  end.

Definition top (e : element) : nat := match e with BinOp op _ _ => strength op | _ => 5 end.

Lemma hold_low : forall e, hold e <= 2 -> exists op l r, e = BinOp op l r.
Proof. destruct e as [n|op l r|op a|f args|x]; cbn; try lia; [eauto|]. destruct op; lia. Qed.

Lemma hold_bin : forall op l r, op <> Factorial -> op <> Power -> hold (BinOp op l r) = strength op.
Proof.
  intros op l r H1 H2. cbn [hold]. destruct (bracket_right op r) eqn:E; [destruct op; cbn; try lia; congruence|].
  apply Nat.min_l. destruct (Nat.le_gt_cases (strength op) (hold r)) as [K|K]; auto. exfalso.
  assert (S : strength op <= 2) by (destruct op; cbn; try lia; congruence).
  revert op H1 H2 E K S. induction r as [n|op' l' r' IHl IHr|op' a IH|f args IH|x0] using element_ind'; intros op H1 H2 E K S; cbn in K; try lia.
  - cbn in E. apply Nat.leb_gt in E. destruct (bracket_right op' r') eqn:E'.
    + destruct op'; cbn in K, E; try lia.
    + assert (hold r' < strength op) by lia. assert (L : hold r' <= 2) by lia. destruct (hold_low _ L) as [o2 [a [b ->]]].
      cbn in E'. apply Nat.leb_gt in E'. apply (IHr op); auto. cbn. apply Nat.leb_gt. lia.
  - destruct op'; cbn in K; lia.
Qed.

Lemma hold_power : forall ctx l r, writable ctx r -> hold (BinOp Power l r) = if sign r then 3 else 4.
Proof.
  intros ctx l r H. cbn [hold strength]. destruct r as [n|op' l' r'|op' a|f args|x0]; cbn; try reflexivity; inversion H; subst.
  - destruct op'; try reflexivity. congruence.
  - match goal with Hx : _ \/ _ |- _ => destruct Hx as [-> |[-> | ->]] end; reflexivity.
Qed.

Lemma bracket_left_hold : forall ctx op l, op <> Factorial -> writable ctx l -> bracket_left op l = Nat.ltb (hold l) (strength op).
Proof.
  intros ctx op l Ho H. destruct l as [n|op' a b|op' a|f args|x0].
  - unfold bracket_left. destruct op; try reflexivity; congruence.
  - inversion H; subst. unfold bracket_left.
    destruct op'; try congruence; try (rewrite hold_bin by discriminate; destruct op; try reflexivity; congruence).
    rewrite (hold_power ctx) by assumption. destruct (sign b); destruct op; try reflexivity; congruence.
  - inversion H; subst. unfold bracket_left. destruct op'; destruct op; try reflexivity; try congruence.
    all: match goal with Hx : _ \/ _ |- _ => destruct Hx as [Hx|[Hx|Hx]]; discriminate Hx end.
  - unfold bracket_left. destruct op; try reflexivity; congruence.
  - unfold bracket_left. destruct op; try reflexivity; congruence.
Qed.

Section Derive.
  Variable pj : bool.
  Variable ctx : context.
  Variable quirks : bool.
  Notation Chain := (chain pj ctx quirks).

  Definition reads (e : element) : Prop :=
    (forall p, p < top e -> exists n, Chain p (written e) e (hold e) n) /\
    (atomic e = true -> primary pj ctx quirks (written e) e).

  Lemma reads_in : forall e, reads e -> primary pj ctx quirks (TSym "(" :: written e ++ [TSym ")"]) e.
  Proof.
    intros e [H _]. destruct (H 0) as [n Hn]; [destruct e as [| op | | |]; cbn; try lia; destruct op; cbn; lia|].
    eapply R_paren. exact Hn.
  Qed.

  Lemma reads_right : forall op e, reads e -> strength op <= 4 ->
    exists n, Chain (strength op) (in_brackets (bracket_right op e) (written e)) e (if bracket_right op e then 4 else hold e) n.
  Proof.
    intros op e H Ho. destruct (bracket_right op e) eqn:E.
    - eexists. apply C_operand, O_plain, reads_in, H.
    - apply H. destruct e as [n|op' a b|op' a|f args|x0]; cbn [top]; cbn in E; try lia. apply Nat.leb_gt in E. lia.
  Qed.

  Lemma writable_reads : forall e, writable ctx e -> reads e.
  Proof.
    induction e as [n|op l r IHl IHr|op a IH|f args IH|x0] using element_ind'; intro H; inversion H; subst.
    - assert (P : primary pj ctx quirks (written (Number n)) (Number n)) by (apply R_number, display_reads; now split).
      split; [|auto]. intros p _. eexists. apply C_operand, O_plain, P.
    - specialize (IHl ltac:(assumption)). specialize (IHr ltac:(assumption)). split; [|discriminate].
      intros p Hp. cbn [top] in Hp. cbn [written hold].
      assert (So : strength op <= 4) by (destruct op; cbn; try lia; congruence).
      destruct (reads_right op r IHr So) as [nr Hr].
      assert (L : exists q nl, Chain p (in_brackets (bracket_left op l) (written l)) l q nl /\ strength op <= q).
      { destruct (bracket_left op l) eqn:E.
        - exists 4. eexists. split; [apply C_operand, O_plain, reads_in, IHl|exact So].
        - rewrite (bracket_left_hold ctx) in E by assumption. apply Nat.ltb_ge in E. destruct (proj1 IHl p) as [nl Hl].
          + destruct l as [n|op' a b|op' a|f args|x0]; cbn [top]; try lia. cbn [hold] in E. lia.
          + exists (hold l), nl. auto. }
      destruct L as [q [nl [Hl Hq]]]. eexists.
      eapply (C_operator pj ctx quirks p _ l q nl (TSym (op_byte op)) op _ r _ nr); eauto using op_byte_token.
    - specialize (IH ltac:(assumption)).
      assert (S : forall c, sign_op c op -> forall p, exists n, Chain p (TSym c :: in_brackets (bracket_sign a) (written a)) (UnOp op a) 3 n).
      { intros c Hc p.
        assert (A : exists q n, Chain 3 (in_brackets (bracket_sign a) (written a)) a q n).
        { destruct (bracket_sign a) eqn:E.
          - do 2 eexists. apply C_operand, O_plain, reads_in, IH.
          - destruct (proj1 IH 3) as [n Hn]; [|eauto].
            destruct a as [n|op' a b|op' a|f args|x0]; cbn [top]; try lia. destruct op'; try discriminate E. cbn; lia. }
        destruct A as [q [n A]]. eexists. apply C_operand. eapply O_sign; eauto. }
      match goal with Ho : op = Plus \/ _ |- _ => destruct Ho as [-> |[-> | ->]] end.
      + split; [|discriminate]. intros p _. cbn [written hold]. apply S. left; auto.
      + split; [|discriminate]. intros p _. cbn [written hold]. apply S. right; auto.
      + split; [|discriminate]. intros p _. cbn [written hold]. eexists. apply C_operand, O_bang.
        destruct (atomic a) eqn:E; cbn [negb in_brackets]; [now apply IH|apply reads_in, IH].
    - assert (P : primary pj ctx quirks (written (Call f args)) (Call f args)).
      { cbn [written]. apply R_call; auto.
        match goal with Hw : Forall (writable ctx) args, Hn : args <> [] |- _ =>
          assert (Hr : Forall reads args) by (clear - IH Hw; induction Hw; constructor; inversion IH; auto); revert Hn; clear - Hr end.
        induction Hr as [|a args [Ha _] Hargs IH]; [congruence|]. intros _.
        destruct (Ha 0) as [n Hn]; [destruct a as [| op | | |]; cbn; try lia; destruct op; cbn; lia|].
        destruct args as [|b args]; [eapply G_last; exact Hn|].
        change (with_commas (map written (a :: b :: args))) with (written a ++ TSym "," :: with_commas (map written (b :: args)))%list.
        eapply G_more; [exact Hn|]. apply IH. discriminate. }
      split; [|auto]. intros p _. eexists. apply C_operand, O_plain, P.
    - assert (P : primary pj ctx quirks (written (Var x0)) (Var x0)) by now apply R_variable.
      split; [|auto]. intros p _. eexists. apply C_operand, O_plain, P.
  Qed.
End Derive.

Lemma written_nonempty : forall e, written e <> [].
Proof.
  destruct e as [n|op l r|op a|f args|x]; cbn; try discriminate.
  - intro K. apply (f_equal (@List.length token)) in K. rewrite app_length in K. cbn in K. lia.
  - destruct op; try discriminate. intro K. apply (f_equal (@List.length token)) in K. rewrite app_length in K. cbn in K. lia.
Qed.

(** The lean text is read as the expression, in both precedence modes. *)
Theorem C87_lean_text_is_read_back : forall cfg w ctx e,
  optimize cfg = false -> fair_order w -> writable ctx e -> declared ctx e ->
  exists y, parse cfg w ctx (lean e) = Parse_ok y /\ root y = e.
Proof.
  intros cfg w ctx e Ho Hf Hw Hd. pose proof (lean_tokens ctx e Hw) as Hts.
  apply (C04_accepted_exactly cfg w ctx (lean e) (written e) e Ho Hf); [apply (tokens_nonempty _ _ Hts), written_nonempty|exact Hts|].
  split; [|exact Hd]. destruct (proj1 (writable_reads (pejmdas cfg) ctx true e Hw) 0) as [n Hn].
  { destruct e as [| op | | |]; cbn; try lia. destruct op; cbn; lia. }
  exists (hold e), n. exact Hn.
Qed.

(** ** counting *)
Definition opens (ts : list token) : nat := List.length (filter (fun t => match t with TSym c => Ascii.eqb c "(" | _ => false end) ts).

Lemma opens_app : forall a b, opens (a ++ b)%list = opens a + opens b.
Proof. intros a b. unfold opens. now rewrite filter_app, app_length. Qed.
Lemma opens_cons : forall t a, opens (t :: a) = opens [t] + opens a.
Proof. intros t a. exact (opens_app [t] a). Qed.

Lemma in_brackets_opens : forall b ts, opens (in_brackets b ts) = (if b then 1 else 0) + opens ts.
Proof. intros [] ts; [|reflexivity]. cbn [in_brackets]. rewrite opens_cons, opens_app. cbn. lia. Qed.

Lemma other_bytes : forall p, p "("%char = false -> forall l, Forall (fun c => p c = true) l -> count_occ ascii_dec l "("%char = 0.
Proof.
  intros p Hp l H. induction H as [|c l Hc Hl IH]; [reflexivity|]. cbn. destruct (ascii_dec c "("); [subst; congruence|exact IH].
Qed.
Lemma other_byte : forall c l, c <> "("%char -> count_occ ascii_dec (c :: l) "("%char = count_occ ascii_dec l "("%char.
Proof. intros c l H. now apply count_occ_cons_neq. Qed.

Lemma brackets_opens : forall l ts, lexes l ts -> count_occ ascii_dec l "("%char = opens ts.
Proof.
  intros l ts H. induction H as [|c s ts Hw H IH|m s ts Hm H IH|m s ts Hm H IH|c s ts Hw Hd Hp Ha H IH].
  - reflexivity.
  - rewrite other_byte; [exact IH|]. intros ->. discriminate Hw.
  - rewrite count_occ_app, IH, opens_cons. cbn [opens filter List.length]. 
    assert (E : forall m', Forall (fun c => in_mantissa c = true) m' -> count_occ ascii_dec m' "("%char = 0) by (apply other_bytes; reflexivity).
    assert (D : forall m', Forall (fun c => a_digit c = true) m' -> count_occ ascii_dec m' "("%char = 0) by (apply other_bytes; reflexivity).
    destruct Hm as [m rest _ Hm _ _|m e ds rest _ Hm He _ Hds _|m e sg ds rest _ Hm He Hsg _ Hds _].
    + rewrite E by assumption. reflexivity.
    + rewrite count_occ_app, other_byte, E, D by (auto; intros ->; discriminate He). reflexivity.
    + rewrite count_occ_app, !other_byte, E, D by (auto; intros ->; first [discriminate He|discriminate Hsg]). reflexivity.
  - rewrite count_occ_app, IH, opens_cons. destruct Hm as [_ [Hm _]]. rewrite (other_bytes in_name) by (auto; reflexivity). reflexivity.
  - rewrite opens_cons. destruct (ascii_dec c "(") as [-> |N].
    + rewrite count_occ_cons_eq by reflexivity. rewrite IH. reflexivity.
    + rewrite other_byte by assumption. rewrite IH. cbn. apply Ascii.eqb_neq in N. rewrite N. reflexivity.
Qed.

Section Fewest.
  Variable ctx ctx' : context.
  Notation Chain := (chain false ctx false).

  Definition cost (e : element) : nat := opens (written e).
  Definition extra (p q : nat) (e : element) : nat := if (Nat.leb (top e) p || Nat.ltb (hold e) q)%bool then 1 else 0.

  Lemma cost_call : forall f args, cost (Call f args) = 1 + list_sum (map cost args).
  Proof.
    intros f args. unfold cost. cbn [written].
    change (opens (TId (fn_name f) :: TSym "(" :: with_commas (map written args) ++ [TSym ")"])) with (S (opens (with_commas (map written args) ++ [TSym ")"]))).
    rewrite opens_app. change (opens [TSym ")"]) with 0.
    assert (E : opens (with_commas (map written args)) = list_sum (map (fun e => opens (written e)) args)); [|unfold cost; lia].
    induction args as [|a args IH]; [reflexivity|]. destruct args as [|b args]; [cbn [map with_commas list_sum fold_right]; lia|].
    change (with_commas (map written (a :: b :: args))) with (written a ++ TSym "," :: with_commas (map written (b :: args)))%list.
    rewrite opens_app, opens_cons, IH. change (opens [TSym ","]) with 0. reflexivity.
  Qed.

  Lemma cost_bin : forall op l r, op <> Factorial -> cost (BinOp op l r) =
    ((if bracket_left op l then 1 else 0) + cost l) + ((if bracket_right op r then 1 else 0) + cost r).
  Proof.
    intros op l r H. unfold cost. cbn [written]. rewrite opens_app, opens_cons, !in_brackets_opens.
    replace (opens [TSym (op_byte op)]) with 0 by (destruct op; reflexivity). lia.
  Qed.

  Lemma fewest :
    (forall p ts t q n, Chain p ts t q n -> p <= 4 -> writable ctx' t -> cost t + extra p q t <= opens ts) /\
    (forall ts t q, operand false ctx false ts t q -> writable ctx' t -> cost t + (if Nat.ltb (hold t) q then 1 else 0) <= opens ts /\
       (cost t + 1 <= opens ts \/ top t = 5)) /\
    (forall ts t, primary false ctx false ts t -> writable ctx' t -> cost t + (if atomic t then 0 else 1) <= opens ts) /\
    (forall ts l, arguments false ctx false ts l -> Forall (writable ctx') l -> list_sum (map cost l) <= opens ts).
  Proof.
    assert (Bin : forall p ts l q op ts' r q', op <> Factorial -> p < strength op -> strength op <= q ->
      cost l + extra p q l <= opens ts -> cost r + extra (strength op) q' r <= opens ts' -> writable ctx' (BinOp op l r) ->
      cost (BinOp op l r) + extra p (Nat.min (strength op) q') (BinOp op l r) <= opens ts + opens ts').
    { intros p ts l q op ts' r q' Ho Hp Hq Hl Hr Hw. inversion Hw; subst. rewrite cost_bin by assumption.
      assert (A : (if bracket_left op l then 1 else 0) + cost l <= opens ts).
      { rewrite (bracket_left_hold ctx') by assumption. revert Hl. unfold extra. destruct (Nat.ltb_spec (hold l) (strength op)); [|lia].
        destruct (Nat.ltb_spec (hold l) q); [|lia]. rewrite orb_true_r. lia. }
      assert (So : strength op <= 4) by (destruct op; cbn; try lia; congruence).
      assert (B : (if bracket_right op r then 1 else 0) + cost r + extra p (Nat.min (strength op) q') (BinOp op l r) <= opens ts'); [|lia].
      revert Hr. unfold extra. cbn [top hold].
      replace (strength op <=? p)%nat with false by (symmetry; apply Nat.leb_gt; lia). cbn [orb].
      destruct (bracket_right op r) eqn:Er.
      - assert (T : top r <= strength op) by (destruct r as [m|op' a b|op' a|f args|x0]; try discriminate Er; cbn in *; now apply Nat.leb_le).
        apply Nat.leb_le in T. rewrite T. cbn [orb]. destruct (Nat.ltb_spec (Nat.min (strength op) 4) (Nat.min (strength op) q')); [lia|]. lia.
      - destruct (Nat.ltb_spec (Nat.min (strength op) (hold r)) (Nat.min (strength op) q')) as [C|C]; [|lia].
        replace (hold r <? q')%nat with true by (symmetry; apply Nat.ltb_lt; lia). rewrite orb_true_r. lia. }
    apply chain_mutind; intros.
    - destruct (H0 ltac:(assumption)) as [H3 H4]. unfold extra. destruct (Nat.leb_spec (top t) p); cbn [orb]; [|exact H3].
      destruct H4 as [H4|H4]; lia.
    - assert (Hop : op <> Factorial) by (intro K; specialize (H4 K); discriminate H4).
      assert (So : strength op <= 4) by (destruct op; cbn; try lia; congruence).
      match goal with Hw : writable ctx' _ |- _ => pose proof Hw as Hw'; inversion Hw'; subst end.
      rewrite opens_app, opens_cons. replace (opens [tok]) with 0.
      2: { destruct tok as [s|s|c]; try contradiction. cbn in H1. unfold opens. cbn. destruct (Ascii.eqb_spec c "("); [subst; discriminate H1|reflexivity]. }
      apply (Bin p ts l q op ts' r q'); auto; lia.
    - subst j. cbn [implicit_strength] in *. destruct H3 as [H3|[H3 _]]; [|discriminate H3].
      match goal with Hw : writable ctx' _ |- _ => pose proof Hw as Hw'; inversion Hw'; subst end.
      rewrite opens_app. apply (Bin p ts l q Times ts' r q'); auto; try discriminate; lia.
    - specialize (H0 ltac:(assumption)). destruct t as [m|op a b|op a|f args|x0]; cbn [atomic] in H0; cbn [hold top]; try (split; [cbn [Nat.ltb Nat.leb]; lia|lia]).
      + split; [|lia]. destruct (_ <? _)%nat; lia.
      + split; [|lia]. destruct (_ <? _)%nat; lia.
    - match goal with Hw : writable ctx' _ |- _ => inversion Hw; subst end. specialize (H0 ltac:(assumption)).
      split; [|right; reflexivity]. rewrite opens_app. unfold cost. cbn [written hold Nat.ltb Nat.leb]. rewrite opens_app, in_brackets_opens.
      unfold cost in H0. destruct (atomic t); cbn [negb]; lia.
    - match goal with Hw : writable ctx' _ |- _ => inversion Hw; subst end. specialize (H1 ltac:(lia) ltac:(assumption)).
      assert (E : cost (UnOp op t) = (if bracket_sign t then 1 else 0) + cost t /\ hold (UnOp op t) = 3).
      { unfold cost. destruct H as [[_ ->]|[_ ->]]; cbn [written hold]; rewrite opens_cons, in_brackets_opens; split; reflexivity. }
      destruct E as [-> ->]. split; [|right; reflexivity]. cbn [Nat.ltb Nat.leb]. rewrite opens_cons.
      unfold extra in H1. destruct (bracket_sign t) eqn:E; [|destruct (_ || _)%bool; lia].
      replace (top t <=? 3)%nat with true in H1; [cbn [orb] in H1; lia|].
      match goal with Hw : writable ctx' t |- _ => destruct t as [m|op' a b|op' a|f args|x0]; try discriminate E; inversion Hw; subst end.
      destruct op'; try reflexivity; first [discriminate E|congruence].
    - cbn. lia.
    - cbn. lia.
    - cbn. lia.
    - match goal with Hw : writable ctx' _ |- _ => inversion Hw; subst end. specialize (H1 ltac:(assumption)).
      rewrite cost_call. change (opens (TId s :: TSym "(" :: ts ++ [TSym ")"])) with (S (opens (ts ++ [TSym ")"]))).
      rewrite opens_app. cbn [atomic]. lia.
    - specialize (H0 ltac:(lia) ltac:(assumption)). rewrite opens_cons, opens_app. change (opens [TSym "("]) with 1.
      destruct (atomic t); lia.
    - match goal with Hw : Forall _ _ |- _ => inversion Hw; subst end. specialize (H0 ltac:(lia) ltac:(assumption)). cbn. lia.
    - match goal with Hw : Forall _ _ |- _ => inversion Hw; subst end. specialize (H0 ltac:(lia) ltac:(assumption)). specialize (H2 ltac:(assumption)).
      rewrite opens_app, opens_cons. cbn [map list_sum fold_right]. change (fold_right Nat.add 0 (map cost l)) with (list_sum (map cost l)). cbn in *. lia.
  Qed.
End Fewest.

(** No text that is read as the expression has fewer brackets.  (With pejmdas,
    no text without implicit products.) *)
Theorem C87_fewest_brackets : forall cfg w ctx input ts x,
  optimize cfg = false -> tokens_of input ts -> clear_tokens ctx ts -> (pejmdas cfg = true -> ~ juxtaposed ctx ts) ->
  parse cfg w ctx input = Parse_ok x -> writable ctx (root x) ->
  brackets (lean (root x)) <= brackets input.
Proof.
  intros cfg w ctx input ts x Ho Hts Hcl Hj Hx Hw. unfold brackets.
  rewrite (brackets_opens _ _ Hts), (brackets_opens _ _ (lean_tokens ctx _ Hw)).
  assert (Hne : input <> "").
  { intros ->. rewrite parse_empty in Hx. destruct (overflow_checks cfg); discriminate Hx. }
  assert (Hs : sentence false ctx ts (root x)).
  { destruct (pejmdas cfg) eqn:Ej.
    - set (cfg' := {| pejmdas := false; optimize := optimize cfg; nightly := nightly cfg; overflow_checks := overflow_checks cfg |}).
      assert (Hc : same_but_precedence cfg cfg') by (repeat split; reflexivity).
      pose proof (C09_precedences_agree cfg cfg' w ctx input ts Hc Hne Hts (Hj eq_refl)) as E. rewrite Hx in E. cbn [outcome_of] in E.
      symmetry in E. apply outcome_gives in E. exact (C04_accepted_texts_are_sentences cfg' w ctx input ts x Ho Hts Hcl E).
    - rewrite <- Ej. eapply C04_accepted_texts_are_sentences; eauto. }
  apply sentence_derives in Hs. destruct Hs as [q [n Hs]].
  pose proof (proj1 (fewest ctx ctx) _ _ _ _ _ Hs ltac:(lia) Hw) as H. unfold cost in H. lia.
Qed.

Lemma derived_writable : forall pj ctx, names_agree ctx ->
  (forall p ts t q n, chain pj ctx false p ts t q n -> Forall named ts -> (forall n, sub (Number n) t -> unsigned n) -> writable ctx t) /\
  (forall ts t q, operand pj ctx false ts t q -> Forall named ts -> (forall n, sub (Number n) t -> unsigned n) -> writable ctx t) /\
  (forall ts t, primary pj ctx false ts t -> Forall named ts -> (forall n, sub (Number n) t -> unsigned n) -> writable ctx t) /\
  (forall ts l, arguments pj ctx false ts l -> Forall named ts -> (forall n a, In a l -> sub (Number n) a -> unsigned n) -> l <> [] /\ Forall (writable ctx) l).
Proof.
  intros pj ctx Hag. apply chain_mutind.
  - auto.
  - intros p ts l q n tok op ts' r q' n' _ IHl _ _ _ Hop _ IHr Hn Hu. apply Forall_app in Hn. destruct Hn as [N1 N2]. inversion N2; subst.
    apply WR_bin; [intro K; discriminate (Hop K)|apply IHl|apply IHr]; auto; intros m Hm; apply Hu; [now apply sub_binl|now apply sub_binr].
  - intros p ts l q n ts' r q' n' j _ IHl _ _ _ _ IHr Hn Hu. apply Forall_app in Hn. destruct Hn as [N1 N2].
    apply WR_bin; [discriminate|apply IHl|apply IHr]; auto; intros m Hm; apply Hu; [now apply sub_binl|now apply sub_binr].
  - auto.
  - intros ts t _ IH Hn Hu. apply Forall_app in Hn. destruct Hn as [N1 N2]. apply WR_un; [auto|]. apply IH; auto. intros m Hm. apply Hu. now apply sub_un.
  - intros c op ts t q n Hs _ IH Hn Hu. inversion Hn; subst. apply WR_un; [destruct Hs as [[_ ->]|[_ ->]]; auto|]. apply IH; auto. intros m Hm. apply Hu. now apply sub_un.
  - intros s v _ _ Hu. destruct (Hu v (sub_refl _)). now apply WR_number.
  - intros s v _ _ Hu. destruct (Hu v (sub_refl _)). now apply WR_number.
  - intros s x Hs Hn _. pose proof (variable_name _ _ _ Hs); subst. inversion Hn; subst. now apply WR_var.
  - intros s f ts args Hs _ IH Ha Hn Hu. inversion Hn as [|? ? T1 T2]; subst. inversion T2 as [|? ? _ T3]; subst. apply Forall_app in T3. destruct T3 as [T3 _].
    destruct (Hag _ _ Hs T1) as [A1 A2]. destruct IH as [I1 I2]; auto.
    { intros m b Hb Hm. apply Hu. eapply sub_arg; eauto. }
    now apply WR_call.
  - intros ts t q n _ IH Hn Hu. apply IH; auto. inversion Hn as [|? ? _ T2]; subst. apply Forall_app in T2. apply T2.
  - intros ts t q n _ IH Hn Hu. split; [discriminate|]. constructor; [|constructor]. apply IH; auto. intros m Hm. apply (Hu m t); [now left|exact Hm].
  - intros ts t q n ts' l _ IH _ IHl Hn Hu. apply Forall_app in Hn. destruct Hn as [N1 N2]. inversion N2; subst. split; [discriminate|]. constructor.
    + apply IH; auto. intros m Hm. apply (Hu m t); [now left|exact Hm].
    + apply IHl; auto. intros m b Hb Hm. apply (Hu m b); [now right|exact Hm].
Qed.

(** So every accepted text can be replaced by the lean one. *)
Theorem C87_accepted_texts : forall cfg cfg' w ctx input ts x,
  optimize cfg = false -> optimize cfg' = false -> fair_order w -> names_agree ctx ->
  tokens_of input ts -> clear_tokens ctx ts -> parse cfg w ctx input = Parse_ok x ->
  (forall n, sub (Number n) (root x) -> fis_finite n = true /\ Bsign n = false) ->
  writable ctx (root x) /\ parse cfg' w ctx (lean (root x)) = Parse_ok x.
Proof.
  intros cfg cfg' w ctx input ts x Ho Ho' Hf Hag Hts Hcl Hx Hu.
  assert (Hne : input <> "").
  { intros ->. rewrite parse_empty in Hx. destruct (overflow_checks cfg); discriminate Hx. }
  pose proof (proj1 (C05_parser_decides_grammar cfg w ctx input ts (root x) Ho Hf Hts Hcl) (ex_intro _ x (conj Hx eq_refl))) as [Hs Hd].
  assert (Hw : writable ctx (root x)).
  { apply sentence_derives in Hs. destruct Hs as [q [n Hs]]. eapply (proj1 (derived_writable (pejmdas cfg) ctx Hag)); eauto. eapply lexes_named; eauto. }
  split; [exact Hw|].
  destruct (C87_lean_text_is_read_back cfg' w ctx (root x) Ho' Hf Hw Hd) as [y [Hy Ey]]. rewrite Hy. f_equal.
  assert (V : forall c i z, i <> "" -> parse c w ctx i = Parse_ok z -> vars z = find_variables (root z) []).
  { intros c i z Hi Hz. destruct (lexes_total (bytes i)) as [us Hus].
    pose proof (parse_outcome c w ctx i us Hi Hus) as E. rewrite Hz in E. cbn [outcome_of] in E. symmetry in E.
    apply token_gives in E. destruct E as [rest [_ E]]. exact E. }
  assert (Hne' : lean (root x) <> "") by (apply (tokens_nonempty _ _ (lean_tokens ctx _ Hw)), written_nonempty).
  pose proof (V _ _ _ Hne Hx) as V1. pose proof (V _ _ _ Hne' Hy) as V2.
  destruct x as [rx vx], y as [ry vy]. cbn [root vars] in *. subst. reflexivity.
Qed.

(** ** the default build *)
Fixpoint calm (ctx : context) (after_number after_bang : bool) (ts : list token) : Prop :=
  match ts with
  | [] => True
  | t :: r =>
      match t with TNum _ => after_number = false | TSym c => Ascii.eqb c "!" = true -> after_bang = false | TId _ => True end /\
      calm ctx (ends_number ctx t) (match t with TSym c => Ascii.eqb c "!" | _ => false end) r
  end.

Lemma calm_clear : forall ctx ts a b, calm ctx a b ts -> clear_tokens ctx ts.
Proof.
  assert (Tail : forall ctx u a b t v, calm ctx a b (u ++ t :: v) -> exists a' b', calm ctx a' b' (t :: v)).
  { induction u as [|x u IH]; intros a b t v H; [eauto|]. cbn in H. eapply IH. apply H. }
  intros ctx ts a b H. split; intros [u [t [t' [v [-> [H1 H2]]]]]]; apply Tail in H; destruct H as [a' [b' [Ha [Hb _]]]].
  - subst t t'. specialize (Hb eq_refl). discriminate Hb.
  - destruct H2 as [s ->]. congruence.
Qed.

Lemma written_calm : forall ctx e, writable ctx e ->
  (forall rest, (forall a b, calm ctx a b rest) -> forall b, calm ctx false b (written e ++ rest)) /\
  (atomic e = true -> forall rest, (forall a, calm ctx a false rest) -> forall b, calm ctx false b (written e ++ rest)).
Proof.
  intros ctx e.
  assert (In : forall e rest, (forall rest, (forall a b, calm ctx a b rest) -> forall b, calm ctx false b (written e ++ rest)) ->
    (forall a, calm ctx a false rest) -> forall b, calm ctx false b ((TSym "(" :: written e ++ [TSym ")"]) ++ rest)).
  { intros e' rest H Hr b. cbn. split; [discriminate|]. rewrite <- app_assoc. apply H. intros a' b'. cbn. split; [discriminate|apply Hr]. }
  assert (Inb : forall c e rest, (forall rest, (forall a b, calm ctx a b rest) -> forall b, calm ctx false b (written e ++ rest)) ->
    (forall a b, calm ctx a b rest) -> forall b, calm ctx false b (in_brackets c (written e) ++ rest)).
  { intros [] e' rest H Hr b; [apply In; auto|apply H; auto]. }
  induction e as [n|op l r IHl IHr|op e IHe|f args Hargs|y] using element_ind'; intro H; inversion H; subst.
  - assert (K : forall rest, (forall a, calm ctx a false rest) -> forall b, calm ctx false b (written (Number n) ++ rest)) by (intros rest Hr b; cbn; split; auto). auto.
  - destruct (IHl ltac:(assumption)) as [Kl _]. destruct (IHr ltac:(assumption)) as [Kr _]. split; [|discriminate].
    intros rest Hr b. cbn [written]. rewrite <- app_assoc. apply Inb; [exact Kl|]. intros a' b'. cbn [app calm].
    split; [destruct op; discriminate || congruence|].
    replace (ends_number ctx (TSym (op_byte op))) with false by (destruct op; reflexivity). now apply Inb.
  - destruct (IHe ltac:(assumption)) as [K Ka]. split; [|discriminate]. intros rest Hr b.
    match goal with Ho : op = Plus \/ _ |- _ => destruct Ho as [-> |[-> | ->]] end; cbn [written].
    + cbn [app calm]. split; [discriminate|]. now apply Inb.
    + cbn [app calm]. split; [discriminate|]. now apply Inb.
    + rewrite <- app_assoc.
      assert (Hb : forall a, calm ctx a false ([TSym "!"] ++ rest)) by (intro a; cbn; split; auto).
      destruct (atomic e); cbn [negb in_brackets]; [now apply Ka|now apply In].
  - assert (K : forall rest, (forall a, calm ctx a false rest) -> forall b, calm ctx false b (written (Call f args) ++ rest)); [|auto].
    intros rest Hr b. cbn [written app calm]. split; [exact I|]. split; [discriminate|]. change (ends_number ctx (TSym "(")) with false.
    rewrite <- app_assoc.
    assert (Hrest : forall a b, calm ctx a b ([TSym ")"] ++ rest)) by (intros a' b'; cbn; split; [discriminate|apply Hr]).
    match goal with Hall : Forall (writable ctx) args |- _ => rename Hall into Hp end.
    match goal with Hne : args <> [] |- _ => revert Hne end.
    change (Ascii.eqb "(" "!") with false. generalize false at 2 as b0.
    clear - Hargs Hp Hrest. induction Hargs as [|a args Ha Hargs IH]; [congruence|]. intros b0 _. inversion Hp; subst. destruct (Ha ltac:(assumption)) as [Ka _].
    destruct args as [|a2 args]; [now apply Ka|].
    change (with_commas (map written (a :: a2 :: args))) with (written a ++ TSym "," :: with_commas (map written (a2 :: args)))%list.
    rewrite <- app_assoc. apply Ka. intros a' b'. cbn [app calm]. split; [discriminate|]. apply IH; [assumption|discriminate].
  - assert (K : forall rest, (forall a, calm ctx a false rest) -> forall b, calm ctx false b (written (Var y) ++ rest)) by (intros rest Hr b; cbn; split; [exact I|apply Hr]). auto.
Qed.

Lemma written_clear : forall ctx e, writable ctx e -> clear_tokens ctx (written e).
Proof.
  intros ctx e H. apply calm_clear with false false. rewrite <- (app_nil_r (written e)). apply (proj1 (written_calm ctx e H)). intros; exact I.
Qed.

Lemma writable_safe : forall w ctx e, context_functions_return w ctx -> writable ctx e -> safe w e.
Proof.
  intros w ctx e Hc. induction e as [n|op l r IHl IHr|op e IHe|f args Hargs|y] using element_ind'; intro H; inversion H; subst; try exact I.
  - cbn. auto.
  - cbn. split; [tauto|auto].
  - apply safe_call. split.
    + intros vs Hvs. eapply (resolve_returns w ctx Hc (fn_name f) f); [now rewrite <- stands_resolve| |].
      * destruct vs; [destruct args; [congruence|discriminate Hvs]|discriminate].
      * intros n Hn. match goal with Ha : SpecGrammar.arity_ok f args |- _ => unfold SpecGrammar.arity_ok in Ha; rewrite Hn in Ha end. congruence.
    + match goal with Hall : Forall (writable ctx) args |- _ => rename Hall into Hp end.
      clear - Hargs Hp. induction Hargs; constructor; inversion Hp; auto.
Qed.

Lemma writable_respelled : forall ctx e, writable ctx e -> respelled e = e.
Proof.
  intros ctx e. induction e as [n|op l r IHl IHr|op e IHe|f args Hargs|y] using element_ind'; intro H; inversion H; subst; cbn [respelled].
  - match goal with Hs : Bsign n = false |- _ => now rewrite Hs end.
  - now rewrite IHl, IHr.
  - now rewrite IHe.
  - f_equal. match goal with Hx : Forall (writable ctx) args |- _ => rename Hx into Hp end. clear - Hargs Hp.
    induction Hargs as [|a args Ha Hargs IH]; [reflexivity|]. inversion Hp; subst. cbn. now rewrite Ha, IH.
  - reflexivity.
Qed.

(** With optimisation too, for expressions with nothing left to simplify. *)
Theorem C87_default_round_trip : forall cfg w ctx e, optimize cfg = true -> fair_order w -> context_functions_return w ctx ->
  writable ctx e -> declared ctx e -> (forall s, sub s e -> ~ redex cfg w s) ->
  exists y, parse cfg w ctx (lean e) = Parse_ok y /\ root y = e.
Proof.
  intros cfg w ctx e Ho Hf Hc Hp Hd Hr. pose proof (lean_tokens ctx e Hp) as Hts.
  pose proof (written_clear ctx e Hp) as Hcl. destruct (clear_parts _ _ _ Hts Hcl) as [Hb Hn].
  destruct (C87_lean_text_is_read_back (plain cfg) w ctx e eq_refl Hf Hp Hd) as [x [Hx Ex]].
  destruct (C18_plain_accepted cfg (plain cfg) w ctx _ _ x Ho eq_refl eq_refl Hf Hc Hb Hts Hn Hx) as [y [Hy _]].
  exists y. split; [exact Hy|].
  assert (Hne : lean e <> "") by (apply (tokens_nonempty _ _ Hts), written_nonempty).
  pose proof (parse_outcome cfg w ctx _ _ Hne Hts) as E. rewrite Hy in E. cbn [outcome_of] in E. symmetry in E.
  apply token_gives in E. destruct E as [rest [E _]]. pose proof (ok_rest_nil _ _ _ _ _ _ _ E) as ->.
  pose proof (parse_outcome (plain cfg) w ctx _ _ Hne Hts) as E'. rewrite Hx in E'. cbn [outcome_of] in E'. symmetry in E'.
  apply token_gives in E'. destruct E' as [rest' [E' _]]. pose proof (ok_rest_nil _ _ _ _ _ _ _ E') as ->.
  unfold t_parse in E, E'.
  destruct (t_element cfg w ctx _ _ _) as [t' r|k u v|p|] eqn:Et; try discriminate E. cbn in E. destruct r; [|discriminate E]. injection E as ->.
  destruct (last_simplified cfg (plain cfg) w ctx _ _ _ _ _ Ho eq_refl eq_refl Hn Et) as [t [t1 [Et' [S Hs]]]].
  rewrite Et' in E'. cbn in E'. injection E' as ->. rewrite Ex in S.
  assert (Hfix : forall s, sub s e -> simplify cfg w s = Val s).
  { intros s Hs'. apply fixed_when_irreducible.
    - assert (Hse : safe w e) by (eapply writable_safe; eauto). clear - Hs' Hse.
      induction Hs'; auto; try (apply IHHs'; cbn in Hse; tauto).
      apply IHHs'. apply safe_call in Hse. destruct Hse as [_ Hall]. rewrite Forall_forall in Hall. auto.
    - intros s' Hs''. apply Hr. eapply sub_trans; eauto. }
  pose proof (respelled_spelling e) as Sp. rewrite (writable_respelled ctx e Hp) in Sp.
  pose proof (proj1 (spelling_kept cfg w) _ _ S e Sp Hfix) as K.
  rewrite (spelling_simplified _ _ _ _ K Hfix) in Hs. now injection Hs.
Qed.

(** ** Examples, and where fewer brackets are possible *)
Definition one : element := Number (lit "1").
Definition two : element := Number (lit "2").

Lemma c87_tokens : exists ts, tokens_of "((1-2)*(x/(y/2)))^(2)+((-(x))^(-y))^((2+x)!)" ts /\ clear_tokens ctx_default ts.
Proof.
  eexists. split; [apply tokens_check; vm_compute; reflexivity|apply clear_check; vm_compute; reflexivity].
Qed.

(** the brackets that stay are those of the left minus, the right quotient, the
    sign under '^' and the factorial's operand *)
Example C87_witness : exists x,
  parse plain_config w0 ctx_default "((1-2)*(x/(y/2)))^(2)+((-(x))^(-y))^((2+x)!)" = Parse_ok x /\
  lean (root x) = "((1 - 2) * (x / (y / 2))) ^ 2 + ((-x) ^ -y) ^ (2 + x)!" /\
  brackets (lean (root x)) = 7 /\
  parse plain_config w0 ctx_default "((1 - 2) * (x / (y / 2))) ^ 2 + ((-x) ^ -y) ^ (2 + x)!" = Parse_ok x.
Proof.
  set (t := BinOp Plus (BinOp Power (BinOp Times (BinOp Minus one two) (BinOp Divide (Var "x") (BinOp Divide (Var "y") two))) two)
    (BinOp Power (BinOp Power (UnOp Minus (Var "x")) (UnOp Minus (Var "y"))) (UnOp Factorial (BinOp Plus two (Var "x"))))).
  destruct (parses_to (parse plain_config w0 ctx_default "((1-2)*(x/(y/2)))^(2)+((-(x))^(-y))^((2+x)!)") t) as [x [Hx Ex]]; [vm_compute; reflexivity|].
  assert (L : lean (root x) = "((1 - 2) * (x / (y / 2))) ^ 2 + ((-x) ^ -y) ^ (2 + x)!") by (rewrite Ex; apply String.eqb_eq; vm_compute; reflexivity).
  exists x. split; [exact Hx|]. split; [exact L|]. split; [rewrite L; reflexivity|]. rewrite <- L.
  destruct c87_tokens as [ts [Hts Hcl]].
  apply (C87_accepted_texts plain_config plain_config w0 ctx_default "((1-2)*(x/(y/2)))^(2)+((-(x))^(-y))^((2+x)!)" ts x eq_refl eq_refl w0_fair default_names_agree).
  - exact Hts.
  - exact Hcl.
  - exact Hx.
  - rewrite Ex. intros n Hn. assert (K : n = lit "1" \/ n = lit "2").
    { unfold t, one, two in Hn. clear - Hn. generalize (lit "1") (lit "2") Hn. clear Hn. intros a b Hn.
      repeat match goal with Hs : sub _ _ |- _ => inversion Hs; clear Hs; subst; auto end. }
    destruct K as [-> | ->]; split; vm_compute; reflexivity.
Qed.

(** With pejmdas an implicit product saves brackets; and the production "number
    after number" does so in both modes. *)
Theorem C87_juxtaposition_refuted : exists x y,
  parse pejmdas_plain w0 ctx_default "1/2x" = Parse_ok x /\ lean (root x) = "1 / (2 * x)" /\
  parse plain_config w0 ctx_default "1+2 x" = Parse_ok y /\ lean (root y) = "1 + 2 * x" /\
  exists z, parse plain_config w0 ctx_default "1+2 3" = Parse_ok z /\ lean (root z) = "(1 + 2) * 3".
Proof.
  destruct (parses_to (parse pejmdas_plain w0 ctx_default "1/2x") (BinOp Divide one (BinOp Times two (Var "x")))) as [x [Hx Ex]]; [vm_compute; reflexivity|].
  destruct (parses_to (parse plain_config w0 ctx_default "1+2 x") (BinOp Plus one (BinOp Times two (Var "x")))) as [y [Hy Ey]]; [vm_compute; reflexivity|].
  destruct (parses_to (parse plain_config w0 ctx_default "1+2 3") (BinOp Times (BinOp Plus one two) (Number (lit "3")))) as [z [Hz Ez]]; [vm_compute; reflexivity|].
  exists x, y. split; [exact Hx|]. split; [rewrite Ex; apply String.eqb_eq; vm_compute; reflexivity|].
  split; [exact Hy|]. split; [rewrite Ey; apply String.eqb_eq; vm_compute; reflexivity|].
  exists z. split; [exact Hz|]. rewrite Ez. apply String.eqb_eq. vm_compute. reflexivity.
Qed.
