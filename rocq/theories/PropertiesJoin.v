(** * C90: joining texts with an operator *)
From Coq Require Import ZArith NArith List String Ascii Bool Lia.
From Flocq Require Import BinarySingleNaN.
From Verif Require Import SpecChars CharFacts.
From Verif Require Import F64 Syntax Factorial Builtins Context Element Parser Xprs Display.
From Verif Require Import ParserFacts SpecParse ParserInv SpecTree TreeFacts SpecApi ParserResults SpecTokens SpecGrammar SpecNumber SpecNames SpecDisplay SpecBrackets SpecJoin.
From Verif Require Import SimplifyFacts SpecRegular SpecScan SpecRewrite OptFacts FlatFacts ScanFacts ScanPrefix.
From Verif Require Import FloatFacts NumberFacts DisplayFacts TokenFacts LexFacts LexExec TokenParser TokenSim TokenMono GrammarFacts GrammarEquiv JuxtaFacts RegularFacts.
From Verif Require Import BindFacts.
From Verif Require Import TestWorld PropertiesParse PropertiesGrammar PropertiesNames PropertiesEval PropertiesSimplify PropertiesEq PropertiesOptimise PropertiesScan PropertiesDisplay PropertiesNormal PropertiesDefault PropertiesBrackets.
Import ListNotations.
Local Open Scope string_scope.

(** ** tokens *)
Lemma joined_has_tokens : forall op a b ts ts', op <> Factorial -> tokens_of a ts -> tokens_of b ts' ->
  tokens_of (joined op a b) (ts ++ TSym (op_byte op) :: ts')%list.
Proof.
  intros op a b ts ts' Ho Ha Hb. unfold joined, tokens_of. rewrite !list_ascii_app.
  apply lexes_space; [exact Ha| |reflexivity]. rewrite op_byte_shown.
  cbn [list_ascii_of_string app]. apply sym_check; [destruct op; reflexivity|]. apply L_ws; [reflexivity|]. exact Hb.
Qed.


Lemma joined_nonempty : forall op a b, joined op a b <> "".
Proof. intros op [|c a] b; discriminate. Qed.

Lemma accepted_nonempty : forall cfg w ctx input x, parse cfg w ctx input = Parse_ok x -> input <> "".
Proof. intros cfg w ctx input x H ->. rewrite parse_empty in H. destruct (overflow_checks cfg); discriminate H. Qed.

(** ** the variables of a tree are names in the text *)
Lemma occurs_in_tokens : forall pj ctx k,
  (forall p ts t q n, chain pj ctx k p ts t q n -> forall v, occurs v t <-> exists s, In (TId s) ts /\ stands_for ctx s = I_Variable v) /\
  (forall ts t q, operand pj ctx k ts t q -> forall v, occurs v t <-> exists s, In (TId s) ts /\ stands_for ctx s = I_Variable v) /\
  (forall ts t, primary pj ctx k ts t -> forall v, occurs v t <-> exists s, In (TId s) ts /\ stands_for ctx s = I_Variable v) /\
  (forall ts l, arguments pj ctx k ts l -> forall v, (exists a, In a l /\ occurs v a) <-> exists s, In (TId s) ts /\ stands_for ctx s = I_Variable v).
Proof.
  intros pj ctx k.
  apply chain_mutind.
  - auto.
  - intros p ts l q n tok op ts' r q' n' _ IHl Htok _ _ _ _ IHr v. split.
    + intro H. inversion H; subst.
      * apply IHl in H1. destruct H1 as [s [Hs E]]. exists s. split; auto. apply in_or_app; auto.
      * apply IHr in H1. destruct H1 as [s [Hs E]]. exists s. split; auto. apply in_or_app; right; right; auto.
    + intros [s [Hs E]]. apply in_app_or in Hs. destruct Hs as [Hs|[Hs|Hs]].
      * apply occ_binl, IHl; eauto.
      * subst tok. destruct Htok.
      * apply occ_binr, IHr; eauto.
  - intros p ts l q n ts' r q' n' j _ IHl _ _ _ _ IHr v. split.
    + intro H. inversion H; subst.
      * apply IHl in H1. destruct H1 as [s [Hs E]]. exists s. split; auto. apply in_or_app; auto.
      * apply IHr in H1. destruct H1 as [s [Hs E]]. exists s. split; auto. apply in_or_app; auto.
    + intros [s [Hs E]]. apply in_app_or in Hs. destruct Hs as [Hs|Hs].
      * apply occ_binl, IHl; eauto.
      * apply occ_binr, IHr; eauto.
  - auto.
  - intros ts t _ IH v. split.
    + intro H. inversion H; subst. apply IH in H1. destruct H1 as [s [Hs E]]. exists s. split; auto. apply in_or_app; auto.
    + intros [s [Hs E]]. apply in_app_or in Hs. destruct Hs as [Hs|[Hs|[]]]; [|discriminate Hs]. apply occ_un, IH; eauto.
  - intros c op ts t q n _ _ IH v. split.
    + intro H. inversion H; subst. apply IH in H1. destruct H1 as [s [Hs E]]. exists s. split; auto. now right.
    + intros [s [[Hs|Hs] E]]; [discriminate Hs|]. apply occ_un, IH; eauto.
  - intros s v' _ v. split; [intro H; inversion H|]. intros [s' [[Hs|[]] _]]. discriminate Hs.
  - intros s v' Hs v. split; [intro H; inversion H|]. intros [s' [[E|[]] E']]. injection E as ->. congruence.
  - intros s x Hs v. split; [intro H; inversion H; subst; exists s; split; auto; now left|].
    intros [s' [[E|[]] E']]. injection E as ->. rewrite Hs in E'. injection E' as ->. constructor.
  - intros s f ts args Hs _ IH _ v. split.
    + intro H. inversion H as [| | | |f' args' a Ha Hv]; subst. destruct (proj1 (IH v)) as [s' [Hs' E]]; [eauto|].
      exists s'. split; auto. right. right. apply in_or_app; auto.
    + intros [s' [[E|[E|E]] E']]; [injection E as ->; congruence|discriminate E|].
      apply in_app_or in E. destruct E as [E|[E|[]]]; [|discriminate E].
      destruct (proj2 (IH v)) as [a [Ha Hv]]; [eauto|]. eapply occ_arg; eauto.
  - intros ts t q n _ IH v. rewrite IH. split; intros [s [Hs E]]; exists s; split; auto.
    + right. apply in_or_app; auto.
    + destruct Hs as [Hs|Hs]; [discriminate Hs|]. apply in_app_or in Hs. destruct Hs as [Hs|[Hs|[]]]; [exact Hs|discriminate Hs].
  - intros ts t q n _ IH v. rewrite <- IH. split.
    + intros [a [[<-|[]] H]]. exact H.
    + intro H. exists t. split; auto. now left.
  - intros ts t q n ts' l _ IH _ IHl v. split.
    + intros [a [[<-|Ha] H]].
      * apply IH in H. destruct H as [s [Hs E]]. exists s. split; auto. apply in_or_app; auto.
      * destruct (proj1 (IHl v)) as [s [Hs E]]; [eauto|]. exists s. split; auto. apply in_or_app; right; right; auto.
    + intros [s [Hs E]]. apply in_app_or in Hs. destruct Hs as [Hs|[Hs|Hs]].
      * exists t. split; [now left|]. apply IH; eauto.
      * discriminate Hs.
      * destruct (proj2 (IHl v)) as [a [Ha Hv]]; [eauto|]. exists a. split; auto. now right.
Qed.

Lemma declared_tokens : forall pj ctx ts t, derives pj ctx true ts t ->
  (declared ctx t <-> forall l, get_expected_vars ctx = Some l -> forall s v, In (TId s) ts -> stands_for ctx s = I_Variable v -> In v l).
Proof.
  intros pj ctx ts t [q [n H]]. pose proof (proj1 (occurs_in_tokens pj ctx true) _ _ _ _ _ H) as E. unfold declared. split.
  - intros D l El s v Hs Hv. apply (D l El). apply E. eauto.
  - intros D l El v Hv. apply E in Hv. destruct Hv as [s [Hs Hv]]. eauto.
Qed.

(** ** always accepted *)

(** Whatever two texts are accepted, so is their join, and the variables it
    reads are those of the two texts. *)
Theorem C90_always_accepted : forall cfg w ctx op a b x y,
  optimize cfg = false -> fair_order w -> op <> Factorial ->
  parse cfg w ctx a = Parse_ok x -> parse cfg w ctx b = Parse_ok y ->
  exists z, parse cfg w ctx (joined op a b) = Parse_ok z /\
    forall v, occurs v (root z) <-> occurs v (root x) \/ occurs v (root y).
Proof.
  intros cfg w ctx op a b x y Ho Hf Hop Ha Hb.
  destruct (lexes_total (bytes a)) as [ts Hts]. destruct (lexes_total (bytes b)) as [ts' Hts'].
  pose proof (accepted_nonempty _ _ _ _ _ Ha) as Na. pose proof (accepted_nonempty _ _ _ _ _ Hb) as Nb.
  destruct (proj1 (C04_accepted_exactly cfg w ctx a ts (root x) Ho Hf Na Hts)) as [Da Va]; [eauto|].
  destruct (proj1 (C04_accepted_exactly cfg w ctx b ts' (root y) Ho Hf Nb Hts')) as [Db Vb]; [eauto|].
  pose proof (proj2 (parse_by_derivation cfg w ctx a ts _ Ho Na Hts) Da) as Ea.
  pose proof (proj2 (parse_by_derivation cfg w ctx b ts' _ Ho Nb Hts') Db) as Eb.
  destruct (parsed_flat ctx cfg w _ _ _ Ea) as [n Fa]. destruct (parsed_flat ctx cfg w _ _ _ Eb) as [m Fb].
  pose proof (flat_join ctx (TSym (op_byte op)) op ts' m Fb ts n Fa (op_byte_token op) (fun E => False_ind _ (Hop E))) as F.
  destruct (proj1 (proj2 (proj2 (flat_builds ctx (pejmdas cfg)))) _ _ F) as [t [q [k [C _]]]].
  assert (D : derives (pejmdas cfg) ctx true (ts ++ TSym (op_byte op) :: ts')%list t) by (exists q, k; exact C).
  assert (V : declared ctx t).
  { apply (declared_tokens _ _ _ _ D). intros l El s v Hs Hv. apply in_app_or in Hs. destruct Hs as [Hs|[Hs|Hs]].
    - apply (declared_tokens _ _ _ _ Da) with (l := l) (s := s) (v := v) in Va; auto.
    - discriminate Hs.
    - apply (declared_tokens _ _ _ _ Db) with (l := l) (s := s) (v := v) in Vb; auto. }
  destruct (proj2 (C04_accepted_exactly cfg w ctx (joined op a b) _ t Ho Hf (joined_nonempty _ _ _) (joined_has_tokens op a b ts ts' Hop Hts Hts')) (conj D V)) as [z [Hz Ez]].
  exists z. split; [exact Hz|]. rewrite Ez. intro v. destruct Da as [qa [na Ca]]. destruct Db as [qb [nb Cb]].
  rewrite (proj1 (occurs_in_tokens _ _ _) _ _ _ _ _ C), (proj1 (occurs_in_tokens _ _ _) _ _ _ _ _ Ca), (proj1 (occurs_in_tokens _ _ _) _ _ _ _ _ Cb).
  split.
  - intros [s [Hs E]]. apply in_app_or in Hs. destruct Hs as [Hs|[Hs|Hs]]; [left; eauto|discriminate Hs|right; eauto].
  - intros [[s [Hs E]]|[s [Hs E]]]; exists s; split; auto; apply in_or_app; auto. right. now right.
Qed.

(** ** read as written *)
Section Read.
  Variable pj : bool.
  Variable ctx : context.
  Notation Chain := (chain pj ctx false).

  Lemma strong_enough : forall p ts t q n, Chain p ts t q n -> forall s, s < q -> Chain s ts t q n.
  Proof.
    induction 1 as [p ts t q H|p ts l q n tok op ts' r q' n' Hl IHl Htok Hp Hq Hf Hr IHr|p ts l q n ts' r q' n' j Hl IHl Hm Hp Hq Hr IHr]; intros s Hs.
    - now apply C_operand.
    - eapply C_operator; eauto; [apply IHl|]; lia.
    - destruct Hq as [Hq|[Hq _]]; [|discriminate Hq]. eapply C_implicit; eauto; [apply IHl; lia|fold j; lia].
  Qed.


  Lemma right_operand : forall op ts r q n, Chain 0 ts r q n -> bracket_right op r = false -> Chain (strength op) ts r q n.
  Proof.
    intros op ts r q n H Hb. inversion H; subst.
    - now apply C_operand.
    - cbn in Hb. apply Nat.leb_gt in Hb. eapply C_operator; eauto. eapply strong_enough; eauto. lia.
    - assert (B : strength op < 2) by (destruct op; cbn in *; try discriminate Hb; lia).
      match goal with Hq : _ \/ _ |- _ => destruct Hq as [Hq|[Hq _]]; [|discriminate Hq] end.
      assert (J : 2 <= implicit_strength pj) by (unfold implicit_strength; destruct pj; lia).
      eapply C_implicit; eauto; [|lia]. eapply strong_enough; eauto. unfold j in *. lia.
  Qed.

  Lemma limit_low : forall p ts t q n, Chain p ts t q n -> Nat.min 3 (S p) <= q.
  Proof.
    induction 1 as [p ts t q H|p ts l q n tok op ts' r q' n' Hl IHl Htok Hp Hq Hf Hr IHr|p ts l q n ts' r q' n' j Hl IHl Hm Hp Hq Hr IHr].
    - inversion H; subst; lia.
    - lia.
    - lia.
  Qed.

  Lemma left_operand : forall op p ts l q n, op <> Factorial -> Chain p ts l q n -> bracket_left op l = false -> strength op <= q.
  Proof.
    intros op p ts l q n Hop H Hb. unfold bracket_left in Hb. apply orb_false_iff in Hb. destruct Hb as [Hs Hb].
    assert (S4 : strength op <= 2 \/ op = Power) by (destruct op; cbn; auto; congruence).
    inversion H as [p0 ts0 t0 q0 Ho|p0 ts0 l0 q0 n0 tok op' ts' r q' n' Hl Htok Hp Hq Hf Hr|p0 ts0 l0 q0 n0 ts' r q' n' j Hl Hm Hp Hq Hr]; subst.
    - inversion Ho; subst; destruct S4 as [S4|S4]; try subst op; try lia; cbn; try lia.
      cbn in Hs. match goal with Hx : sign_op _ ?o |- _ => destruct Hx as [[_ ->]|[_ ->]] end; discriminate Hs.
    - apply Nat.ltb_ge in Hb. pose proof (limit_low _ _ _ _ _ Hr) as L.
      destruct S4 as [S4| ->]; [lia|]. cbn in Hs, Hb |- *.
      destruct op'; cbn in Hb; try lia.
      + cbn. cbn in Hr. inversion Hr; subst.
        * match goal with Hx : operand _ _ _ _ _ _ |- _ => inversion Hx; subst; try lia end.
          match goal with Hx : sign_op _ ?o |- _ => destruct Hx as [[_ ->]|[_ ->]] end; discriminate Hs.
        * match goal with Hx : 4 < strength ?o |- _ => destruct o; cbn in Hx; try lia end.
          match goal with Hx : Factorial = Factorial -> _ |- _ => specialize (Hx eq_refl); discriminate Hx end.
        * match goal with Hx : 4 < ?o |- _ => exfalso; revert Hx; unfold j, implicit_strength; destruct pj; lia end.
      + specialize (Hf eq_refl). discriminate Hf.
    - assert (B : strength op <= 2) by (destruct op; cbn in *; try discriminate Hb; lia). pose proof (limit_low _ _ _ _ _ Hr) as L.
      assert (J : 2 <= j) by (unfold j, implicit_strength; destruct pj; lia). fold j. lia.
  Qed.
End Read.

Lemma clear_in_brackets : forall ctx b ts, clear_tokens ctx ts -> clear_tokens ctx (in_brackets b ts).
Proof.
  intros ctx [] ts H; [|exact H]. cbn [in_brackets].
  assert (G : forall P, (forall t, ~ P (TSym "(") t) -> (forall t, ~ P t (TSym ")")) -> ~ adjacent P ts -> ~ adjacent P (TSym "(" :: ts ++ [TSym ")"])%list).
  { intros P Hl Hr Hn [u [a [b [v [E Hab]]]]]. destruct u as [|c u]; cbn in E; injection E as E1 E2.
    - subst a. exact (Hl _ Hab).
    - destruct (@exists_last _ (a :: b :: v)) as [m [z Ez]]; [discriminate|]. rewrite Ez, app_assoc in E2.
      apply app_inj_tail in E2. destruct E2 as [E2 <-]. destruct v as [|d v].
      + change [a; b] with ([a] ++ [b])%list in Ez. apply app_inj_tail in Ez. destruct Ez as [_ ->]. exact (Hr _ Hab).
      + destruct (@exists_last _ (d :: v)) as [m' [z' Ez']]; [discriminate|]. rewrite Ez' in Ez.
        change (a :: b :: m' ++ [z'])%list with ((a :: b :: m') ++ [z'])%list in Ez. apply app_inj_tail in Ez. destruct Ez as [<- _].
        apply Hn. exists u, a, b, m'. auto. }
  destruct H as [H1 H2]. split; apply G; auto; intros t [K1 K2]; try discriminate; destruct K2 as [s K2]; discriminate.
Qed.

Lemma clear_joined : forall ctx op ts ts', op <> Factorial -> clear_tokens ctx ts -> clear_tokens ctx ts' ->
  clear_tokens ctx (ts ++ TSym (op_byte op) :: ts')%list.
Proof.
  intros ctx op ts ts' Hop [A1 A2] [B1 B2].
  assert (G : forall P, (forall t, ~ P (TSym (op_byte op)) t) -> (forall t, ~ P t (TSym (op_byte op))) -> ~ adjacent P ts -> ~ adjacent P ts' ->
    ~ adjacent P (ts ++ TSym (op_byte op) :: ts')%list).
  { intros P Hl Hr Hn Hn'. clear A1 A2. induction ts as [|c ts IH]; cbn [app].
    - intros [u [a [b [v [E Hab]]]]]. destruct u as [|d u]; cbn in E; injection E as E1 E2.
      + subst a. exact (Hl _ Hab).
      + apply Hn'. exists u, a, b, v. auto.
    - intros [u [a [b [v [E Hab]]]]]. destruct u as [|d u]; cbn in E; injection E as E1 E2.
      + subst a. destruct ts as [|e ts]; cbn in E2; injection E2 as E2 E3; subst b.
        * exact (Hr _ Hab).
        * apply Hn. exists [], c, e, ts. auto.
      + apply IH.
        * intro K. apply Hn. destruct K as [u' [a' [b' [v' [E' Hab']]]]]. exists (c :: u'), a', b', v'. subst ts. auto.
        * exists u, a, b, v. auto. }
  split; apply G; auto; intros t [K1 K2].
  - injection K1. destruct op; try discriminate. congruence.
  - injection K2. destruct op; try discriminate. congruence.
  - destruct op; discriminate K1.
  - destruct K2 as [s K2]. discriminate K2.
Qed.

Lemma accepted_chain : forall cfg w ctx a ts x, optimize cfg = false -> fair_order w -> tokens_of a ts -> clear_tokens ctx ts ->
  parse cfg w ctx a = Parse_ok x -> (exists q n, chain (pejmdas cfg) ctx false 0 ts (root x) q n) /\ declared ctx (root x).
Proof.
  intros cfg w ctx a ts x Ho Hf Hts Hcl Ha. pose proof (accepted_nonempty _ _ _ _ _ Ha) as Na.
  destruct (proj1 (C04_accepted_exactly cfg w ctx a ts (root x) Ho Hf Na Hts)) as [[q [n D]] V]; [eauto|].
  split; auto. exists q, n. now apply chain_clear.
Qed.

Lemma chain_accepted : forall cfg w ctx a ts t q n, optimize cfg = false -> fair_order w -> tokens_of a ts -> a <> "" ->
  chain (pejmdas cfg) ctx false 0 ts t q n -> declared ctx t -> exists x, parse cfg w ctx a = Parse_ok x /\ root x = t.
Proof.
  intros cfg w ctx a ts t q n Ho Hf Hts Na H V. apply (C04_accepted_exactly cfg w ctx a ts t Ho Hf Na Hts). split; auto.
  exists q, n. now apply chain_more.
Qed.

Lemma declared_bin : forall ctx op l r, declared ctx l -> declared ctx r -> declared ctx (BinOp op l r).
Proof. intros ctx op l r Hl Hr s E v H. inversion H; subst; eauto. Qed.

(** With brackets only where they are needed, the join is read as the operator
    applied to what the two texts are read as. *)
Theorem C90_lean_join : forall cfg w ctx op a b ts ts' x y,
  optimize cfg = false -> fair_order w -> op <> Factorial ->
  tokens_of a ts -> clear_tokens ctx ts -> tokens_of b ts' -> clear_tokens ctx ts' ->
  parse cfg w ctx a = Parse_ok x -> parse cfg w ctx b = Parse_ok y ->
  exists z, parse cfg w ctx (joined_lean op a (root x) b (root y)) = Parse_ok z /\ root z = BinOp op (root x) (root y).
Proof.
  intros cfg w ctx op a b ts ts' x y Ho Hf Hop Ha Ca Hb Cb Px Py.
  destruct (accepted_chain _ _ _ _ _ _ Ho Hf Ha Ca Px) as [[q [n Cx]] Vx]. destruct (accepted_chain _ _ _ _ _ _ Ho Hf Hb Cb Py) as [[q' [n' Cy]] Vy].
  assert (S4 : strength op <= 4) by (destruct op; cbn; try lia; congruence).
  assert (L : exists ql nl, chain (pejmdas cfg) ctx false 0 (in_brackets (bracket_left op (root x)) ts) (root x) ql nl /\ strength op <= ql).
  { destruct (bracket_left op (root x)) eqn:E.
    - exists 4. eexists. split; [|exact S4]. apply C_operand, O_plain. eapply R_paren. exact Cx.
    - exists q, n. split; [exact Cx|]. eapply left_operand; eauto. }
  assert (R : exists qr nr, chain (pejmdas cfg) ctx false (strength op) (in_brackets (bracket_right op (root y)) ts') (root y) qr nr).
  { destruct (bracket_right op (root y)) eqn:E.
    - exists 4. eexists. apply C_operand, O_plain. eapply R_paren. exact Cy.
    - exists q', n'. now apply right_operand. }
  destruct L as [ql [nl [L Hq]]]. destruct R as [qr [nr R]].
  eapply chain_accepted; [exact Ho|exact Hf| |apply joined_nonempty| |apply declared_bin; auto].
  - unfold joined_lean. apply joined_has_tokens; [exact Hop|apply bracket_tokens; exact Ha|apply bracket_tokens; exact Hb].
  - eapply C_operator; [exact L|apply op_byte_token|destruct op; cbn; lia|exact Hq|intro; congruence|exact R].
Qed.

(** So where no brackets are needed, the bare join is read as written... *)
Theorem C90_read_as_written : forall cfg w ctx op a b ts ts' x y,
  optimize cfg = false -> fair_order w -> op <> Factorial ->
  tokens_of a ts -> clear_tokens ctx ts -> tokens_of b ts' -> clear_tokens ctx ts' ->
  parse cfg w ctx a = Parse_ok x -> parse cfg w ctx b = Parse_ok y ->
  bracket_left op (root x) = false -> bracket_right op (root y) = false ->
  exists z, parse cfg w ctx (joined op a b) = Parse_ok z /\ root z = BinOp op (root x) (root y).
Proof.
  intros cfg w ctx op a b ts ts' x y Ho Hf Hop Ha Ca Hb Cb Px Py Bl Br.
  pose proof (C90_lean_join cfg w ctx op a b ts ts' x y Ho Hf Hop Ha Ca Hb Cb Px Py) as H.
  unfold joined_lean in H. rewrite Bl, Br in H. exact H.
Qed.

(** ...and with both texts in brackets it always is, whatever the texts. *)
Theorem C90_in_brackets : forall cfg w ctx op a b x y,
  optimize cfg = false -> fair_order w -> op <> Factorial ->
  parse cfg w ctx a = Parse_ok x -> parse cfg w ctx b = Parse_ok y ->
  exists z, parse cfg w ctx (joined_in_brackets op a b) = Parse_ok z /\ root z = BinOp op (root x) (root y).
Proof.
  intros cfg w ctx op a b x y Ho Hf Hop Px Py.
  destruct (lexes_total (bytes a)) as [ts Hts]. destruct (lexes_total (bytes b)) as [ts' Hts'].
  pose proof (accepted_nonempty _ _ _ _ _ Px) as Na. pose proof (accepted_nonempty _ _ _ _ _ Py) as Nb.
  destruct (proj1 (C04_accepted_exactly cfg w ctx a ts (root x) Ho Hf Na Hts)) as [[q [n Cx]] Vx]; [eauto|].
  destruct (proj1 (C04_accepted_exactly cfg w ctx b ts' (root y) Ho Hf Nb Hts')) as [[q' [n' Cy]] Vy]; [eauto|].
  assert (T : tokens_of (joined_in_brackets op a b) ((TSym "(" :: ts ++ [TSym ")"]) ++ TSym (op_byte op) :: TSym "(" :: ts' ++ [TSym ")"])%list).
  { apply joined_has_tokens; [exact Hop|apply tokens_parens; exact Hts|apply tokens_parens; exact Hts']. }
  apply (C04_accepted_exactly cfg w ctx _ _ _ Ho Hf (joined_nonempty _ _ _) T). split; [|apply declared_bin; auto].
  eexists. eexists. eapply C_operator; [apply C_operand, O_plain; eapply R_paren; exact Cx|apply op_byte_token| | | |apply C_operand, O_plain; eapply R_paren; exact Cy].
  - destruct op; cbn; lia.
  - destruct op; cbn; try lia; congruence.
  - congruence.
Qed.

(** The value of the join is the operation on the values of the two texts. *)
Theorem C90_value : forall cfg w ctx op a b x y rho u v,
  optimize cfg = false -> fair_order w -> op <> Factorial ->
  parse cfg w ctx a = Parse_ok x -> parse cfg w ctx b = Parse_ok y ->
  eval w x rho = Val (Eval_ok u) -> eval w y rho = Val (Eval_ok v) ->
  exists z, parse cfg w ctx (joined_in_brackets op a b) = Parse_ok z /\ eval w z rho = Val (Eval_ok (operation w op u v)).
Proof.
  intros cfg w ctx op a b x y rho u v Ho Hf Hop Px Py Eu Ev.
  destruct (C90_in_brackets cfg w ctx op a b x y Ho Hf Hop Px Py) as [z [Hz Ez]]. exists z. split; [exact Hz|].
  unfold eval in *. rewrite Ez. cbn [eval_element]. rewrite Eu. cbn. rewrite Ev. destruct op; try reflexivity. congruence.
Qed.

(** ** Many texts *)
Lemma joined_all_cons : forall op a b texts, joined_all op (a :: b :: texts) = joined_all op (joined op a b :: texts).
Proof.
  intros op a b texts. unfold joined_all, joined. destruct texts as [|c texts]; cbn [String.concat].
  - now rewrite !append_assoc.
  - now rewrite !append_assoc.
Qed.

(** A list of texts joined by '+', '-', '*', '/' or '%' is read as the operator applied from
    the left, provided no text but the first has at its top an operator that is not stronger. *)
Theorem C90_list : forall cfg w ctx op texts xs a ts x,
  optimize cfg = false -> fair_order w -> op <> Factorial -> op <> Power ->
  tokens_of a ts -> clear_tokens ctx ts -> parse cfg w ctx a = Parse_ok x -> bracket_left op (root x) = false ->
  Forall2 (fun b y => parse cfg w ctx b = Parse_ok y /\ bracket_right op (root y) = false /\
    exists ts', tokens_of b ts' /\ clear_tokens ctx ts') texts xs ->
  exists z, parse cfg w ctx (joined_all op (a :: texts)) = Parse_ok z /\
    root z = fold_left (fun l y => BinOp op l (root y)) xs (root x).
Proof.
  intros cfg w ctx op texts. induction texts as [|b texts IH]; intros xs a ts x Ho Hf Hop Hp Ha Ca Px Bl H; inversion H as [|b' y texts' ys [Py [Br [ts' [Hb Cb]]]] Hall]; subst.
  - exists x. split; [exact Px|reflexivity].
  - rewrite joined_all_cons.
    destruct (C90_read_as_written cfg w ctx op a b ts ts' x y Ho Hf Hop Ha Ca Hb Cb Px Py Bl Br) as [z [Hz Ez]].
    destruct (IH ys (joined op a b) (ts ++ TSym (op_byte op) :: ts')%list z Ho Hf Hop Hp) as [z' [Hz' Ez']]; auto.
    + now apply joined_has_tokens.
    + now apply clear_joined.
    + rewrite Ez. unfold bracket_left. rewrite Nat.ltb_irrefl. destruct op; try reflexivity. congruence.
    + exists z'. split; [exact Hz'|]. rewrite Ez', Ez. reflexivity.
Qed.

(** ** Texts as arguments *)

(** A function's name applied to accepted texts, as many as it takes, is read
    as the call on what they are read as. *)
Theorem C90_arguments : forall cfg w ctx name f texts xs,
  optimize cfg = false -> fair_order w -> is_name name -> stands_for ctx name = I_Function f ->
  texts <> [] -> match fn_nb_args f with None => True | Some n => List.length texts = n end ->
  Forall2 (fun a x => parse cfg w ctx a = Parse_ok x) texts xs ->
  exists z, parse cfg w ctx (applied name texts) = Parse_ok z /\ root z = Call f (map root xs).
Proof.
  intros cfg w ctx name f texts xs Ho Hf Hn Hs Hne Har H.
  assert (L : List.length texts = List.length xs) by (clear - H; induction H; cbn; congruence).
  assert (G : exists ts, tokens_of (join ", " texts) ts /\ arguments (pejmdas cfg) ctx true ts (map root xs) /\
     Forall (fun x => declared ctx (root x)) xs).
  { clear Har L Hs Hn. induction H as [|a x texts xs Ha Hall IH]; [congruence|].
    destruct (lexes_total (bytes a)) as [ts Hts]. pose proof (accepted_nonempty _ _ _ _ _ Ha) as Na.
    destruct (proj1 (C04_accepted_exactly cfg w ctx a ts (root x) Ho Hf Na Hts)) as [[q [n Cx]] Vx]; [eauto|].
    destruct Hall as [|b y texts xs Hb Hall].
    - exists ts. split; [exact Hts|]. split; [eapply G_last; exact Cx|]. repeat constructor. exact Vx.
    - destruct IH as [ts' [T' [A' D']]]; [discriminate|]. exists (ts ++ TSym "," :: ts')%list. split; [|split].
      + change (join ", " (a :: b :: texts)) with (a ++ ", " ++ join ", " (b :: texts)).
        unfold tokens_of. rewrite !list_ascii_app. apply lexes_glue; [exact Hts|apply separates_check; reflexivity|].
        apply sym_check; [reflexivity|]. apply L_ws; [reflexivity|exact T'].
      + cbn [map]. eapply G_more; [exact Cx|exact A'].
      + constructor; assumption. }
  destruct G as [ts [T [A D]]].
  assert (V : declared ctx (Call f (map root xs))).
  { intros s E v Hv. inversion Hv as [| | | |f' args a Ha Hoc]; subst. apply in_map_iff in Ha. destruct Ha as [x [<- Hx]].
    rewrite Forall_forall in D. exact (D x Hx s E v Hoc). }
  assert (Na : applied name texts <> "").
  { apply (tokens_nonempty _ _ (call_tokens name _ ts Hn T)). discriminate. }
  apply (C04_accepted_exactly cfg w ctx (applied name texts) _ _ Ho Hf Na (call_tokens name _ ts Hn T)). split; [|exact V].
  eexists. eexists. apply C_operand, O_plain. apply R_call; [exact Hs|exact A|].
  unfold SpecGrammar.arity_ok. destruct (fn_nb_args f); auto. rewrite map_length. congruence.
Qed.

(** ** The default build *)

(** An optimising build too accepts the join of any two texts it accepts,
    where neither has a number after a number, a constant or ')', or "!!". *)
Theorem C90_default_accepted : forall cfg w ctx op a b ts ts' x y,
  optimize cfg = true -> get_expected_vars ctx = None -> fair_order w -> context_functions_return w ctx -> op <> Factorial ->
  tokens_of a ts -> clear_tokens ctx ts -> tokens_of b ts' -> clear_tokens ctx ts' ->
  parse cfg w ctx a = Parse_ok x -> parse cfg w ctx b = Parse_ok y ->
  exists z, parse cfg w ctx (joined op a b) = Parse_ok z.
Proof.
  intros cfg w ctx op a b ts ts' x y Ho Hv Hf Hr Hop Ha Ca Hb Cb Px Py.
  destruct (C18_optimised_accepts_less cfg (plain cfg) w ctx a x eq_refl Hv Px) as [x' Px'].
  destruct (C18_optimised_accepts_less cfg (plain cfg) w ctx b y eq_refl Hv Py) as [y' Py'].
  destruct (C90_always_accepted (plain cfg) w ctx op a b x' y' eq_refl Hf Hop Px' Py') as [z' [Hz' _]].
  pose proof (joined_has_tokens op a b ts ts' Hop Ha Hb) as T.
  destruct (clear_parts ctx _ _ T (clear_joined ctx op ts ts' Hop Ca Cb)) as [Hd Hn].
  destruct (C18_plain_accepted cfg (plain cfg) w ctx _ _ z' Ho eq_refl eq_refl Hf Hr Hd T Hn Hz') as [z [Hz _]]. eauto.
Qed.

(** And brackets where needed give the value of the operation, wherever
    simplifying preserves values (see C19). *)
Theorem C90_default_value : forall cfg w ctx op a b ts ts' x y rho u v,
  optimize cfg = true -> fair_order w -> context_functions_return w ctx -> op <> Factorial ->
  tokens_of a ts -> clear_tokens ctx ts -> tokens_of b ts' -> clear_tokens ctx ts' ->
  parse (plain cfg) w ctx a = Parse_ok x -> parse (plain cfg) w ctx b = Parse_ok y ->
  regular w (lookup rho) (root x) u -> regular w (lookup rho) (root y) v -> regular_operands w op u v ->
  exists z v', parse cfg w ctx (joined_lean op a (root x) b (root y)) = Parse_ok z /\
    eval w z rho = Val (Eval_ok v') /\ same_value (operation w op u v) v'.
Proof.
  intros cfg w ctx op a b ts ts' x y rho u v Ho Hf Hr Hop Ha Ca Hb Cb Px Py Ru Rv Rop.
  destruct (C90_lean_join (plain cfg) w ctx op a b ts ts' x y eq_refl Hf Hop Ha Ca Hb Cb Px Py) as [z0 [Hz0 Ez0]].
  assert (T : tokens_of (joined_lean op a (root x) b (root y))
     (in_brackets (bracket_left op (root x)) ts ++ TSym (op_byte op) :: in_brackets (bracket_right op (root y)) ts')%list).
  { apply joined_has_tokens; [exact Hop|apply bracket_tokens; exact Ha|apply bracket_tokens; exact Hb]. }
  pose proof (clear_joined ctx op _ _ Hop (clear_in_brackets ctx (bracket_left op (root x)) ts Ca) (clear_in_brackets ctx (bracket_right op (root y)) ts' Cb)) as Cl.
  destruct (clear_parts ctx _ _ T Cl) as [Hd Hn].
  destruct (C18_plain_accepted cfg (plain cfg) w ctx _ _ z0 Ho eq_refl eq_refl Hf Hr Hd T Hn Hz0) as [z [Hz _]].
  assert (R : regular w (lookup rho) (root z0) (operation w op u v)) by (rewrite Ez0; now apply RG_bin).
  destruct (C19_optimised_value cfg (plain cfg) w ctx _ _ z0 z rho _ Ho eq_refl eq_refl T Hn Hz0 Hz R) as [_ [v' [Hv' Sv]]].
  exists z, v'. auto.
Qed.

(** ** Examples *)
Example C90_witness : exists z,
  parse plain_config w0 ctx_default "(x + 1) * (y - 2)" = Parse_ok z /\
  root z = BinOp Times (BinOp Plus (Var "x") one) (BinOp Minus (Var "y") two) /\
  exists z', parse plain_config w0 ctx_default "x + 1 - 2 y ^ 2 - -x!" = Parse_ok z' /\
  root z' = BinOp Minus (BinOp Minus (BinOp Plus (Var "x") one) (BinOp Times two (BinOp Power (Var "y") two))) (UnOp Minus (UnOp Factorial (Var "x"))).
Proof.
  destruct (parses_to (parse plain_config w0 ctx_default "x + 1") (BinOp Plus (Var "x") one)) as [x [Hx Ex]]; [vm_compute; reflexivity|].
  destruct (parses_to (parse plain_config w0 ctx_default "y - 2") (BinOp Minus (Var "y") two)) as [y [Hy Ey]]; [vm_compute; reflexivity|].
  destruct (parses_to (parse plain_config w0 ctx_default "2 y ^ 2") (BinOp Times two (BinOp Power (Var "y") two))) as [b [Hb Eb]]; [vm_compute; reflexivity|].
  destruct (parses_to (parse plain_config w0 ctx_default "-x!") (UnOp Minus (UnOp Factorial (Var "x")))) as [c [Hc Ec]]; [vm_compute; reflexivity|].
  destruct (C90_lean_join plain_config w0 ctx_default Times "x + 1" "y - 2" [TId "x"; TSym "+"; TNum "1"] [TId "y"; TSym "-"; TNum "2"] x y eq_refl w0_fair ltac:(discriminate)) as [z [Hz Ez]].
  - apply tokens_check. vm_compute. reflexivity.
  - apply clear_check. vm_compute. reflexivity.
  - apply tokens_check. vm_compute. reflexivity.
  - apply clear_check. vm_compute. reflexivity.
  - exact Hx.
  - exact Hy.
  - exists z. rewrite Ex, Ey in Ez, Hz. split; [exact Hz|]. split; [exact Ez|].
    destruct (C90_list plain_config w0 ctx_default Minus ["2 y ^ 2"; "-x!"] [b; c] "x + 1" [TId "x"; TSym "+"; TNum "1"] x eq_refl w0_fair ltac:(discriminate) ltac:(discriminate)) as [z' [Hz' Ez']].
    + apply tokens_check. vm_compute. reflexivity.
    + apply clear_check. vm_compute. reflexivity.
    + exact Hx.
    + rewrite Ex. reflexivity.
    + constructor; [|constructor; [|constructor]].
      * split; [exact Hb|]. split; [rewrite Eb; reflexivity|]. exists [TNum "2"; TId "y"; TSym "^"; TNum "2"].
        split; [apply tokens_check; vm_compute; reflexivity|apply clear_check; vm_compute; reflexivity].
      * split; [exact Hc|]. split; [rewrite Ec; reflexivity|]. exists [TSym "-"; TId "x"; TSym "!"].
        split; [apply tokens_check; vm_compute; reflexivity|apply clear_check; vm_compute; reflexivity].
    + exists z'. split; [exact Hz'|]. rewrite Ez'. cbn [fold_left]. rewrite Ex, Eb, Ec. reflexivity.
Qed.

Example C90_arguments_witness : exists z,
  parse plain_config w0 ctx_default "max(1+2 2, x, -x!)" = Parse_ok z /\
  root z = Call (builtin_function B_MAX) [BinOp Times (BinOp Plus one two) two; Var "x"; UnOp Minus (UnOp Factorial (Var "x"))].
Proof.
  destruct (parses_to (parse plain_config w0 ctx_default "1+2 2") (BinOp Times (BinOp Plus one two) two)) as [u [Hu Eu]]; [vm_compute; reflexivity|].
  destruct (parses_to (parse plain_config w0 ctx_default "x") (Var "x")) as [x [Hx Ex]]; [vm_compute; reflexivity|].
  destruct (parses_to (parse plain_config w0 ctx_default "-x!") (UnOp Minus (UnOp Factorial (Var "x")))) as [c [Hc Ec]]; [vm_compute; reflexivity|].
  destruct (C90_arguments plain_config w0 ctx_default "max" (builtin_function B_MAX) ["1+2 2"; "x"; "-x!"] [u; x; c] eq_refl w0_fair) as [z [Hz Ez]].
  - apply is_name_check; reflexivity.
  - reflexivity.
  - discriminate.
  - exact I.
  - constructor; [exact Hu|]. constructor; [exact Hx|]. constructor; [exact Hc|constructor].
  - exists z. split; [exact Hz|]. rewrite Ez. cbn [map]. rewrite Eu, Ex, Ec. reflexivity.
Qed.

(** Without brackets where they are needed the join means something else; a
    number after a number takes in the text before it; and without the spaces
    two texts may run together into one number. *)
Theorem C90_bare_join_refuted : exists x y z u v,
  parse plain_config w0 ctx_default (joined Times "1+2" "x") = Parse_ok x /\
  root x = BinOp Plus one (BinOp Times two (Var "x")) /\
  parse plain_config w0 ctx_default (joined Minus "x" "1-2") = Parse_ok y /\
  root y = BinOp Minus (BinOp Minus (Var "x") one) two /\
  parse plain_config w0 ctx_default "1+2 2" = Parse_ok u /\
  root u = BinOp Times (BinOp Plus one two) two /\ bracket_right Plus (root u) = false /\
  parse plain_config w0 ctx_default (joined Plus "x" "1+2 2") = Parse_ok z /\
  root z = BinOp Times (BinOp Plus (BinOp Plus (Var "x") one) two) two /\
  (exists t, parse plain_config w0 ctx_default "2e" = Parse_ok t) /\
  parse plain_config w0 ctx_default ("2e" ++ "+" ++ "3") = Parse_ok v /\ root v = Number (lit "2000").
Proof.
  destruct (parses_to (parse plain_config w0 ctx_default (joined Times "1+2" "x")) (BinOp Plus one (BinOp Times two (Var "x")))) as [x [Hx Ex]]; [vm_compute; reflexivity|].
  destruct (parses_to (parse plain_config w0 ctx_default (joined Minus "x" "1-2")) (BinOp Minus (BinOp Minus (Var "x") one) two)) as [y [Hy Ey]]; [vm_compute; reflexivity|].
  destruct (parses_to (parse plain_config w0 ctx_default "1+2 2") (BinOp Times (BinOp Plus one two) two)) as [u [Hu Eu]]; [vm_compute; reflexivity|].
  destruct (parses_to (parse plain_config w0 ctx_default (joined Plus "x" "1+2 2")) (BinOp Times (BinOp Plus (BinOp Plus (Var "x") one) two) two)) as [z [Hz Ez]]; [vm_compute; reflexivity|].
  destruct (parses_ok (parse plain_config w0 ctx_default "2e")) as [t Ht]; [vm_compute; reflexivity|].
  destruct (parses_to (parse plain_config w0 ctx_default ("2e" ++ "+" ++ "3")) (Number (lit "2000"))) as [v [Hv Ev]]; [vm_compute; reflexivity|].
  exists x, y, z, u, v. split; [exact Hx|]. split; [exact Ex|]. split; [exact Hy|]. split; [exact Ey|].
  split; [exact Hu|]. split; [exact Eu|]. split; [rewrite Eu; reflexivity|]. split; [exact Hz|]. split; [exact Ez|].
  split; [exists t; exact Ht|]. split; [exact Hv|exact Ev].
Qed.
