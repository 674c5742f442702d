(** * C91: text put between brackets *)
From Coq Require Import ZArith NArith List String Ascii Bool Lia.
From Flocq Require Import BinarySingleNaN.
From Verif Require Import SpecChars CharFacts.
From Verif Require Import F64 Syntax Factorial Builtins Context Element Parser Xprs Display.
From Verif Require Import ParserFacts SpecParse ParserInv SpecTree TreeFacts SpecApi ParserResults SpecTokens SpecGrammar SpecNumber SpecNames SpecDisplay SpecBrackets SpecJoin SpecIsolate.
From Verif Require Import SimplifyFacts SpecRegular SpecScan SpecRewrite OptFacts FlatFacts ScanFacts ScanPrefix.
From Verif Require Import FloatFacts NumberFacts DisplayFacts TokenFacts LexFacts LexExec TokenParser TokenSim TokenMono GrammarFacts GrammarEquiv JuxtaFacts RegularFacts.
From Verif Require Import BindFacts.
From Verif Require Import TestWorld PropertiesParse PropertiesGrammar PropertiesNames PropertiesEval PropertiesSimplify PropertiesEq PropertiesOptimise PropertiesScan PropertiesDisplay PropertiesNormal PropertiesDefault PropertiesBrackets PropertiesJoin.
Import ListNotations.
Local Open Scope string_scope.

Lemma string_of_app : forall a b, string_of_list_ascii (a ++ b) = string_of_list_ascii a ++ string_of_list_ascii b.
Proof. induction a as [|c a IH]; intro b; cbn; [reflexivity|]. now rewrite IH. Qed.

Lemma derived_nonempty : forall pj ctx k,
  (forall p ts t q n, chain pj ctx k p ts t q n -> ts <> []) /\
  (forall ts t q, operand pj ctx k ts t q -> ts <> []) /\
  (forall ts t, primary pj ctx k ts t -> ts <> []) /\
  (forall ts l, arguments pj ctx k ts l -> ts <> []).
Proof.
  intros pj ctx k. apply chain_mutind; intros; auto; try discriminate; match goal with |- (?a ++ _)%list <> [] => destruct a; [congruence|discriminate] end.
Qed.

(** ** levels of tokens *)
Definition side (t : token) : Z :=
  match t with TSym c => if Ascii.eqb c "(" then 1%Z else if Ascii.eqb c ")" then (-1)%Z else 0%Z | _ => 0%Z end.
Fixpoint tlevel (ts : list token) : Z := match ts with [] => 0%Z | t :: r => (side t + tlevel r)%Z end.

Ltac lev := cbn [tlevel app] in *; change (side (TSym "(")) with 1%Z in *; change (side (TSym ")")) with (-1)%Z in *; rewrite ?Z.add_0_r in *.

Lemma tlevel_app : forall a b, tlevel (a ++ b)%list = (tlevel a + tlevel b)%Z.
Proof. induction a as [|t a IH]; intro b; cbn; [reflexivity|]. rewrite IH. lia. Qed.

Definition blevel (l : list ascii) : Z :=
  (Z.of_nat (count_occ ascii_dec l "("%char) - Z.of_nat (count_occ ascii_dec l ")"%char))%Z.

Lemma blevel_app : forall a b, blevel (a ++ b)%list = (blevel a + blevel b)%Z.
Proof. intros. unfold blevel. rewrite !count_occ_app. lia. Qed.

Lemma blevel_cons : forall c l, blevel (c :: l) = (side (TSym c) + blevel l)%Z.
Proof.
  intros c l. unfold blevel, side. cbn [count_occ]. destruct (ascii_dec c "(") as [->|N]; [destruct (ascii_dec "(" ")") as [E|_]; [discriminate E|]; change ("(" =? "(")%char with true; cbv iota; lia|].
  destruct (ascii_dec c ")") as [->|N']; [change (")" =? "(")%char with false; change (")" =? ")")%char with true; cbv iota; lia|]. apply Ascii.eqb_neq in N, N'. rewrite N, N'. lia.
Qed.

Lemma blevel_none : forall p l, p "("%char = false -> p ")"%char = false -> Forall (fun c => p c = true) l -> blevel l = 0%Z.
Proof.
  intros p l H1 H2 H. induction H as [|c l Hc Hl IH]; [reflexivity|]. rewrite blevel_cons, IH. cbn.
  destruct (Ascii.eqb_spec c "(") as [->|_]; [congruence|]. destruct (Ascii.eqb_spec c ")") as [->|_]; [congruence|]. reflexivity.
Qed.

Lemma level_tokens : forall l ts, lexes l ts -> blevel l = tlevel ts.
Proof.
  intros l ts H. induction H as [|c s ts Hw H IH|m s ts Hm H IH|m s ts Hm H IH|c s ts Hw Hd Hp Ha H IH].
  - reflexivity.
  - rewrite blevel_cons, IH. cbn. destruct (Ascii.eqb_spec c "(") as [->|_]; [discriminate Hw|]. destruct (Ascii.eqb_spec c ")") as [->|_]; [discriminate Hw|]. reflexivity.
  - rewrite blevel_app, IH. cbn [tlevel side]. enough (blevel m = 0%Z) by lia.
    assert (E : forall m', Forall (fun c => in_mantissa c = true) m' -> blevel m' = 0%Z) by (intros; eapply blevel_none; eauto; reflexivity).
    assert (D : forall m', Forall (fun c => a_digit c = true) m' -> blevel m' = 0%Z) by (intros; eapply blevel_none; eauto; reflexivity).
    assert (S1 : forall p c, p "("%char = false -> p ")"%char = false -> p c = true -> side (TSym c) = 0%Z).
    { intros p c H1 H2 Hc. cbn. destruct (Ascii.eqb_spec c "(") as [->|_]; [congruence|]. destruct (Ascii.eqb_spec c ")") as [->|_]; [congruence|]. reflexivity. }
    destruct Hm as [m rest _ Hm _ _|m e ds rest _ Hm He _ Hds _|m e sg ds rest _ Hm He Hsg _ Hds _].
    + auto.
    + rewrite blevel_app, blevel_cons, E, D by assumption. rewrite (S1 _ e eq_refl eq_refl He). reflexivity.
    + rewrite blevel_app, !blevel_cons, E, D by assumption. rewrite (S1 _ e eq_refl eq_refl He), (S1 _ sg eq_refl eq_refl Hsg). reflexivity.
  - rewrite blevel_app, IH. cbn [tlevel side]. destruct Hm as [_ [Hm _]]. rewrite (blevel_none in_name); auto.
  - rewrite blevel_cons, IH. reflexivity.
Qed.

(** ** balanced tokens *)
Definition tbalanced (ts : list token) : Prop := tlevel ts = 0%Z /\ forall u v, ts = (u ++ v)%list -> (0 <= tlevel u)%Z.

Lemma tbalanced_app : forall a b, tbalanced a -> tbalanced b -> tbalanced (a ++ b)%list.
Proof.
  intros a b [A0 A] [B0 B]. split; [rewrite tlevel_app; lia|]. intros u v E.
  apply app_eq_app in E. destruct E as [m [[-> ->]|[-> ->]]].
  - apply (A u m eq_refl).
  - rewrite tlevel_app, A0. specialize (B m v eq_refl). lia.
Qed.

Lemma tbalanced_flat : forall t, side t = 0%Z -> tbalanced [t].
Proof. intros t H. split; [cbn; lia|]. intros [|a [|b u]] v E; cbn in E; try discriminate E; cbn; [lia|]. injection E as <- _. lia. Qed.

Lemma tbalanced_nil : tbalanced [].
Proof. split; [reflexivity|]. intros [|a u] v E; [cbn; lia|discriminate E]. Qed.

Lemma tbalanced_in : forall ts, tbalanced ts -> tbalanced (TSym "(" :: ts ++ [TSym ")"])%list.
Proof.
  intros ts [H0 H]. split; [lev; rewrite tlevel_app; lev; lia|]. intros u v E. destruct u as [|a u]; [cbn; lia|].
  cbn in E. injection E as <- E. apply app_eq_app in E. destruct E as [m [[-> E2]|[-> E2]]].
  - specialize (H u m eq_refl). lev. lia.
  - lev. rewrite tlevel_app, H0. destruct m as [|c m]; lev; [lia|]. injection E2 as <- E2. destruct m; [lev; lia|discriminate E2].
Qed.

Lemma operator_side : forall tok op, operator_token tok op -> side tok = 0%Z.
Proof.
  intros [s|s|c] op H; try reflexivity. cbn in H. cbn. destruct (Ascii.eqb_spec c "(") as [->|_]; [discriminate H|].
  destruct (Ascii.eqb_spec c ")") as [->|_]; [discriminate H|]. reflexivity.
Qed.

Lemma derived_balanced : forall pj ctx k,
  (forall p ts t q n, chain pj ctx k p ts t q n -> tbalanced ts) /\
  (forall ts t q, operand pj ctx k ts t q -> tbalanced ts) /\
  (forall ts t, primary pj ctx k ts t -> tbalanced ts) /\
  (forall ts l, arguments pj ctx k ts l -> tbalanced ts).
Proof.
  intros pj ctx k. apply chain_mutind; intros; auto using tbalanced_app, tbalanced_in, tbalanced_flat.
  - apply tbalanced_app; auto. match goal with |- tbalanced (?a :: ?b) => apply (tbalanced_app [a] b) end; auto. eapply tbalanced_flat, operator_side; eauto.
  - match goal with |- tbalanced (?a :: ?b) => apply (tbalanced_app [a] b) end; auto. apply tbalanced_flat.
    match goal with H : sign_op _ _ |- _ => destruct H as [[-> _]|[-> _]] end; reflexivity.
  - match goal with |- tbalanced (?a :: ?b) => apply (tbalanced_app [a] b) end; auto using tbalanced_flat, tbalanced_in.
  - apply tbalanced_app; auto. match goal with |- tbalanced (?a :: ?b) => apply (tbalanced_app [a] b) end; auto using tbalanced_flat.
Qed.

(** a bracketed balanced part of [a ++ b] lies in one of the two if [a] is balanced *)
Lemma part_of_one : forall a b u ts v, tbalanced a -> tbalanced ts ->
  (a ++ b = u ++ TSym "(" :: ts ++ TSym ")" :: v)%list ->
  (exists v', a = u ++ TSym "(" :: ts ++ TSym ")" :: v')%list \/ (exists u', u = a ++ u' /\ b = u' ++ TSym "(" :: ts ++ TSym ")" :: v)%list.
Proof.
  intros a b u ts v [A0 A] [T0 T] E. apply app_eq_app in E. destruct E as [m [[-> E]|[-> E]]]; [|eauto].
  destruct m as [|c m].
  - right. exists []. rewrite !app_nil_r in *. cbn in E. auto.
  - cbn in E. injection E as <- E. left.
    change (TSym ")" :: v)%list with ([TSym ")"] ++ v)%list in E. rewrite app_assoc in E.
    apply app_eq_app in E. destruct E as [l [[E E']|[-> E]]]; swap 1 2.
    + exists l. rewrite <- !app_assoc. reflexivity.
    + destruct l as [|d l] using rev_ind.
      * exists []. rewrite app_nil_r in E. subst m. reflexivity.
      * exfalso. rewrite app_assoc in E. apply app_inj_tail in E. destruct E as [-> _].
        specialize (A u _ eq_refl). specialize (T m l eq_refl). rewrite tlevel_app in A0. lev. lia.
Qed.

(** two balanced lists followed by ')' *)
Lemma same_end : forall a b v, tbalanced a -> tbalanced b -> (a ++ [TSym ")"] = b ++ TSym ")" :: v)%list -> a = b /\ v = [].
Proof.
  intros a b v [A0 A] [B0 B] E. destruct v as [|d v _] using rev_ind.
  - apply app_inj_tail in E. destruct E; auto.
  - exfalso. change (b ++ TSym ")" :: v ++ [d])%list with (b ++ (TSym ")" :: v) ++ [d])%list in E. rewrite app_assoc in E.
    apply app_inj_tail in E. destruct E as [-> _]. change (TSym ")" :: v)%list with ([TSym ")"] ++ v)%list in A. rewrite app_assoc in A.
    specialize (A _ _ eq_refl). rewrite tlevel_app in A. lev. lia.
Qed.

(** [ts] has no comma outside its brackets *)
Definition tno_comma (ts : list token) : Prop := forall u v, ts = (u ++ TSym "," :: v)%list -> tlevel u <> 0%Z.

(** ** the part is derived by itself *)
Section Part.
  Variable pj : bool.
  Variable ctx : context.
  Variable k : bool.
  Variable part : list token.
  Hypothesis Hb : tbalanced part.
  Hypothesis Hc : tno_comma part.

  Definition inside (ts : list token) (t : element) : Prop :=
    forall u v, ts = (u ++ TSym "(" :: part ++ TSym ")" :: v)%list -> exists e, derives pj ctx k part e /\ sub e t.
  Definition inside_all (ts : list token) (l : list element) : Prop :=
    forall u v, ts = (u ++ TSym "(" :: part ++ TSym ")" :: v)%list -> exists e a, derives pj ctx k part e /\ In a l /\ sub e a.

  Lemma not_alone : forall t u v, side t <> 1%Z -> ([t] = u ++ TSym "(" :: part ++ TSym ")" :: v)%list -> False.
  Proof.
    clear Hb Hc. intros t u v H E. destruct u as [|a [|b u]]; cbn in E; try discriminate E. destruct part; discriminate E.
  Qed.

  Lemma after_flat : forall t b u v, side t <> 1%Z -> (t :: b = u ++ TSym "(" :: part ++ TSym ")" :: v)%list ->
    exists u', (b = u' ++ TSym "(" :: part ++ TSym ")" :: v)%list.
  Proof.
    intros t b [|a u] v H E; cbn in E; injection E as E1 E2.
    - subst t. exfalso. apply H. reflexivity.
    - eauto.
  Qed.

  Lemma inside_parts :
    (forall p ts t q n, chain pj ctx k p ts t q n -> inside ts t) /\
    (forall ts t q, operand pj ctx k ts t q -> inside ts t) /\
    (forall ts t, primary pj ctx k ts t -> inside ts t) /\
    (forall ts l, arguments pj ctx k ts l -> inside_all ts l).
  Proof.
    destruct (derived_balanced pj ctx k) as [Bc [Bo [Bp Ba]]].
    apply chain_mutind.
    - auto.
    - intros p ts l q n tok op ts' r q' n' Hl IHl Htok _ _ _ Hr IHr u v E.
      destruct (part_of_one _ _ _ _ _ (Bc _ _ _ _ _ Hl) Hb E) as [[v' E']|[u' [_ E']]].
      + destruct (IHl _ _ E') as [e [D S]]. exists e. split; auto using sub_binl.
      + destruct (after_flat _ _ _ _ ltac:(rewrite (operator_side _ _ Htok); lia) E') as [u2 E2].
        destruct (IHr _ _ E2) as [e [D S]]. exists e. split; auto using sub_binr.
    - intros p ts l q n ts' r q' n' j Hl IHl _ _ _ Hr IHr u v E.
      destruct (part_of_one _ _ _ _ _ (Bc _ _ _ _ _ Hl) Hb E) as [[v' E']|[u' [_ E']]].
      + destruct (IHl _ _ E') as [e [D S]]. exists e. split; auto using sub_binl.
      + destruct (IHr _ _ E') as [e [D S]]. exists e. split; auto using sub_binr.
    - auto.
    - intros ts t Hp IH u v E. destruct (part_of_one _ _ _ _ _ (Bp _ _ Hp) Hb E) as [[v' E']|[u' [_ E']]].
      + destruct (IH _ _ E') as [e [D S]]. exists e. split; auto using sub_un.
      + exfalso. eapply not_alone; [|exact E']. discriminate.
    - intros c op ts t q n Hs Ht IH u v E. destruct (after_flat (TSym c) ts u v) as [u2 E2]; auto.
      + destruct Hs as [[-> _]|[-> _]]; discriminate.
      + destruct (IH _ _ E2) as [e [D S]]. exists e. split; auto using sub_un.
    - intros s v0 _ u v E. exfalso. eapply not_alone; [|exact E]. discriminate.
    - intros s v0 _ u v E. exfalso. eapply not_alone; [|exact E]. discriminate.
    - intros s v0 _ u v E. exfalso. eapply not_alone; [|exact E]. discriminate.
    - intros s f ts args Hs Ha IH _ u v E. destruct (after_flat (TId s) _ _ _ ltac:(cbn; discriminate) E) as [u2 E2].
      destruct u2 as [|c u2]; cbn in E2; [injection E2 as E2|injection E2 as E1 E2].
      + destruct (same_end _ _ _ (Ba _ _ Ha) Hb E2) as [-> _]. inversion Ha; subst.
        * exists t. split; [exists q, n; assumption|]. eapply sub_arg; [now left|apply sub_refl].
        * exfalso. eapply (Hc ts ts'); [congruence|]. eapply Bc; eauto.
      + destruct (part_of_one _ _ _ _ _ (Ba _ _ Ha) Hb E2) as [[v' E']|[u' [_ E']]].
        * destruct (IH _ _ E') as [e [a [D [Hi S]]]]. exists e. split; auto. eapply sub_arg; eauto.
        * exfalso. eapply not_alone; [|exact E']. discriminate.
    - intros ts t q n Ht IH u v E. destruct u as [|c u]; cbn in E; [injection E as E2|injection E as E1 E2].
      + destruct (same_end _ _ _ (Bc _ _ _ _ _ Ht) Hb E2) as [-> _]. exists t. split; [exists q, n; assumption|apply sub_refl].
      + destruct (part_of_one _ _ _ _ _ (Bc _ _ _ _ _ Ht) Hb E2) as [[v' E']|[u' [_ E']]].
        * exact (IH _ _ E').
        * exfalso. eapply not_alone; [|exact E']. discriminate.
    - intros ts t q n Ht IH u v E. destruct (IH _ _ E) as [e [D S]]. exists e, t. split; [exact D|]. split; [now left|exact S].
    - intros ts t q n ts' l Ht IH Hl IHl u v E.
      destruct (part_of_one _ _ _ _ _ (Bc _ _ _ _ _ Ht) Hb E) as [[v' E']|[u' [_ E']]].
      + destruct (IH _ _ E') as [e [D S]]. exists e, t. split; [exact D|]. split; [now left|exact S].
      + destruct (after_flat (TSym ",") _ _ _ ltac:(cbn; discriminate) E') as [u2 E2].
        destruct (IHl _ _ E2) as [e [a [D [Hi S]]]]. exists e, a. split; [exact D|]. split; [now right|exact S].
  Qed.
End Part.

(** ** exchanging the part *)
Section Exchange.
  Variable pj : bool.
  Variable ctx : context.
  Variable part part' : list token.
  Variable e' : element.
  Hypothesis Hb : tbalanced part.
  Hypothesis Hc : tno_comma part.
  Hypothesis He : derives pj ctx true part' e'.
  Notation Chain := (chain pj ctx true).
  Notation D := (derives pj ctx true).

  Definition before_digit (ts : list token) : Prop := adjacent (fun a b => a = TSym ")" /\ exists s, b = TNum s) ts.

  Lemma bd_left : forall a b, ~ before_digit (a ++ b)%list -> ~ before_digit a.
  Proof. intros a b H K. apply H. now apply adjacent_prefix. Qed.
  Lemma bd_right : forall a b, ~ before_digit (a ++ b)%list -> ~ before_digit b.
  Proof. intros a b H K. apply H. now apply adjacent_suffix. Qed.
  Lemma bd_cons : forall a b, ~ before_digit (a :: b)%list -> ~ before_digit b.
  Proof. intros a b H. exact (bd_right [a] b H). Qed.

  Definition closes (ts : list token) : Prop := exists a, ts = (a ++ [TSym ")"])%list.

  Lemma closes_app : forall a b, closes b -> closes (a ++ b)%list.
  Proof. intros a b [c ->]. exists (a ++ c)%list. now rewrite app_assoc. Qed.
  Lemma closes_cons : forall a b, closes b -> closes (a :: b).
  Proof. intros a b [c ->]. now exists (a :: c). Qed.

  (** what is known of the exchanged tokens *)
  Definition place (u : list token) (v : list token) : list token := (u ++ TSym "(" :: part ++ TSym ")" :: v)%list.
  Definition place' (u : list token) (v : list token) : list token := (u ++ TSym "(" :: part' ++ TSym ")" :: v)%list.

  Definition kept (ts : list token) (t t' : element) : Prop := bare_number t' = bare_number t \/ closes ts.

  Lemma exchange :
    (forall p ts t q n, Chain p ts t q n -> ~ before_digit ts -> forall u v, ts = place u v ->
       exists e t' n', D part e /\ Chain p (place' u v) t' q n' /\ exchanged e e' t t' /\
         kept ts t t' /\ (n' = n \/ closes ts)) /\
    (forall ts t q, operand pj ctx true ts t q -> ~ before_digit ts -> forall u v, ts = place u v ->
       exists e t', D part e /\ operand pj ctx true (place' u v) t' q /\ exchanged e e' t t' /\ kept ts t t') /\
    (forall ts t, primary pj ctx true ts t -> ~ before_digit ts -> forall u v, ts = place u v ->
       exists e t', D part e /\ primary pj ctx true (place' u v) t' /\ exchanged e e' t t' /\ closes ts) /\
    (forall ts l, arguments pj ctx true ts l -> ~ before_digit ts -> forall u v, ts = place u v ->
       exists e l' a a' l1 l2, D part e /\ arguments pj ctx true (place' u v) l' /\ exchanged e e' a a' /\
         l = (l1 ++ a :: l2)%list /\ l' = (l1 ++ a' :: l2)%list).
  Proof.
    destruct (derived_balanced pj ctx true) as [Bc [Bo [Bp Ba]]]. unfold place, place'.
    apply chain_mutind.
    - intros p ts t q Ho IH Hd u v E. destruct (IH Hd u v E) as [e [t' [De [Ho' [X K]]]]].
      exists e, t', (bare_number t'). split; [exact De|]. split; [now apply C_operand|]. split; [exact X|]. split; [exact K|exact K].
    - intros p ts l q n tok op ts' r q' n' Hl IHl Htok Hp Hq Hf Hr IHr Hd u v E.
      destruct (part_of_one _ _ _ _ _ (Bc _ _ _ _ _ Hl) Hb E) as [[v' E']|[u' [Eu E']]].
      + destruct (IHl (bd_left _ _ Hd) _ _ E') as [e [t' [n2 [De [C [X [K N]]]]]]].
        exists e, (BinOp op t' r), (bare_number r). split; [exact De|]. split; [|split; [now apply X_binl|split; [left; reflexivity|left; reflexivity]]].
        subst ts. rewrite <- app_assoc in E. apply app_inv_head in E. cbn in E. injection E as E. rewrite <- app_assoc in E. apply app_inv_head in E. cbn in E. injection E as <-.
        replace (u ++ TSym "(" :: part' ++ TSym ")" :: v' ++ tok :: ts')%list with ((u ++ TSym "(" :: part' ++ TSym ")" :: v') ++ tok :: ts')%list
          by (rewrite <- app_assoc; cbn; rewrite <- app_assoc; reflexivity).
        eapply C_operator; eauto.
      + destruct (after_flat part _ _ _ _ ltac:(rewrite (operator_side _ _ Htok); lia) E') as [u2 E2].
        destruct (IHr (bd_cons _ _ (bd_right _ _ Hd)) _ _ E2) as [e [t' [n2 [De [C [X [K N]]]]]]].
        exists e, (BinOp op l t'), (bare_number t'). split; [exact De|]. split; [|split; [now apply X_binr|split; [left; reflexivity|]]].
        * subst u ts'. destruct u' as [|c u']; cbn in E'; [injection E' as E1 _; subst tok; discriminate Htok|injection E' as <- E'].
          apply app_inv_tail in E'. subst u2. rewrite <- app_assoc. cbn. eapply C_operator; eauto.
        * destruct K as [K|K]; [left; exact K|right; now apply closes_app, closes_cons].
    - intros p ts l q n ts' r q' n' j Hl IHl Hm Hp Hq Hr IHr Hd u v E.
      destruct (part_of_one _ _ _ _ _ (Bc _ _ _ _ _ Hl) Hb E) as [[v' E']|[u' [Eu E']]].
      + destruct (IHl (bd_left _ _ Hd) _ _ E') as [e [t' [n2 [De [C [X [K N]]]]]]].
        exists e, (BinOp Times t' r), (bare_number r). split; [exact De|]. split; [|split; [now apply X_binl|split; [left; reflexivity|left; reflexivity]]].
        assert (NC : closes ts -> forall s ts2, ts' <> TNum s :: ts2).
        { intros [a ->] s ts2 ->. apply Hd. exists a, (TSym ")"), (TNum s), ts2. rewrite <- app_assoc. cbn. split; [reflexivity|]. split; eauto. }
        assert (Hm' : may_follow t' ts').
        { destruct ts' as [|[s|s|c] ts2]; cbn in *; auto. destruct Hm as [Hm1 Hm2]. split; auto.
          destruct K as [K|K]; [congruence|exfalso; eapply NC; eauto]. }
        subst ts. rewrite <- app_assoc in E. apply app_inv_head in E. cbn in E. injection E as E. rewrite <- app_assoc in E. apply app_inv_head in E. cbn in E. injection E as <-.
        replace (u ++ TSym "(" :: part' ++ TSym ")" :: v' ++ ts')%list with ((u ++ TSym "(" :: part' ++ TSym ")" :: v') ++ ts')%list
          by (rewrite <- app_assoc; cbn; rewrite <- app_assoc; reflexivity).
        eapply C_implicit; eauto. destruct Hq as [Hq|[Hk [Hn [s [ts2 Hs]]]]]; [left; exact Hq|right].
        destruct N as [N|N]; [subst n2; eauto|exfalso; eapply NC; eauto].
      + destruct (IHr (bd_right _ _ Hd) _ _ E') as [e [t' [n2 [De [C [X [K N]]]]]]].
        exists e, (BinOp Times l t'), (bare_number t'). split; [exact De|]. split; [|split; [now apply X_binr|split; [left; reflexivity|]]].
        * subst u. rewrite <- app_assoc. eapply C_implicit; eauto.
          -- destruct u' as [|c u']; cbn in E' |- *; subst ts'; auto.
          -- destruct Hq as [Hq|[Hk [Hn [s [ts2 Hs]]]]]; [left; exact Hq|right]. split; auto. split; auto.
             destruct u' as [|c u']; cbn in E' |- *; rewrite E' in Hs; [discriminate Hs|]. injection Hs as -> _. eauto.
        * destruct K as [K|K]; [left; exact K|right; now apply closes_app].
    - intros ts t Hp IH Hd u v E. destruct (IH Hd u v E) as [e [t' [De [Hp' [X K]]]]].
      exists e, t'. split; [exact De|]. split; [now apply O_plain|]. split; [exact X|right; exact K].
    - intros ts t Hp IH Hd u v E. destruct (part_of_one _ _ _ _ _ (Bp _ _ Hp) Hb E) as [[v' E']|[u' [_ E']]].
      + destruct (IH (bd_left _ _ Hd) _ _ E') as [e [t' [De [Hp' [X K]]]]]. exists e, (UnOp Factorial t'). split; [exact De|].
        split; [|split; [now apply X_un|left; reflexivity]].
        subst ts. rewrite <- app_assoc in E. apply app_inv_head in E. cbn in E. injection E as E. rewrite <- app_assoc in E. apply app_inv_head in E. cbn in E. injection E as <-.
        replace (u ++ TSym "(" :: part' ++ TSym ")" :: v' ++ [TSym "!"])%list with ((u ++ TSym "(" :: part' ++ TSym ")" :: v') ++ [TSym "!"])%list
          by (rewrite <- app_assoc; cbn; rewrite <- app_assoc; reflexivity).
        now apply O_bang.
      + exfalso. eapply not_alone; [|exact E']. discriminate.
    - intros c op ts t q n Hs Ht IH Hd u v E. assert (Sc : side (TSym c) <> 1%Z) by (destruct Hs as [[-> _]|[-> _]]; discriminate).
      destruct u as [|d u]; cbn in E; injection E as E1 E2; [subst c; exfalso; apply Sc; reflexivity|].
      destruct (IH (bd_cons _ _ Hd) _ _ E2) as [e [t' [n2 [De [C [X [K N]]]]]]]. exists e, (UnOp op t'). split; [exact De|].
      split; [|split; [now apply X_un|left; reflexivity]]. subst d. cbn. eapply O_sign; eauto.
    - intros s v0 _ _ u v E. exfalso. eapply not_alone; [|exact E]. discriminate.
    - intros s v0 _ _ u v E. exfalso. eapply not_alone; [|exact E]. discriminate.
    - intros s v0 _ _ u v E. exfalso. eapply not_alone; [|exact E]. discriminate.
    - intros s f ts args Hs Ha IH Har Hd u v E. destruct u as [|d u]; cbn in E; [discriminate E|injection E as <- E].
      assert (Cl : closes (TId s :: TSym "(" :: ts ++ [TSym ")"])%list) by (exists (TId s :: TSym "(" :: ts)%list; reflexivity).
      destruct u as [|c u]; cbn in E; [injection E as E|injection E as <- E].
      + destruct (same_end _ _ _ (Ba _ _ Ha) Hb E) as [-> ->]. inversion Ha; subst.
        * destruct He as [q' [n' He']]. exists t, (Call f [e']). split; [exists q, n; assumption|]. split; [|split; [|exact Cl]].
          -- cbn. apply R_call; [exact Hs|eapply G_last; exact He'|exact Har].
          -- apply (X_arg t e' f [] t e' []), X_here.
        * exfalso. eapply (Hc ts ts'); [congruence|]. eapply Bc; eauto.
      + destruct (part_of_one _ _ _ _ _ (Ba _ _ Ha) Hb E) as [[v' E']|[u' [_ E']]].
        * destruct (IH (bd_left _ _ (bd_cons _ _ (bd_cons _ _ Hd))) _ _ E') as [e [l' [a [a' [l1 [l2 [De [A' [X [-> ->]]]]]]]]]].
          exists e, (Call f (l1 ++ a' :: l2)). split; [exact De|]. split; [|split; [now apply X_arg|exact Cl]].
          subst ts. rewrite <- app_assoc in E. apply app_inv_head in E. cbn in E. injection E as E. rewrite <- app_assoc in E. apply app_inv_head in E. cbn in E. injection E as <-.
          cbn. replace (u ++ TSym "(" :: part' ++ TSym ")" :: v' ++ [TSym ")"])%list with ((u ++ TSym "(" :: part' ++ TSym ")" :: v') ++ [TSym ")"])%list
            by (rewrite <- app_assoc; cbn; rewrite <- app_assoc; reflexivity).
          apply R_call; [exact Hs|exact A'|]. unfold SpecGrammar.arity_ok in *. destruct (fn_nb_args f); auto. rewrite app_length in *. exact Har.
        * exfalso. eapply not_alone; [|exact E']. discriminate.
    - intros ts t q n Ht IH Hd u v E. assert (Cl : closes (TSym "(" :: ts ++ [TSym ")"])%list) by (exists (TSym "(" :: ts)%list; reflexivity).
      destruct u as [|c u]; cbn in E; [injection E as E|injection E as <- E].
      + destruct (same_end _ _ _ (Bc _ _ _ _ _ Ht) Hb E) as [-> ->]. destruct He as [q' [n' He']].
        exists t, e'. split; [exists q, n; assumption|]. split; [|split; [apply X_here|exact Cl]]. cbn. eapply R_paren. exact He'.
      + destruct (part_of_one _ _ _ _ _ (Bc _ _ _ _ _ Ht) Hb E) as [[v' E']|[u' [_ E']]].
        * destruct (IH (bd_left _ _ (bd_cons _ _ Hd)) _ _ E') as [e [t' [n2 [De [C [X _]]]]]].
          exists e, t'. split; [exact De|]. split; [|split; [exact X|exact Cl]].
          subst ts. rewrite <- app_assoc in E. apply app_inv_head in E. cbn in E. injection E as E. rewrite <- app_assoc in E. apply app_inv_head in E. cbn in E. injection E as <-.
          cbn. replace (u ++ TSym "(" :: part' ++ TSym ")" :: v' ++ [TSym ")"])%list with ((u ++ TSym "(" :: part' ++ TSym ")" :: v') ++ [TSym ")"])%list
            by (rewrite <- app_assoc; cbn; rewrite <- app_assoc; reflexivity).
          eapply R_paren. exact C.
        * exfalso. eapply not_alone; [|exact E']. discriminate.
    - intros ts t q n Ht IH Hd u v E. destruct (IH Hd _ _ E) as [e [t' [n2 [De [C [X _]]]]]].
      exists e, [t'], t, t', [], []. split; [exact De|]. split; [eapply G_last; exact C|]. split; [exact X|]. split; reflexivity.
    - intros ts t q n ts' l Ht IH Hl IHl Hd u v E.
      destruct (part_of_one _ _ _ _ _ (Bc _ _ _ _ _ Ht) Hb E) as [[v' E']|[u' [Eu E']]].
      + destruct (IH (bd_left _ _ Hd) _ _ E') as [e [t' [n2 [De [C [X _]]]]]].
        exists e, (t' :: l), t, t', [], l. split; [exact De|]. split; [|split; [exact X|split; reflexivity]].
        subst ts. rewrite <- app_assoc in E. apply app_inv_head in E. cbn in E. injection E as E. rewrite <- app_assoc in E. apply app_inv_head in E. cbn in E. injection E as <-.
        replace (u ++ TSym "(" :: part' ++ TSym ")" :: v' ++ TSym "," :: ts')%list with ((u ++ TSym "(" :: part' ++ TSym ")" :: v') ++ TSym "," :: ts')%list
          by (rewrite <- app_assoc; cbn; rewrite <- app_assoc; reflexivity).
        eapply G_more; eauto.
      + destruct u' as [|c u']; cbn in E'; [discriminate E'|injection E' as <- E'].
        destruct (IHl (bd_cons _ _ (bd_right _ _ Hd)) _ _ E') as [e [l' [a [a' [l1 [l2 [De [A' [X [-> ->]]]]]]]]]].
        exists e, (t :: l1 ++ a' :: l2)%list, a, a', (t :: l1), l2. split; [exact De|]. split; [|split; [exact X|split; reflexivity]].
        subst u. rewrite <- app_assoc. cbn. eapply G_more; eauto.
  Qed.
End Exchange.

Lemma balanced_tokens : forall text ts, tokens_of text ts -> balanced text -> tbalanced ts.
Proof.
  intros text ts H [B0 B]. split; [rewrite <- (level_tokens _ _ H); exact B0|].
  intros u v E. destruct (lexes_split _ _ H u v E) as [a [b [E' [La [Lb _]]]]]. rewrite <- (level_tokens _ _ La).
  specialize (B (string_of_list_ascii a) (string_of_list_ascii b)). unfold bracket_level in B. rewrite list_ascii_of_string_of_list_ascii in B.
  apply B. rewrite <- (string_of_list_ascii_of_string text), E'. apply string_of_app.
Qed.

Lemma comma_tokens : forall text ts, tokens_of text ts -> no_outer_comma text -> tno_comma ts.
Proof.
  intros text ts H Hn u v E. destruct (lexes_split _ _ H u _ E) as [a [b [E' [La [Lb Hb]]]]]. rewrite <- (level_tokens _ _ La).
  inversion Lb as [|c s ts' Hw|m s ts' Hm|m s ts' Hm|c s ts' Hw Hd Hp Ha L]; subst; [exfalso; apply Hb; exact Hw|].
  specialize (Hn (string_of_list_ascii a) (string_of_list_ascii s)). unfold bracket_level in Hn. rewrite list_ascii_of_string_of_list_ascii in Hn.
  apply Hn. rewrite <- (string_of_list_ascii_of_string text), E'. rewrite string_of_app. reflexivity.
Qed.

Lemma placed_tokens : forall before text after u ts v, tokens_of before u -> tokens_of text ts -> tokens_of after v ->
  tokens_of (placed before text after) (u ++ TSym "(" :: ts ++ TSym ")" :: v)%list.
Proof.
  intros before text after u ts v Hu Ht Hv. unfold placed, tokens_of. rewrite !list_ascii_app. cbn [list_ascii_of_string app].
  apply lexes_glue; [exact Hu|apply separates_check; reflexivity|]. apply sym_check; [reflexivity|].
  apply lexes_glue; [exact Ht|apply separates_check; reflexivity|]. apply sym_check; [reflexivity|]. exact Hv.
Qed.

Lemma placed_nonempty : forall before text after, placed before text after <> "".
Proof. intros [|c b] text after; discriminate. Qed.

Lemma sub_occurs : forall v e t, sub e t -> occurs v e -> occurs v t.
Proof. intros v e t S. induction S; eauto using occ_binl, occ_binr, occ_un, occ_arg. Qed.

(** ** C91 *)

(** A text whose brackets are balanced and which has no comma of its own, put in
    brackets inside any larger text: if the whole is accepted, so is the text by
    itself, and what it is read as is a part of the whole. *)
Theorem C91_part_of_the_whole : forall cfg w ctx before text after x,
  optimize cfg = false -> fair_order w -> balanced text -> no_outer_comma text ->
  parse cfg w ctx (placed before text after) = Parse_ok x ->
  exists y, parse cfg w ctx text = Parse_ok y /\ sub (root y) (root x).
Proof.
  intros cfg w ctx before text after x Ho Hf Hb Hc Hx.
  destruct (lexes_total (bytes before)) as [u Hu]. destruct (lexes_total (bytes text)) as [ts Hts]. destruct (lexes_total (bytes after)) as [v Hv].
  pose proof (placed_tokens before text after u ts v Hu Hts Hv) as T.
  destruct (proj1 (C04_accepted_exactly cfg w ctx _ _ (root x) Ho Hf (placed_nonempty _ _ _) T)) as [[q [n D]] V]; [eauto|].
  destruct (proj1 (inside_parts (pejmdas cfg) ctx true ts (balanced_tokens _ _ Hts Hb) (comma_tokens _ _ Hts Hc)) _ _ _ _ _ D u v eq_refl) as [e [De S]].
  assert (Hne : text <> "").
  { intros ->. inversion Hts as [E1 E2|c s ts' _ _ E|m s ts' Hm _ E|m s ts' Hm _ E|]; subst.
    - destruct De as [q' [n' De]]. apply (proj1 (derived_nonempty _ _ _)) in De. congruence.
    - destruct Hm; destruct m; try discriminate; try contradiction.
    - destruct Hm as [Hm _]. destruct m; [contradiction|discriminate]. }
  destruct (proj2 (C04_accepted_exactly cfg w ctx text ts e Ho Hf Hne Hts)) as [y [Hy Ey]].
  - split; [exact De|]. intros l El z Hz. apply (V l El). eapply sub_occurs; eauto.
  - exists y. rewrite Ey. auto.
Qed.

(** Putting another accepted text in its place changes that part of the whole
    and nothing else, if no number stands directly after a closing bracket. *)
Theorem C91_exchange : forall cfg w ctx before text text' after ts x y',
  optimize cfg = false -> fair_order w -> balanced text -> no_outer_comma text ->
  tokens_of (placed before text after) ts -> no_number_after_parenthesis ts ->
  parse cfg w ctx (placed before text after) = Parse_ok x -> parse cfg w ctx text' = Parse_ok y' ->
  exists y x', parse cfg w ctx text = Parse_ok y /\ parse cfg w ctx (placed before text' after) = Parse_ok x' /\
    exchanged (root y) (root y') (root x) (root x').
Proof.
  intros cfg w ctx before text text' after ts0 x y' Ho Hf Hb Hc Hts0 Hn Hx Hy'.
  destruct (lexes_total (bytes before)) as [u Hu]. destruct (lexes_total (bytes text)) as [ts Hts]. destruct (lexes_total (bytes after)) as [v Hv].
  destruct (lexes_total (bytes text')) as [ts' Hts'].
  pose proof (placed_tokens before text after u ts v Hu Hts Hv) as T. pose proof (placed_tokens before text' after u ts' v Hu Hts' Hv) as T'.
  pose proof (lexes_unique _ _ _ Hts0 T) as ->.
  destruct (proj1 (C04_accepted_exactly cfg w ctx _ _ (root x) Ho Hf (placed_nonempty _ _ _) T)) as [[q [n D]] V]; [eauto|].
  destruct (proj1 (C04_accepted_exactly cfg w ctx text' ts' (root y') Ho Hf (accepted_nonempty _ _ _ _ _ Hy') Hts')) as [D' V']; [eauto|].
  destruct (C91_part_of_the_whole cfg w ctx before text after x Ho Hf Hb Hc Hx) as [y [Hy S]].
  destruct (proj1 (exchange (pejmdas cfg) ctx ts ts' (root y') (balanced_tokens _ _ Hts Hb) (comma_tokens _ _ Hts Hc) D') _ _ _ _ _ D Hn u v eq_refl)
    as [e [t' [n' [De [C [X _]]]]]].
  assert (Ey : e = root y).
  { pose proof (accepted_nonempty _ _ _ _ _ Hy) as Hne.
    destruct (proj1 (C04_accepted_exactly cfg w ctx text ts (root y) Ho Hf Hne Hts)) as [Dy _]; [eauto|].
    pose proof (proj2 (parse_by_derivation cfg w ctx text ts _ Ho Hne Hts) Dy) as E1.
    pose proof (proj2 (parse_by_derivation cfg w ctx text ts _ Ho Hne Hts) De) as E2. congruence. }
  subst e.
  destruct (proj2 (C04_accepted_exactly cfg w ctx (placed before text' after) _ t' Ho Hf (placed_nonempty _ _ _) T')) as [x' [Hx' Ex']].
  - split; [exists q, n'; exact C|]. intros l El z Hz.
    assert (O : occurs z (root x) \/ occurs z (root y')).
    { clear - X Hz. induction X; auto; inversion Hz; subst; try (destruct IHX; auto; left; eauto using occ_binl, occ_binr, occ_un); auto using occ_binl, occ_binr.
      match goal with Hi : In _ (_ ++ _) |- _ => apply in_app_or in Hi; destruct Hi as [Hi|[Hi|Hi]] end.
      - left. eapply occ_arg; [|eassumption]. apply in_or_app; auto.
      - subst. destruct IHX as [K|K]; auto. left. eapply occ_arg; [|exact K]. apply in_or_app; right; now left.
      - left. eapply occ_arg; [|eassumption]. apply in_or_app; right; now right. }
    destruct O as [O|O]; [exact (V l El z O)|exact (V' l El z O)].
  - exists y, x'. rewrite Ex'. auto.
Qed.

(** So a text that is not accepted by itself stays rejected in brackets, in
    whatever it is put. *)
Theorem C91_stays_rejected : forall cfg w ctx before text after e,
  optimize cfg = false -> fair_order w -> balanced text -> no_outer_comma text ->
  parse cfg w ctx text = Parse_err e -> forall x, parse cfg w ctx (placed before text after) <> Parse_ok x.
Proof.
  intros cfg w ctx before text after e Ho Hf Hb Hc He x Hx.
  destruct (C91_part_of_the_whole cfg w ctx before text after x Ho Hf Hb Hc Hx) as [y [Hy _]]. congruence.
Qed.

(** In the default build: the same for what plain parsing makes of the whole. *)
Theorem C91_default : forall cfg w ctx before text after ts x,
  optimize cfg = true -> fair_order w -> context_functions_return w ctx -> get_expected_vars ctx = None ->
  balanced text -> no_outer_comma text -> tokens_of text ts -> clear_tokens ctx ts ->
  parse cfg w ctx (placed before text after) = Parse_ok x ->
  exists y, parse cfg w ctx text = Parse_ok y.
Proof.
  intros cfg w ctx before text after ts x Ho Hf Hr Hv Hb Hc Hts Hcl Hx.
  destruct (C18_optimised_accepts_less cfg (plain cfg) w ctx _ x eq_refl Hv Hx) as [x' Hx'].
  destruct (C91_part_of_the_whole (plain cfg) w ctx before text after x' eq_refl Hf Hb Hc Hx') as [y [Hy _]].
  destruct (clear_parts ctx text ts Hts Hcl) as [Hd Hn].
  destruct (C18_plain_accepted cfg (plain cfg) w ctx _ _ y Ho eq_refl eq_refl Hf Hr Hd Hts Hn Hy) as [z [Hz _]]. eauto.
Qed.

(** ** computing the conditions *)
Fixpoint balanced_b (d : nat) (l : list ascii) : bool :=
  match l with
  | [] => Nat.eqb d 0
  | c :: l => if Ascii.eqb c "(" then balanced_b (S d) l
              else if Ascii.eqb c ")" then match d with O => false | S d => balanced_b d l end
              else balanced_b d l
  end.
Fixpoint no_comma_b (d : Z) (l : list ascii) : bool :=
  match l with
  | [] => true
  | c :: l => (negb (Ascii.eqb c ",") || negb (Z.eqb d 0)) && no_comma_b (d + side (TSym c)) l
  end.

Lemma balanced_b_spec : forall l d, balanced_b d l = true ->
  (Z.of_nat d + blevel l = 0)%Z /\ forall u v, l = (u ++ v)%list -> (0 <= Z.of_nat d + blevel u)%Z.
Proof.
  induction l as [|c l IH]; intros d H; cbn [balanced_b] in H.
  - apply Nat.eqb_eq in H. subst d. split; [reflexivity|]. intros [|a u] v E; [cbn; lia|discriminate E].
  - assert (G : forall d', (Z.of_nat d + side (TSym c) = Z.of_nat d')%Z -> balanced_b d' l = true ->
      (Z.of_nat d + blevel (c :: l) = 0)%Z /\ forall u v, (c :: l = u ++ v)%list -> (0 <= Z.of_nat d + blevel u)%Z).
    { intros d' Ed Hd. destruct (IH d' Hd) as [H0 H1]. split; [rewrite blevel_cons; lia|].
      intros [|a u] v E; [change (blevel []) with 0%Z; lia|]. cbn in E. injection E as <- E. specialize (H1 u v E). rewrite blevel_cons. lia. }
    destruct (Ascii.eqb_spec c "(") as [->|N].
    + apply (G (S d)); [change (side (TSym "(")) with 1%Z; lia|exact H].
    + destruct (Ascii.eqb_spec c ")") as [->|N'].
      * destruct d as [|d]; [discriminate H|]. apply (G d); [change (side (TSym ")")) with (-1)%Z; lia|exact H].
      * apply (G d); [|exact H]. unfold side. apply Ascii.eqb_neq in N, N'. rewrite N, N'. lia.
Qed.

Lemma balanced_check : forall text, balanced_b 0 (list_ascii_of_string text) = true -> balanced text.
Proof.
  intros text H. destruct (balanced_b_spec _ _ H) as [H0 H1]. split; [unfold bracket_level; unfold blevel in H0; lia|].
  intros u v ->. rewrite list_ascii_app in H1. specialize (H1 _ _ eq_refl). unfold bracket_level. unfold blevel in H1. lia.
Qed.

Lemma no_comma_check : forall text, no_comma_b 0 (list_ascii_of_string text) = true -> no_outer_comma text.
Proof.
  intros text H u v E. subst text. rewrite list_ascii_app in H. unfold bracket_level. change (blevel (list_ascii_of_string u) <> 0%Z).
  revert H. generalize (list_ascii_of_string u). intro l. cut (forall d, no_comma_b d (l ++ list_ascii_of_string ("," ++ v)) = true -> (d + blevel l)%Z <> 0%Z); [intros G H; exact (G 0%Z H)|].
  induction l as [|c l IH]; intros d H.
  - cbn in H. apply andb_true_iff in H. destruct H as [H _]. change (blevel []) with 0%Z. rewrite Z.add_0_r. now apply Z.eqb_neq, negb_true_iff.
  - cbn [app no_comma_b] in H. apply andb_true_iff in H. destruct H as [_ H]. specialize (IH _ H). rewrite blevel_cons. lia.
Qed.

Lemma fails_err : forall r, match r with Parse_err _ => true | _ => false end = true -> exists e, r = Parse_err e.
Proof. destruct r; try discriminate. eauto. Qed.

(** a text with brackets, a call and a comma inside it *)
Example C91_witness : exists x y,
  parse plain_config w0 ctx_default (placed "2 * " "max(x, 1) - 2" " ^ y") = Parse_ok x /\
  balanced "max(x, 1) - 2" /\ no_outer_comma "max(x, 1) - 2" /\
  parse plain_config w0 ctx_default "max(x, 1) - 2" = Parse_ok y /\ sub (root y) (root x) /\ root y <> root x.
Proof.
  destruct (parses_to (parse plain_config w0 ctx_default (placed "2 * " "max(x, 1) - 2" " ^ y"))
    (BinOp Times two (BinOp Power (BinOp Minus (Call (builtin_function B_MAX) [Var "x"; one]) two) (Var "y")))) as [x [Hx Ex]]; [vm_compute; reflexivity|].
  assert (B : balanced "max(x, 1) - 2") by (apply balanced_check; reflexivity).
  assert (C : no_outer_comma "max(x, 1) - 2") by (apply no_comma_check; reflexivity).
  destruct (C91_part_of_the_whole plain_config w0 ctx_default "2 * " "max(x, 1) - 2" " ^ y" x eq_refl w0_fair B C Hx) as [y [Hy S]].
  exists x, y. split; [exact Hx|]. split; [exact B|]. split; [exact C|]. split; [exact Hy|]. split; [exact S|].
  destruct (parses_to (parse plain_config w0 ctx_default "max(x, 1) - 2") (BinOp Minus (Call (builtin_function B_MAX) [Var "x"; one]) two)) as [z [Hz Ez]]; [vm_compute; reflexivity|].
  assert (z = y) by congruence. subst z. rewrite Ez, Ex. discriminate.
Qed.

(** Without the two conditions the brackets do not hold the text in. *)
Theorem C91_escape_refuted :
  (exists x e, parse plain_config w0 ctx_default (placed "" "1) + (x" "") = Parse_ok x /\
    parse plain_config w0 ctx_default "1) + (x" = Parse_err e /\ root x = BinOp Plus one (Var "x")) /\
  (exists x e, parse plain_config w0 ctx_default (placed "max" "1, x" "") = Parse_ok x /\
    parse plain_config w0 ctx_default "1, x" = Parse_err e /\ root x = Call (builtin_function B_MAX) [one; Var "x"]).
Proof.
  split.
  - destruct (parses_to (parse plain_config w0 ctx_default (placed "" "1) + (x" "")) (BinOp Plus one (Var "x"))) as [x [Hx Ex]]; [vm_compute; reflexivity|].
    destruct (fails_err (parse plain_config w0 ctx_default "1) + (x")) as [e He]; [vm_compute; reflexivity|]. exists x, e. auto.
  - destruct (parses_to (parse plain_config w0 ctx_default (placed "max" "1, x" "")) (Call (builtin_function B_MAX) [one; Var "x"])) as [x [Hx Ex]]; [vm_compute; reflexivity|].
    destruct (fails_err (parse plain_config w0 ctx_default "1, x")) as [e He]; [vm_compute; reflexivity|]. exists x, e. auto.
Qed.

Example C91_exchange_witness : exists x x',
  parse plain_config w0 ctx_default (placed "2 sin" "x - 1!" " ^ y") = Parse_ok x /\
  parse plain_config w0 ctx_default (placed "2 sin" "-y" " ^ y") = Parse_ok x' /\
  exchanged (BinOp Minus (Var "x") (UnOp Factorial one)) (UnOp Minus (Var "y")) (root x) (root x') /\
  root x' = BinOp Times two (BinOp Power (Call (builtin_function B_SIN) [UnOp Minus (Var "y")]) (Var "y")).
Proof.
  destruct (parses_ok (parse plain_config w0 ctx_default (placed "2 sin" "x - 1!" " ^ y"))) as [x Hx]; [vm_compute; reflexivity|].
  destruct (parses_to (parse plain_config w0 ctx_default "-y") (UnOp Minus (Var "y"))) as [y' [Hy' Ey']]; [vm_compute; reflexivity|].
  destruct (parses_to (parse plain_config w0 ctx_default "x - 1!") (BinOp Minus (Var "x") (UnOp Factorial one))) as [z [Hz Ez]]; [vm_compute; reflexivity|].
  destruct (parses_to (parse plain_config w0 ctx_default (placed "2 sin" "-y" " ^ y"))
    (BinOp Times two (BinOp Power (Call (builtin_function B_SIN) [UnOp Minus (Var "y")]) (Var "y")))) as [z' [Hz' Ez']]; [vm_compute; reflexivity|].
  destruct (C91_exchange plain_config w0 ctx_default "2 sin" "x - 1!" "-y" " ^ y"
    [TNum "2"; TId "sin"; TSym "("; TId "x"; TSym "-"; TNum "1"; TSym "!"; TSym ")"; TSym "^"; TId "y"] x y' eq_refl w0_fair) as [y [x' [Hy [Hx' X]]]].
  - apply balanced_check. reflexivity.
  - apply no_comma_check. reflexivity.
  - apply tokens_check. vm_compute. reflexivity.
  - unfold no_number_after_parenthesis.
    eapply (adjacent_check (fun a b => match a, b with TSym c, TNum _ => Ascii.eqb c ")" | _, _ => false end)); [|vm_compute; reflexivity].
    intros a b [-> [s ->]]. reflexivity.
  - exact Hx.
  - exact Hy'.
  - assert (y = z) by congruence. assert (x' = z') by congruence. subst y x'. exists x, z'.
    rewrite Ez, Ey' in X. auto.
Qed.

(** A number directly after the closing bracket may be refused. *)
Theorem C91_number_after_refuted : exists x e,
  parse plain_config w0 ctx_default (placed "" "x" " 5") = Parse_ok x /\
  parses (parse plain_config w0 ctx_default "2") = true /\
  parse plain_config w0 ctx_default (placed "" "2" " 5") = Parse_err e.
Proof.
  destruct (parses_ok (parse plain_config w0 ctx_default (placed "" "x" " 5"))) as [x Hx]; [vm_compute; reflexivity|].
  destruct (fails_err (parse plain_config w0 ctx_default (placed "" "2" " 5"))) as [e He]; [vm_compute; reflexivity|].
  exists x, e. split; [exact Hx|]. split; [vm_compute; reflexivity|exact He].
Qed.
