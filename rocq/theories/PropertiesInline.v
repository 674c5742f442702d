(** * C99: writing out calls of functions defined by a text *)
From Coq Require Import ZArith NArith List String Ascii Bool Lia.
From Verif Require Import SpecChars CharFacts.
From Verif Require Import F64 Syntax Factorial Builtins Context Element Parser Xprs.
From Verif Require Import ParserFacts SpecParse ParserInv SpecTree TreeFacts SpecApi ParserResults SpecTokens SpecGrammar SpecJoin SpecIsolate SpecInline.
From Verif Require Import SpecRegular SpecScan BindFacts.
From Verif Require Import TokenFacts LexFacts LexExec TokenParser TokenSim TokenMono GrammarFacts GrammarEquiv JuxtaFacts SubstFacts.
From Verif Require Import TestWorld PropertiesParse PropertiesGrammar PropertiesEval PropertiesBind PropertiesOptimise PropertiesDefault PropertiesSubst PropertiesJoin PropertiesIsolate.
Import ListNotations.
Local Open Scope string_scope.

(** ** accepted texts in brackets *)
Lemma tno_comma_app : forall a b, tbalanced a -> tno_comma a -> tno_comma b -> tno_comma (a ++ b)%list.
Proof.
  intros a b [A0 _] A B u v E. apply app_eq_app in E. destruct E as [m [[-> E]|[-> E]]].
  - destruct m as [|t m]; cbn in E.
    + rewrite app_nil_r in A0. rewrite A0. intros _. apply (B [] v); [now symmetry|reflexivity].
    + injection E as <- ->. now apply (A u m).
  - rewrite tlevel_app, A0. intro K. apply (B m v E). lia.
Qed.

Lemma tno_comma_one : forall t, t <> TSym "," -> tno_comma [t].
Proof. intros t H [|a [|b u]] v E; cbn in E; try discriminate E. injection E as E. congruence. Qed.

Lemma tno_comma_in : forall ts, tbalanced ts -> tno_comma (TSym "(" :: ts ++ [TSym ")"])%list.
Proof.
  intros ts [B0 B] [|a u] v E; cbn in E; [discriminate E|]. injection E as <- E. 
  apply app_eq_app in E. destruct E as [m [[-> E]|[-> E]]].
  - specialize (B u m eq_refl). lev. lia.
  - destruct m as [|t m]; cbn in E; [discriminate E|]. injection E as _ E. destruct m; discriminate E.
Qed.

Lemma tno_comma_cons : forall t ts, side t = 0%Z -> t <> TSym "," -> tno_comma ts -> tno_comma (t :: ts).
Proof. intros t ts H Hn Ht. apply (tno_comma_app [t] ts); auto using tbalanced_flat, tno_comma_one. Qed.

Lemma derived_commas : forall pj ctx k,
  (forall p ts t q n, chain pj ctx k p ts t q n -> tno_comma ts) /\
  (forall ts t q, operand pj ctx k ts t q -> tno_comma ts) /\
  (forall ts t, primary pj ctx k ts t -> tno_comma ts) /\
  (forall ts l, arguments pj ctx k ts l -> True).
Proof.
  intros pj ctx k. destruct (derived_balanced pj ctx k) as [Bc [Bo [Bp Ba]]].
  apply chain_mutind; auto.
  - intros p ts l q n tok op ts' r q' n' Hl IHl Htok _ _ _ Hr IHr. apply tno_comma_app; eauto.
    apply tno_comma_cons; auto; [eapply operator_side; eauto|]. intros ->. discriminate Htok.
  - intros p ts l q n ts' r q' n' j Hl IHl _ _ _ Hr IHr. apply tno_comma_app; eauto.
  - intros ts t Hp IH. apply tno_comma_app; eauto. apply tno_comma_one. discriminate.
  - intros c op ts t q n Hs _ IH. apply tno_comma_cons; auto; destruct Hs as [[-> _]|[-> _]]; try reflexivity; discriminate.
  - intros. apply tno_comma_one. discriminate.
  - intros. apply tno_comma_one. discriminate.
  - intros. apply tno_comma_one. discriminate.
  - intros s f ts args _ Hg _ _. apply tno_comma_cons; [reflexivity|discriminate|]. apply tno_comma_in. eauto.
  - intros ts t q n Hc _. apply tno_comma_in. eauto.
Qed.

Lemma depth_tlevel : forall ts, depth ts = tlevel ts.
Proof.
  induction ts as [|t ts IH]; [reflexivity|]. cbn [depth fold_right]. change (fold_right depth_step 0%Z ts) with (depth ts). rewrite IH.
  cbn [tlevel]. destruct t as [s|s|c]; cbn; try reflexivity. destruct (Ascii.eqb c "("); [lia|]. destruct (Ascii.eqb c ")"); lia.
Qed.

Lemma one_argument_iff : forall ts, one_argument ts <-> tbalanced ts /\ tno_comma ts.
Proof.
  intro ts. unfold one_argument, tbalanced, tno_comma. rewrite depth_tlevel. split.
  - intros [A [B C]]. repeat split; auto; intros u v E; rewrite <- depth_tlevel; eauto.
  - intros [[A B] C]. repeat split; auto; intros u v E; rewrite depth_tlevel; eauto.
Qed.

Lemma sentence_argument : forall pj ctx ts t, sentence pj ctx ts t -> one_argument ts.
Proof.
  intros pj ctx ts t H. apply sentence_derives in H. destruct H as [q [n H]]. apply one_argument_iff. split.
  - exact (proj1 (derived_balanced _ _ _) _ _ _ _ _ H).
  - exact (proj1 (derived_commas _ _ _) _ _ _ _ _ H).
Qed.

(** ** the written-out text is determined *)
Lemma balanced_end : forall a b u v, tbalanced a -> tbalanced b -> (a ++ TSym ")" :: u = b ++ TSym ")" :: v)%list -> a = b /\ u = v.
Proof.
  assert (K : forall a b m u v, tbalanced a -> tbalanced b -> a = (b ++ m)%list -> (TSym ")" :: v = m ++ TSym ")" :: u)%list -> a = b /\ u = v).
  { intros a b m u v [_ A] [B0 _] -> E. destruct m as [|t m]; cbn in E.
    - injection E as ->. rewrite app_nil_r. auto.
    - exfalso. injection E as <- _. specialize (A (b ++ [TSym ")"])%list m). rewrite <- app_assoc in A. specialize (A eq_refl).
      rewrite tlevel_app, B0 in A. lev. lia. }
  intros a b u v A B E. apply app_eq_app in E. destruct E as [m [[-> E]|[-> E]]].
  - apply (K _ b m); auto.
  - destruct (K (a ++ m)%list a m v u B A eq_refl E) as [E1 E2]. split; [now symmetry|now symmetry].
Qed.

Lemma comma_end : forall a b u v, one_argument a -> one_argument b -> (a ++ TSym "," :: u = b ++ TSym "," :: v)%list -> a = b /\ u = v.
Proof.
  assert (K : forall a b m u v, one_argument a -> one_argument b -> a = (b ++ m)%list -> (TSym "," :: v = m ++ TSym "," :: u)%list -> a = b /\ u = v).
  { intros a b m u v [_ [_ A]] [B0 _] -> E. destruct m as [|t m]; cbn in E.
    - injection E as ->. rewrite app_nil_r. auto.
    - exfalso. injection E as <- _. now apply (A b m). }
  intros a b u v A B E. apply app_eq_app in E. destruct E as [m [[-> E]|[-> E]]].
  - apply (K _ b m); auto.
  - destruct (K (a ++ m)%list a m v u B A eq_refl E) as [E1 E2]. split; [now symmetry|now symmetry].
Qed.

Lemma comma_absent : forall a b u, one_argument a -> a = (b ++ TSym "," :: u)%list -> one_argument b -> False.
Proof. intros a b u [_ [_ A]] E [B _]. now apply (A b u). Qed.

Lemma separated_balanced : forall args, Forall one_argument args -> tbalanced (separated args).
Proof.
  induction args as [|a r IH]; intro H; [exact tbalanced_nil|]. inversion H; subst. cbn [separated].
  assert (A : tbalanced a) by now apply one_argument_iff. destruct r as [|b r]; [exact A|].
  apply tbalanced_app; [exact A|]. apply (tbalanced_app [TSym ","]); [now apply tbalanced_flat|auto].
Qed.

Lemma separated_unique : forall a b, Forall one_argument a -> Forall one_argument b -> List.length a = List.length b ->
  separated a = separated b -> a = b.
Proof.
  induction a as [|x a IH]; intros [|y b] A B L E; try discriminate L; [reflexivity|].
  inversion A; inversion B; subst. destruct a as [|x1 a]; destruct b as [|y1 b]; try discriminate L.
  - cbn in E. now subst.
  - change (separated (x :: x1 :: a)) with (x ++ TSym "," :: separated (x1 :: a))%list in E.
    change (separated (y :: y1 :: b)) with (y ++ TSym "," :: separated (y1 :: b))%list in E.
    destruct (comma_end x y _ _ ltac:(assumption) ltac:(assumption) E) as [-> E']. f_equal. apply IH; auto.
Qed.

Scheme expands_min := Minimality for expands Sort Prop with expand_all_min := Minimality for expand_all Sort Prop.
Combined Scheme expands_mutind from expands_min, expand_all_min.

Lemma expand_all_length : forall name names body l l', expand_all name names body l l' -> List.length l = List.length l'.
Proof. intros name names body l l' H. induction H; cbn; auto. Qed.

Lemma expands_unique : forall name names body,
  (forall ts a, expands name names body ts a -> forall b, expands name names body ts b -> a = b) /\
  (forall l a, expand_all name names body l a -> forall b, expand_all name names body l b -> a = b).
Proof.
  intros name names body. apply expands_mutind.
  - intros b H. now inversion H.
  - intros t ts ts' Hn _ IH b H. inversion H; subst; [|congruence]. f_equal. auto.
  - intros args args' ts ts' Hl Ha _ IHa _ IH b H. inversion H as [|? ? ? K|args2 args2' ts2 ts2' Hl2 Ha2 Hx2 H2 E]; subst; [congruence|].
    destruct (balanced_end _ _ _ _ (separated_balanced _ Ha2) (separated_balanced _ Ha) E) as [Es ->].
    assert (args2 = args) as -> by (apply separated_unique; auto; congruence).
    now rewrite (IHa _ Hx2), (IH _ H2).
  - intros b H. now inversion H.
  - intros a a' l l' _ IH _ IHl b H. inversion H; subst. f_equal; auto.
Qed.

Lemma expands_app : forall name names body a a' b b', expands name names body a a' -> expands name names body b b' ->
  expands name names body (a ++ b) (a' ++ b').
Proof.
  intros name names body a a' b b' H Hb. induction H as [|t ts ts' Hn H IH|args args' ts ts' Hl Ha Hx H IH]; cbn [app]; auto.
  - now constructor.
  - rewrite <- !app_assoc. cbn [app]. now apply EX_call.
Qed.

(** ** the functions a text calls are those its names stand for *)
Lemma sentence_functions : forall pj ctx k,
  (forall p ts t q n, chain pj ctx k p ts t q n -> forall f args, sub (Call f args) t -> exists s, stands_for ctx s = I_Function f) /\
  (forall ts t q, operand pj ctx k ts t q -> forall f args, sub (Call f args) t -> exists s, stands_for ctx s = I_Function f) /\
  (forall ts t, primary pj ctx k ts t -> forall f args, sub (Call f args) t -> exists s, stands_for ctx s = I_Function f) /\
  (forall ts l, arguments pj ctx k ts l -> forall a, In a l -> forall f args, sub (Call f args) a -> exists s, stands_for ctx s = I_Function f).
Proof.
  intros pj ctx k. apply chain_mutind; auto.
  - intros p ts l q n tok op ts' r q' n' _ IHl _ _ _ _ _ IHr f args S. inversion S; subst; eauto.
  - intros p ts l q n ts' r q' n' j _ IHl _ _ _ _ IHr f args S. inversion S; subst; eauto.
  - intros ts t _ IH f args S. inversion S; subst; eauto.
  - intros c op ts t q n _ _ IH f args S. inversion S; subst; eauto.
  - intros s v _ f args S. inversion S.
  - intros s v _ f args S. inversion S.
  - intros s v _ f args S. inversion S.
  - intros s f ts args Hs _ IH _ g l S. inversion S; subst; eauto.
  - intros ts t q n _ IH a [<-|[]]. auto.
  - intros ts t q n ts' l _ IH _ IHl a [<-|Ha]; eauto.
Qed.

(** ** writing out keeps a text free of the parser's own productions *)
Definition bad_pair (ctx : context) (a b : token) : Prop :=
  (a = TSym "!" /\ b = TSym "!") \/ (ends_number ctx a = true /\ exists s, b = TNum s).

Lemma clear_pairs : forall ctx ts, clear_tokens ctx ts <-> ~ adjacent (bad_pair ctx) ts.
Proof.
  intros ctx ts. unfold clear_tokens, adjacent, bad_pair. split.
  - intros [H1 H2] [u [a [b [v [E [K|K]]]]]]; [apply H1|apply H2]; exists u, a, b, v; auto.
  - intro H. split; intros [u [a [b [v [E K]]]]]; apply H; exists u, a, b, v; auto.
Qed.

Lemma adjacent_cons : forall P t ts, adjacent P (t :: ts) <->
  match ts with [] => False | b :: _ => P t b end \/ adjacent P ts.
Proof.
  intros P t ts. split.
  - intros [[|x u] [a [b [v [E H]]]]]; cbn in E; injection E as -> ->; [now left|]. right. exists u, a, b, v. auto.
  - intros [H|[u [a [b [v [-> H]]]]]].
    + destruct ts as [|b v]; [contradiction|]. exists [], t, b, v. auto.
    + exists (t :: u), a, b, v. auto.
Qed.

Definition starts_safely (ts : list token) : Prop :=
  match ts with [] => True | b :: _ => b <> TSym "!" /\ forall s, b <> TNum s end.

Lemma clear_glue : forall ctx a b, clear_tokens ctx a -> clear_tokens ctx b -> starts_safely b -> clear_tokens ctx (a ++ b).
Proof.
  intros ctx a b A B S. apply clear_pairs in A. apply clear_pairs in B. apply clear_pairs. induction a as [|t a IH]; [exact B|].
  cbn [app]. rewrite adjacent_cons in A |- *. intros [K|K].
  - destruct a as [|t1 a]; cbn [app] in K; [|apply A; now left].
    destruct b as [|b1 b]; [exact K|]. destruct S as [S1 S2]. destruct K as [[_ K]|[_ [s K]]]; [now apply S1|now apply (S2 s)].
  - apply IH; [|exact K]. intro K'. apply A. now right.
Qed.

Lemma clear_step : forall ctx t ts, clear_tokens ctx ts -> match ts with [] => True | b :: _ => ~ bad_pair ctx t b end -> clear_tokens ctx (t :: ts).
Proof.
  intros ctx t ts H K. apply clear_pairs in H. apply clear_pairs. rewrite adjacent_cons. intros [A|A]; [|now apply H]. destruct ts; auto.
Qed.

Lemma clear_unstep : forall ctx t ts, clear_tokens ctx (t :: ts) -> clear_tokens ctx ts /\ match ts with [] => True | b :: _ => ~ bad_pair ctx t b end.
Proof.
  intros ctx t ts H. apply clear_pairs in H. rewrite adjacent_cons in H. split; [apply clear_pairs; tauto|]. destruct ts; auto.
Qed.

Lemma given_in : forall names args s a, argument_for names args s = Some a -> In s names /\ In a args.
Proof.
  induction names as [|n names IH]; intros [|x args] s a H; try discriminate H. cbn in H. destruct (String.eqb_spec s n) as [->|_].
  - injection H as ->. split; now left.
  - destruct (IH _ _ _ H). split; now right.
Qed.

Lemma given_none : forall names args s, List.length args = List.length names -> argument_for names args s = None -> ~ In s names.
Proof.
  induction names as [|n names IH]; intros [|x args] s L H; try discriminate L; [easy|]. cbn in *.
  destruct (String.eqb_spec s n) as [->|N]; [discriminate H|]. intros [K|K]; [congruence|]. apply (IH args s); auto.
Qed.

Lemma written_out_head : forall names args bs, written_out names args bs = [] /\ bs = [] \/
  exists t r, bs = t :: r /\ (exists r', written_out names args bs = t :: r' \/ written_out names args bs = TSym "(" :: r').
Proof.
  intros names args [|t r]; [now left|]. right. exists t, r. split; [reflexivity|]. cbn [written_out]. destruct t as [s|s|c]; eauto.
  destruct (argument_for names args s); eauto.
Qed.

Lemma written_out_clear : forall ctx names args bs, clear_tokens ctx bs -> numbers_apart names bs -> Forall (clear_tokens ctx) args ->
  clear_tokens ctx (written_out names args bs).
Proof.
  intros ctx names args bs C N A. induction bs as [|t bs IH]; [exact C|].
  destruct (clear_unstep _ _ _ C) as [C' P]. unfold numbers_apart in N. rewrite adjacent_cons in N.
  assert (IH' : clear_tokens ctx (written_out names args bs)) by (apply IH; [exact C'|intro K; apply N; now right]).
  assert (Keep : clear_tokens ctx (t :: written_out names args bs)).
  { apply clear_step; [exact IH'|]. destruct (written_out_head names args bs) as [[-> _]|[t0 [r [-> [r' [-> | ->]]]]]]; auto.
    intros [[_ K]|[_ [s K]]]; discriminate K. }
  cbn [written_out]. destruct t as [s|s|c]; auto. destruct (argument_for names args s) as [a|] eqn:G; auto.
  destruct (given_in _ _ _ _ G) as [Gn Ga]. rewrite Forall_forall in A. specialize (A a Ga).
  apply clear_step.
  - apply clear_glue; [exact A| |split; [discriminate|intros; discriminate]].
    apply clear_step; [exact IH'|]. destruct (written_out_head names args bs) as [[-> _]|[t0 [r [-> [r' [-> | ->]]]]]]; auto.
    + intros [[K _]|[_ [s0 ->]]]; [discriminate K|]. apply N. left. split; [eauto|eauto].
    + intros [[_ K]|[_ [s0 K]]]; discriminate K.
  - destruct (a ++ TSym ")" :: written_out names args bs)%list as [|b l]; auto. intros [[K _]|[K _]]; discriminate K.
Qed.

Lemma clear_app : forall ctx a b, clear_tokens ctx (a ++ b) -> clear_tokens ctx a /\ clear_tokens ctx b.
Proof.
  intros ctx a b [H1 H2]. repeat split; intro K; [apply H1|apply H2|apply H1|apply H2];
    (now apply adjacent_prefix) || (now apply adjacent_suffix).
Qed.

Section Expansion.
  Variables (ctx ctx0 : context) (name : string) (names : list string) (bs : list token).
  Hypothesis Hends : forall s, s <> name -> ends_number ctx0 (TId s) = ends_number ctx (TId s).
  Hypothesis Cb : clear_tokens ctx0 bs.
  Hypothesis Nb : numbers_apart names bs.

  Lemma ends_same : forall t, t <> TId name -> ends_number ctx0 t = ends_number ctx t.
  Proof. intros [s|s|c] H; try reflexivity. apply Hends. congruence. Qed.

  Lemma separated_clear : forall args, clear_tokens ctx (separated args) -> Forall (clear_tokens ctx) args.
  Proof.
    induction args as [|a r IH]; intro H; [constructor|]. destruct r as [|b r]; [constructor; [exact H|constructor]|].
    change (separated (a :: b :: r)) with (a ++ TSym "," :: separated (b :: r))%list in H. apply clear_app in H. destruct H as [A H].
    apply clear_unstep in H. constructor; [exact A|]. apply IH. tauto.
  Qed.

  Lemma expands_clear :
    (forall ts ts', expands name names bs ts ts' -> clear_tokens ctx ts -> clear_tokens ctx0 ts' /\
       match ts, ts' with [], [] => True | a :: _, b :: _ => b = a \/ b = TSym "(" | _, _ => False end) /\
    (forall l l', expand_all name names bs l l' -> Forall (clear_tokens ctx) l -> Forall (clear_tokens ctx0) l').
  Proof.
    apply expands_mutind.
    - intros H. split; [|exact I]. apply clear_pairs. intros [[|? ?] [? [? [? [E _]]]]]; discriminate E.
    - intros t ts ts' Hn _ IH H. apply clear_unstep in H. destruct H as [H P]. destruct (IH H) as [C M]. split; [|now left].
      apply clear_step; [exact C|]. destruct ts' as [|b ts']; auto. destruct ts as [|b0 ts]; [contradiction|].
      destruct M as [-> | ->]; [|intros [[_ K]|[_ [s K]]]; discriminate K].
      intros K. apply P. unfold bad_pair in *. now rewrite (ends_same t Hn) in K.
    - intros args args' ts ts' Hl _ _ IHa _ IH H. split; [|now right]. apply clear_unstep in H. destruct H as [H _].
      apply clear_unstep in H. destruct H as [H _]. apply clear_app in H. destruct H as [Ha H].
      apply clear_unstep in H. destruct H as [H P]. destruct (IH H) as [C M].
      apply clear_step; [|destruct (written_out names args' bs ++ TSym ")" :: ts')%list; auto; intros [[K _]|[K _]]; discriminate K].
      apply clear_glue; [|apply clear_step; [exact C|]|split; [discriminate|intros; discriminate]].
      + apply written_out_clear; auto using separated_clear.
      + destruct ts' as [|b ts']; auto. destruct ts as [|b0 ts]; [contradiction|].
        destruct M as [-> | ->]; [|intros [[_ K]|[_ [s K]]]; discriminate K]. exact P.
    - auto.
    - intros a a' l l' _ IH _ IHl H. inversion H; subst. constructor; [now apply IH|auto].
  Qed.
End Expansion.

(** ** the body with its names replaced *)
Section Body.
  Variables (pj : bool) (ctx0 : context) (names : list string).
  Hypothesis Hnames : forall n, In n names -> stands_for ctx0 n = I_Variable n.

  Lemma given_tree : forall us qs, Forall2 (sentence pj ctx0) us qs -> List.length us = List.length names ->
    forall s, match argument_for names us s with
              | Some a => exists q, assoc names qs s = Some q /\ sentence pj ctx0 a q
              | None => assoc names qs s = None
              end.
  Proof.
    clear Hnames. induction names as [|n ns IH]; intros us qs H L s; [destruct us; reflexivity|].
    destruct us as [|u us]; [discriminate L|]. inversion H; subst. cbn [argument_for assoc]. destruct (String.eqb s n); [eauto|].
    apply IH; auto.
  Qed.

  Definition body_timg (us : list (list token)) (s : string) (vs : list token) : Prop :=
    match argument_for names us s with
    | Some a => vs = (TSym "(" :: a ++ [TSym ")"])%list
    | None => vs = [TId s]%list
    end.
  Definition body_img (qs : list element) (x : string) (e : element) : Prop :=
    match assoc names qs x with Some q => e = q | None => e = Var x end.

  Lemma body_rewritten : forall us bs, rewritten (body_timg us) bs (written_out names us bs).
  Proof.
    intros us. induction bs as [|[s|s|c] bs IH]; cbn [written_out]; try (constructor; [discriminate|exact IH]); [constructor|].
    destruct (argument_for names us s) as [a|] eqn:G.
    - replace (TSym "(" :: a ++ TSym ")" :: written_out names us bs)%list with ((TSym "(" :: a ++ [TSym ")"]) ++ written_out names us bs)%list
        by (cbn [app]; now rewrite <- app_assoc).
      apply RW_name; [|exact IH]. unfold body_timg. now rewrite G.
    - change (TId s :: written_out names us bs)%list with ([TId s] ++ written_out names us bs)%list. apply RW_name; [|exact IH].
      unfold body_timg. now rewrite G.
  Qed.

  Lemma body_substituted : forall qs t t', tree_rewritten (fun v e => e = Number v) (body_img qs) t t' -> t' = substitute (assoc names qs) t.
  Proof.
    intros qs. induction t as [n|op l r IHl IHr|op e IHe|f args Hargs|y] using element_ind'; intros t' H; inversion H; subst; cbn [substitute].
    - reflexivity.
    - f_equal; auto.
    - f_equal; auto.
    - f_equal. match goal with K : all_rewritten _ _ _ ?l |- _ => rename l into args'; rename K into Ha end. clear H.
      revert args' Ha. induction Hargs as [|a l Hh _ IH]; intros args' Ha; inversion Ha; subst; [reflexivity|]. cbn [map]. f_equal; auto.
    - match goal with K : body_img _ _ _ |- _ => unfold body_img in K; destruct (assoc names qs y); now subst end.
  Qed.

  Lemma body_sentence : forall us qs bs tb, Forall2 (sentence pj ctx0) us qs -> List.length us = List.length names ->
    sentence pj ctx0 bs tb -> clear_tokens ctx0 (written_out names us bs) ->
    sentence pj ctx0 (written_out names us bs) (substitute (assoc names qs) tb).
  Proof.
    intros us qs bs tb Hs L Sb C.
    destruct (sentences_rewritten pj ctx0 ctx0 (body_timg us) (fun v e => e = Number v) (body_img qs)) with (ts := bs) (t := tb) (ts' := written_out names us bs)
      as [t' [St Tt]]; auto using body_rewritten.
    - intros s f vs Hf Hi. unfold body_timg in Hi. destruct (argument_for names us s) as [a|] eqn:G; [|auto].
      exfalso. apply given_in in G. rewrite (Hnames s) in Hf by tauto. discriminate Hf.
    - intros s v vs Hf Hi. unfold body_timg in Hi. destruct (argument_for names us s) as [a|] eqn:G; [|subst; exists (Number v); split; [now apply P_constant|reflexivity]].
      exfalso. apply given_in in G. rewrite (Hnames s) in Hf by tauto. discriminate Hf.
    - intros s x vs Hf Hi. assert (x = s) by exact (stands_variable _ _ _ Hf). subst x. pose proof (given_tree us qs Hs L s) as K.
      unfold body_timg in Hi. unfold body_img. destruct (argument_for names us s) as [a|].
      + destruct K as [q [-> K]]. exists q. subst vs. split; [now apply P_paren|reflexivity].
      + rewrite K. exists (Var s). subst vs. split; [now apply P_variable|reflexivity].
    - intros s vs Hi Ha. unfold body_timg in Hi. destruct (argument_for names us s); subst vs; cbn; auto.
    - apply body_substituted in Tt. now subst t'.
  Qed.
End Body.

(** ** trees with the calls written out *)
Section Trees.
  Variables (id : nat) (hof : function) (names : list string) (tb : element).
  Inductive inlined : element -> element -> Prop :=
  | IN_number : forall n, inlined (Number n) (Number n)
  | IN_var : forall x, inlined (Var x) (Var x)
  | IN_bin : forall op l l' r r', inlined l l' -> inlined r r' -> inlined (BinOp op l r) (BinOp op l' r')
  | IN_un : forall op a a', inlined a a' -> inlined (UnOp op a) (UnOp op a')
  | IN_call : forall f l l', fn_ptr f <> Static_user id -> fn_ptr f <> Dyn_user id -> all_inlined l l' -> inlined (Call f l) (Call f l')
  | IN_here : forall l l', List.length l = List.length names -> all_inlined l l' -> inlined (Call hof l) (substitute (assoc names l') tb)
  with all_inlined : list element -> list element -> Prop :=
  | IN_nil : all_inlined [] []
  | IN_cons : forall a a' l l', inlined a a' -> all_inlined l l' -> all_inlined (a :: l) (a' :: l').
End Trees.

Scheme inlined_min := Minimality for inlined Sort Prop with all_inlined_min := Minimality for all_inlined Sort Prop.
Combined Scheme inlined_mutind from inlined_min, all_inlined_min.

Section Sentences.
  Variables (pj : bool) (ctx ctx0 : context) (id : nat) (name : string) (hof : function) (names : list string) (bs : list token) (tb : element).
  Hypothesis Hsame : forall s, s <> name -> stands_for ctx s = stands_for ctx0 s.
  Hypothesis Hname : stands_for ctx name = I_Function hof.
  Hypothesis Harity : fn_nb_args hof = Some (List.length names).
  Hypothesis Hnew : forall s g, stands_for ctx0 s = I_Function g -> fn_ptr g <> Static_user id /\ fn_ptr g <> Dyn_user id.
  Hypothesis Hnames : forall n, In n names -> stands_for ctx0 n = I_Variable n.
  Hypothesis Sb : sentence pj ctx0 bs tb.
  Hypothesis Cb : clear_tokens ctx0 bs.
  Hypothesis Nb : numbers_apart names bs.

  Lemma ends_kept : forall s, s <> name -> ends_number ctx0 (TId s) = ends_number ctx (TId s).
  Proof. intros s H. cbn. now rewrite Hsame. Qed.

  Lemma sym_kept : forall c ts ts', expands name names bs ts ts' -> expands name names bs (TSym c :: ts) (TSym c :: ts').
  Proof. intros c ts ts' H. apply EX_keep; [discriminate|exact H]. Qed.

  Lemma follow_expanded : forall a a' b b' l l', expands name names bs a a' -> expands name names bs b b' -> clear_tokens ctx (a ++ b) ->
    may_follow l b -> (bare_number l' = true -> number_at_end ctx0 a') -> may_follow l' b'.
  Proof.
    intros a a' b b' l l' Ea Eb C M N.
    assert (C' : clear_tokens ctx0 (a' ++ b')).
    { apply (proj1 (expands_clear ctx ctx0 name names bs ends_kept Cb Nb) (a ++ b)%list); [now apply expands_app|exact C]. }
    inversion Eb as [|t ts ts' Hn H E1 E2|args args' ts ts' Hl Ha Hx H E1 E2]; subst.
    - destruct M.
    - destruct t as [s|s|c]; cbn [may_follow] in *; auto. split; [tauto|]. destruct (bare_number l') eqn:E; auto. exfalso.
      destruct (N eq_refl) as [u [x [-> Hx]]]. destruct C' as [_ C']. apply C'. exists u, x, (TNum s), ts'. rewrite <- app_assoc. eauto.
    - reflexivity.
  Qed.

  Definition can_write (X : list token -> element -> Prop) (ts : list token) (t : element) : Prop :=
    clear_tokens ctx ts -> exists ts' t', expands name names bs ts ts' /\ X ts' t' /\ inlined id hof names tb t t' /\
      (bare_number t' = true -> number_at_end ctx0 ts').

  Lemma written_sentences :
    (forall ts t, prim pj ctx ts t -> can_write (prim pj ctx0) ts t) /\
    (forall ts l, args_of pj ctx ts l -> clear_tokens ctx ts -> exists ps ps' l', ts = separated ps /\ ps <> [] /\ Forall one_argument ps /\
       expand_all name names bs ps ps' /\ Forall2 (sentence pj ctx0) ps' l' /\ args_of pj ctx0 (separated ps') l' /\ all_inlined id hof names tb l l' /\
       List.length ps = List.length l /\ expands name names bs ts (separated ps')) /\
    (forall ts t, postfix pj ctx ts t -> can_write (postfix pj ctx0) ts t) /\
    (forall ts t, power pj ctx ts t -> can_write (power pj ctx0) ts t) /\
    (forall ts t, signed pj ctx ts t -> can_write (signed pj ctx0) ts t) /\
    (forall ts t, factor pj ctx ts t -> can_write (factor pj ctx0) ts t) /\
    (forall ts t, term pj ctx ts t -> can_write (term pj ctx0) ts t) /\
    (forall ts t, sum pj ctx ts t -> sentence pj ctx ts t /\ can_write (sum pj ctx0) ts t).
  Proof.
    apply sentence_mutind; unfold can_write.
    - intros s v H _. exists [TNum s], (Number v). split; [apply EX_keep; [discriminate|constructor]|]. split; [now constructor|]. split; [constructor|].
      intros _. now exists [], (TNum s).
    - intros s v H _. assert (Hn : s <> name) by congruence. rewrite (Hsame _ Hn) in H. exists [TId s], (Number v).
      split; [apply EX_keep; [congruence|constructor]|]. split; [now constructor|]. split; [constructor|].
      intros _. exists [], (TId s). split; [reflexivity|]. cbn. now rewrite H.
    - intros s x H _. assert (Hn : s <> name) by congruence. rewrite (Hsame _ Hn) in H. exists [TId s], (Var x).
      split; [apply EX_keep; [congruence|constructor]|]. split; [now constructor|]. split; [constructor|discriminate].
    - intros s f ts args Hs _ IH Ha C. assert (C1 : clear_tokens ctx ts).
      { apply clear_unstep in C. destruct C as [C _]. apply clear_unstep in C. destruct C as [C _]. now apply clear_app in C. }
      destruct (IH C1) as [ps [ps' [l' [-> [Hne [Ho [Hx [Hss [Hargs [Hin [Hl Hex]]]]]]]]]]].
      assert (Ll : List.length args = List.length l') by (clear - Hin; induction Hin; cbn; auto).
      destruct (string_dec s name) as [->|Hn].
      + assert (Ef : f = hof) by congruence. rewrite Ef in Ha. unfold SpecGrammar.arity_ok in Ha. rewrite Harity in Ha. rewrite Ef.
        assert (Lp : List.length ps' = List.length names) by (rewrite <- (expand_all_length _ _ _ _ _ Hx); congruence).
        exists (TSym "(" :: written_out names ps' bs ++ [TSym ")"])%list, (substitute (assoc names l') tb). split.
        { apply EX_call; auto; [congruence|constructor]. }
        split; [|split; [constructor; auto|]].
        * apply P_paren. apply body_sentence; auto. apply written_out_clear; auto.
          apply (proj2 (expands_clear ctx ctx0 name names bs ends_kept Cb Nb) ps); auto. now apply separated_clear.
        * intros _. exists (TSym "(" :: written_out names ps' bs), (TSym ")"). split; reflexivity.
      + rewrite (Hsame _ Hn) in Hs. destruct (Hnew _ _ Hs) as [N1 N2].
        exists (TId s :: TSym "(" :: separated ps' ++ [TSym ")"])%list, (Call f l'). split.
        { apply EX_keep; [congruence|]. apply sym_kept. apply expands_app; [exact Hex|]. apply sym_kept. constructor. }
        split; [apply P_call; auto; unfold SpecGrammar.arity_ok in *; now rewrite <- Ll|]. split; [now constructor|discriminate].
    - intros ts t _ [_ IH] C. apply clear_unstep in C. destruct C as [C _]. apply clear_app in C. destruct C as [C _].
      destruct (IH C) as [ts' [t' [E [S [I _]]]]]. exists (TSym "(" :: ts' ++ [TSym ")"])%list, t'. split.
      { apply sym_kept, expands_app; [exact E|]. apply sym_kept. constructor. }
      split; [now apply P_paren|]. split; [exact I|]. intros _. exists (TSym "(" :: ts'), (TSym ")"). split; reflexivity.
    - intros ts t _ [S0 IH] C. destruct (IH C) as [ts' [t' [E [S [I _]]]]]. exists [ts], [ts'], [t'].
      split; [reflexivity|]. split; [discriminate|]. split; [constructor; [eapply sentence_argument; eauto|constructor]|].
      split; [constructor; [exact E|constructor]|]. split; [constructor; [exact S|constructor]|]. split; [now apply A_last|]. split; [constructor; [exact I|constructor]|].
      split; [reflexivity|exact E].
    - intros ts t ts2 l _ [S0 IH] _ IHl C. apply clear_app in C. destruct C as [C C2]. apply clear_unstep in C2. destruct C2 as [C2 _].
      destruct (IH C) as [ts' [t' [E [S [I _]]]]].
      destruct (IHl C2) as [ps [ps' [l' [-> [Hne [Ho [Hx [Hss [Hargs [Hin [Hl Hex]]]]]]]]]]].
      destruct ps as [|p ps]; [congruence|]. destruct ps' as [|p' ps']; [inversion Hx|].
      exists (ts :: p :: ps), (ts' :: p' :: ps'), (t' :: l'). split; [reflexivity|]. split; [discriminate|].
      split; [constructor; [eapply sentence_argument; eauto|exact Ho]|]. split; [now constructor|]. split; [now constructor|].
      split; [now apply A_more|]. split; [now constructor|]. split; [cbn in *; congruence|].
      apply expands_app; [exact E|]. now apply sym_kept.
    - intros ts t _ IH C. destruct (IH C) as [ts' [t' [E [S [I N]]]]]. exists ts', t'. split; [exact E|]. split; [now constructor|]. auto.
    - intros ts t _ IH C. apply clear_app in C. destruct C as [C _]. destruct (IH C) as [ts' [t' [E [S [I N]]]]].
      exists (ts' ++ [TSym "!"])%list, (UnOp Factorial t'). split; [apply expands_app; [exact E|]; apply sym_kept; constructor|].
      split; [now constructor|]. split; [now constructor|discriminate].
    - intros ts t _ IH C. destruct (IH C) as [ts' [t' [E [S [I N]]]]]. exists ts', t'. split; [exact E|]. split; [now constructor|]. auto.
    - intros ts l ts2 r _ IHl _ IHr C. apply clear_app in C. destruct C as [C C2]. apply clear_unstep in C2. destruct C2 as [C2 _].
      destruct (IHl C) as [ts' [t' [E [S [I N]]]]]. destruct (IHr C2) as [ts2' [r' [E2 [S2 [I2 _]]]]].
      exists (ts' ++ TSym "^" :: ts2')%list, (BinOp Power t' r'). split; [apply expands_app; [exact E|]; now apply sym_kept|].
      split; [now constructor|]. split; [now constructor|discriminate].
    - intros ts t _ IH C. destruct (IH C) as [ts' [t' [E [S [I N]]]]]. exists ts', t'. split; [exact E|]. split; [now constructor|]. auto.
    - intros c op ts t Hc _ IH C. apply clear_unstep in C. destruct C as [C _]. destruct (IH C) as [ts' [t' [E [S [I N]]]]].
      exists (TSym c :: ts')%list, (UnOp op t'). split; [now apply sym_kept|]. split; [now constructor|]. split; [now constructor|discriminate].
    - intros ts l c op ts2 t _ IHl Hc _ IHr C. apply clear_app in C. destruct C as [C C2]. apply clear_unstep in C2. destruct C2 as [C2 _].
      apply clear_unstep in C2. destruct C2 as [C2 _].
      destruct (IHl C) as [ts' [t' [E [S [I N]]]]]. destruct (IHr C2) as [ts2' [r' [E2 [S2 [I2 _]]]]].
      exists (ts' ++ TSym "^" :: TSym c :: ts2')%list, (BinOp Power t' (UnOp op r')).
      split; [apply expands_app; [exact E|]; now apply sym_kept, sym_kept|].
      split; [now apply S_power_sign|]. split; [repeat constructor; auto|discriminate].
    - intros ts t _ IH C. destruct (IH C) as [ts' [t' [E [S [I N]]]]]. exists ts', t'. split; [exact E|]. split; [now constructor|]. auto.
    - intros ts l ts2 r Hp _ IHl _ IHr M C. pose proof C as C0. apply clear_app in C. destruct C as [C C2].
      destruct (IHl C) as [ts' [t' [E [S [I N]]]]]. destruct (IHr C2) as [ts2' [r' [E2 [S2 [I2 _]]]]].
      exists (ts' ++ ts2')%list, (BinOp Times t' r'). split; [now apply expands_app|].
      split; [apply K_implicit; auto; exact (follow_expanded _ _ _ _ _ _ E E2 C0 M N)|]. split; [now constructor|discriminate].
    - intros ts t _ IH C. destruct (IH C) as [ts' [t' [E [S [I N]]]]]. exists ts', t'. split; [exact E|]. split; [now constructor|]. auto.
    - intros ts l c op ts2 r _ IHl Hc _ IHr C. apply clear_app in C. destruct C as [C C2]. apply clear_unstep in C2. destruct C2 as [C2 _].
      destruct (IHl C) as [ts' [t' [E [S [I N]]]]]. destruct (IHr C2) as [ts2' [r' [E2 [S2 [I2 _]]]]].
      exists (ts' ++ TSym c :: ts2')%list, (BinOp op t' r'). split; [apply expands_app; [exact E|]; now apply sym_kept|].
      split; [now apply T_mul|]. split; [now constructor|discriminate].
    - intros ts l ts2 r Hp _ IHl _ IHr M C. pose proof C as C0. apply clear_app in C. destruct C as [C C2].
      destruct (IHl C) as [ts' [t' [E [S [I N]]]]]. destruct (IHr C2) as [ts2' [r' [E2 [S2 [I2 _]]]]].
      exists (ts' ++ ts2')%list, (BinOp Times t' r'). split; [now apply expands_app|].
      split; [apply T_implicit; auto; exact (follow_expanded _ _ _ _ _ _ E E2 C0 M N)|]. split; [now constructor|discriminate].
    - intros ts t S0 IH. split; [now apply U_term|]. intro C. destruct (IH C) as [ts' [t' [E [S [I N]]]]]. exists ts', t'. split; [exact E|]. split; [now constructor|]. auto.
    - intros ts l c op ts2 r S0 [_ IHl] Hc S1 IHr. split; [now apply U_add|]. intro C. apply clear_app in C. destruct C as [C C2]. apply clear_unstep in C2. destruct C2 as [C2 _].
      destruct (IHl C) as [ts' [t' [E [S [I N]]]]]. destruct (IHr C2) as [ts2' [r' [E2 [S2 [I2 _]]]]].
      exists (ts' ++ TSym c :: ts2')%list, (BinOp op t' r'). split; [apply expands_app; [exact E|]; now apply sym_kept|].
      split; [now apply U_add|]. split; [now constructor|discriminate].
  Qed.
End Sentences.

(** ** values *)
Lemma substitute_means : forall w rho names args vs, NoDup names -> means_all w rho args vs -> List.length args = List.length names ->
  forall e u, means w (assign names vs) e u -> means w rho (substitute (assoc names args) e) u.
Proof.
  intros w rho names args vs Hn Ha Hl. pose proof (assoc_assign w rho names args vs Hn Ha Hl) as A.
  induction e as [n|op l r IHl IHr|op e IHe|f l Hargs|x] using element_ind'; intros u H; cbn [substitute].
  - inversion H; subst. constructor.
  - inversion H; subst; [apply M_plus|apply M_minus|apply M_times|apply M_divide|apply M_power|apply M_modulo]; auto.
  - inversion H; subst; [apply M_unplus|apply M_unminus|apply M_factorial]; auto.
  - inversion H; subst. eapply M_call; [|eassumption].
    match goal with K : means_all _ _ l _ |- _ => revert K end.
    match goal with K : call_function _ _ _ = _ |- _ => clear K end. clear H. revert vs0. induction Hargs as [|a l Ha' _ IH]; intros vs0 K; inversion K; subst; [constructor|].
    cbn [map]. constructor; auto.
  - inversion H; subst. specialize (A x). match goal with K : assign names vs x = Some _ |- _ => rewrite K in A end.
    destruct A as [t [-> A]]. exact A.
Qed.

Lemma unsubstitute_means : forall w rho names args vs, NoDup names -> means_all w rho args vs -> List.length args = List.length names ->
  forall e u, (forall x, free x e -> In x names) -> means w rho (substitute (assoc names args) e) u -> means w (assign names vs) e u.
Proof.
  intros w rho names args vs Hn Ha Hl. pose proof (assoc_assign w rho names args vs Hn Ha Hl) as A.
  assert (Hlv : List.length names = List.length vs).
  { rewrite <- Hl. clear -Ha. induction Ha; cbn; auto. }
  induction e as [n|op l r IHl IHr|op e IHe|f l Hargs|x] using element_ind'; intros u F H; cbn [substitute] in H.
  - inversion H; subst. constructor.
  - cbn [free] in F. inversion H; subst; [apply M_plus|apply M_minus|apply M_times|apply M_divide|apply M_power|apply M_modulo]; auto.
  - cbn [free] in F. inversion H; subst; [apply M_unplus|apply M_unminus|apply M_factorial]; auto.
  - inversion H; subst. eapply M_call; [|eassumption].
    assert (F' : Forall (fun a => forall x, free x a -> In x names) l).
    { apply Forall_forall. intros a Hx y Hy. apply F. apply free_call, Exists_exists. eauto. }
    match goal with K : means_all _ _ _ _ |- _ => revert K end.
    match goal with K : call_function _ _ _ = _ |- _ => clear K end. clear H F. revert vs0.
    match goal with |- forall vs0, means_all _ _ _ vs0 -> _ => idtac end.
    induction Hargs as [|a l Ha' _ IH]; intros vs0 K; cbn [map] in K; inversion K; subst; [constructor|].
    inversion F'; subst. constructor; auto.
  - constructor. specialize (A x). cbn [free] in F. destruct (assign_defined names vs x Hlv (F x eq_refl)) as [v Hv]. rewrite Hv in A.
    destruct A as [t [E M]]. rewrite E in H. rewrite Hv. f_equal. exact (means_det _ _ _ _ _ M H).
Qed.

(** a tree with a value: so has every argument it uses *)
Lemma substituted_defined : forall w rho sigma x t e u, free x e -> sigma x = Some t -> means w rho (substitute sigma e) u ->
  exists v, means w rho t v.
Proof.
  intros w rho sigma x t e. induction e as [n|op l r IHl IHr|op e IHe|f l Hargs|y] using element_ind'; intros u F S H; cbn [substitute] in H.
  - destruct F.
  - cbn [free] in F. destruct F as [F|F]; inversion H; subst; eauto.
  - cbn [free] in F. inversion H; subst; eauto.
  - apply free_call in F. inversion H; subst. match goal with K : means_all _ _ _ _ |- _ => revert K end.
    match goal with K : call_function _ _ _ = _ |- _ => clear K end. clear H. revert vs.
    induction Hargs as [|a l Ha' _ IH]; intros vs K; [inversion F|]. cbn [map] in K. inversion K; subst. inversion F; subst; eauto.
  - cbn in F. subst y. rewrite S in H. eauto.
Qed.

Lemma assoc_nth : forall names args x a, NoDup names -> In (x, a) (combine names args) -> assoc names args x = Some a.
Proof.
  induction names as [|n names IH]; intros [|b args] x a N H; try destruct H; cbn [assoc].
  - injection H as -> ->. now rewrite String.eqb_refl.
  - inversion N as [|? ? N1 N2]; subst. destruct (String.eqb_spec x n) as [->|_]; [|now apply IH].
    exfalso. apply N1. eapply in_combine_l; eauto.
Qed.

Section Values.
  Variables (cfg : config) (w : world) (inner : xprs) (names : list string) (f : list f64 -> out f64) (id : nat) (hof : function).
  Hypothesis Hf : fair_order w.
  Hypothesis Ho : obtained cfg w inner.
  Hypothesis Hm : few_missing inner names.
  Hypothesis Hb : bind_n cfg w inner names = Val (Bound f).
  Hypothesis Hp : fn_ptr hof = Dyn_user id.
  Hypothesis Hn : NoDup names.
  Hypothesis Hfree : forall x, free x (root inner) -> In x names.
  Let w' := with_user_fn w id (closure_fn f).

  Lemma inlined_means : forall rho,
    (forall t t', inlined id hof names (root inner) t t' -> forall v, means w' rho t v -> means w rho t' v) /\
    (forall l l', all_inlined id hof names (root inner) l l' -> forall vs, means_all w' rho l vs -> means_all w rho l' vs).
  Proof.
    intro rho. apply inlined_mutind.
    - intros n v H. inversion H; subst. constructor.
    - intros x v H. inversion H; subst. now constructor.
    - intros op l l' r r' _ IHl _ IHr v H. inversion H; subst; [apply M_plus|apply M_minus|apply M_times|apply M_divide| |apply M_modulo]; auto.
      change (l_powf w' a b) with (l_powf w a b). apply M_power; auto.
    - intros op a a' _ IH v H. inversion H; subst; [apply M_unplus|apply M_unminus|apply M_factorial]; auto.
    - intros g l l' H1 H2 _ IH v H. inversion H; subst. eapply M_call; [apply IH; eassumption|].
      unfold w' in *. rewrite call_other in *; assumption.
    - intros l l' Hl I IH v H. apply (C42_call_of_bound_expression cfg w inner names f id hof rho l v Hf Ho Hm Hb Hp Hl) in H.
      destruct H as [vs [Ha H]]. apply (substitute_means w rho names l' vs Hn (IH _ Ha)); [|exact H].
      clear -I Hl. rewrite <- Hl. clear Hl. induction I; cbn; auto.
    - intros vs H. inversion H. constructor.
    - intros a a' l l' _ IHa _ IHl vs H. inversion H; subst. constructor; auto.
  Qed.

  Lemma inlined_means_back : (forall n, In n names -> free n (root inner)) -> forall rho,
    (forall t t', inlined id hof names (root inner) t t' -> forall v, means w rho t' v -> means w' rho t v) /\
    (forall l l', all_inlined id hof names (root inner) l l' -> Forall (fun a => exists v, means w rho a v) l' -> exists vs, means_all w rho l' vs /\ means_all w' rho l vs).
  Proof.
    intros Hall rho. apply inlined_mutind.
    - intros n v H. inversion H; subst. constructor.
    - intros x v H. inversion H; subst. now constructor.
    - intros op l l' r r' _ IHl _ IHr v H. inversion H; subst; [apply M_plus|apply M_minus|apply M_times|apply M_divide| |apply M_modulo]; auto.
      change (l_powf w a b) with (l_powf w' a b). apply M_power; auto.
    - intros op a a' _ IH v H. inversion H; subst; [apply M_unplus|apply M_unminus|apply M_factorial]; auto.
    - intros g l l' H1 H2 _ IH v H. inversion H as [| | | | | | | | | | |? ? vs ? K C]; subst. destruct IH as [vs' [A B]].
      { clear -K. induction K; constructor; eauto. }
      assert (vs' = vs) as -> by (clear -A K; revert vs K; induction A; intros vs' K; inversion K; subst; f_equal; eauto using means_det).
      eapply M_call; [exact B|]. unfold w'. now rewrite call_other.
    - intros l l' Hl I IH v H. assert (Hl' : List.length l' = List.length names).
      { clear -I Hl. rewrite <- Hl. clear Hl. induction I; cbn; auto. }
      destruct IH as [vs [A B]].
      { apply Forall_forall. intros a Ha. destruct (In_nth _ _ (Number fzero) Ha) as [i [Hi E]].
        assert (In (nth i names ""%string, a) (combine names l')) as Hc.
        { rewrite <- E, <- combine_nth by lia. apply nth_In. rewrite combine_length. lia. }
        eapply substituted_defined; [|apply (assoc_nth _ _ _ _ Hn Hc)|exact H]. apply Hall. eapply in_combine_l; eauto. }
      apply (C42_call_of_bound_expression cfg w inner names f id hof rho l v Hf Ho Hm Hb Hp Hl). exists vs. split; [exact B|].
      apply (unsubstitute_means w rho names l' vs Hn A Hl' _ _ Hfree H).
    - intros _. exists []. split; constructor.
    - intros a a' l l' _ IHa _ IHl H. inversion H as [|? ? [v Hv] Hr]; subst. destruct (IHl Hr) as [vs [A B]]. exists (v :: vs). split; constructor; auto.
  Qed.
End Values.

Lemma free_substitute : forall sigma x e, free x (substitute sigma e) -> 
  (free x e /\ sigma x = None) \/ exists y t, sigma y = Some t /\ free x t.
Proof.
  intros sigma x. induction e as [n|op l r IHl IHr|op e IHe|f l Hargs|y] using element_ind'; cbn [substitute]; intro H.
  - destruct H.
  - cbn [free] in *. destruct H as [H|H]; [destruct (IHl H)|destruct (IHr H)]; tauto.
  - cbn [free] in *. auto.
  - apply free_call in H. rewrite free_call. induction Hargs as [|a l Ha _ IH]; cbn [map] in H; inversion H; subst.
    + destruct (Ha ltac:(assumption)) as [[A B]|A]; [left; split; [now constructor|exact B]|right; exact A].
    + destruct (IH ltac:(assumption)) as [[A B]|A]; [left; split; [now apply Exists_cons_tl|exact B]|right; exact A].
  - destruct (sigma y) as [t|] eqn:E; [eauto|]. left. split; [exact H|]. cbn in H. now subst.
Qed.

Lemma assoc_In : forall names args x t, assoc names args x = Some t -> In t args.
Proof.
  induction names as [|n names IH]; intros [|a args] x t H; try discriminate H. cbn in H. destruct (String.eqb x n).
  - injection H as ->. now left.
  - right. eauto.
Qed.
Lemma assoc_some : forall names args x, List.length args = List.length names -> In x names -> assoc names args x <> None.
Proof.
  induction names as [|n names IH]; intros [|a args] x Hl H; try discriminate Hl; [destruct H|]. cbn.
  destruct (String.eqb_spec x n); [discriminate|]. destruct H as [->|H]; [congruence|]. apply IH; [cbn in Hl; lia|exact H].
Qed.

Lemma inlined_free : forall id hof names tb, (forall x, free x tb -> In x names) -> forall x,
  (forall t t', inlined id hof names tb t t' -> free x t' -> free x t) /\
  (forall l l', all_inlined id hof names tb l l' -> Exists (free x) l' -> Exists (free x) l).
Proof.
  intros id hof names tb Hfree x. apply inlined_mutind.
  - auto.
  - auto.
  - intros op l l' r r' _ IHl _ IHr H. cbn [free] in *. tauto.
  - intros op a a' _ IH H. cbn [free] in *. tauto.
  - intros g l l' _ _ _ IH H. rewrite free_call in *. auto.
  - intros l l' Hl I IH H. rewrite free_call. apply IH. assert (Hl' : List.length l' = List.length names).
    { clear -I Hl. rewrite <- Hl. clear Hl. induction I; cbn; auto. }
    destruct (free_substitute _ _ _ H) as [[A B]|[y [t [A B]]]].
    + exfalso. apply (assoc_some names l' x Hl' (Hfree _ A) B).
    + apply Exists_exists. exists t. split; [eapply assoc_In; eauto|exact B].
  - intro H. inversion H.
  - intros a a' l l' _ IHa _ IHl H. inversion H; subst; [apply Exists_cons_hd|apply Exists_cons_tl]; auto.
Qed.

(** ** C99 *)

(** An expression accepted in a context without the function is bound and
    registered under a name. Then an accepted text that calls it, written out,
    is accepted without the function, has no further variables and the same
    values. If the body uses all its names it has values in the same cases. *)
Theorem C99_written_out : forall cfg w ctx0 inner names body bs id name,
  optimize cfg = false -> fair_order w -> context_functions_return w ctx0 ->
  defines cfg w ctx0 inner names body bs -> unused_id ctx0 id ->
  exists f, bind_n cfg w inner names = Val (Bound f) /\
  let w' := with_user_fn w id (closure_fn f) in
  let ctx := with_fn ctx0 (mk_function name (Dyn_user id) (Some (List.length names))) in
  forall input ts x, tokens_of input ts -> clear_tokens ctx ts -> parse cfg w' ctx input = Parse_ok x ->
  exists ts', expands name names bs ts ts' /\ (forall us, expands name names bs ts us -> us = ts') /\
  forall input', tokens_of input' ts' ->
  exists y, parse cfg w ctx0 input' = Parse_ok y /\
    (forall v, In v (vars y) -> In v (vars x)) /\
    (forall rho v, eval w' x rho = Val (Eval_ok v) -> eval w y rho = Val (Eval_ok v)) /\
    ((forall n, In n names -> In n (vars inner)) -> 
       forall rho v, eval w' x rho = Val (Eval_ok v) <-> eval w y rho = Val (Eval_ok v)).
Proof.
  intros cfg w ctx0 inner names body bs id name Hopt Hf Hret [Tb [Cb [Nb [Pb [Hn [Hnames Hv]]]]]] Hid.
  assert (Hinner := C17_vars_exact _ _ _ _ _ Pb).
  assert (Hfew : few_missing inner names).
  { intros m [_ Hm]. destruct m as [|v m]; [cbn; lia|]. exfalso. destruct (proj1 (Hm v) (or_introl eq_refl)) as [H1 H2]. auto. }
  assert (Hobt : obtained cfg w inner).
  { apply (ob_parse cfg w ctx0 body); auto. intro D. apply (proj1 Cb). exact (double_bang_tokens _ _ Tb D). }
  destruct (C26_bind_succeeds_iff_all_listed cfg w inner Hf (proj1 Hinner)) as [_ [_ [_ [_ [_ [_ [_ [_ [_ [Hb _]]]]]]]]]].
  destruct (proj2 (Hb _ Hfew) Hv) as [f Hbind]. clear Hb. exists f. split; [exact Hbind|]. intros w' ctx input ts x Ht Hc Hp.
  assert (Hfree : forall v, free v (root inner) -> In v names).
  { intros v H. apply Hv. apply (proj2 Hinner). now apply free_iff. }
  destruct (proj1 (C05_parser_decides_grammar cfg w ctx0 body bs (root inner) Hopt Hf Tb Cb) (ex_intro _ inner (conj Pb eq_refl))) as [Sb _].
  assert (Hf' : fair_order w') by exact Hf.
  destruct (proj1 (C05_parser_decides_grammar cfg w' ctx input ts (root x) Hopt Hf' Ht Hc) (ex_intro _ x (conj Hp eq_refl))) as [Sx Dx].
  set (hof := mk_function name (Dyn_user id) (Some (List.length names))) in *.
  assert (Hsame : forall s, s <> name -> stands_for ctx s = stands_for ctx0 s).
  { intros s H. unfold stands_for, ctx, with_fn. cbn [ctx_symbols]. rewrite sget_sinsert. destruct (String.eqb_spec s (fn_name hof)); [contradiction|reflexivity]. }
  assert (Hname : stands_for ctx name = I_Function hof).
  { unfold stands_for, ctx, with_fn. cbn [ctx_symbols]. rewrite sget_sinsert. cbn [fn_name hof]. now rewrite String.eqb_refl. }
  assert (Hnew : forall s g, stands_for ctx0 s = I_Function g -> fn_ptr g <> Static_user id /\ fn_ptr g <> Dyn_user id).
  { intros s g H. unfold stands_for in H. destruct (sget s (ctx_symbols ctx0)) as [[v|h]|] eqn:E; [discriminate| |].
    - injection H as <-. exact (Hid _ _ E).
    - destruct (identifier_from_str_function _ _ H) as [b ->]. split; discriminate. }
  destruct (proj2 (proj2 (proj2 (proj2 (proj2 (proj2 (proj2 
    (written_sentences (pejmdas cfg) ctx ctx0 id name hof names bs (root inner) Hsame Hname eq_refl Hnew Hnames Sb Cb Nb))))))) ts (root x) Sx) as [_ W].
  destruct (W Hc) as [ts' [t' [E [S' [I _]]]]].
  exists ts'. split; [exact E|]. split; [intros us U; exact (proj1 (expands_unique name names bs) _ _ U _ E)|].
  assert (Hsub : forall v, occurs v t' -> occurs v (root x)).
  { intros v H. apply free_iff in H. apply free_iff. exact (proj1 (inlined_free id hof names (root inner) Hfree v) _ _ I H). }
  intros input' T'. destruct (C05_sentences_are_accepted cfg w ctx0 input' ts' t' Hopt Hf T' S') as [y [Py Ry]].
  { intros s Hs v Ho. apply (Dx s); [exact Hs|]. now apply Hsub. }
  exists y. split; [exact Py|]. split; [|split].
  - intros v H. apply (proj2 (C17_vars_exact _ _ _ _ _ Hp)). apply Hsub. rewrite <- Ry. apply (proj2 (C17_vars_exact _ _ _ _ _ Py)). exact H.
  - intros rho v H. apply C21_eval_is_meaning. rewrite Ry.
    apply (proj1 (inlined_means cfg w inner names f id hof Hf Hobt Hfew Hbind eq_refl Hn (lookup rho)) _ _ I). now apply C21_eval_is_meaning.
  - intros Hall rho v. split; intro H; apply C21_eval_is_meaning; apply C21_eval_is_meaning in H; rewrite Ry in *.
    + apply (proj1 (inlined_means cfg w inner names f id hof Hf Hobt Hfew Hbind eq_refl Hn (lookup rho)) _ _ I _ H).
    + refine (proj1 (inlined_means_back cfg w inner names f id hof Hf Hobt Hfew Hbind eq_refl Hn Hfree _ (lookup rho)) _ _ I _ H).
      intros n Hin. apply free_iff. apply (proj2 Hinner). auto.
Qed.

(** ** the conditions are met, and needed *)
Lemma numbers_apart_check : forall names ts,
  adjacent_b (fun a b => match a, b with TId s, TNum _ => existsb (String.eqb s) names | _, _ => false end) ts = false -> numbers_apart names ts.
Proof.
  intros names ts H. eapply adjacent_check; [|exact H]. intros a b [[n [Hn ->]] [s ->]]. apply existsb_exists. exists n. split; [exact Hn|apply String.eqb_refl].
Qed.

Lemma binds : forall cfg w ctx0 body inner names, fair_order w -> parse cfg w ctx0 body = Parse_ok inner ->
  (forall v, occurs v (root inner) -> In v names) -> exists f, bind_n cfg w inner names = Val (Bound f).
Proof.
  intros cfg w ctx0 body inner names Hf Pb Hv. pose proof (C17_vars_exact _ _ _ _ _ Pb) as Hinner.
  assert (Hv' : forall v, In v (vars inner) -> In v names) by (intros v H; apply Hv, (proj2 Hinner), H).
  assert (Hfew : few_missing inner names).
  { intros m [_ Hm]. destruct m as [|v m]; [cbn; lia|]. exfalso. destruct (proj1 (Hm v) (or_introl eq_refl)) as [H1 H2]. auto. }
  destruct (C26_bind_succeeds_iff_all_listed cfg w inner Hf (proj1 Hinner)) as [_ [_ [_ [_ [_ [_ [_ [_ [_ [Hb _]]]]]]]]]].
  exact (proj2 (Hb _ Hfew) Hv').
Qed.

Definition is_comma (t : token) : bool := match t with TSym c => Ascii.eqb c "," | _ => false end.
Fixpoint one_argument_b (d : Z) (ts : list token) : bool :=
  Z.leb 0 d && match ts with
  | [] => Z.eqb d 0
  | t :: r => negb (is_comma t && Z.eqb d 0) && one_argument_b (d + depth_step t 0) r
  end.
Lemma depth_cons : forall t ts, depth (t :: ts) = (depth_step t 0 + depth ts)%Z.
Proof.
  intros t ts. unfold depth. cbn [fold_right]. generalize (fold_right depth_step 0%Z ts). intro n. destruct t as [s|s|c]; cbn [depth_step]; try lia.
  destruct (Ascii.eqb c "("); [lia|]. destruct (Ascii.eqb c ")"); lia.
Qed.
Lemma one_argument_check : forall ts, one_argument_b 0 ts = true -> one_argument ts.
Proof.
  assert (G : forall ts d, one_argument_b d ts = true -> (d + depth ts = 0)%Z /\
    (forall u v, ts = (u ++ v)%list -> (0 <= d + depth u)%Z) /\ (forall u v, ts = (u ++ TSym "," :: v)%list -> (d + depth u <> 0)%Z)).
  { induction ts as [|t ts IH]; intros d H; cbn [one_argument_b] in H; apply andb_true_iff in H; destruct H as [H0 H].
    - apply Z.leb_le in H0. apply Z.eqb_eq in H. split; [cbn; lia|]. split; intros u v E; destruct u; try discriminate E. cbn. lia.
    - apply Z.leb_le in H0. apply andb_true_iff in H. destruct H as [H1 H]. destruct (IH _ H) as [A [B C]].
      split; [rewrite depth_cons; lia|]. split; intros [|t' u] v E.
      + cbn. lia.
      + injection E as -> E. rewrite depth_cons. specialize (B _ _ E). lia.
      + injection E as -> _. cbn in H1. destruct (Z.eqb_spec d 0); [discriminate H1|]. cbn. lia.
      + injection E as -> E. rewrite depth_cons. specialize (C _ _ E). lia. }
  intros ts H. destruct (G _ _ H) as [A [B C]]. repeat split; [exact A|intros u v E; exact (B u v E)|intros u v E; exact (C u v E)].
Qed.

(** one step of writing out, for concrete tokens *)
Lemma expands_here : forall name names body args args' ts ts' r r', expand_all name names body args args' -> expands name names body ts ts' ->
  Nat.eqb (List.length args) (List.length names) && forallb (one_argument_b 0) args = true ->
  r = TId name :: TSym "(" :: separated args ++ TSym ")" :: ts -> r' = TSym "(" :: written_out names args' body ++ TSym ")" :: ts' ->
  expands name names body r r'.
Proof.
  intros name names body args args' ts ts' r r' A E H -> ->. apply andb_true_iff in H. destruct H as [H1 H2]. apply Nat.eqb_eq in H1.
  apply EX_call; auto. apply Forall_forall. intros a Ha. apply one_argument_check. rewrite forallb_forall in H2. auto.
Qed.

Definition h_of (n : nat) : function := mk_function "h" (Dyn_user 7) (Some n).

Example C99_witness : exists inner f x y,
  defines plain_config w0 ctx_default inner ["a"; "b"] "2a+b" [TNum "2"; TId "a"; TSym "+"; TId "b"] /\
  unused_id ctx_default 7 /\ bind_n plain_config w0 inner ["a"; "b"] = Val (Bound f) /\
  parse plain_config (with_user_fn w0 7 (closure_fn f)) (with_fn ctx_default (h_of 2)) "h(x, h(1, y)) - 1" = Parse_ok x /\
  (exists ts ts', tokens_of "h(x, h(1, y)) - 1" ts /\ clear_tokens (with_fn ctx_default (h_of 2)) ts /\
     expands "h" ["a"; "b"] [TNum "2"; TId "a"; TSym "+"; TId "b"] ts ts' /\ tokens_of "(2(x)+((2(1)+(y)))) - 1" ts') /\
  parse plain_config w0 ctx_default "(2(x)+((2(1)+(y)))) - 1" = Parse_ok y /\
  (forall rho v, eval (with_user_fn w0 7 (closure_fn f)) x rho = Val (Eval_ok v) <-> eval w0 y rho = Val (Eval_ok v)) /\
  eval w0 y [("x", lit "3"); ("y", lit "4")] = Val (Eval_ok (lit "11")).
Proof.
  destruct (parses_to (parse plain_config w0 ctx_default "2a+b")
    (BinOp Plus (BinOp Times (Number (lit "2")) (Var "a")) (Var "b"))) as [inner [Hp Hr]]; [vm_compute; reflexivity|].
  assert (Hocc : forall v, occurs v (root inner) <-> In v ["a"; "b"]).
  { intro v. rewrite Hr, <- free_iff. cbn. intuition. }
  assert (Hvars : forall v, In v (vars inner) <-> In v ["a"; "b"]).
  { intro v. rewrite <- Hocc. apply (proj2 (C17_vars_exact _ _ _ _ _ Hp)). }
  assert (D : defines plain_config w0 ctx_default inner ["a"; "b"] "2a+b" [TNum "2"; TId "a"; TSym "+"; TId "b"]).
  { split; [apply tokens_check; vm_compute; reflexivity|]. split; [apply clear_check; vm_compute; reflexivity|].
    split; [apply numbers_apart_check; reflexivity|]. split; [exact Hp|].
    split; [constructor; [cbn; intuition discriminate|constructor; [cbn; tauto|constructor]]|].
    split; [intros n [<-|[<-|[]]]; reflexivity|]. intros v H. now apply Hvars. }
  assert (U : unused_id ctx_default 7) by (intros s g H; discriminate H).
  destruct (C99_written_out plain_config w0 ctx_default inner _ _ _ 7 "h" eq_refl w0_fair (default_context_returns w0) D U) as [f [Hb W]].
  destruct (parses_ok (parse plain_config (with_user_fn w0 7 (closure_fn f)) (with_fn ctx_default (h_of 2)) "h(x, h(1, y)) - 1")) as [x Hx]; [vm_compute; reflexivity|].
  set (ts := [TId "h"; TSym "("; TId "x"; TSym ","; TId "h"; TSym "("; TNum "1"; TSym ","; TId "y"; TSym ")"; TSym ")"; TSym "-"; TNum "1"]).
  assert (Ht : tokens_of "h(x, h(1, y)) - 1" ts) by (apply tokens_check; vm_compute; reflexivity).
  assert (Hc : clear_tokens (with_fn ctx_default (h_of 2)) ts) by (apply clear_check; vm_compute; reflexivity).
  destruct (W _ ts x Ht Hc Hx) as [ts' [E [Eu V]]]. clear W.
  assert (ts' = [TSym "("; TNum "2"; TSym "("; TId "x"; TSym ")"; TSym "+"; TSym "("; TSym "("; TNum "2"; TSym "("; TNum "1"; TSym ")"; TSym "+"; TSym "("; TId "y"; TSym ")"; TSym ")"; TSym ")"; TSym ")"; TSym "-"; TNum "1"]) as ->.
  { symmetry. apply Eu. unfold ts.
    apply (expands_here _ _ _ [[TId "x"]; [TId "h"; TSym "("; TNum "1"; TSym ","; TId "y"; TSym ")"]]
      [[TId "x"]; [TSym "("; TNum "2"; TSym "("; TNum "1"; TSym ")"; TSym "+"; TSym "("; TId "y"; TSym ")"; TSym ")"]] [TSym "-"; TNum "1"] [TSym "-"; TNum "1"]);
      [| |reflexivity|reflexivity|reflexivity].
    - apply EX_more; [apply EX_keep; [discriminate|constructor]|]. apply EX_more; [|constructor].
      apply (expands_here _ _ _ [[TNum "1"]; [TId "y"]] [[TNum "1"]; [TId "y"]] [] []); [| |reflexivity|reflexivity|reflexivity]; [|constructor].
      apply EX_more; [apply EX_keep; [discriminate|constructor]|]. apply EX_more; [apply EX_keep; [discriminate|constructor]|constructor].
    - apply EX_keep; [discriminate|]. apply EX_keep; [discriminate|constructor]. }
  assert (T' : tokens_of "(2(x)+((2(1)+(y)))) - 1" [TSym "("; TNum "2"; TSym "("; TId "x"; TSym ")"; TSym "+"; TSym "("; TSym "("; TNum "2"; TSym "("; TNum "1"; TSym ")"; TSym "+"; TSym "("; TId "y"; TSym ")"; TSym ")"; TSym ")"; TSym ")"; TSym "-"; TNum "1"]) by (apply tokens_check; vm_compute; reflexivity).
  destruct (V _ T') as [y [Py [_ [_ Ey]]]].
  exists inner, f, x, y. split; [exact D|]. split; [exact U|]. split; [exact Hb|]. split; [exact Hx|].
  split; [exists ts; eexists; split; [exact Ht|]; split; [exact Hc|]; split; [exact E|exact T']|]. split; [exact Py|].
  split; [apply Ey; intros n Hn; now apply Hvars|].
  destruct (parses_to (parse plain_config w0 ctx_default "(2(x)+((2(1)+(y)))) - 1")
    (BinOp Minus (BinOp Plus (BinOp Times (Number (lit "2")) (Var "x")) (BinOp Plus (BinOp Times (Number (lit "2")) (Number (lit "1"))) (Var "y"))) (Number (lit "1"))))
    as [y' [Py' Ry]]; [vm_compute; reflexivity|].
  assert (y' = y) as -> by congruence. unfold eval. rewrite Ry. apply eval_check. vm_compute. reflexivity.
Qed.

(** Directly after a name a number is a factor; after a number in brackets it is
    an error. So "h(3)" with h(a) = "a 2" cannot be written out. *)
Theorem C99_number_after_name_refuted : exists inner f x ts ts',
  parse plain_config w0 ctx_default "a 2" = Parse_ok inner /\ root inner = BinOp Times (Var "a") (Number (lit "2")) /\
  bind_n plain_config w0 inner ["a"] = Val (Bound f) /\
  parse plain_config (with_user_fn w0 7 (closure_fn f)) (with_fn ctx_default (h_of 1)) "h(3)" = Parse_ok x /\
  tokens_of "h(3)" ts /\ expands "h" ["a"] [TId "a"; TNum "2"] ts ts' /\ tokens_of "((3) 2)" ts' /\
  exists e, parse plain_config w0 ctx_default "((3) 2)" = Parse_err e.
Proof.
  destruct (parses_to (parse plain_config w0 ctx_default "a 2") (BinOp Times (Var "a") (Number (lit "2")))) as [inner [Hp Hr]]; [vm_compute; reflexivity|].
  destruct (binds plain_config w0 ctx_default "a 2" inner ["a"] w0_fair Hp) as [f Hb].
  { intro v. rewrite Hr, <- free_iff. cbn. intuition. }
  destruct (parses_ok (parse plain_config (with_user_fn w0 7 (closure_fn f)) (with_fn ctx_default (h_of 1)) "h(3)")) as [x Hx]; [vm_compute; reflexivity|].
  exists inner, f, x, [TId "h"; TSym "("; TNum "3"; TSym ")"], [TSym "("; TSym "("; TNum "3"; TSym ")"; TNum "2"; TSym ")"].
  split; [exact Hp|]. split; [exact Hr|]. split; [exact Hb|]. split; [exact Hx|]. split; [apply tokens_check; vm_compute; reflexivity|].
  split; [|split; [apply tokens_check; vm_compute; reflexivity|apply fails_err; vm_compute; reflexivity]].
  apply (expands_here _ _ _ [[TNum "3"]] [[TNum "3"]] [] []); [|constructor|reflexivity|reflexivity|reflexivity].
  apply EX_more; [apply EX_keep; [discriminate|constructor]|constructor].
Qed.

(** With the simplifications of the default build the written-out text can be
    rejected: "h(x) 5" with h(a) = "a-a+3" is accepted, "((x)-(x)+3) 5" is not. *)
Theorem C99_default_refuted : exists inner f x ts ts',
  parse default_config w0 ctx_default "a-a+3" = Parse_ok inner /\ bind_n default_config w0 inner ["a"] = Val (Bound f) /\
  parse default_config (with_user_fn w0 7 (closure_fn f)) (with_fn ctx_default (h_of 1)) "h(x) 5" = Parse_ok x /\
  tokens_of "h(x) 5" ts /\ expands "h" ["a"] [TId "a"; TSym "-"; TId "a"; TSym "+"; TNum "3"] ts ts' /\ tokens_of "((x)-(x)+3) 5" ts' /\
  exists e, parse default_config w0 ctx_default "((x)-(x)+3) 5" = Parse_err e.
Proof.
  destruct (parses_to (parse default_config w0 ctx_default "a-a+3") (Number (lit "3"))) as [inner [Hp Hr]]; [vm_compute; reflexivity|].
  destruct (binds default_config w0 ctx_default "a-a+3" inner ["a"] w0_fair Hp) as [f Hb].
  { intro v. rewrite Hr, <- free_iff. cbn. intuition. }
  destruct (parses_ok (parse default_config (with_user_fn w0 7 (closure_fn f)) (with_fn ctx_default (h_of 1)) "h(x) 5")) as [x Hx]; [vm_compute; reflexivity|].
  exists inner, f, x, [TId "h"; TSym "("; TId "x"; TSym ")"; TNum "5"],
    [TSym "("; TSym "("; TId "x"; TSym ")"; TSym "-"; TSym "("; TId "x"; TSym ")"; TSym "+"; TNum "3"; TSym ")"; TNum "5"].
  split; [exact Hp|]. split; [exact Hb|]. split; [exact Hx|]. split; [apply tokens_check; vm_compute; reflexivity|].
  split; [|split; [apply tokens_check; vm_compute; reflexivity|apply fails_err; vm_compute; reflexivity]].
  apply (expands_here _ _ _ [[TId "x"]] [[TId "x"]] [TNum "5"] [TNum "5"]); [| |reflexivity|reflexivity|reflexivity].
  - apply EX_more; [apply EX_keep; [discriminate|constructor]|constructor].
  - apply EX_keep; [discriminate|constructor].
Qed.

(** An argument the body does not use is still evaluated: "h(1, x)" with
    h(a, b) = "a" needs a value for x, "((1))" does not. *)
Theorem C99_unused_argument_refuted : exists inner f x y,
  defines plain_config w0 ctx_default inner ["a"; "b"] "a" [TId "a"] /\ bind_n plain_config w0 inner ["a"; "b"] = Val (Bound f) /\
  parse plain_config (with_user_fn w0 7 (closure_fn f)) (with_fn ctx_default (h_of 2)) "h(1, x)" = Parse_ok x /\
  eval (with_user_fn w0 7 (closure_fn f)) x [] = Val (Eval_err "x") /\
  parse plain_config w0 ctx_default "((1))" = Parse_ok y /\ eval w0 y [] = Val (Eval_ok (lit "1")).
Proof.
  destruct (parses_to (parse plain_config w0 ctx_default "a") (Var "a")) as [inner [Hp Hr]]; [vm_compute; reflexivity|].
  assert (Hocc : forall v, occurs v (root inner) -> In v ["a"; "b"]).
  { intro v. rewrite Hr, <- free_iff. cbn. intuition. }
  destruct (binds plain_config w0 ctx_default "a" inner ["a"; "b"] w0_fair Hp Hocc) as [f Hb].
  destruct (parses_to (parse plain_config (with_user_fn w0 7 (closure_fn f)) (with_fn ctx_default (h_of 2)) "h(1, x)")
    (Call (h_of 2) [Number (lit "1"); Var "x"])) as [x [Hx Rx]]; [vm_compute; reflexivity|].
  destruct (parses_to (parse plain_config w0 ctx_default "((1))") (Number (lit "1"))) as [y [Hy Ry]]; [vm_compute; reflexivity|].
  exists inner, f, x, y. split.
  - split; [apply tokens_check; vm_compute; reflexivity|]. split; [apply clear_check; vm_compute; reflexivity|].
    split; [apply numbers_apart_check; reflexivity|]. split; [exact Hp|].
    split; [constructor; [cbn; intuition discriminate|constructor; [cbn; tauto|constructor]]|].
    split; [intros n [<-|[<-|[]]]; reflexivity|]. intros v H. apply Hocc. now apply (proj2 (C17_vars_exact _ _ _ _ _ Hp)).
  - split; [exact Hb|]. split; [exact Hx|]. split; [unfold eval; rewrite Rx; reflexivity|]. split; [exact Hy|].
    unfold eval. rewrite Ry. reflexivity.
Qed.
