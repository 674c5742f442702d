(** * Facts about the two groupings *)
From Coq Require Import ZArith NArith Reals List String Ascii Bool Lia.
From Verif Require Import F64 Syntax Builtins Context Element Parser.
From Verif Require Import SpecChars SpecTokens SpecTree SpecGrammar SpecGrouping TokenFacts GrammarFacts GrammarEquiv.
Import ListNotations.
Local Open Scope nat_scope.

Scheme regrouped_mut := Minimality for regrouped Sort Prop with regrouped_all_mut := Minimality for regrouped_all Sort Prop.
Combined Scheme regrouped_mutind from regrouped_mut, regrouped_all_mut.
Scheme same_product_mut := Minimality for same_product Sort Prop with same_products_mut := Minimality for same_products Sort Prop.
Combined Scheme same_product_mutind from same_product_mut, same_products_mut.

Lemma spread_bin : forall op l p e, spread op l p e -> exists o a b, e = BinOp o a b.
Proof. intros op l p e H. destruct H; eauto. Qed.

Lemma regrouped_bare : forall e e', regrouped e e' -> bare_number e = bare_number e'.
Proof.
  intros e e' H. destruct H; try reflexivity. destruct (spread_bin _ _ _ _ H2) as [o [a [b ->]]]. reflexivity.
Qed.

Lemma regrouped_length : forall l l', regrouped_all l l' -> List.length l = List.length l'.
Proof. induction 1; cbn; congruence. Qed.

Lemma may_follow_bare : forall l l' ts, bare_number l = bare_number l' -> may_follow l ts -> may_follow l' ts.
Proof. intros l l' [|[s|s|c] ts] E H; cbn in *; auto. now rewrite <- E. Qed.
Lemma may_follow_bin : forall o a b l ts, may_follow l ts -> may_follow (BinOp o a b) ts.
Proof. intros o a b l [|[s|s|c] ts] H; cbn in *; auto. now destruct H. Qed.
Lemma may_follow_starts : forall l ts, may_follow l ts -> exists b v, ts = b :: v /\ starts_operand b = true.
Proof.
  intros l [|[s|s|c] ts] H; cbn in *; [contradiction| | |]; eexists; eexists; (split; [reflexivity|]); cbn.
  - now destruct H.
  - exact H.
  - now subst c.
Qed.

Lemma spread_times : forall l p e, spread Times l p e -> same_product e (BinOp Times l p).
Proof.
  induction 1 as [a|p b e H IH]; [apply SP_refl|]. eapply SP_trans; [|apply SP_regroup]. apply SP_operation; [exact IH|apply SP_refl].
Qed.

Lemma divides_inside : forall ctx a b c, divides_juxtaposed ctx b -> divides_juxtaposed ctx (a ++ b ++ c).
Proof.
  intros ctx a b c [u [x [o [t [y [v [-> H]]]]]]]. exists (a ++ u), x, o, t, y, (v ++ c). split; [|exact H].
  rewrite <- !app_assoc. cbn. rewrite <- !app_assoc. reflexivity.
Qed.
Lemma divides_left : forall ctx a b, divides_juxtaposed ctx a -> divides_juxtaposed ctx (a ++ b).
Proof. intros ctx a b H. exact (divides_inside ctx [] a b H). Qed.
Lemma divides_right : forall ctx a b, divides_juxtaposed ctx b -> divides_juxtaposed ctx (a ++ b).
Proof. intros ctx a b H. pose proof (divides_inside ctx a b [] H) as K. now rewrite app_nil_r in K. Qed.
Lemma divides_cons : forall ctx a b, divides_juxtaposed ctx b -> divides_juxtaposed ctx (a :: b).
Proof. intros ctx a b H. exact (divides_right ctx [a] b H). Qed.

Section G.
  Variable ctx : context.
  Let N (ts : list token) : Prop := ~ divides_juxtaposed ctx ts.

  Definition follows (X : list token -> element -> Prop) (ts : list token) (t' : element) : Prop :=
    exists t, X ts t /\ regrouped t t' /\ (N ts -> same_product t t').

  Lemma to_pemdas :
    (forall ts t', prim true ctx ts t' -> follows (prim false ctx) ts t') /\
    (forall ts l', args_of true ctx ts l' -> exists l, args_of false ctx ts l /\ regrouped_all l l' /\ (N ts -> same_products l l')) /\
    (forall ts t', postfix true ctx ts t' -> follows (postfix false ctx) ts t') /\
    (forall ts t', power true ctx ts t' -> follows (power false ctx) ts t') /\
    (forall ts t', signed true ctx ts t' -> follows (signed false ctx) ts t') /\
    (forall ts t', factor true ctx ts t' -> exists t, term false ctx ts t /\ regrouped t t' /\ (N ts -> same_product t t') /\
       (forall us l c op, term false ctx us l -> mul_op c op -> exists e, term false ctx (us ++ TSym c :: ts) e /\ spread op l t e) /\
       ((signed false ctx ts t /\ exists t1, signed true ctx ts t1) \/ exists v t0 b w, ts = v ++ b :: w /\ signed true ctx v t0 /\ starts_operand b = true)) /\
    (forall ts t', term true ctx ts t' -> follows (term false ctx) ts t') /\
    (forall ts t', sum true ctx ts t' -> follows (sum false ctx) ts t').
  Proof.
    apply sentence_mutind; unfold follows.
    - intros s v H. exists (Number v). split; [now apply P_number|]. split; [constructor|intros; apply SP_refl].
    - intros s v H. exists (Number v). split; [now apply P_constant|]. split; [constructor|intros; apply SP_refl].
    - intros s v H. exists (Var v). split; [now apply P_variable|]. split; [constructor|intros; apply SP_refl].
    - intros s f ts args Hs _ [l [A [R Q]]] Ha. exists (Call f l). split; [apply P_call; auto|].
      + unfold arity_ok in *. now rewrite (regrouped_length _ _ R).
      + split; [now constructor|]. intro K. apply SP_call, Q. intro D. apply K. now apply divides_cons, divides_cons, divides_left.
    - intros ts t _ [t0 [A [R Q]]]. exists t0. split; [now apply P_paren|]. split; [exact R|]. intro K. apply Q. intro D. apply K.
      now apply divides_cons, divides_left.
    - intros ts t _ [t0 [A [R Q]]]. exists [t0]. split; [now apply A_last|]. split; [constructor; [exact R|constructor]|].
      intro K. constructor; [auto|constructor].
    - intros ts t ts' l _ [t0 [A [R Q]]] _ [l0 [A' [R' Q']]]. exists (t0 :: l0). split; [now apply A_more|]. split; [now constructor|].
      intro K. constructor; [apply Q|apply Q']; intro D; apply K; [now apply divides_left|now apply divides_right, divides_cons].
    - intros ts t _ [t0 [A [R Q]]]. exists t0. split; [now apply F_prim|]. auto.
    - intros ts t _ [t0 [A [R Q]]]. exists (UnOp Factorial t0). split; [now apply F_bang|]. split; [now constructor|].
      intro K. apply SP_sign, Q. intro D. apply K. now apply divides_left.
    - intros ts t _ [t0 [A [R Q]]]. exists t0. split; [now apply W_postfix|]. auto.
    - intros ts l ts' r _ [t0 [A [R Q]]] _ [r0 [A' [R' Q']]]. exists (BinOp Power t0 r0). split; [now apply W_power|]. split; [now constructor|].
      intro K. apply SP_operation; [apply Q|apply Q']; intro D; apply K; [now apply divides_left|now apply divides_right, divides_cons].
    - intros ts t _ [t0 [A [R Q]]]. exists t0. split; [now apply S_power|]. auto.
    - intros c op ts t Hc _ [t0 [A [R Q]]]. exists (UnOp op t0). split; [now apply S_sign|]. split; [now constructor|].
      intro K. apply SP_sign, Q. intro D. apply K. now apply divides_cons.
    - intros ts l c op ts' t _ [t0 [A [R Q]]] Hc _ [r0 [A' [R' Q']]]. exists (BinOp Power t0 (UnOp op r0)).
      split; [now apply S_power_sign|]. split; [constructor; [exact R|now constructor]|].
      intro K. apply SP_operation; [apply Q|apply SP_sign, Q']; intro D; apply K; [now apply divides_left|now apply divides_right, divides_cons, divides_cons].
    - intros ts t Ht [t0 [A [R Q]]]. exists t0. split; [now apply T_factor, K_signed|]. split; [exact R|]. split; [exact Q|].
      split; [|left; eauto]. intros us l c op L Hc. exists (BinOp op l t0). split; [apply T_mul; [exact L|exact Hc|now apply K_signed]|constructor].
    - intros ts l ts' r _ Hf0 [t0 [A [R [Q [S V]]]]] Hs0 [r0 [A' [R' Q']]] Hm. exists (BinOp Times t0 r0).
      assert (Hm0 : may_follow t0 ts') by (apply (may_follow_bare l); [symmetry; now apply regrouped_bare|exact Hm]).
      split; [now apply T_implicit|]. split; [now constructor|].
      split; [intro K; apply SP_operation; [apply Q|apply Q']; intro D; apply K; [now apply divides_left|now apply divides_right]|].
      split.
      + intros us l0 c op L Hc. destruct (S us l0 c op L Hc) as [e [T Sp]]. exists (BinOp Times e r0). split; [|now constructor].
        rewrite app_comm_cons, app_assoc. apply T_implicit; auto. destruct (spread_bin _ _ _ _ Sp) as [o [x [y ->]]]. eapply may_follow_bin; eauto.
      + right. destruct (may_follow_starts _ _ Hm) as [b [v [-> Hb]]].
        destruct V as [[_ [t1 S1]]|[v0 [t1 [b' [w' [-> [S1 Hb']]]]]]].
        * exists ts, t1, b, v. auto.
        * exists v0, t1, b', (w' ++ b :: v). rewrite <- app_assoc. auto.
    - intros ts t _ [t0 [A [R [Q _]]]]. exists t0. auto.
    - intros ts l c op ts' r _ [l0 [A [R Q]]] Hc _ [r0 [A' [R' [Q' [S V]]]]].
      destruct V as [[V _]|[v [t1 [b [w [E [Sv Hb]]]]]]].
      + exists (BinOp op l0 r0). split; [apply T_mul; [exact A|exact Hc|now apply K_signed]|]. split; [now constructor|].
        intro K. apply SP_operation; [apply Q|apply Q']; intro D; apply K; [now apply divides_left|now apply divides_right, divides_cons].
      + destruct (S ts l0 c op A Hc) as [e [T Sp]]. exists e. split; [exact T|].
        split; [eapply RG_product; eauto; destruct Hc as [[_ ->]|[[_ ->]|[_ ->]]]; auto|].
        intro K. destruct Hc as [[-> ->]|Hc].
        * eapply SP_trans; [apply spread_times; exact Sp|].
          apply SP_operation; [apply Q|apply Q']; intro D; apply K; [now apply divides_left|now apply divides_right, divides_cons].
        * exfalso. apply K. exists ts, c, v, t1, b, w. rewrite E. split; [reflexivity|]. split; [|auto].
          destruct Hc as [[-> _]|[-> _]]; auto.
    - intros ts l ts' r E. discriminate E.
    - intros ts t _ [t0 [A [R Q]]]. exists t0. split; [now apply U_term|]. auto.
    - intros ts l c op ts' r _ [t0 [A [R Q]]] Hc _ [r0 [A' [R' Q']]]. exists (BinOp op t0 r0). split; [now apply U_add|]. split; [now constructor|].
      intro K. apply SP_operation; [apply Q|apply Q']; intro D; apply K; [now apply divides_left|now apply divides_right, divides_cons].
  Qed.

  (** ** the other direction *)
  Lemma adjacent_inside : forall P a b c, adjacent P b -> adjacent P (a ++ b ++ c).
  Proof.
    intros P a b c [u [x [y [v [-> H]]]]]. exists (a ++ u), x, y, (v ++ c). split; [|exact H].
    rewrite <- !app_assoc. reflexivity.
  Qed.
  Lemma clear_inside : forall a b c, clear_tokens ctx (a ++ b ++ c) -> clear_tokens ctx b.
  Proof. intros a b c [H1 H2]. split; intro K; [apply H1|apply H2]; now apply adjacent_inside. Qed.
  Lemma clear_left : forall a b, clear_tokens ctx (a ++ b) -> clear_tokens ctx a.
  Proof. intros a b H. exact (clear_inside [] a b H). Qed.
  Lemma clear_right : forall a b, clear_tokens ctx (a ++ b) -> clear_tokens ctx b.
  Proof. intros a b H. apply (clear_inside a b []). now rewrite app_nil_r. Qed.
  Lemma clear_cons : forall a b, clear_tokens ctx (a :: b) -> clear_tokens ctx b.
  Proof. intros a b H. exact (clear_right [a] b H). Qed.

  Lemma bare_last : forall pj ts n, factor pj ctx ts (Number n) -> exists u a, ts = u ++ [a] /\ ends_number ctx a = true.
  Proof.
    intros pj ts n H. inversion H as [? ? S|]; subst. inversion S as [? ? W| |]; subst. inversion W as [? ? F|]; subst.
    inversion F as [? ? P|]; subst. inversion P as [s v Hs|s v Hs| | |us t Hs]; subst.
    - exists [], (TNum s). auto.
    - exists [], (TId s). split; [reflexivity|]. cbn. now rewrite Hs.
    - exists (TSym "(" :: us), (TSym ")"). split; reflexivity.
  Qed.

  Lemma follow_clear : forall pj ts l l0 ts', factor pj ctx ts l -> clear_tokens ctx (ts ++ ts') -> may_follow l0 ts' -> may_follow l ts'.
  Proof.
    intros pj ts l l0 ts' F [_ C] M. destruct ts' as [|[s|s|c] ts']; cbn in *; auto. destruct M as [M _]. split; [exact M|].
    destruct l; try reflexivity. exfalso. destruct (bare_last _ _ _ F) as [u [a [-> Ha]]]. apply C.
    exists u, a, (TNum s), ts'. rewrite <- app_assoc. eauto.
  Qed.

  Definition also (X : list token -> element -> Prop) (ts : list token) : Prop := clear_tokens ctx ts -> exists t, X ts t.

  Lemma to_pejmdas :
    (forall ts t', prim false ctx ts t' -> also (prim true ctx) ts) /\
    (forall ts l', args_of false ctx ts l' -> clear_tokens ctx ts -> exists l, args_of true ctx ts l /\ List.length l = List.length l') /\
    (forall ts t', postfix false ctx ts t' -> also (postfix true ctx) ts) /\
    (forall ts t', power false ctx ts t' -> also (power true ctx) ts) /\
    (forall ts t', signed false ctx ts t' -> also (signed true ctx) ts) /\
    (forall ts t', factor false ctx ts t' -> also (factor true ctx) ts) /\
    (forall ts t', term false ctx ts t' -> also (term true ctx) ts) /\
    (forall ts t', sum false ctx ts t' -> also (sum true ctx) ts).
  Proof.
    apply sentence_mutind; unfold also.
    - intros s v H C. eexists. eapply P_number; eauto.
    - intros s v H C. eexists. eapply P_constant; eauto.
    - intros s v H C. eexists. eapply P_variable; eauto.
    - intros s f ts args Hs _ IH Ha C. destruct IH as [l [A L]]; [now apply clear_cons, clear_cons, clear_left in C|].
      exists (Call f l). apply P_call; auto. unfold arity_ok in *. now rewrite L.
    - intros ts t _ IH C. destruct IH as [t0 A]; [now apply clear_cons, clear_left in C|]. exists t0. now apply P_paren.
    - intros ts t _ IH C. destruct (IH C) as [t0 A]. exists [t0]. split; [now apply A_last|reflexivity].
    - intros ts t ts' l _ IH _ IH' C. destruct IH as [t0 A]; [now apply clear_left in C|].
      destruct IH' as [l0 [A' L]]; [now apply clear_right, clear_cons in C|]. exists (t0 :: l0). split; [now apply A_more|cbn; now rewrite L].
    - intros ts t _ IH C. destruct (IH C) as [t0 A]. exists t0. now apply F_prim.
    - intros ts t _ IH C. destruct IH as [t0 A]; [now apply clear_left in C|]. eexists. apply F_bang; eauto.
    - intros ts t _ IH C. destruct (IH C) as [t0 A]. exists t0. now apply W_postfix.
    - intros ts l ts' r _ IH _ IH' C. destruct IH as [t0 A]; [now apply clear_left in C|].
      destruct IH' as [l0 A']; [now apply clear_right, clear_cons in C|]. eexists. eapply W_power; eauto.
    - intros ts t _ IH C. destruct (IH C) as [t0 A]. exists t0. now apply S_power.
    - intros c op ts t Hc _ IH C. destruct IH as [t0 A]; [now apply clear_cons in C|]. eexists. eapply S_sign; eauto.
    - intros ts l c op ts' t _ IH Hc _ IH' C. destruct IH as [t0 A]; [now apply clear_left in C|].
      destruct IH' as [l0 A']; [now apply clear_right, clear_cons, clear_cons in C|]. eexists. eapply S_power_sign; eauto.
    - intros ts t _ IH C. destruct (IH C) as [t0 A]. exists t0. now apply K_signed.
    - intros ts l ts' r E. discriminate E.
    - intros ts t _ IH C. destruct (IH C) as [t0 A]. exists t0. now apply T_factor.
    - intros ts l c op ts' r _ IH Hc _ IH' C. destruct IH as [t0 A]; [now apply clear_left in C|].
      destruct IH' as [l0 A']; [now apply clear_right, clear_cons in C|]. eexists. eapply T_mul; eauto.
    - intros ts l ts' r _ _ IH _ IH' M C. destruct IH as [t0 A]; [now apply clear_left in C|].
      destruct IH' as [r0 A']; [now apply clear_right in C|]. inversion A as [us f F|us l1 c op us' f L Hc F|]; subst; [| |discriminate].
      + eexists. apply T_factor. apply K_implicit; [reflexivity|exact F|exact A'|]. eapply follow_clear; eauto.
      + exists (BinOp op l1 (BinOp Times f r0)). rewrite <- app_assoc, <- app_comm_cons. apply T_mul; [exact L|exact Hc|].
        apply K_implicit; [reflexivity|exact F|exact A'|].
        apply (follow_clear true us' f l); [exact F| |exact M]. rewrite <- app_assoc, <- app_comm_cons in C. now apply clear_right, clear_cons in C.
    - intros ts t _ IH C. destruct (IH C) as [t0 A]. exists t0. now apply U_term.
    - intros ts l c op ts' r _ IH Hc _ IH' C. destruct IH as [t0 A]; [now apply clear_left in C|].
      destruct IH' as [l0 A']; [now apply clear_right, clear_cons in C|]. eexists. eapply U_add; eauto.
  Qed.
End G.

(** ** variables and values *)
Lemma spread_occurs : forall op l p e v, spread op l p e -> (occurs v e <-> occurs v l \/ occurs v p).
Proof.
  induction 1 as [a|p b e H IH].
  - split; [intro K; inversion K; subst; auto|intros [K|K]; [now apply occ_binl|now apply occ_binr]].
  - split.
    + intro K. inversion K as [|? ? ? K1|? ? ? K1| |]; subst; [apply IH in K1; destruct K1; auto; right; now apply occ_binl|right; now apply occ_binr].
    + intros [K|K]; [apply occ_binl, IH; auto|]. inversion K; subst; [apply occ_binl, IH; auto|now apply occ_binr].
Qed.

Lemma regrouped_occurs :
  (forall e e', regrouped e e' -> forall v, occurs v e <-> occurs v e') /\
  (forall l l', regrouped_all l l' -> forall v, (exists a, In a l /\ occurs v a) <-> exists a, In a l' /\ occurs v a).
Proof.
  apply regrouped_mutind.
  - tauto.
  - tauto.
  - intros op a a' _ IH v. split; intro K; inversion K; subst; apply occ_un, IH; auto.
  - intros f l l' _ IH v. split; intro K; inversion K; subst.
    + destruct (proj1 (IH v)) as [b [Hb Ob]]; eauto. eapply occ_arg; eauto.
    + destruct (proj2 (IH v)) as [b [Hb Ob]]; eauto. eapply occ_arg; eauto.
  - intros op l l' r r' _ IHl _ IHr v. split; intro K; inversion K; subst; (apply occ_binl, IHl; assumption) || (apply occ_binr, IHr; assumption).
  - intros op l l' p p' e _ _ IHl _ IHp S v. rewrite (spread_occurs _ _ _ _ v S), (IHl v), (IHp v). split.
    + intros [K|K]; [now apply occ_binl|now apply occ_binr].
    + intro K. inversion K; subst; auto.
  - tauto.
  - intros a a' l l' _ IHa _ IHl v. split; intros [b [[<-|Hb] Ob]].
    + exists a'. split; [now left|now apply IHa].
    + destruct (proj1 (IHl v)) as [c [Hc Oc]]; [eauto|]. exists c. split; [now right|exact Oc].
    + exists a. split; [now left|now apply IHa].
    + destruct (proj2 (IHl v)) as [c [Hc Oc]]; [eauto|]. exists c. split; [now right|exact Oc].
Qed.

Lemma same_on_paper : forall power remainder factorial call rho,
  (forall e e', same_product e e' -> on_paper power remainder factorial call rho e = on_paper power remainder factorial call rho e') /\
  (forall l l', same_products l l' -> map (on_paper power remainder factorial call rho) l = map (on_paper power remainder factorial call rho) l').
Proof.
  intros. apply same_product_mutind; cbn; try congruence.
  - intros a b c. ring.
  - intros op l l' r r' _ -> _ ->. reflexivity.
  - intros op a a' _ ->. reflexivity.
Qed.
