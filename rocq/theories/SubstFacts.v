(** * Sentences under replacement of names

    If every name of a sentence is replaced by the tokens of a primary, the
    result is a sentence, whose tree has the corresponding parts replaced. *)
From Coq Require Import ZArith NArith List String Ascii Bool Lia.
From Verif Require Import F64 Syntax Builtins Context Element Parser Xprs.
From Verif Require Import SpecChars SpecTokens SpecTree SpecGrammar JuxtaFacts GrammarEquiv.
Import ListNotations.
Local Open Scope nat_scope.

Section Rewrite.
  (** what a name may become *)
  Variable timg : string -> list token -> Prop.
  Inductive rewritten : list token -> list token -> Prop :=
  | RW_nil : rewritten [] []
  | RW_keep : forall t ts ts', (forall s, t <> TId s) -> rewritten ts ts' -> rewritten (t :: ts) (t :: ts')
  | RW_name : forall s us ts ts', timg s us -> rewritten ts ts' -> rewritten (TId s :: ts) (us ++ ts').

  Lemma rewritten_app : forall a b c, rewritten (a ++ b) c ->
    exists a' b', c = a' ++ b' /\ rewritten a a' /\ rewritten b b'.
  Proof.
    induction a as [|t a IH]; intros b c H.
    - exists [], c. repeat split; auto using RW_nil.
    - cbn in H. inversion H as [|t0 ts ts' Hn Hr|s us ts ts' Hi Hr]; subst.
      + destruct (IH _ _ Hr) as [a' [b' [-> [Ha Hb]]]]. exists (t :: a'), b'. repeat split; auto. now constructor.
      + destruct (IH _ _ Hr) as [a' [b' [-> [Ha Hb]]]]. exists (us ++ a'), b'. rewrite app_assoc. repeat split; auto. now constructor.
  Qed.
  Lemma rewritten_sym : forall c ts ts', rewritten (TSym c :: ts) ts' -> exists r, ts' = TSym c :: r /\ rewritten ts r.
  Proof. intros c ts ts' H. inversion H; subst. eauto. Qed.
  Lemma rewritten_num : forall c ts ts', rewritten (TNum c :: ts) ts' -> exists r, ts' = TNum c :: r /\ rewritten ts r.
  Proof. intros c ts ts' H. inversion H; subst. eauto. Qed.
  Lemma rewritten_id : forall s ts ts', rewritten (TId s :: ts) ts' -> exists us r, ts' = us ++ r /\ timg s us /\ rewritten ts r.
  Proof. intros s ts ts' H. inversion H as [|t0 ? ? Hn Hr|]; subst; [|eauto]. exfalso. now apply (Hn s). Qed.
  Lemma rewritten_nil : forall ts', rewritten [] ts' -> ts' = [].
  Proof. intros ts' H. now inversion H. Qed.
End Rewrite.

Section Trees.
  (** what a number and a variable may become *)
  Variable nimg : f64 -> element -> Prop.
  Variable img : string -> element -> Prop.
  Inductive tree_rewritten : element -> element -> Prop :=
  | TR_number : forall n e, nimg n e -> tree_rewritten (Number n) e
  | TR_var : forall x e, img x e -> tree_rewritten (Var x) e
  | TR_bin : forall op l r l' r', tree_rewritten l l' -> tree_rewritten r r' -> tree_rewritten (BinOp op l r) (BinOp op l' r')
  | TR_un : forall op a a', tree_rewritten a a' -> tree_rewritten (UnOp op a) (UnOp op a')
  | TR_call : forall f l l', all_rewritten l l' -> tree_rewritten (Call f l) (Call f l')
  with all_rewritten : list element -> list element -> Prop :=
  | AR_nil : all_rewritten [] []
  | AR_cons : forall a a' l l', tree_rewritten a a' -> all_rewritten l l' -> all_rewritten (a :: l) (a' :: l').

  Lemma all_length : forall l l', all_rewritten l l' -> List.length l = List.length l'.
  Proof. induction l as [|a l IH]; intros l' H; inversion H; subst; cbn; auto. Qed.

  (** The values agree when those of the replaced variables do. *)
  Lemma tree_eval : forall w rho rho',
    (forall n e, nimg n e -> eval_element w rho e = Val (Eval_ok n)) ->
    (forall x e, img x e -> eval_element w rho e = eval_element w rho' (Var x)) ->
    forall t t', tree_rewritten t t' -> eval_element w rho t' = eval_element w rho' t.
  Proof.
    intros w rho rho' Hn Hi. induction t as [n|op l r IHl IHr|op e IHe|f args Hargs|y] using element_ind'; intros t' H; inversion H; subst.
    - cbn [eval_element]. auto.
    - cbn [eval_element]. erewrite IHl by eauto. destruct (eval_element w rho' l) as [[v|z]|p]; cbn; auto. now erewrite IHr by eauto.
    - cbn [eval_element]. now erewrite IHe by eauto.
    - cbn [eval_element]. match goal with K : all_rewritten _ ?l |- _ => rename l into args'; rename K into Ha end.
      assert (E : map_eval (eval_element w rho) args' = map_eval (eval_element w rho') args).
      { clear H. revert args' Ha. induction Hargs as [|a l H _ IH]; intros args' Ha; inversion Ha; subst; [reflexivity|].
        cbn [map_eval]. erewrite H by eauto. destruct (eval_element w rho' a) as [[v|z]|p]; auto. erewrite IH by eauto. reflexivity. }
      now rewrite E.
    - auto.
  Qed.

  Lemma tree_occurs : forall y, (forall n e, nimg n e -> ~ occurs y e) ->
    forall t t', tree_rewritten t t' -> occurs y t' -> exists x e, img x e /\ occurs x t /\ occurs y e.
  Proof.
    intros y Hn. induction t as [n|op l r IHl IHr|op e IHe|f args Hargs|z] using element_ind'; intros t' H Ho; inversion H; subst.
    - exfalso. eapply Hn; eauto.
    - inversion Ho; subst.
      + edestruct IHl as [x [e [A [B C]]]]; eauto. exists x, e. eauto using occurs.
      + edestruct IHr as [x [e [A [B C]]]]; eauto. exists x, e. eauto using occurs.
    - inversion Ho; subst. edestruct IHe as [x [e1 [A [B C]]]]; eauto. exists x, e1. eauto using occurs.
    - inversion Ho; subst. match goal with K : all_rewritten _ ?l |- _ => rename l into args'; rename K into Ha end.
      assert (E : exists b, In b args /\ exists x e, img x e /\ occurs x b /\ occurs y e).
      { clear H Ho. revert args' Ha H2. induction Hargs as [|b l Hb _ IH]; intros args' Ha Hin; inversion Ha; subst; [destruct Hin|].
        destruct Hin as [-> | Hin].
        - exists b. split; [now left|]. eapply Hb; eauto.
        - edestruct IH as [b' [Hb' K]]; eauto. exists b'. split; [now right|]; auto. }
      destruct E as [b [Hb [x [e [A [B C]]]]]]. exists x, e. split; auto. split; auto. eapply occ_arg; eauto.
    - exists z, t'. eauto using occurs.
  Qed.
End Trees.

(** The last token of an operand that is a bare number. *)
Definition number_at_end (ctx : context) (ts : list token) : Prop :=
  exists u a, ts = u ++ [a] /\ ends_number ctx a = true.

Lemma number_at_end_app : forall ctx u ts, number_at_end ctx ts -> number_at_end ctx (u ++ ts).
Proof. intros ctx u ts [v [a [-> H]]]. exists (u ++ v), a. now rewrite app_assoc. Qed.

Lemma prim_number_end : forall pj ctx ts v, prim pj ctx ts (Number v) -> number_at_end ctx ts.
Proof.
  intros pj ctx ts v H. inversion H as [s v0 H0|s v0 H0| |s f ts0 args H0 H1 H2|ts0 t0 H0]; subst.
  - now exists [], (TNum s).
  - exists [], (TId s). cbn. now rewrite H0.
  - exists (TSym "(" :: ts0), (TSym ")"). now split.
Qed.

Section Sentences.
  Variable pj : bool.
  Variables ctx ctx' : context.
  Variable timg : string -> list token -> Prop.
  Variable nimg : f64 -> element -> Prop.
  Variable img : string -> element -> Prop.

  (** Functions keep their names and meaning; constants and variables become primaries. *)
  Hypothesis Hfun : forall s f us, stands_for ctx s = I_Function f -> timg s us -> us = [TId s] /\ stands_for ctx' s = I_Function f.
  Hypothesis Hcon : forall s v us, stands_for ctx s = I_Constant v -> timg s us -> exists e, prim pj ctx' us e /\ nimg v e.
  Hypothesis Hnum : forall v, nimg v (Number v).
  Hypothesis Hvar : forall s x us, stands_for ctx s = I_Variable x -> timg s us -> exists e, prim pj ctx' us e /\ img x e.
  (** What may follow an operand still may. *)
  Hypothesis Hhead : forall s us, timg s us -> a_small (token_byte (TId s)) = true ->
    match us with TSym c :: _ => c = "("%char | TId s' :: _ => a_small (token_byte (TId s')) = true | _ => False end.

  Let R := rewritten timg.
  Let T := tree_rewritten nimg img.
  Let fine (ts' : list token) : Prop := ~ adjacent (fun a b => ends_number ctx' a = true /\ exists s, b = TNum s) ts'.

  Lemma fine_left : forall a b, fine (a ++ b) -> fine a.
  Proof. intros a b H K. apply H. now apply adjacent_prefix. Qed.
  Lemma fine_right : forall a b, fine (a ++ b) -> fine b.
  Proof. intros a b H K. apply H. now apply adjacent_suffix. Qed.
  Lemma fine_tail : forall a b, fine (a :: b) -> fine b.
  Proof. intros a b H. now apply (fine_right [a]). Qed.

  Lemma follow_kept : forall a' ts ts' l l', may_follow l ts -> R ts ts' -> fine (a' ++ ts') ->
    (bare_number l' = true -> number_at_end ctx' a') -> may_follow l' ts'.
  Proof.
    intros a' ts ts' l l' Hf Hr Hfi Hn. destruct ts as [|[s|s|c] ts]; cbn [may_follow] in Hf; [destruct Hf| | |].
    - apply rewritten_num in Hr. destruct Hr as [r [-> Hr]]. cbn [may_follow]. split; [tauto|].
      destruct (bare_number l') eqn:E; auto. exfalso. destruct (Hn eq_refl) as [u [a [-> Ha]]]. apply Hfi.
      exists u, a, (TNum s), r. rewrite <- app_assoc. split; [reflexivity|]. split; eauto.
    - apply rewritten_id in Hr. destruct Hr as [us [r [-> [Hi Hr]]]]. pose proof (Hhead _ _ Hi Hf) as K.
      destruct us as [|[s'|s'|c] us]; cbn [may_follow app]; auto; contradiction.
    - apply rewritten_sym in Hr. destruct Hr as [r [-> Hr]]. exact Hf.
  Qed.

  Let good (N : list token -> element -> Prop) (ts : list token) (t : element) : Prop :=
    forall ts', R ts ts' -> fine ts' ->
      exists t', N ts' t' /\ T t t' /\ (bare_number t' = true -> number_at_end ctx' ts').

  Lemma sentence_rewritten :
    (forall ts t, prim pj ctx ts t -> good (prim pj ctx') ts t) /\
    (forall ts l, args_of pj ctx ts l -> forall ts', R ts ts' -> fine ts' ->
       exists l', args_of pj ctx' ts' l' /\ all_rewritten nimg img l l') /\
    (forall ts t, postfix pj ctx ts t -> good (postfix pj ctx') ts t) /\
    (forall ts t, power pj ctx ts t -> good (power pj ctx') ts t) /\
    (forall ts t, signed pj ctx ts t -> good (signed pj ctx') ts t) /\
    (forall ts t, factor pj ctx ts t -> good (factor pj ctx') ts t) /\
    (forall ts t, term pj ctx ts t -> good (term pj ctx') ts t) /\
    (forall ts t, sum pj ctx ts t -> good (sum pj ctx') ts t).
  Proof.
    apply sentence_mutind; unfold good.
    - intros s v Hv ts' Hr _. apply rewritten_num in Hr. destruct Hr as [r [-> Hr]]. apply rewritten_nil in Hr. subst r.
      exists (Number v). split; [now constructor|]. split; [constructor; auto|]. intros _. now exists [], (TNum s).
    - intros s v Hv ts' Hr _. apply rewritten_id in Hr. destruct Hr as [us [r [-> [Hi Hr]]]]. apply rewritten_nil in Hr. subst r.
      rewrite app_nil_r. destruct (Hcon _ _ _ Hv Hi) as [e [K Ke]]. exists e. split; [exact K|]. split; [now constructor|].
      intro Hb. destruct e; try discriminate Hb. eapply prim_number_end; eauto.
    - intros s x Hv ts' Hr _. apply rewritten_id in Hr. destruct Hr as [us [r [-> [Hi Hr]]]]. apply rewritten_nil in Hr. subst r.
      rewrite app_nil_r. destruct (Hvar _ _ _ Hv Hi) as [e [K Ke]]. exists e. split; [exact K|]. split; [now constructor|].
      intro Hb. destruct e; try discriminate Hb. eapply prim_number_end; eauto.
    - intros s f ts args Hv _ IH Ha ts' Hr Hfi. apply rewritten_id in Hr. destruct Hr as [us [r [-> [Hi Hr]]]].
      destruct (Hfun _ _ _ Hv Hi) as [-> Hf']. apply rewritten_sym in Hr. destruct Hr as [r1 [-> Hr]].
      apply rewritten_app in Hr. destruct Hr as [a [b [-> [Hr Hb]]]]. apply rewritten_sym in Hb. destruct Hb as [b1 [-> Hb]]. apply rewritten_nil in Hb. subst b1.
      destruct (IH a Hr) as [args' [K1 K2]].
      { cbn [app] in Hfi. apply fine_tail in Hfi. apply fine_tail in Hfi. now apply fine_left in Hfi. }
      exists (Call f args'). split.
      + cbn [app]. apply P_call; auto. unfold arity_ok in *. rewrite <- (all_length nimg img _ _ K2). exact Ha.
      + split; [now constructor|discriminate].
    - intros ts t _ IH ts' Hr Hfi. apply rewritten_sym in Hr. destruct Hr as [r1 [-> Hr]].
      apply rewritten_app in Hr. destruct Hr as [a [b [-> [Hr Hb]]]]. apply rewritten_sym in Hb. destruct Hb as [b1 [-> Hb]]. apply rewritten_nil in Hb. subst b1.
      destruct (IH a Hr) as [t' [K1 [K2 _]]].
      { apply fine_tail in Hfi. now apply fine_left in Hfi. }
      exists t'. split; [now constructor|]. split; auto. intros _. exists (TSym "(" :: a), (TSym ")"). now split.
    - intros ts t _ IH ts' Hr Hfi. destruct (IH ts' Hr Hfi) as [t' [K1 [K2 _]]]. exists [t']. split; [now constructor|].
      constructor; auto; constructor.
    - intros ts t ts2 l _ IH _ IHl ts' Hr Hfi. apply rewritten_app in Hr. destruct Hr as [a [b [-> [Hr Hb]]]].
      apply rewritten_sym in Hb. destruct Hb as [b1 [-> Hb]].
      destruct (IH a Hr) as [t' [K1 [K2 _]]]. { now apply fine_left in Hfi. }
      destruct (IHl b1 Hb) as [l' [L1 L2]]. { apply fine_right in Hfi. now apply fine_tail in Hfi. }
      exists (t' :: l'). split; [now constructor|now constructor].
    - intros ts t _ IH ts' Hr Hfi. destruct (IH ts' Hr Hfi) as [t' [K1 [K2 K3]]]. exists t'. split; [now constructor|auto].
    - intros ts t _ IH ts' Hr Hfi. apply rewritten_app in Hr. destruct Hr as [a [b [-> [Hr Hb]]]].
      apply rewritten_sym in Hb. destruct Hb as [b1 [-> Hb]]. apply rewritten_nil in Hb. subst b1.
      destruct (IH a Hr) as [t' [K1 [K2 _]]]. { now apply fine_left in Hfi. }
      exists (UnOp Factorial t'). split; [now constructor|]. split; [now constructor|discriminate].
    - intros ts t _ IH ts' Hr Hfi. destruct (IH ts' Hr Hfi) as [t' [K1 [K2 K3]]]. exists t'. split; [now constructor|auto].
    - intros ts l ts2 r _ IHl _ IHr ts' Hr Hfi. apply rewritten_app in Hr. destruct Hr as [a [b [-> [Hr Hb]]]].
      apply rewritten_sym in Hb. destruct Hb as [b1 [-> Hb]].
      destruct (IHl a Hr) as [l' [K1 [K2 _]]]. { now apply fine_left in Hfi. }
      destruct (IHr b1 Hb) as [r' [L1 [L2 _]]]. { apply fine_right in Hfi. now apply fine_tail in Hfi. }
      exists (BinOp Power l' r'). split; [now constructor|]. split; [now constructor|discriminate].
    - intros ts t _ IH ts' Hr Hfi. destruct (IH ts' Hr Hfi) as [t' [K1 [K2 K3]]]. exists t'. split; [now constructor|auto].
    - intros c op ts t Hs _ IH ts' Hr Hfi. apply rewritten_sym in Hr. destruct Hr as [r1 [-> Hr]].
      destruct (IH r1 Hr) as [t' [K1 [K2 _]]]. { now apply fine_tail in Hfi. }
      exists (UnOp op t'). split; [now constructor|]. split; [now constructor|discriminate].
    - intros ts l c op ts2 t _ IHl Hs _ IHr ts' Hr Hfi. apply rewritten_app in Hr. destruct Hr as [a [b [-> [Hr Hb]]]].
      apply rewritten_sym in Hb. destruct Hb as [b1 [-> Hb]]. apply rewritten_sym in Hb. destruct Hb as [b2 [-> Hb]].
      destruct (IHl a Hr) as [l' [K1 [K2 _]]]. { now apply fine_left in Hfi. }
      destruct (IHr b2 Hb) as [r' [L1 [L2 _]]]. { apply fine_right in Hfi. apply fine_tail in Hfi. now apply fine_tail in Hfi. }
      exists (BinOp Power l' (UnOp op r')). split; [now apply S_power_sign|]. split; [constructor; auto; now constructor|discriminate].
    - intros ts t _ IH ts' Hr Hfi. destruct (IH ts' Hr Hfi) as [t' [K1 [K2 K3]]]. exists t'. split; [now constructor|auto].
    - intros ts l ts2 r Hpj _ IHl _ IHr Hm ts' Hr Hfi. apply rewritten_app in Hr. destruct Hr as [a [b [-> [Hr Hb]]]].
      destruct (IHl a Hr) as [l' [K1 [K2 K3]]]. { now apply fine_left in Hfi. }
      destruct (IHr b Hb) as [r' [L1 [L2 _]]]. { now apply fine_right in Hfi. }
      exists (BinOp Times l' r'). split; [apply K_implicit; auto; eapply follow_kept; eauto|]. split; [now constructor|discriminate].
    - intros ts t _ IH ts' Hr Hfi. destruct (IH ts' Hr Hfi) as [t' [K1 [K2 K3]]]. exists t'. split; [now constructor|auto].
    - intros ts l c op ts2 r _ IHl Hs _ IHr ts' Hr Hfi. apply rewritten_app in Hr. destruct Hr as [a [b [-> [Hr Hb]]]].
      apply rewritten_sym in Hb. destruct Hb as [b1 [-> Hb]].
      destruct (IHl a Hr) as [l' [K1 [K2 _]]]. { now apply fine_left in Hfi. }
      destruct (IHr b1 Hb) as [r' [L1 [L2 _]]]. { apply fine_right in Hfi. now apply fine_tail in Hfi. }
      exists (BinOp op l' r'). split; [now apply T_mul|]. split; [now constructor|discriminate].
    - intros ts l ts2 r Hpj _ IHl _ IHr Hm ts' Hr Hfi. apply rewritten_app in Hr. destruct Hr as [a [b [-> [Hr Hb]]]].
      destruct (IHl a Hr) as [l' [K1 [K2 K3]]]. { now apply fine_left in Hfi. }
      destruct (IHr b Hb) as [r' [L1 [L2 _]]]. { now apply fine_right in Hfi. }
      exists (BinOp Times l' r'). split; [apply T_implicit; auto; eapply follow_kept; eauto|]. split; [now constructor|discriminate].
    - intros ts t _ IH ts' Hr Hfi. destruct (IH ts' Hr Hfi) as [t' [K1 [K2 K3]]]. exists t'. split; [now constructor|auto].
    - intros ts l c op ts2 r _ IHl Hs _ IHr ts' Hr Hfi. apply rewritten_app in Hr. destruct Hr as [a [b [-> [Hr Hb]]]].
      apply rewritten_sym in Hb. destruct Hb as [b1 [-> Hb]].
      destruct (IHl a Hr) as [l' [K1 [K2 _]]]. { now apply fine_left in Hfi. }
      destruct (IHr b1 Hb) as [r' [L1 [L2 _]]]. { apply fine_right in Hfi. now apply fine_tail in Hfi. }
      exists (BinOp op l' r'). split; [now apply U_add|]. split; [now constructor|discriminate].
  Qed.

  Lemma sentences_rewritten : forall ts t ts', sentence pj ctx ts t -> R ts ts' -> clear_tokens ctx' ts' ->
    exists t', sentence pj ctx' ts' t' /\ T t t'.
  Proof.
    intros ts t ts' Hs Hr [_ Hf]. destruct (proj2 (proj2 (proj2 (proj2 (proj2 (proj2 (proj2 sentence_rewritten)))))) _ _ Hs _ Hr Hf) as [t' [A [B _]]].
    eauto.
  Qed.
End Sentences.
