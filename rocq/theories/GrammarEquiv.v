(** * The two descriptions of the documented grammar agree *)
From Coq Require Import ZArith NArith List String Ascii Bool Lia.
From Verif Require Import F64 Syntax Builtins Context Element Parser.
From Verif Require Import SpecTokens SpecGrammar TokenFacts GrammarFacts.
Import ListNotations.
Local Open Scope nat_scope.

Scheme prim_mut := Minimality for prim Sort Prop
  with args_of_mut := Minimality for args_of Sort Prop
  with postfix_mut := Minimality for postfix Sort Prop
  with power_mut := Minimality for power Sort Prop
  with signed_mut := Minimality for signed Sort Prop
  with factor_mut := Minimality for factor Sort Prop
  with term_mut := Minimality for term Sort Prop
  with sum_mut := Minimality for sum Sort Prop.
Combined Scheme sentence_mutind from prim_mut, args_of_mut, postfix_mut, power_mut, signed_mut, factor_mut, term_mut, sum_mut.

Section E.
  Variable pj : bool.
  Variable ctx : context.

  Lemma sign_token : forall c op, sign_op c op -> operator_token (TSym c) op /\ strength op = 1 /\ op <> Factorial.
  Proof. intros c op [[-> ->]|[-> ->]]; repeat split; discriminate. Qed.
  Lemma mul_token : forall c op, mul_op c op -> operator_token (TSym c) op /\ strength op = 2 /\ op <> Factorial.
  Proof. intros c op [[-> ->]|[[-> ->]|[-> ->]]]; repeat split; discriminate. Qed.

  Lemma sentence_chain :
    (forall ts t, prim pj ctx ts t -> primary pj ctx false ts t) /\
    (forall ts l, args_of pj ctx ts l -> arguments pj ctx false ts l) /\
    (forall ts t, postfix pj ctx ts t -> exists q, 4 <= q /\ operand pj ctx false ts t q) /\
    (forall ts t, power pj ctx ts t -> forall p, p <= 3 -> exists q n, 4 <= q /\ chain pj ctx false p ts t q n) /\
    (forall ts t, signed pj ctx ts t -> forall p, p <= 3 -> exists q n, 3 <= q /\ chain pj ctx false p ts t q n) /\
    (forall ts t, factor pj ctx ts t -> forall p, p <= 2 -> exists q n, 3 <= q /\ chain pj ctx false p ts t q n) /\
    (forall ts t, term pj ctx ts t -> forall p, p <= 1 -> exists q n, 2 <= q /\ chain pj ctx false p ts t q n) /\
    (forall ts t, sum pj ctx ts t -> exists q n, 1 <= q /\ chain pj ctx false 0 ts t q n).
  Proof.
    apply sentence_mutind.
    - intros. now constructor.
    - intros. now constructor.
    - intros. now constructor.
    - intros. now apply R_call.
    - intros ts t _ [q [n [_ H]]]. eapply R_paren; eauto.
    - intros ts t _ [q [n [_ H]]]. eapply G_last; eauto.
    - intros ts t ts' l _ [q [n [_ H]]] _ Hl. eapply G_more; eauto.
    - intros ts t _ H. exists 4. split; [lia|]. now apply O_plain.
    - intros ts t _ H. exists 5. split; [lia|]. now apply O_bang.
    - intros ts t _ [q [Hq H]] p Hp. exists q, (bare_number t). split; auto. now apply C_operand.
    - intros ts l ts' r _ IHl _ [q' [Hq' Hr]] p Hp. destruct (IHl p Hp) as [q [n [Hq Hl]]].
      do 2 eexists. split; [|eapply C_operator with (op := Power); eauto; try discriminate; cbn; try lia; [reflexivity|]].
      2:{ apply C_operand. exact Hr. }
      cbn [strength]; lia.
    - intros ts t _ IH p Hp. destruct (IH p Hp) as [q [n [Hq H]]]. exists q, n. split; auto; lia.
    - intros c op ts t Hs _ IH p Hp. destruct (IH 3 ltac:(lia)) as [q [n [Hq H]]]. exists 3. eexists.
      split; auto. apply C_operand. eapply O_sign; eauto.
    - intros ts l c op ts' t _ IHl Hs _ IH p Hp. destruct (IHl p Hp) as [q [n [Hq Hl]]]. destruct (IH 3 ltac:(lia)) as [q1 [n1 [Hq1 H1]]].
      do 2 eexists. split; [|eapply C_operator with (op := Power); eauto; try discriminate; cbn; try lia; [reflexivity|]].
      2:{ apply C_operand. eapply O_sign; eauto. }
      cbn [strength]; lia.
    - intros ts t _ IH p Hp. apply IH. lia.
    - intros ts l ts' r Hpj _ IHl _ IHr Hf p Hp. destruct (IHl p Hp) as [q [n [Hq Hl]]]. destruct (IHr 3 ltac:(lia)) as [q1 [n1 [Hq1 H1]]].
      assert (Hj : implicit_strength pj = 3) by (unfold implicit_strength; now rewrite Hpj).
      exists (Nat.min (implicit_strength pj) q1), (bare_number r). split; [rewrite Hj; lia|].
      eapply C_implicit; eauto; rewrite Hj; [lia|left; lia|exact H1].
    - intros ts t _ IH p Hp. destruct (IH p ltac:(lia)) as [q [n [Hq H]]]. exists q, n. split; auto; lia.
    - intros ts l c op ts' r _ IHl Hm _ IHr p Hp. destruct (IHl p Hp) as [q [n [Hq Hl]]].
      destruct (mul_token _ _ Hm) as [Ht [Hs Hnf]].
      destruct (IHr 2 ltac:(lia)) as [q1 [n1 [Hq1 H1]]].
      do 2 eexists. split; [|eapply C_operator; eauto; try contradiction; rewrite Hs; try lia; exact H1]. rewrite Hs. lia.
    - intros ts l ts' r Hpj _ IHl _ IHr Hf p Hp. destruct (IHl p Hp) as [q [n [Hq Hl]]]. destruct (IHr 2 ltac:(lia)) as [q1 [n1 [Hq1 H1]]].
      assert (Hj : implicit_strength pj = 2) by (unfold implicit_strength; now rewrite Hpj).
      exists (Nat.min (implicit_strength pj) q1), (bare_number r). split; [rewrite Hj; lia|].
      eapply C_implicit; eauto; rewrite Hj; [lia|left; lia|exact H1].
    - intros ts t _ IH. destruct (IH 0 ltac:(lia)) as [q [n [Hq H]]]. exists q, n. split; auto; lia.
    - intros ts l c op ts' r _ [q [n [Hq Hl]]] Hm _ IHr. destruct (sign_token _ _ Hm) as [Ht [Hs Hnf]].
      destruct (IHr 1 ltac:(lia)) as [q1 [n1 [Hq1 H1]]].
      do 2 eexists. split; [|eapply C_operator; eauto; try contradiction; rewrite Hs; try lia; exact H1]. rewrite Hs. lia.
  Qed.

  Lemma power_signed : forall ts t, power pj ctx ts t -> signed pj ctx ts t.
  Proof. intros. now apply S_power. Qed.

  Definition by_level (p q : nat) (ts : list token) (t : element) : Prop :=
    (3 <= q \/ p < q) /\ 1 <= q /\
    (4 <= q -> power pj ctx ts t) /\
    (3 <= q -> factor pj ctx ts t) /\
    (2 <= q -> term pj ctx ts t) /\
    sum pj ctx ts t /\
    (3 <= p -> signed pj ctx ts t) /\
    (4 <= p -> (4 <= q /\ postfix pj ctx ts t) \/
       (q = 3 /\ exists c op ts' t', sign_op c op /\ ts = TSym c :: ts' /\ t = UnOp op t' /\ signed pj ctx ts' t')).

  Lemma by_power : forall p q ts t, 4 <= q -> power pj ctx ts t -> p <= 3 -> by_level p q ts t.
  Proof.
    intros p q ts t Hq H Hp. assert (Hf : factor pj ctx ts t) by (apply K_signed, S_power, H).
    repeat split; try lia; intros; auto using S_power, T_factor, U_term.
  Qed.
  Lemma by_signed : forall p q ts t, q = 3 -> signed pj ctx ts t -> p <= 3 -> by_level p q ts t.
  Proof.
    intros p q ts t Hq H Hp. assert (Hf : factor pj ctx ts t) by (apply K_signed, H).
    repeat split; try lia; intros; auto using S_power, T_factor, U_term.
  Qed.

  Lemma chain_sentence :
    (forall p ts t q n, chain pj ctx false p ts t q n -> by_level p q ts t) /\
    (forall ts t q, operand pj ctx false ts t q ->
       (4 <= q /\ postfix pj ctx ts t) \/
       (q = 3 /\ exists c op ts' t', sign_op c op /\ ts = TSym c :: ts' /\ t = UnOp op t' /\ signed pj ctx ts' t')) /\
    (forall ts t, primary pj ctx false ts t -> prim pj ctx ts t) /\
    (forall ts l, arguments pj ctx false ts l -> args_of pj ctx ts l).
  Proof.
    apply chain_mutind.
    - intros p ts t q _ [[Hq H]|[-> [c [op [ts' [t' [Hs [-> [-> H]]]]]]]]].
      + assert (Hw : power pj ctx ts t) by now apply W_postfix.
        assert (Hf : factor pj ctx ts t) by (apply K_signed, S_power, Hw).
        repeat split; try lia; intros; auto using S_power, T_factor, U_term.
      + assert (Hw : signed pj ctx (TSym c :: ts') (UnOp op t')) by now apply S_sign.
        assert (Hf : factor pj ctx (TSym c :: ts') (UnOp op t')) by (apply K_signed, Hw).
        repeat split; try lia; intros; auto using S_power, T_factor, U_term; try lia.
        right. split; auto. exists c, op, ts', t'. auto.
    - intros p ts l q n tok op ts' r q' n' _ IHl Htok Hp Hq Hnf _ IHr.
      destruct IHl as [L0 [L1 [L4 [L3 [L2 [Lu [Ls Lp]]]]]]]. destruct IHr as [R0 [R1 [R4 [R3 [R2 [Ru [Rs Rp]]]]]]].
      destruct tok as [s|s|c]; try contradiction. cbn in Htok.
      assert (Hc : match op with
        | Plus => c = "+"%char | Minus => c = "-"%char | Times => c = "*"%char | Divide => c = "/"%char
        | Modulo => c = "%"%char | Power => c = "^"%char | Factorial => c = "!"%char end).
      { assert (Hb : forall b, (match operator_of_byte b with
          | Some Plus => Ascii.eqb b "+" | Some Minus => Ascii.eqb b "-" | Some Times => Ascii.eqb b "*"
          | Some Divide => Ascii.eqb b "/" | Some Modulo => Ascii.eqb b "%" | Some Power => Ascii.eqb b "^"
          | Some Factorial => Ascii.eqb b "!" | None => true end) = true).
        { apply byte_cases. vm_compute. reflexivity. }
        specialize (Hb c). rewrite Htok in Hb. destruct op; now apply Ascii.eqb_eq. }
      destruct op; cbn [strength] in *.
      1,2: assert (H : sum pj ctx (ts ++ TSym c :: ts') (BinOp _ l r)) by
             (apply U_add; [exact Lu|subst c; first [left; split; reflexivity|right; split; reflexivity]|apply R2; lia]);
           repeat split; try lia; intros; auto; lia.
      1,2,4: assert (H : term pj ctx (ts ++ TSym c :: ts') (BinOp _ l r)) by
             (apply T_mul; [apply L2; lia|subst c; first [left; split; reflexivity|right; left; split; reflexivity|right; right; split; reflexivity]|apply R3; lia]);
           repeat split; try lia; intros; auto using U_term; lia.
      + subst c. destruct (Rp ltac:(lia)) as [[Hq' Hr]|[Hq' [c' [op' [ts2 [t2 [Hs [-> [-> Hr]]]]]]]]].
        * apply by_power; [lia| |lia]. apply W_power; auto.
        * apply by_signed; [lia| |lia]. apply S_power_sign; auto.
      + specialize (Hnf eq_refl). discriminate.
    - intros p ts l q n ts' r q' n' j _ IHl Hf Hp Hq _ IHr. unfold implicit_strength in j. subst j.
      destruct IHl as [L0 [L1 [L4 [L3 [L2 [Lu [Ls Lp]]]]]]]. destruct IHr as [R0 [R1 [R4 [R3 [R2 [Ru [Rs Rp]]]]]]].
      destruct Hq as [Hq|[? _]]; [|discriminate].
      destruct pj eqn:Epj.
      + assert (H : factor true ctx (ts ++ ts') (BinOp Times l r)).
        { apply K_implicit; auto. }
        unfold by_level. rewrite Epj. repeat split; try lia; intros; auto using U_term, T_factor; try lia.
      + assert (H : term false ctx (ts ++ ts') (BinOp Times l r)).
        { apply T_implicit; auto. clear -R3 R0; destruct (R3 ltac:(lia)); auto. discriminate. }
        unfold by_level. rewrite Epj. repeat split; try lia; intros; auto using U_term, T_factor; try lia.
    - intros ts t _ H. left. split; [lia|]. now apply F_prim.
    - intros ts t _ H. left. split; [lia|]. now apply F_bang.
    - intros c op ts t q n Hs _ [_ [_ [_ [_ [_ [_ [H _]]]]]]]. right. split; auto. exists c, op, ts, t. repeat split; auto.
    - intros. now constructor.
    - intros. now constructor.
    - intros. now constructor.
    - intros. now apply P_call.
    - intros ts t q n _ [_ [_ [_ [_ [_ [H _]]]]]]. now apply P_paren.
    - intros ts t q n _ [_ [_ [_ [_ [_ [H _]]]]]]. now apply A_last.
    - intros ts t q n ts' l _ [_ [_ [_ [_ [_ [H _]]]]]] _ Hl. now apply A_more.
  Qed.

  Lemma sentence_derives : forall ts t, sentence pj ctx ts t <-> derives pj ctx false ts t.
  Proof.
    intros ts t. split.
    - intro H. destruct sentence_chain as [_ [_ [_ [_ [_ [_ [_ Hs]]]]]]]. destruct (Hs _ _ H) as [q [n [_ Hc]]]. exists q, n. exact Hc.
    - intros [q [n Hc]]. apply (proj1 chain_sentence) in Hc. apply Hc.
  Qed.

  Lemma chain_more : 
    (forall p ts t q n, chain pj ctx false p ts t q n -> chain pj ctx true p ts t q n) /\
    (forall ts t q, operand pj ctx false ts t q -> operand pj ctx true ts t q) /\
    (forall ts t, primary pj ctx false ts t -> primary pj ctx true ts t) /\
    (forall ts l, arguments pj ctx false ts l -> arguments pj ctx true ts l).
  Proof.
    apply chain_mutind; intros.
    - now apply C_operand.
    - eapply C_operator; eauto.
    - eapply C_implicit; eauto. match goal with H : _ \/ _ |- _ => destruct H as [Hq|[Hq _]]; [auto|discriminate Hq] end.
    - now apply O_plain.
    - now apply O_bang.
    - eapply O_sign; eauto.
    - now constructor.
    - now constructor.
    - now constructor.
    - now apply R_call.
    - eapply R_paren; eauto.
    - eapply G_last; eauto.
    - eapply G_more; eauto.
  Qed.
End E.
