(** * What is accepted, without precedences (a proof device)

    Acceptance does not depend on precedence: a group of tokens is a sequence of
    operands joined by operators or juxtaposed.  Every text accepted by the
    parser, optimising or not, has this flat form, and every text of flat form
    is accepted by the plain parser. *)
From Coq Require Import ZArith NArith List String Ascii Bool Lia.
From Verif Require Import F64 Syntax Factorial Builtins Context Element Parser.
From Verif Require Import SpecTokens SpecGrammar TokenFacts TokenParser TokenMono GrammarFacts JuxtaFacts.
Import ListNotations.
Local Open Scope nat_scope.

Section Flat.
  Variable ctx : context.

  (** the flag: is this certainly a bare number? *)
  Inductive fprim : list token -> bool -> Prop :=
  | fp_number : forall s v, literal_value s = Some v -> fprim [TNum s] true
  | fp_constant : forall s v, stands_for ctx s = I_Constant v -> fprim [TId s] true
  | fp_variable : forall s x, stands_for ctx s = I_Variable x -> fprim [TId s] false
  | fp_call : forall s f ts k, stands_for ctx s = I_Function f -> fargs ts k ->
      match fn_nb_args f with None => True | Some m => k = m end ->
      fprim (TId s :: TSym "(" :: ts ++ [TSym ")"]) false
  | fp_paren : forall ts n, flat ts n -> fprim (TSym "(" :: ts ++ [TSym ")"]) n
  with foperand : list token -> bool -> Prop :=
  | fo_prim : forall ts n, fprim ts n -> foperand ts n
  | fo_bang : forall ts n, fprim ts n -> foperand (ts ++ [TSym "!"]) false
  | fo_sign : forall c op ts n, sign_op c op -> foperand ts n -> foperand (TSym c :: ts) false
  with flat : list token -> bool -> Prop :=
  | fl_one : forall ts n, foperand ts n -> flat ts n
  | fl_op : forall u n tok op v m, flat u n -> operator_token tok op ->
      (op = Factorial -> exists u', u = u' ++ [TSym "!"]) -> foperand v m -> flat (u ++ tok :: v) false
  | fl_juxt : forall u n t v m, flat u n -> juxtaposable n t = true -> foperand (t :: v) m -> flat (u ++ t :: v) false
  with fargs : list token -> nat -> Prop :=
  | fa_last : forall ts n, flat ts n -> fargs ts 1
  | fa_more : forall ts n ts' k, flat ts n -> fargs ts' k -> fargs (ts ++ TSym "," :: ts') (S k).

  Scheme fprim_ind2 := Induction for fprim Sort Prop
  with foperand_ind2 := Induction for foperand Sort Prop
  with flat_ind2 := Induction for flat Sort Prop
  with fargs_ind2 := Induction for fargs Sort Prop.
  Combined Scheme flat_mutind from fprim_ind2, foperand_ind2, flat_ind2, fargs_ind2.

  (** ** From flat form to a derivation *)
  Section Build.
    Variable pj : bool.
    Let j := implicit_strength pj.
    Notation Chain := (chain pj ctx true).

    Lemma jb : 2 <= j <= 3.
    Proof. unfold j, implicit_strength. destruct pj; lia. Qed.

    Lemma primary_last : forall ts t u, primary pj ctx true ts t -> ts <> u ++ [TSym "!"].
    Proof.
      intros ts t u H E. destruct H.
      - change [TNum s] with ([] ++ [TNum s]) in E. apply app_inj_tail in E. destruct E; discriminate.
      - change [TId s] with ([] ++ [TId s]) in E. apply app_inj_tail in E. destruct E; discriminate.
      - change [TId s] with ([] ++ [TId s]) in E. apply app_inj_tail in E. destruct E; discriminate.
      - change (TId s :: TSym "(" :: ts ++ [TSym ")"]) with ((TId s :: TSym "(" :: ts) ++ [TSym ")"]) in E.
        apply app_inj_tail in E. destruct E; discriminate.
      - change (TSym "(" :: ts ++ [TSym ")"]) with ((TSym "(" :: ts) ++ [TSym ")"]) in E.
        apply app_inj_tail in E. destruct E; discriminate.
    Qed.

    Lemma chain_nonempty : (forall p ts t q n, Chain p ts t q n -> ts <> []).
    Proof.
      assert (Hn : (forall p ts t q n, Chain p ts t q n -> ts <> []) /\
              (forall ts t q, operand pj ctx true ts t q -> ts <> []) /\
              (forall ts t, primary pj ctx true ts t -> ts <> []) /\
              (forall ts l, arguments pj ctx true ts l -> True)).
      { apply chain_mutind; intros; auto; try discriminate; try (destruct ts; [congruence|discriminate]). }
      apply Hn.
    Qed.

    Lemma last_suffix : forall (u v u' : list token) b, v <> [] -> u ++ v = u' ++ [b] -> exists v', v = v' ++ [b].
    Proof.
      intros u v u' b Hv E. destruct (exists_last Hv) as [v' [x ->]]. exists v'.
      rewrite app_assoc in E. apply app_inj_tail in E. destruct E as [_ ->]. reflexivity.
    Qed.

    Lemma may_follow_head : forall l ts ts', ts <> [] -> may_follow l ts -> may_follow l (ts ++ ts').
    Proof. intros l [|t r] ts' H; [congruence|]. destruct t; cbn; auto. Qed.

    (** one more operator and operand on the right *)
    Definition appended (p : nat) (ts : list token) : Prop := exists t q n, Chain p ts t q n.

    Lemma append_op : forall tok op v tv qv, operator_token tok op -> operand pj ctx true v tv qv ->
      (forall p ts t q n, Chain p ts t q n ->
         (op = Factorial -> exists u', ts = u' ++ [TSym "!"]) ->
         p < strength op \/ q < strength op -> exists t' q' n', Chain p (ts ++ tok :: v) t' q' n' /\ bare_number t' = false) /\
      (forall ts t q, operand pj ctx true ts t q ->
         (op = Factorial -> exists u', ts = u' ++ [TSym "!"]) ->
         q < strength op -> exists t', operand pj ctx true (ts ++ tok :: v) t' 3 /\ bare_number t' = false) /\
      (forall ts t, primary pj ctx true ts t -> True) /\
      (forall ts l, arguments pj ctx true ts l -> True).
    Proof.
      intros tok op v tv qv Htok Hv.
      assert (Hcv : Chain (strength op) v tv qv (bare_number tv)) by now apply C_operand.
      apply chain_mutind; auto.
      - (* operand *) intros p ts t q Ho IH Hf Hp. destruct (le_lt_dec (strength op) q) as [Hq|Hq].
        + eexists _, _, _. split; [eapply C_operator with (op := op) (l := t) (ts' := v)|reflexivity]; eauto.
          * apply C_operand. exact Ho.
          * destruct Hp; auto. lia.
        + destruct (IH Hf Hq) as [t' [H Hb]]. eexists _, _, _. split; [apply C_operand; exact H|exact Hb].
      - (* operator *) intros p ts l q n tok0 op0 ts0 r q0 n0 Hl _ Htok0 Hp0 Hq0 Hf0 Hr IHr Hf Hp.
        destruct (le_lt_dec (strength op) (Nat.min (strength op0) q0)) as [Hq|Hq].
        + eexists _, _, _. split; [eapply C_operator with (op := op) (l := BinOp op0 l r) (ts' := v)|reflexivity]; eauto.
          * eapply C_operator with (op := op0) (l := l) (ts' := ts0); eauto.
          * destruct Hp; auto. lia.
        + destruct IHr as [t' [q' [n' [H _]]]].
          * intro E. destruct (Hf E) as [u' Eu]. change (tok0 :: ts0) with ([tok0] ++ ts0) in Eu. rewrite app_assoc in Eu.
            eapply last_suffix; [|exact Eu]. eapply chain_nonempty; eauto.
          * lia.
          * eexists _, _, _. rewrite <- app_assoc. cbn [app]. split; [eapply C_operator with (op := op0); eauto|reflexivity].
      - (* implicit *) intros p ts l q n ts0 r q0 n0 j0 Hl _ Hm Hp0 Hq0 Hr IHr Hf Hp.
        destruct (le_lt_dec (strength op) (Nat.min j0 q0)) as [Hq|Hq].
        + eexists _, _, _. split; [eapply C_operator with (op := op) (l := BinOp Times l r) (ts' := v)|reflexivity]; eauto.
          * eapply C_implicit with (l := l) (ts' := ts0); eauto.
          * destruct Hp; auto. lia.
        + destruct IHr as [t' [q' [n' [H _]]]].
          * intro E. destruct (Hf E) as [u' Eu]. eapply last_suffix; [|exact Eu]. eapply chain_nonempty; eauto.
          * lia.
          * eexists _, _, _. rewrite <- app_assoc. split; [eapply C_implicit; eauto|reflexivity].
            -- apply may_follow_head; auto. eapply chain_nonempty; eauto.
            -- destruct Hq0 as [Hq0|[H1 [H2 [s [ts'' ->]]]]]; auto. right. repeat split; auto. exists s. eexists. reflexivity.
      - (* plain *) intros ts t Hp _ Hf Hq. exfalso. assert (op = Factorial) as E by (destruct op; cbn in Hq; auto; lia).
        destruct (Hf E) as [u' Eu]. eapply primary_last; eauto.
      - (* bang *) intros ts t Hp _ Hf Hq. exfalso. destruct op; cbn in Hq; lia.
      - (* sign *) intros c o ts t q n Hs Hc IH Hf Hq.
        destruct IH as [t' [q' [n' [H _]]]].
        + intro E. destruct (Hf E) as [u' Eu]. change (TSym c :: ts) with ([TSym c] ++ ts) in Eu.
          eapply last_suffix; [|exact Eu]. eapply chain_nonempty; eauto.
        + auto.
        + exists (UnOp o t'). cbn [app]. split; [eapply O_sign; eauto|reflexivity].
    Qed.

    Lemma chain_bare : forall p ts t q n, Chain p ts t q n -> bare_number t = true -> q = 4.
    Proof.
      intros p ts t q n H Hb. destruct H; try discriminate Hb. destruct H; try discriminate Hb. reflexivity.
    Qed.

    Lemma chain_bare_flag : forall p ts t q n, Chain p ts t q n -> bare_number t = true -> n = true.
    Proof. intros p ts t q n H Hb. destruct H; try discriminate Hb. exact Hb. Qed.

    Lemma may_follow_juxtaposable : forall l t v, juxtaposable false t = true ->
      ((exists s, t = TNum s) -> bare_number l = false) -> may_follow l (t :: v).
    Proof.
      intros l [s|s|c] v H Hn; cbn in *; auto.
      - rewrite andb_true_r in H. split; auto. apply Hn. eauto.
      - now apply Ascii.eqb_eq.
    Qed.

    (** one more juxtaposed operand on the right *)
    Lemma append_juxt : forall t0 v tv qv, juxtaposable false t0 = true -> operand pj ctx true (t0 :: v) tv qv ->
      forall p ts t q n, Chain p ts t q n -> ((exists s, t0 = TNum s) -> bare_number t = false) ->
         p < j \/ q < j -> exists t' q' n', Chain p (ts ++ t0 :: v) t' q' n' /\ bare_number t' = false.
    Proof.
      intros t0 v tv qv Hj0 Hv. pose proof jb.
      assert (Hcv : Chain j (t0 :: v) tv qv (bare_number tv)) by now apply C_operand.
      assert (Hnum : {exists s, t0 = TNum s} + {~ exists s, t0 = TNum s}).
      { destruct t0 as [s|s|c]; [left; eauto|right; intros [x Hx]; discriminate..]. }
      intros p ts t q n Hc. induction Hc as [p ts t q Ho|p ts l q n tok0 op0 ts0 r q0 n0 Hl _ Htok0 Hp0 Hq0 Hf0 Hr IHr|
          p ts l q n ts0 r q0 n0 j0 Hl _ Hm Hp0 Hq0 Hr IHr]; intros Hb Hp.
      - assert (j <= q) by (destruct Ho; lia). eexists _, _, _. split; [eapply C_implicit with (l := t) (ts' := t0 :: v) (q := q) (n := bare_number t)|reflexivity]; eauto.
        + apply C_operand. exact Ho.
        + now apply may_follow_juxtaposable.
        + fold j. lia.
      - destruct (le_lt_dec j (Nat.min (strength op0) q0)) as [Hq|Hq].
        + eexists _, _, _. split; [eapply C_implicit with (l := BinOp op0 l r) (ts' := t0 :: v) (q := Nat.min (strength op0) q0) (n := bare_number r)|reflexivity]; eauto.
          * eapply C_operator with (op := op0) (l := l) (ts' := ts0); eauto.
          * now apply may_follow_juxtaposable.
          * fold j. lia.
        + destruct (bare_number r && if Hnum then true else false) eqn:Er.
          * apply andb_true_iff in Er. destruct Er as [Er Et]. destruct Hnum as [[s ->]|]; [|discriminate Et].
            pose proof (chain_bare _ _ _ _ _ Hr Er) as ->.
            eexists _, _, _. split; [eapply C_implicit with (l := BinOp op0 l r) (ts' := TNum s :: v) (q := Nat.min (strength op0) 4) (n := bare_number r)|reflexivity]; eauto.
            -- eapply C_operator with (op := op0) (l := l) (ts' := ts0); eauto.
            -- now apply may_follow_juxtaposable.
            -- fold j. lia.
            -- right. repeat split; auto. exists s. eexists. reflexivity.
          * destruct IHr as [t' [q' [n' [H' _]]]].
            -- intros Hx. destruct Hnum; [|contradiction]. now rewrite andb_true_r in Er.
            -- lia.
            -- eexists _, _, _. rewrite <- app_assoc. cbn [app]. split; [eapply C_operator with (op := op0); eauto|reflexivity].
      - change j0 with j in *. destruct (le_lt_dec j (Nat.min j q0)) as [Hq|Hq].
        + eexists _, _, _. split; [eapply C_implicit with (l := BinOp Times l r) (ts' := t0 :: v) (q := Nat.min j q0) (n := bare_number r)|reflexivity]; eauto.
          * eapply C_implicit with (l := l) (ts' := ts0); eauto.
          * now apply may_follow_juxtaposable.
        + destruct (bare_number r && if Hnum then true else false) eqn:Er.
          * apply andb_true_iff in Er. destruct Er as [Er Et]. destruct Hnum as [[s ->]|]; [|discriminate Et].
            pose proof (chain_bare _ _ _ _ _ Hr Er) as ->. lia.
          * destruct IHr as [t' [q' [n' [H' _]]]].
            -- intros Hx. destruct Hnum; [|contradiction]. now rewrite andb_true_r in Er.
            -- lia.
            -- eexists _, _, _. rewrite <- app_assoc. split; [eapply C_implicit; eauto|reflexivity].
               ++ apply may_follow_head; auto. eapply chain_nonempty; eauto.
               ++ destruct Hq0 as [Hq0|[H1 [H2 [s [ts'' ->]]]]]; auto. right. repeat split; auto. exists s. eexists. reflexivity.
    Qed.

    Lemma flat_builds :
      (forall ts n, fprim ts n -> exists t, primary pj ctx true ts t /\ (bare_number t = true -> n = true)) /\
      (forall ts n, foperand ts n -> exists t q, operand pj ctx true ts t q /\ (bare_number t = true -> n = true)) /\
      (forall ts n, flat ts n -> exists t q m, Chain 0 ts t q m /\ (bare_number t = true -> n = true)) /\
      (forall ts k, fargs ts k -> exists l, arguments pj ctx true ts l /\ List.length l = k).
    Proof.
      apply flat_mutind.
      - intros s v H. exists (Number v). split; auto. now constructor.
      - intros s v H. exists (Number v). split; auto. now constructor.
      - intros s x H. exists (Var x). split; [now constructor|discriminate].
      - intros s f ts k Hs _ [l [Hl <-]] Ha. exists (Call f l). split; [|discriminate]. eapply R_call; eauto.
      - intros ts n _ [t [q [m [Hc Hb]]]]. exists t. split; auto. eapply R_paren; eauto.
      - intros ts n _ [t [Hp Hb]]. exists t, 4. split; auto. now constructor.
      - intros ts n _ [t [Hp Hb]]. exists (UnOp Factorial t), 5. split; [now constructor|discriminate].
      - intros c op ts n Hs _ [t [q [Ho Hb]]]. exists (UnOp op t), 3. split; [|discriminate].
        eapply O_sign; [exact Hs|apply C_operand; exact Ho].
      - intros ts n _ [t [q [Ho Hb]]]. exists t, q, (bare_number t). split; auto. now apply C_operand.
      - intros u n tok op v m _ [t [q [k [Hc _]]]] Htok Hf _ [tv [qv [Hv _]]].
        destruct (append_op tok op v tv qv Htok Hv) as [H _].
        destruct (H _ _ _ _ _ Hc Hf) as [t' [q' [n' [Hc' Hb']]]].
        + left. destruct op; cbn; lia.
        + exists t', q', n'. split; auto. congruence.
      - intros u n t v m _ [tu [q [k [Hc Hb]]]] Hj _ [tv [qv [Hv _]]].
        destruct (append_juxt t v tv qv (juxt_false _ _ Hj) Hv _ _ _ _ _ Hc) as [t' [q' [n' [Hc' Hb']]]].
        + intros [s ->]. cbn in Hj. apply andb_true_iff in Hj. destruct Hj as [_ Hj]. apply negb_true_iff in Hj.
          destruct (bare_number tu); auto. specialize (Hb eq_refl). congruence.
        + left. pose proof jb. lia.
        + exists t', q', n'. split; auto. congruence.
      - intros ts n _ [t [q [m [Hc _]]]]. exists [t]. split; auto. eapply G_last; eauto.
      - intros ts n ts' k _ [t [q [m [Hc _]]]] _ [l [Hl <-]]. exists (t :: l). split; auto. eapply G_more; eauto.
    Qed.
  End Build.

  (** ** From a run to flat form *)
  Lemma flat_join : forall tok op v m, flat v m -> forall u n, flat u n -> operator_token tok op ->
    (op = Factorial -> exists u', u = u' ++ [TSym "!"]) -> flat (u ++ tok :: v) false.
  Proof.
    intros tok op v m Hv. induction Hv as [ts k Ho|v1 n1 tok1 op1 v2 m1 Hv1 IH Htok1 Hf1 Ho|v1 n1 t1 v2 m1 Hv1 IH Hj1 Ho];
      intros u n Hu Htok Hf.
    - eapply fl_op; eauto.
    - replace (u ++ tok :: v1 ++ tok1 :: v2) with ((u ++ tok :: v1) ++ tok1 :: v2) by (rewrite <- app_assoc; reflexivity).
      eapply fl_op; eauto. intro E. destruct (Hf1 E) as [u' ->]. exists (u ++ tok :: u'). rewrite <- app_assoc. reflexivity.
    - replace (u ++ tok :: v1 ++ t1 :: v2) with ((u ++ tok :: v1) ++ t1 :: v2) by (rewrite <- app_assoc; reflexivity).
      eapply fl_juxt; eauto. eapply juxt_false; eauto.
  Qed.

  Lemma foperand_nonempty : forall ts n, foperand ts n -> ts <> [].
  Proof.
    intros ts n H. destruct H as [ts n H|ts n H|c op ts n H1 H2].
    - destruct H; discriminate.
    - destruct ts; discriminate.
    - discriminate.
  Qed.
  Lemma flat_nonempty : forall ts n, flat ts n -> ts <> [].
  Proof.
    intros ts n H. destruct H.
    - eapply foperand_nonempty; eauto.
    - destruct u; discriminate.
    - destruct u; discriminate.
  Qed.

  Lemma flat_juxt_join : forall v m, flat v m -> forall u n t v', v = t :: v' -> flat u n -> juxtaposable n t = true ->
    flat (u ++ v) false.
  Proof.
    intros v m Hv. induction Hv as [ts k Ho|v1 n1 tok1 op1 v2 m1 Hv1 IH Htok1 Hf1 Ho|v1 n1 t1 v2 m1 Hv1 IH Hj1 Ho];
      intros u n t v' E Hu Hj.
    - subst. eapply fl_juxt; eauto.
    - rewrite app_assoc. destruct v1 as [|x v1]; [now apply flat_nonempty in Hv1|]. injection E as -> _.
      eapply fl_op; eauto. intro E. destruct (Hf1 E) as [u' ->]. exists (u ++ u'). rewrite <- app_assoc. reflexivity.
    - rewrite app_assoc. destruct v1 as [|x v1]; [now apply flat_nonempty in Hv1|]. injection E as -> _.
      eapply fl_juxt; eauto. eapply juxt_false; eauto.
  Qed.

  Lemma flat_sign : forall c op v m, sign_op c op -> flat v m -> flat (TSym c :: v) false.
  Proof.
    intros c op v m Hs Hv. induction Hv as [ts k Ho|v1 n1 tok1 op1 v2 m1 Hv1 IH Htok1 Hf1 Ho|v1 n1 t1 v2 m1 Hv1 IH Hj1 Ho].
    - apply fl_one. eapply fo_sign; eauto.
    - change (TSym c :: v1 ++ tok1 :: v2) with ((TSym c :: v1) ++ tok1 :: v2). eapply fl_op; eauto.
      intro E. destruct (Hf1 E) as [u' ->]. exists (TSym c :: u'). reflexivity.
    - change (TSym c :: v1 ++ t1 :: v2) with ((TSym c :: v1) ++ t1 :: v2). eapply fl_juxt; eauto. eapply juxt_false; eauto.
  Qed.

  Section Run.
    Variable cfg : config.
    Variable w : world.

    Definition next_bang (rest : list token) : Prop := exists r, rest = TSym "!" :: r.
    Definition ends_bang (used : list token) : Prop := exists u, used = u ++ [TSym "!"].

    (** what an element leaves behind *)
    Definition ran (p : nat) (ts : list token) (t : element) (rest : list token) : Prop :=
      exists used n, ts = used ++ rest /\ flat used n /\ (n = true -> bare_number t = true) /\
        (next_bang rest -> 5 <= p /\ ends_bang used).

    Lemma factorial_byte : forall c, operator_of_byte c = Some Factorial -> c = "!"%char.
    Proof.
      assert (Hb : forall b, (match operator_of_byte b with Some Factorial => Ascii.eqb b "!" | _ => true end) = true).
      { apply TokenFacts.byte_cases. vm_compute. reflexivity. }
      intros c H. specialize (Hb c). rewrite H in Hb. now apply Ascii.eqb_eq.
    Qed.

    Section Open.
      Variable elem : nat -> list token -> tres element.
      Hypothesis He : forall p ts t rest, elem p ts = TOk t rest -> ran p ts t rest.

      Lemma ran_loop : forall b p el ts t rest used n, t_loop cfg elem b p el ts = TOk t rest ->
        flat used n -> (n = true -> bare_number el = true) -> (next_bang ts -> ends_bang used) ->
        exists used' n', used ++ ts = used' ++ rest /\ flat used' n' /\ (n' = true -> bare_number t = true) /\
          (next_bang rest -> 5 <= p /\ ends_bang used').
      Proof.
        induction b as [|b IH]; intros p el ts t rest used n H Hf Hn Hb; cbn in H; [discriminate|].
        destruct (t_goi cfg el p ts) as [[[op k]|] ts'] eqn:E.
        - destruct (elem k ts') as [rhs r| | |] eqn:Ee; cbn in H; try discriminate.
          destruct (He _ _ _ _ Ee) as [u1 [n1 [-> [Hf1 [Hn1 Hb1]]]]].
          destruct (goi_some cfg _ _ _ _ _ _ E) as [[tok [Ht [-> [-> Hp]]]]|[-> [-> [<- [Hp [_ [t0 [r0 [E0 Hj]]]]]]]]].
          + destruct (IH _ _ _ _ _ (used ++ tok :: u1) false H) as [u [n' [Eu Hu]]]; try discriminate.
            * eapply flat_join; eauto. intros ->. apply Hb. destruct tok as [s|s|c]; try contradiction.
              apply factorial_byte in Ht. subst c. eexists. reflexivity.
            * intro Hx. destruct (Hb1 Hx) as [_ [u' ->]]. exists (used ++ tok :: u'). rewrite <- app_assoc. reflexivity.
            * exists u, n'. split; auto. rewrite <- Eu, <- app_assoc. reflexivity.
          + destruct u1 as [|x u1]; [now apply flat_nonempty in Hf1|]. cbn in E0. injection E0 as -> _.
            destruct (IH _ _ _ _ _ (used ++ t0 :: u1) false H) as [u [n' [Eu Hu]]]; try discriminate.
            * eapply flat_juxt_join; eauto. destruct n; auto.
              -- rewrite Hn in Hj; auto.
              -- eapply juxt_false; eauto.
            * intro Hx. destruct (Hb1 Hx) as [_ [u' E']]. rewrite E'. exists (used ++ u'). rewrite <- app_assoc. reflexivity.
            * exists u, n'. split; auto. rewrite <- Eu, <- app_assoc. reflexivity.
        - pose proof (goi_none_rest _ _ _ _ _ E) as ->. injection H as -> ->. exists used, n. repeat split; auto.
          destruct H as [r ->]. cbn in E. destruct p as [|[|[|[|[|p]]]]]; try discriminate E. lia.
      Qed.

      Lemma ran_arguments : forall b acc ts l rest, t_arguments elem b acc ts = TOk l rest ->
        exists used k, ts = used ++ rest /\ List.length l = List.length acc + k /\ fargs used k.
      Proof.
        induction b as [|b IH]; intros acc ts l rest H; cbn in H; [discriminate|].
        unfold t_argument in H. destruct (elem NO_PRECEDENCE ts) as [a r|k| |] eqn:Ee; cbn in H; try discriminate;
          [|destruct k; discriminate].
        destruct (He _ _ _ _ Ee) as [u1 [n1 [-> [Hf1 _]]]].
        destruct r as [|[s|s|c] r]; cbn in H; try discriminate.
        destruct (Ascii.eqb c ",") eqn:Ec.
        - apply Ascii.eqb_eq in Ec. subst c. destruct (IH _ _ _ _ H) as [u2 [k [-> [Hl Ha]]]].
          exists (u1 ++ TSym "," :: u2), (S k). split; [rewrite <- app_assoc; reflexivity|].
          split; [rewrite Hl, app_length; cbn; lia|]. eapply fa_more; eauto.
        - destruct (Ascii.eqb c ")") eqn:Ep; [|discriminate]. injection H as <- <-.
          exists u1, 1. split; auto. split; [rewrite app_length; reflexivity|]. eapply fa_last; eauto.
      Qed.

      Lemma ran_atom : forall b ts t rest, t_atom ctx elem b ts = TOk t rest ->
        exists used n, ts = used ++ rest /\ (n = true -> bare_number t = true) /\
          (fprim used n \/ (flat used n /\ n = false /\ ~ next_bang rest)).
      Proof.
        intros b [|[s|s|c] ts] t rest H; cbn [t_atom] in H; try discriminate.
        - unfold t_number in H. destruct (parse_f64 _) eqn:E; [|discriminate]. injection H as <- <-.
          exists [TNum s], true. split; auto. split; auto. left. econstructor; eauto.
        - unfold t_identifier in H. rewrite resolve_stands in H. destruct (stands_for ctx s) as [f|v|x] eqn:E.
          + destruct (t_consume "(" ts) as [[] r] eqn:Ec; [|discriminate]. apply consume_true in Ec. subst ts.
            destruct (t_arguments elem b [] r) as [args r2| | |] eqn:Ea; cbn in H; try discriminate.
            destruct (t_assert ")" r2) as [u r3| | |] eqn:Eb; cbn in H; try discriminate.
            apply sound_assert in Eb. subst r2. destruct (ran_arguments _ _ _ _ _ Ea) as [u1 [k [-> [Hk Ha]]]].
            cbn in Hk. unfold t_arity in H.
            assert (Harity : match fn_nb_args f with None => True | Some m => k = m end /\ rest = r3).
            { destruct (fn_nb_args f) as [m|]; [|injection H as <- <-; auto].
              destruct (Nat.compare_spec (List.length args) m); try discriminate. injection H as <- <-. split; auto. congruence. }
            destruct Harity as [Har ->].
            exists (TId s :: TSym "(" :: u1 ++ [TSym ")"]), false. split; [cbn; rewrite <- app_assoc; reflexivity|].
            split; [discriminate|]. left. eapply fp_call; eauto.
          + injection H as <- <-. exists [TId s], true. split; auto. split; auto. left. econstructor; eauto.
          + injection H as <- <-. exists [TId s], false. split; auto. split; [discriminate|]. left. econstructor; eauto.
        - assert (Hsign : forall op r, sign_op c op -> elem UNOP_PRECEDENCE ts = TOk r rest ->
            exists used n, TSym c :: ts = used ++ rest /\ (n = true -> bare_number t = true) /\
              (fprim used n \/ (flat used n /\ n = false /\ ~ next_bang rest))).
          { intros op r Hs Ee. destruct (He _ _ _ _ Ee) as [u1 [n1 [-> [Hf1 [_ Hb1]]]]].
            exists (TSym c :: u1), false. split; auto. split; [discriminate|]. right. split; [eapply flat_sign; eauto|].
            split; auto. intro Hx. destruct (Hb1 Hx) as [Hx' _]. unfold UNOP_PRECEDENCE in Hx'. lia. }
          destruct (Ascii.eqb c "+") eqn:E1.
          { apply Ascii.eqb_eq in E1. destruct (elem UNOP_PRECEDENCE ts) as [r rr| | |] eqn:Ee; cbn in H; try discriminate.
            injection H as <- <-. eapply (Hsign Plus); eauto. left; auto. }
          destruct (Ascii.eqb c "-") eqn:E2.
          { apply Ascii.eqb_eq in E2. destruct (elem UNOP_PRECEDENCE ts) as [r rr| | |] eqn:Ee; cbn in H; try discriminate.
            injection H as <- <-. eapply (Hsign Minus); eauto. right; auto. }
          destruct (Ascii.eqb c "(") eqn:E3.
          { apply Ascii.eqb_eq in E3. subst c. destruct (elem NO_PRECEDENCE ts) as [r rr| | |] eqn:Ee; cbn in H; try discriminate.
            destruct (t_assert ")" rr) as [u r3| | |] eqn:Eb; cbn in H; try discriminate. apply sound_assert in Eb. subst rr.
            injection H as <- <-. destruct (He _ _ _ _ Ee) as [u1 [n1 [-> [Hf1 [Hn1 _]]]]].
            exists (TSym "(" :: u1 ++ [TSym ")"]), n1. split; [cbn; rewrite <- app_assoc; reflexivity|].
            split; auto. left. now apply fp_paren. }
          destruct (Ascii.eqb c ")"); discriminate.
      Qed.
    End Open.

    Lemma ran_element : forall b p ts t rest, t_element cfg w ctx b p ts = TOk t rest -> ran p ts t rest.
    Proof.
      induction b as [|b IH]; intros p ts t rest H; cbn [t_element] in H; [discriminate|].
      destruct (t_atom ctx (t_element cfg w ctx b) b ts) as [el r| | |] eqn:Ea; cbn [tbind] in H; try discriminate.
      destruct (ran_atom _ IH _ _ _ _ Ea) as [used [n [-> [Hn Hat]]]].
      destruct (t_consume "!" r) as [bang r2] eqn:Ec.
      destruct (t_loop _ _ _ _ _ _) as [el' r3| | |] eqn:El; cbn [tbind] in H; try discriminate.
      assert (Hfin : forall k, (k = true -> bare_number el' = true) -> rest = r3 /\ (k = true -> bare_number t = true)).
      { intros k Hk. unfold finish_element in H. destruct (optimize cfg); [|injection H as <- <-; auto].
        destruct (simplify cfg w el') eqn:Es; cbn in H; [|discriminate]. injection H as <- <-. split; auto.
        intro Ek. specialize (Hk Ek). destruct el'; try discriminate Hk. cbn in Es. injection Es as <-. reflexivity. }
      assert (Hloop : exists used' n', used ++ r = used' ++ r3 /\ flat used' n' /\ (n' = true -> bare_number el' = true) /\
          (next_bang r3 -> 5 <= p /\ ends_bang used')).
      { destruct bang.
        - apply consume_true in Ec. subst r. destruct Hat as [Hp|[_ [_ Hx]]].
          + destruct (ran_loop _ IH _ _ _ _ _ _ (used ++ [TSym "!"]) false El) as [u [k [Eu Hu]]]; try discriminate.
            * apply fl_one. eapply fo_bang; eauto.
            * intros _. exists used. reflexivity.
            * exists u, k. split; auto. rewrite <- Eu, <- app_assoc. reflexivity.
          + exfalso. apply Hx. eexists. reflexivity.
        - pose proof (consume_false _ _ _ Ec). subst r2.
          apply (ran_loop _ IH _ _ _ _ _ _ used n El).
          + destruct Hat as [Hp|[Hf _]]; auto. apply fl_one. now apply fo_prim.
          + auto.
          + intros [x ->]. cbn in Ec. discriminate Ec. }
      destruct Hloop as [u [k [Eu [Hf [Hk Hb]]]]]. destruct (Hfin k Hk) as [-> Hk']. exists u, k. auto.
    Qed.

    Lemma parsed_flat : forall b ts t, t_parse cfg w ctx b ts = TOk t [] -> exists n, flat ts n.
    Proof.
      intros b ts t H. unfold t_parse in H. destruct (t_element _ _ _ _ _ _) as [r rest| | |] eqn:E; cbn in H; try discriminate.
      destruct rest; [|discriminate]. destruct (ran_element _ _ _ _ _ E) as [u [n [-> [Hf _]]]].
      rewrite app_nil_r. eauto.
    Qed.
  End Run.
End Flat.

(** Whatever the optimising parser accepts has a derivation. *)
Lemma accepted_derivable : forall cfg w ctx b ts t pj, t_parse cfg w ctx b ts = TOk t [] ->
  exists t', derives pj ctx true ts t'.
Proof.
  intros cfg w ctx b ts t pj H. destruct (parsed_flat ctx cfg w b ts t H) as [n Hf].
  destruct (proj1 (proj2 (proj2 (flat_builds ctx pj))) ts n Hf) as [t' [q [m [Hc _]]]].
  exists t', q, m. exact Hc.
Qed.
