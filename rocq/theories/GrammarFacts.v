(** * The plain parser accepts exactly the chains *)
From Coq Require Import ZArith NArith List String Ascii Bool Lia.
From Verif Require Import F64 Syntax Factorial Builtins Context Element Parser.
From Verif Require Import SpecTokens SpecGrammar TokenFacts TokenParser TokenMono.
Import ListNotations.
Local Open Scope nat_scope.

Scheme chain_mut := Minimality for chain Sort Prop
  with operand_mut := Minimality for operand Sort Prop
  with primary_mut := Minimality for primary Sort Prop
  with arguments_mut := Minimality for arguments Sort Prop.
Combined Scheme chain_mutind from chain_mut, operand_mut, primary_mut, arguments_mut.

Lemma strength_prec : forall op, get_for_op op = strength op.
Proof. destruct op; reflexivity. Qed.

Lemma resolve_stands : forall ctx s, resolve ctx s = stands_for ctx s.
Proof. intros. unfold resolve, stands_for, ctx_get, identifier_of_symbol. destruct (sget s _) as [[]|]; reflexivity. Qed.

Section G.
  Variable cfg : config.
  Variable w : world.
  Variable ctx : context.
  Hypothesis Hplain : optimize cfg = false.
  Let j := implicit_strength (pejmdas cfg).

  Lemma implicit_j : implicit_precedence cfg = j.
  Proof. unfold implicit_precedence, j, implicit_strength. destruct (pejmdas cfg); reflexivity. Qed.
  Lemma j_bounds : 2 <= j <= 3.
  Proof. unfold j, implicit_strength. destruct (pejmdas cfg); lia. Qed.

  (** what may follow, given the bound and the last operand *)
  Definition ok_rest (q : nat) (n : bool) (rest : list token) : Prop :=
    match rest with
    | [] => True
    | t :: _ =>
        match (match t with TSym c => operator_of_byte c | _ => None end) with
        | Some op => strength op <= q
        | None => juxtaposable false t = true -> j <= q \/ (n = true /\ exists s, t = TNum s)
        end
    end.

  Lemma ok_rest_mono : forall q q' n rest, q <= q' -> ok_rest q n rest -> ok_rest q' n rest.
  Proof.
    intros q q' n [|t rest] Hq H; [exact I|]. cbn in *. destruct (match t with TSym c => operator_of_byte c | _ => None end); [lia|].
    intro Hj. destruct (H Hj); [left; lia|auto].
  Qed.

  (** ** running the token parser with some budget *)
  Definition elem_to (p : nat) (ts : list token) (t : element) (rest : list token) : Prop :=
    exists b, t_element cfg w ctx b p ts = TOk t rest.
  Definition loop_to (p : nat) (el : element) (ts : list token) (t : element) (rest : list token) : Prop :=
    exists b, t_loop cfg (t_element cfg w ctx b) b p el ts = TOk t rest.
  Definition args_to (acc : list element) (ts : list token) (l : list element) (rest : list token) : Prop :=
    exists b, t_arguments (t_element cfg w ctx b) b acc ts = TOk l rest.
  Definition atom_to (ts : list token) (t : element) (rest : list token) : Prop :=
    exists b, t_atom ctx (t_element cfg w ctx b) b ts = TOk t rest.

  Lemma below_ok : forall A (r r' : tres A) a ts, below r r' -> r = TOk a ts -> r' = TOk a ts.
  Proof. intros A r r' a ts [H|H] E; congruence. Qed.

  Lemma elem_up : forall b b' p ts t rest, b <= b' -> t_element cfg w ctx b p ts = TOk t rest ->
    t_element cfg w ctx b' p ts = TOk t rest.
  Proof. intros. eapply below_ok; [apply mono_element; eauto|auto]. Qed.
  Lemma loop_up : forall b b' p el ts t rest, b <= b' -> t_loop cfg (t_element cfg w ctx b) b p el ts = TOk t rest ->
    t_loop cfg (t_element cfg w ctx b') b' p el ts = TOk t rest.
  Proof. intros. eapply below_ok; [apply mono_loop; eauto|eauto]. intros; now apply mono_element. Qed.
  Lemma args_up : forall b b' acc ts l rest, b <= b' -> t_arguments (t_element cfg w ctx b) b acc ts = TOk l rest ->
    t_arguments (t_element cfg w ctx b') b' acc ts = TOk l rest.
  Proof. intros. eapply below_ok; [apply mono_arguments; eauto|eauto]. intros; now apply mono_element. Qed.
  Lemma atom_up : forall b b' ts t rest, b <= b' -> t_atom ctx (t_element cfg w ctx b) b ts = TOk t rest ->
    t_atom ctx (t_element cfg w ctx b') b' ts = TOk t rest.
  Proof. intros. eapply below_ok; [eapply mono_atom; eauto|eauto]. intros; now apply mono_element. Qed.

  Lemma finish_plain : forall el, finish_element cfg w el = Val el.
  Proof. intro el. unfold finish_element. now rewrite Hplain. Qed.

  Lemma loop_stop : forall p el ts, t_goi cfg el p ts = (None, ts) -> loop_to p el ts el ts.
  Proof. intros p el ts E. exists 1. cbn. now rewrite E. Qed.

  Lemma loop_step : forall p el ts op k ts' rhs r t rest,
    t_goi cfg el p ts = (Some (op, k), ts') -> elem_to k ts' rhs r -> loop_to p (BinOp op el rhs) r t rest ->
    loop_to p el ts t rest.
  Proof.
    intros p el ts op k ts' rhs r t rest E [b1 H1] [b2 H2]. exists (S (b1 + b2)). cbn [t_loop]. rewrite E.
    rewrite (elem_up b1 (S (b1 + b2)) _ _ _ _ ltac:(lia) H1). cbn [tbind].
    eapply below_ok; [eapply mono_loop with (b := b2); [|]|exact H2]; [|lia].
    intros; apply mono_element; lia.
  Qed.

  Lemma elem_intro : forall p ts el r t rest, atom_to ts el r ->
    (let '(bang, r2) := t_consume "!" r in loop_to p (if bang then UnOp Factorial el else el) r2 t rest) ->
    elem_to p ts t rest.
  Proof.
    intros p ts el r t rest [b1 H1] H. destruct (t_consume "!" r) as [bang r2] eqn:Ec. destruct H as [b2 H2].
    exists (S (b1 + b2)). cbn [t_element]. rewrite (atom_up b1 (b1 + b2) _ _ _ ltac:(lia) H1). cbn [tbind].
    rewrite Ec. rewrite (loop_up b2 (b1 + b2) _ _ _ _ _ ltac:(lia) H2). cbn [tbind]. now rewrite finish_plain.
  Qed.

  Lemma juxt_false : forall n t, juxtaposable n t = true -> juxtaposable false t = true.
  Proof. intros n [s|s|c]; cbn; auto. rewrite andb_true_iff. intros [-> _]. reflexivity. Qed.

  Lemma goi_stop : forall el p q n rest, ok_rest q n rest -> q <= p -> (n = true -> bare_number el = true) ->
    t_goi cfg el p rest = (None, rest).
  Proof.
    intros el p q n rest H Hq Hn. destruct rest as [|t rest]; auto. unfold t_goi. unfold ok_rest in H.
    destruct (match t with TSym c => operator_of_byte c | _ => None end) as [op|].
    - rewrite strength_prec. destruct (strength op <=? p) eqn:E; auto. apply Nat.leb_gt in E. lia.
    - rewrite implicit_j. destruct (j <=? p) eqn:E; auto. apply Nat.leb_gt in E.
      destruct (juxtaposable (is_number_node el) t) eqn:Ej; auto. exfalso.
      destruct (H (juxt_false _ _ Ej)) as [Hj|[Hn' [s ->]]]; [lia|].
      unfold is_number_node in Ej. rewrite (Hn Hn') in Ej. cbn in Ej. rewrite andb_false_r in Ej. discriminate.
  Qed.

  Lemma goi_operator : forall el p tok op r, operator_token tok op -> p < strength op ->
    t_goi cfg el p (tok :: r) = (Some (op, strength op), r).
  Proof.
    intros el p [s|s|c] op r H Hp; try contradiction. cbn in H. cbn. rewrite H, strength_prec.
    destruct (strength op <=? p) eqn:E; auto. apply Nat.leb_le in E. lia.
  Qed.

  Lemma may_follow_juxt : forall l ts, may_follow l ts -> exists t r, ts = t :: r /\ juxtaposable (bare_number l) t = true.
  Proof.
    intros l [|[s|s|c] r] H; cbn in H; try contradiction; do 2 eexists; split; try reflexivity; cbn.
    - destruct H as [H1 H2]. rewrite H2. cbn. now rewrite andb_true_r.
    - exact H.
    - now rewrite H.
  Qed.

  Lemma juxt_not_op : forall n t, juxtaposable n t = true -> match t with TSym c => operator_of_byte c | _ => None end = None.
  Proof. intros n [s|s|c] H; auto. cbn in H. apply Ascii.eqb_eq in H. now subst. Qed.

  Lemma goi_implicit : forall l p ts r, may_follow l ts -> p < j ->
    t_goi cfg l p (ts ++ r) = (Some (Times, j), ts ++ r).
  Proof.
    intros l p ts r H Hp. destruct (may_follow_juxt _ _ H) as [t [r' [-> Hj]]]. cbn [app]. unfold t_goi.
    rewrite (juxt_not_op _ _ Hj), implicit_j. unfold is_number_node. rewrite Hj.
    destruct (j <=? p) eqn:E; auto. apply Nat.leb_le in E. lia.
  Qed.

  Lemma chain_bound : (forall p ts t q n, chain (pejmdas cfg) ctx true p ts t q n -> 3 <= q \/ p < q).
  Proof.
    assert (H : (forall p ts t q n, chain (pejmdas cfg) ctx true p ts t q n -> 3 <= q \/ p < q) /\
                (forall ts t q, operand (pejmdas cfg) ctx true ts t q -> 3 <= q) /\
                (forall ts t, primary (pejmdas cfg) ctx true ts t -> True) /\
                (forall ts l, arguments (pejmdas cfg) ctx true ts l -> True)).
    { apply chain_mutind; intros; auto; try lia.
      all: pose proof j_bounds; fold j in *; lia. }
    apply H.
  Qed.

  Lemma chain_number : forall p ts t q n, chain (pejmdas cfg) ctx true p ts t q n ->
    bare_number t = true -> n = true.
  Proof. intros p ts t q n H. destruct H; cbn; auto; discriminate. Qed.

  Lemma ok_rest_end : forall q n c r, (c = ","%char \/ c = ")"%char) -> ok_rest q n (TSym c :: r).
  Proof. intros q n c r [-> | ->]; cbn; discriminate. Qed.

  Lemma ok_no_bang : forall q n rest, ok_rest q n rest -> q <= 4 -> t_consume "!" rest = (false, rest).
  Proof.
    intros q n [|[s|s|c] rest] H Hq; auto. cbn in *. destruct (Ascii.eqb c "!") eqn:E; auto.
    apply Ascii.eqb_eq in E. subst c. cbn in H. lia.
  Qed.

  (** ** completeness *)
  Lemma complete :
    (forall p ts t q n, chain (pejmdas cfg) ctx true p ts t q n ->
       forall rest T rest', ok_rest q n rest -> loop_to p t rest T rest' -> elem_to p (ts ++ rest) T rest') /\
    (forall ts t q, operand (pejmdas cfg) ctx true ts t q ->
       forall p rest T rest', ok_rest q (bare_number t) rest -> loop_to p t rest T rest' -> elem_to p (ts ++ rest) T rest') /\
    (forall ts t, primary (pejmdas cfg) ctx true ts t -> forall rest, atom_to (ts ++ rest) t rest) /\
    (forall ts l, arguments (pejmdas cfg) ctx true ts l -> forall acc rest,
       args_to acc (ts ++ TSym ")" :: rest) (acc ++ l) (TSym ")" :: rest)).
  Proof.
    apply chain_mutind.
    - intros p ts t q _ IH rest T rest' Hr Hl. eauto.
    - intros p ts l q n tok op ts' r q' n' Hc1 IH1 Htok Hp Hq _ Hc2 IH2 rest T rest' Hr Hl.
      rewrite <- app_assoc. cbn [app]. apply IH1.
      + destruct tok as [s|s|c]; try contradiction. cbn in *. now rewrite Htok.
      + eapply loop_step; [apply goi_operator; eauto| |exact Hl].
        apply IH2.
        * destruct rest as [|t rest]; [exact I|]. unfold ok_rest in *.
          destruct (match t with TSym c => operator_of_byte c | _ => None end); [lia|].
          intro Hj. destruct (Hr Hj) as [Hj'|[Hn Hs]]; [left; lia|].
          right. split; auto. eapply chain_number; eauto.
        * apply loop_stop. eapply goi_stop; [exact Hr| |auto]. lia.
    - intros p ts l q n ts' r q' n' j0 Hc1 IH1 Hf Hp Hq Hc2 IH2 rest T rest' Hr Hl. change j0 with j in *. clear j0.
      rewrite <- app_assoc. apply IH1.
      + destruct (may_follow_juxt _ _ Hf) as [t [r' [-> Hj]]]. cbn [app ok_rest].
        rewrite (juxt_not_op _ _ Hj). intros _. destruct Hq as [Hq|[_ [Hn [s [ts'' E]]]]]; auto.
        right. split; auto. injection E as -> _. eauto.
      + eapply loop_step; [apply goi_implicit; eauto| |exact Hl].
        apply IH2.
        * destruct rest as [|t rest]; [exact I|]. unfold ok_rest in *.
          destruct (match t with TSym c => operator_of_byte c | _ => None end); [lia|].
          intro Hj. destruct (Hr Hj) as [Hj'|[Hn Hs]]; [left; lia|].
          right. split; auto. eapply chain_number; eauto.
        * apply loop_stop. eapply goi_stop; [exact Hr| |auto]. lia.
    - intros ts t _ IH p rest T rest' Hr Hl. eapply elem_intro; [apply IH|].
      rewrite (ok_no_bang _ _ _ Hr) by lia. exact Hl.
    - intros ts t _ IH p rest T rest' Hr Hl. rewrite <- app_assoc. cbn [app]. eapply elem_intro; [apply IH|].
      cbn. exact Hl.
    - intros c op ts t q n Hs Hc IH p rest T rest' Hr Hl.
      assert (He : elem_to 3 (ts ++ rest) t rest).
      { apply IH.
        - apply ok_rest_mono with 3.
          + destruct (chain_bound _ _ _ _ _ Hc); lia.
          + destruct rest as [|x rest]; [exact I|]. unfold ok_rest in *.
            destruct (match x with TSym c => operator_of_byte c | _ => None end); [lia|]. intros _. left. apply j_bounds.
        - apply loop_stop. eapply goi_stop; [exact Hr|lia|]. cbn. discriminate. }
      eapply elem_intro with (el := UnOp op t) (r := rest).
      + destruct He as [b Hb]. exists b. cbn [app t_atom]. destruct Hs as [[-> ->]|[-> ->]]; cbn;
        change UNOP_PRECEDENCE with 3; rewrite Hb; reflexivity.
      + rewrite (ok_no_bang _ _ _ Hr) by lia. exact Hl.
    - intros s v Hv rest. exists 0. cbn. unfold t_number. unfold literal_value in Hv. now rewrite Hv.
    - intros s v Hv rest. exists 0. cbn. unfold t_identifier. now rewrite resolve_stands, Hv.
    - intros s x Hv rest. exists 0. cbn. unfold t_identifier. now rewrite resolve_stands, Hv.
    - intros s f ts args Hf _ IH Ha rest. destruct (IH [] rest) as [b Hb]. exists b. cbn [app t_atom].
      unfold t_identifier. rewrite resolve_stands, Hf. cbn [t_consume Ascii.eqb Bool.eqb].
      rewrite <- app_assoc. cbn [app]. replace (Ascii.eqb "(" "(") with true by reflexivity. rewrite Hb.
      cbn. unfold t_arity. unfold arity_ok in Ha. destruct (fn_nb_args f) as [m|]; auto.
      rewrite Ha, Nat.compare_refl. reflexivity.
    - intros ts t q n _ IH rest. destruct (IH (TSym ")" :: rest) t (TSym ")" :: rest)) as [b Hb].
      + apply ok_rest_end; auto.
      + apply loop_stop. eapply goi_stop with (q := 0) (n := false); [apply ok_rest_end; auto|lia|discriminate].
      + exists b. cbn [app t_atom]. rewrite <- app_assoc. cbn [app]. change NO_PRECEDENCE with 0. cbn [Ascii.eqb Bool.eqb].
        replace (Ascii.eqb "(" "+") with false by reflexivity. replace (Ascii.eqb "(" "-") with false by reflexivity.
        replace (Ascii.eqb "(" "(") with true by reflexivity. rewrite Hb. reflexivity.
    - intros ts t q n _ IH acc rest. destruct (IH (TSym ")" :: rest) t (TSym ")" :: rest)) as [b Hb].
      + apply ok_rest_end; auto.
      + apply loop_stop. eapply goi_stop with (q := 0) (n := false); [apply ok_rest_end; auto|lia|discriminate].
      + exists (S b). cbn [t_arguments]. unfold t_argument. change NO_PRECEDENCE with 0.
        rewrite (elem_up b (S b) _ _ _ _ ltac:(lia) Hb). reflexivity.
    - intros ts t q n ts' l _ IH _ IHl acc rest. rewrite <- app_assoc. cbn [app].
      destruct (IH (TSym "," :: ts' ++ TSym ")" :: rest) t (TSym "," :: ts' ++ TSym ")" :: rest)) as [b Hb].
      + apply ok_rest_end; auto.
      + apply loop_stop. eapply goi_stop with (q := 0) (n := false); [apply ok_rest_end; auto|lia|discriminate].
      + destruct (IHl (acc ++ [t]) rest) as [b2 Hb2]. exists (S (b + b2)). cbn [t_arguments]. unfold t_argument.
        change NO_PRECEDENCE with 0. rewrite (elem_up b (S (b + b2)) _ _ _ _ ltac:(lia) Hb). cbn [tbind].
        replace (Ascii.eqb "," ",") with true by reflexivity.
        replace (acc ++ t :: l) with ((acc ++ [t]) ++ l) by (rewrite <- app_assoc; reflexivity).
        eapply below_ok; [eapply mono_arguments with (b := b2); [|]|exact Hb2]; [|lia].
        intros; apply mono_element; lia.
  Qed.

  (** ** soundness *)
  Notation Chain := (chain (pejmdas cfg) ctx true).

  Lemma goi_none_rest : forall el p ts ts', t_goi cfg el p ts = (None, ts') -> ts' = ts.
  Proof.
    intros el p [|t r] ts' H; cbn in H; [congruence|].
    destruct (match t with TSym c => operator_of_byte c | _ => None end).
    - destruct (_ <=? _); congruence.
    - destruct (_ <=? _); [congruence|]. destruct (juxtaposable _ _); congruence.
  Qed.

  Lemma goi_some : forall el p ts op k ts', t_goi cfg el p ts = (Some (op, k), ts') ->
    (exists tok, operator_token tok op /\ ts = tok :: ts' /\ k = strength op /\ p < strength op) \/
    (op = Times /\ k = j /\ ts' = ts /\ p < j /\ (forall r, match ts with t :: _ => may_follow el (t :: r) | [] => False end) /\
     exists t r, ts = t :: r /\ juxtaposable (bare_number el) t = true).
  Proof.
    intros el p [|t r] op k ts' H; cbn in H; [congruence|].
    destruct (match t with TSym c => operator_of_byte c | _ => None end) as [op'|] eqn:Eo.
    - left. rewrite strength_prec in H. destruct (strength op' <=? p) eqn:E; [discriminate|]. injection H as <- <- <-.
      apply Nat.leb_gt in E. exists t. split; [destruct t; try discriminate; exact Eo|]. auto.
    - right. rewrite implicit_j in H. destruct (j <=? p) eqn:E; [discriminate|]. apply Nat.leb_gt in E.
      unfold is_number_node in H. destruct (juxtaposable (bare_number el) t) eqn:Ej; [|discriminate]. injection H as <- <- <-.
      repeat split; auto.
      + intro r'. destruct t as [s|s|c]; cbn in *; auto.
        * apply andb_true_iff in Ej. destruct Ej as [E1 E2]. split; auto. now apply negb_true_iff.
        * now apply Ascii.eqb_eq.
      + exists t, r. auto.
  Qed.

  (** what a finished loop leaves behind *)
  Definition stopped (el : element) (p : nat) (rest : list token) : Prop := t_goi cfg el p rest = (None, rest).

  Lemma stopped_ok : forall k q1 n1 rhs used r, Chain k used rhs q1 n1 -> ok_rest q1 n1 r -> stopped rhs k r ->
    ok_rest (Nat.min k q1) (bare_number rhs) r.
  Proof.
    intros k q1 n1 rhs used [|t r] Hc Hr Hs; [exact I|]. unfold ok_rest, stopped, t_goi in *.
    destruct (match t with TSym c => operator_of_byte c | _ => None end) as [op|].
    - rewrite strength_prec in Hs. destruct (strength op <=? k) eqn:E; [|discriminate]. apply Nat.leb_le in E. lia.
    - intro Hj. rewrite implicit_j in Hs. destruct (j <=? k) eqn:E.
      + apply Nat.leb_le in E. left. pose proof (chain_bound _ _ _ _ _ Hc). pose proof j_bounds. lia.
      + right. unfold is_number_node in Hs. destruct (juxtaposable (bare_number rhs) t) eqn:Ej; [discriminate|].
        destruct t as [s|s|c]; cbn in *; try congruence.
        destruct (bare_number rhs); [eauto|]. cbn in *. congruence.
  Qed.

  Section Sound.
    Variable elem : nat -> list token -> tres element.
    Hypothesis He : forall p ts t rest, elem p ts = TOk t rest ->
      exists used q n, ts = used ++ rest /\ Chain p used t q n /\ ok_rest q n rest /\ stopped t p rest.

    Lemma sound_loop : forall b p el ts t rest used q n,
      t_loop cfg elem b p el ts = TOk t rest -> Chain p used el q n -> ok_rest q n ts ->
      exists used' q' n', used ++ ts = used' ++ rest /\ Chain p used' t q' n' /\ ok_rest q' n' rest /\ stopped t p rest.
    Proof.
      induction b as [|b IH]; intros p el ts t rest used q n H Hc Hr; cbn in H; [discriminate|].
      destruct (t_goi cfg el p ts) as [[[op k]|] ts'] eqn:E.
      - destruct (elem k ts') as [rhs r| | |] eqn:Ee; cbn in H; try discriminate.
        destruct (He _ _ _ _ Ee) as [u1 [q1 [n1 [-> [Hc1 [Hr1 Hs1]]]]]].
        destruct (goi_some _ _ _ _ _ _ E) as [[tok [Ht [-> [-> Hp]]]]|[-> [-> [<- [Hp [Hf [t0 [r0 [E0 Hj]]]]]]]]].
        + assert (Hq : strength op <= q).
          { destruct tok as [s|s|c]; try contradiction. cbn in Ht, Hr. now rewrite Ht in Hr. }
          destruct (IH _ _ _ _ _ (used ++ tok :: u1) (Nat.min (strength op) q1) (bare_number rhs) H) as [u [q' [n' [Eu Hu]]]].
          * eapply C_operator; eauto.
          * eapply stopped_ok; eauto.
          * exists u, q', n'. split; auto. rewrite <- Eu, <- app_assoc. reflexivity.
        + assert (Hu1 : exists r1, u1 = t0 :: r1).
          { destruct u1 as [|x u1]; [exfalso; clear -Hc1|cbn in E0; injection E0 as -> _; eauto].
            assert (Hn : (forall p ts t q n, Chain p ts t q n -> ts <> []) /\
              (forall ts t q, operand (pejmdas cfg) ctx true ts t q -> ts <> []) /\
              (forall ts t, primary (pejmdas cfg) ctx true ts t -> ts <> []) /\
              (forall ts l, arguments (pejmdas cfg) ctx true ts l -> True)).
            { apply chain_mutind; intros; auto; try discriminate; try (destruct ts; [congruence|discriminate]). }
            eapply (proj1 Hn); eauto. }
          destruct Hu1 as [r1 ->].
          destruct (IH _ _ _ _ _ (used ++ t0 :: r1) (Nat.min j q1) (bare_number rhs) H) as [u [q' [n' [Eu Hu]]]].
          * eapply C_implicit; eauto.
            -- rewrite E0 in Hf. apply Hf.
            -- cbn in Hr. rewrite (juxt_not_op _ _ Hj) in Hr. destruct (Hr (juxt_false _ _ Hj)) as [Hq|[Hn [s ->]]]; auto.
               right. repeat split; auto. eauto.
          * eapply stopped_ok; eauto.
          * exists u, q', n'. split; auto. rewrite <- Eu, <- app_assoc. reflexivity.
      - pose proof (goi_none_rest _ _ _ _ E) as ->. injection H as -> ->. exists used, q, n. auto.
    Qed.

    Lemma sound_assert : forall ts u r, t_assert ")" ts = TOk u r -> ts = TSym ")" :: r.
    Proof.
      intros [|[s|s|c] ts] u r H; unfold t_assert, t_consume in H; try discriminate H.
      destruct (Ascii.eqb c ")") eqn:E; [|discriminate H].
      apply Ascii.eqb_eq in E. subst. injection H as _ ->. reflexivity.
    Qed.

    Lemma sound_arguments : forall b acc ts l rest, t_arguments elem b acc ts = TOk l rest ->
      exists used l', ts = used ++ rest /\ l = acc ++ l' /\ arguments (pejmdas cfg) ctx true used l'.
    Proof.
      induction b as [|b IH]; intros acc ts l rest H; cbn in H; [discriminate|].
      unfold t_argument in H. destruct (elem NO_PRECEDENCE ts) as [a r|k| |] eqn:Ee; cbn in H; try discriminate;
        [|destruct k; discriminate].
      destruct (He _ _ _ _ Ee) as [u1 [q1 [n1 [-> [Hc1 [Hr1 Hs1]]]]]].
      destruct r as [|[s|s|c] r]; cbn in H; try discriminate.
      destruct (Ascii.eqb c ",") eqn:Ec.
      - apply Ascii.eqb_eq in Ec. subst c. destruct (IH _ _ _ _ H) as [u2 [l' [-> [-> Ha]]]].
        exists (u1 ++ TSym "," :: u2), (a :: l'). split; [rewrite <- app_assoc; reflexivity|].
        split; [rewrite <- app_assoc; reflexivity|]. eapply G_more; eauto.
      - destruct (Ascii.eqb c ")") eqn:Ep; [|discriminate]. injection H as <- <-.
        exists u1, [a]. split; auto. split; auto. eapply G_last; eauto.
    Qed.

    (** an atom is a primary, or a sign and its operand *)
    Lemma sound_atom : forall b ts t rest, t_atom ctx elem b ts = TOk t rest ->
      exists used, ts = used ++ rest /\
        (primary (pejmdas cfg) ctx true used t \/
         (operand (pejmdas cfg) ctx true used t 3 /\ ok_rest 3 false rest /\ bare_number t = false)).
    Proof.
      intros b [|[s|s|c] ts] t rest H; cbn [t_atom] in H; try discriminate.
      - unfold t_number in H. destruct (parse_f64 _) eqn:E; [|discriminate]. injection H as <- <-.
        exists [TNum s]. split; auto. left. now constructor.
      - unfold t_identifier in H. rewrite resolve_stands in H. destruct (stands_for ctx s) as [f|v|x] eqn:E.
        + destruct (t_consume "(" ts) as [[] r] eqn:Ec; [|discriminate].
          assert (ts = TSym "(" :: r) as ->.
          { destruct ts as [|[s'|s'|c'] ts]; cbn in Ec; try discriminate. destruct (Ascii.eqb c' "(") eqn:E'; [|discriminate].
            apply Ascii.eqb_eq in E'. congruence. }
          destruct (t_arguments elem b [] r) as [args r2| | |] eqn:Ea; cbn in H; try discriminate.
          destruct (t_assert ")" r2) as [u r3| | |] eqn:Eb; cbn in H; try discriminate.
          apply sound_assert in Eb. subst r2. destruct (sound_arguments _ _ _ _ _ Ea) as [u1 [l' [-> [-> Ha]]]].
          cbn in H. unfold t_arity in H.
          assert (Harity : arity_ok f l' /\ t = Call f l' /\ rest = r3).
          { unfold arity_ok. destruct (fn_nb_args f) as [m|]; [|injection H as <- <-; auto].
            destruct (Nat.compare_spec (List.length l') m); try discriminate. injection H as <- <-. auto. }
          destruct Harity as [Har [-> ->]].
          exists (TId s :: TSym "(" :: u1 ++ [TSym ")"]). split; [cbn; rewrite <- app_assoc; reflexivity|].
          left. eapply R_call; eauto.
        + injection H as <- <-. exists [TId s]. split; auto. left. now constructor.
        + injection H as <- <-. exists [TId s]. split; auto. left. now constructor.
      - assert (Hsign : forall op r (f : element -> list token -> tres element), sign_op c op ->
          elem UNOP_PRECEDENCE ts = TOk r rest -> t = UnOp op r ->
          exists used, TSym c :: ts = used ++ rest /\
            (primary (pejmdas cfg) ctx true used t \/
             (operand (pejmdas cfg) ctx true used t 3 /\ ok_rest 3 false rest /\ bare_number t = false))).
        { intros op r _ Hs Ee ->. destruct (He _ _ _ _ Ee) as [u1 [q1 [n1 [-> [Hc1 [Hr1 Hs1]]]]]].
          exists (TSym c :: u1). split; auto. right. split; [eapply O_sign; eauto|]. split; auto.
          destruct rest as [|x rest]; [exact I|]. unfold ok_rest, stopped, t_goi in *.
          destruct (match x with TSym c => operator_of_byte c | _ => None end) as [o|].
          - rewrite strength_prec in Hs1. destruct (strength o <=? UNOP_PRECEDENCE) eqn:E; [|discriminate]. now apply Nat.leb_le in E.
          - intros _. left. apply j_bounds. }
        destruct (Ascii.eqb c "+") eqn:E1.
        { apply Ascii.eqb_eq in E1. destruct (elem UNOP_PRECEDENCE ts) as [r rr| | |] eqn:Ee; cbn in H; try discriminate.
          injection H as <- <-. eapply (Hsign Plus r (fun _ _ => TFuel)); eauto. left; auto. }
        destruct (Ascii.eqb c "-") eqn:E2.
        { apply Ascii.eqb_eq in E2. destruct (elem UNOP_PRECEDENCE ts) as [r rr| | |] eqn:Ee; cbn in H; try discriminate.
          injection H as <- <-. eapply (Hsign Minus r (fun _ _ => TFuel)); eauto. right; auto. }
        destruct (Ascii.eqb c "(") eqn:E3.
        { apply Ascii.eqb_eq in E3. subst c. destruct (elem NO_PRECEDENCE ts) as [r rr| | |] eqn:Ee; cbn in H; try discriminate.
          destruct (t_assert ")" rr) as [u r3| | |] eqn:Eb; cbn in H; try discriminate. apply sound_assert in Eb. subst rr.
          injection H as <- <-. destruct (He _ _ _ _ Ee) as [u1 [q1 [n1 [-> [Hc1 _]]]]].
          exists (TSym "(" :: u1 ++ [TSym ")"]). split; [cbn; rewrite <- app_assoc; reflexivity|]. left. eapply R_paren; eauto. }
        destruct (Ascii.eqb c ")"); discriminate.
    Qed.
  End Sound.

  Lemma ok_rest_after_primary : forall n rest, t_consume "!" rest = (false, rest) -> ok_rest 4 n rest.
  Proof.
    intros n [|t rest] H; [exact I|]. unfold ok_rest. destruct t as [s|s|c]; try (intros _; left; pose proof j_bounds; lia).
    destruct (operator_of_byte c) as [op|] eqn:Eo; [|intros _; left; pose proof j_bounds; lia].
    destruct op; cbn; try lia. exfalso. cbn in H. destruct (Ascii.eqb c "!") eqn:E; [congruence|].
    assert (Hb : forall b, (match operator_of_byte b with Some Factorial => Ascii.eqb b "!" | _ => true end) = true).
    { apply TokenFacts.byte_cases. vm_compute. reflexivity. }
    specialize (Hb c). rewrite Eo in Hb. congruence.
  Qed.

  Lemma ok_rest_5 : forall n rest, ok_rest 5 n rest.
  Proof.
    intros n [|t rest]; [exact I|]. unfold ok_rest. destruct (match t with TSym c => operator_of_byte c | _ => None end) as [op|].
    - destruct op; cbn; lia.
    - intros _. left. pose proof j_bounds. lia.
  Qed.

  Lemma consume_true : forall tok ts r, t_consume tok ts = (true, r) -> ts = TSym tok :: r.
  Proof.
    intros tok [|[s|s|c] ts] r H; cbn in H; try discriminate. destruct (Ascii.eqb c tok) eqn:E; [|discriminate].
    apply Ascii.eqb_eq in E. congruence.
  Qed.
  Lemma consume_false : forall tok ts r, t_consume tok ts = (false, r) -> r = ts.
  Proof.
    intros tok [|[s|s|c] ts] r H; cbn in H; try congruence. destruct (Ascii.eqb c tok); congruence.
  Qed.

  Lemma sound_element : forall b p ts t rest, t_element cfg w ctx b p ts = TOk t rest ->
    exists used q n, ts = used ++ rest /\ Chain p used t q n /\ ok_rest q n rest /\ stopped t p rest.
  Proof.
    induction b as [|b IH]; intros p ts t rest H; cbn [t_element] in H; [discriminate|].
    destruct (t_atom ctx (t_element cfg w ctx b) b ts) as [el r| | |] eqn:Ea; cbn [tbind] in H; try discriminate.
    destruct (sound_atom _ IH _ _ _ _ Ea) as [used [-> Hat]].
    destruct (t_consume "!" r) as [bang r2] eqn:Ec.
    destruct (t_loop _ _ _ _ _ _) as [el' r3| | |] eqn:El; cbn [tbind] in H; try discriminate.
    rewrite finish_plain in H. cbn in H. injection H as <- <-.
    destruct bang.
    - apply consume_true in Ec. subst r. destruct Hat as [Hp|[_ [Hr _]]].
      + destruct (sound_loop _ IH _ _ _ _ _ _ (used ++ [TSym "!"]) 5 (bare_number (UnOp Factorial el)) El) as [u [q [n [Eu Hu]]]].
        * apply C_operand. now apply O_bang.
        * apply ok_rest_5.
        * exists u, q, n. rewrite <- Eu, <- app_assoc. auto.
      + exfalso. cbn in Hr. lia.
    - pose proof (consume_false _ _ _ Ec). subst r2.
      destruct Hat as [Hp|[Ho [Hr Hb]]].
      + destruct (sound_loop _ IH _ _ _ _ _ _ used 4 (bare_number el) El) as [u [q [n [Eu Hu]]]].
        * apply C_operand. now apply O_plain.
        * now apply ok_rest_after_primary.
        * exists u, q, n. auto.
      + destruct (sound_loop _ IH _ _ _ _ _ _ used 3 (bare_number el) El) as [u [q [n [Eu Hu]]]].
        * apply C_operand. exact Ho.
        * rewrite Hb. exact Hr.
        * exists u, q, n. auto.
  Qed.

  (** ** the whole input *)
  Theorem t_parse_iff : forall ts t,
    (exists b, t_parse cfg w ctx b ts = TOk t []) <-> derives (pejmdas cfg) ctx true ts t.
  Proof.
    intros ts t. split.
    - intros [b H]. unfold t_parse in H. destruct (t_element _ _ _ _ _ _) as [r rest| | |] eqn:E; cbn in H; try discriminate.
      destruct rest; [|discriminate]. injection H as ->. destruct (sound_element _ _ _ _ _ E) as [u [q [n [-> [Hc _]]]]].
      rewrite app_nil_r. exists q, n. exact Hc.
    - intros [q [n Hc]]. destruct (proj1 complete _ _ _ _ _ Hc [] t []) as [b Hb].
      + exact I.
      + apply loop_stop. reflexivity.
      + rewrite app_nil_r in Hb. exists b. unfold t_parse. change NO_PRECEDENCE with 0. now rewrite Hb.
  Qed.
End G.
