(** * C84: following the help of an error

    Doing what an error suggests removes that error: what is wrong afterwards, if
    anything, is further on.  One cannot go in circles, and from every rejected
    text the advice leads to an accepted one or to an error that gives none. *)
From Coq Require Import ZArith NArith List String Ascii Bool Lia Wf_nat Relations.
From Verif Require Import F64 Syntax Factorial Builtins Context Element Parser ParserFacts Xprs Display Diagnostic.
From Verif Require Import SpecChars CharFacts SpecTokens SpecTree SpecGrammar SpecApi SpecParse SpecScan SpecAdvice.
From Verif Require Import TokenFacts LexFacts LexExec ScanFacts ScanPrefix AdviceFacts.
From Verif Require Import PropertiesParse PropertiesGrammar PropertiesScan PropertiesDefault TestWorld.
Import ListNotations.
Local Open Scope nat_scope.

(** ** The advice is the help of the error *)
Lemma usize_sub_nat : forall cfg a b, b <= a -> usize_sub cfg (N.of_nat a) (N.of_nat b) = Val (N.of_nat (a - b)).
Proof. intros cfg a b H. unfold usize_sub. rewrite (proj2 (N.leb_le _ _)) by lia. f_equal. lia. Qed.
Lemma plural_nat : forall n, plural (N.of_nat n) = if Nat.ltb 1 n then "s"%string else ""%string.
Proof.
  intro n. unfold plural. destruct (Nat.ltb_spec 1 n).
  - now rewrite (proj2 (N.ltb_lt _ _)) by lia.
  - now rewrite (proj2 (N.ltb_ge _ _)) by lia.
Qed.

(** ** One edit *)
Definition one_more : list token := [TSym ","; TNum "1"].
Fixpoint more_tokens (n : nat) : list token := match n with 0 => [] | S n => one_more ++ more_tokens n end.

Lemma more_lexes : forall n, lexes (list_ascii_of_string (more_arguments n)) (more_tokens n).
Proof.
  induction n as [|n IH]; [constructor|]. cbn [more_arguments more_tokens one_more app]. rewrite bytes_app. cbn [list_ascii_of_string app].
  apply L_sym; auto. apply L_ws; auto. apply (L_num ["1"%char]); auto.
  assert (H : forall p, p ","%char = false -> ~ head_is p (list_ascii_of_string (more_arguments n))).
  { intros p Hp. destruct n; cbn; auto. congruence. }
  apply NT_plain; try (repeat constructor; fail); try (apply H; reflexivity).
  destruct n as [|n]; cbn; auto. intros [K _]. discriminate K.
Qed.

Lemma more_length : forall n, List.length (list_ascii_of_string (more_arguments n)) = 3 * n.
Proof. induction n as [|n IH]; [reflexivity|]. cbn [more_arguments]. rewrite bytes_app, app_length, IH. cbn. lia. Qed.

Lemma more_run : forall ctx d bare pf f n fr s, exists bare' pf',
  run ctx (Have bare pf) (Arguments_of f n fr :: s) (more_tokens d) = Some (Have bare' pf', Arguments_of f (n + d) fr :: s).
Proof.
  intros ctx. induction d as [|d IH]; intros bare pf f n fr s.
  - exists bare, pf. cbn. now rewrite Nat.add_0_r.
  - destruct (IH true true f (S n) fr s) as [b' [p' E]]. exists b', p'. cbn [more_tokens]. rewrite run_app. unfold one_more.
    assert (R : run ctx (Have bare pf) (Arguments_of f n fr :: s) [TSym ","; TNum "1"] = Some (Have true true, Arguments_of f (S n) fr :: s)).
    { cbn [run read_token]. change (Ascii.eqb "," "!" && pf)%bool with false. change (is_operator ",") with false.
      change (multiplies bare (TSym ",")) with false. cbv iota. cbn [read_close run read_token read_operand].
      destruct one_value as [v ->]. reflexivity. }
    rewrite R, E. do 4 f_equal. lia.
Qed.

Lemma close_run : forall ctx bare pf f n fr s m, fn_nb_args f = Some m -> S n = m ->
  run ctx (Have bare pf) (Arguments_of f n fr :: s) [TSym ")"] = Some (Have false true, s).
Proof.
  intros ctx bare pf f n fr s m Hm <-. cbn [run read_token]. change (Ascii.eqb ")" "!" && pf)%bool with false. change (is_operator ")") with false.
  change (multiplies bare (TSym ")")) with false. cbv iota. cbn [read_close]. now rewrite Hm, Nat.compare_refl.
Qed.

Lemma close_group_run : forall ctx bare pf first s,
  run ctx (Have bare pf) (Group first :: s) [TSym ")"] = Some (Have (first && bare) true, s).
Proof. reflexivity. Qed.

Lemma mark_facts : forall c, In c ["("; ")"; ","]%char -> separates c /\ a_blank c = false /\ a_digit c = false /\ Ascii.eqb c "." = false /\ a_letter c = false.
Proof. intros c [<-|[<-|[<-|[]]]]; repeat split. Qed.

Lemma mark_lexes : forall a pre c b r, In c ["("; ")"; ","]%char -> lexes a pre -> lexes b r ->
  lexes (a ++ [c]) (pre ++ [TSym c]) /\ lexes ((a ++ [c]) ++ b) ((pre ++ [TSym c]) ++ r).
Proof.
  intros a pre c b r H Ha Hb. destruct (mark_facts c H) as [H0 [H1 [H2 [H3 H4]]]]. rewrite <- !app_assoc. cbn [app].
  split; apply lexes_glue; auto; apply L_sym; auto. constructor.
Qed.

Lemma edit : forall ctx text e advice text' n pre m s r, place e <= String.length text ->
  stuck ctx (firstn (place e) (list_ascii_of_string text)) (skipn (place e) (list_ascii_of_string text)) pre m s r (pe_kind e) ->
  follows text e advice text' n ->
  exists a' b' pre' r' m' s', list_ascii_of_string text' = a' ++ b' /\ List.length a' = n /\ 0 < n /\
    lexes a' pre' /\ lexes b' r' /\ lexes (a' ++ b') (pre' ++ r') /\ run ctx (Need true) [] pre' = Some (m', s') /\
    (List.length b' < String.length text - place e \/
     (b' = skipn (place e) (list_ascii_of_string text) /\ r' = r /\
       ((exists bare pf first, m' = Have bare pf /\ s = Group first :: s' /\ pe_kind e = ExpectedToken ")") \/
        (exists first, m' = Need first /\ pe_kind e = ExpectedToken "(") \/
        (exists bare pf, m' = Have bare pf /\ within_call s' = true /\ pe_kind e = MissingArgument /\ exists r0, r = TSym ")" :: r0)))).
Proof.
  intros ctx text e advice text' n pre m s r Hle [Ha [Hb [Hn [Hrun Hr]]]] Hf.
  set (a := firstn (place e) (list_ascii_of_string text)) in *. set (b := skipn (place e) (list_ascii_of_string text)) in *.
  assert (La : List.length a = place e) by (unfold a; rewrite firstn_length, list_ascii_length; lia).
  assert (Lb : List.length b = String.length text - place e) by (unfold b; rewrite skipn_length, list_ascii_length; lia).
  assert (Eb : list_ascii_of_string (before (place e) text) = a) by apply prefix_bytes.
  assert (Ef : list_ascii_of_string (onward (place e) text) = b) by apply suffix_bytes.
  pose proof (refused ctx m s r _ Hr) as Hk.
  assert (Rem : r <> [] -> exists r', list_ascii_of_string (before (place e) text ++ " " ++ onward (place e + 1) text) = (a ++ [" "%char]) ++ tl b /\
     List.length (a ++ [" "%char]) = place e + 1 /\ lexes (a ++ [" "%char]) pre /\ lexes (tl b) r' /\ lexes ((a ++ [" "%char]) ++ tl b) (pre ++ r') /\
     List.length (tl b) < String.length text - place e).
  { intro Hne. destruct (lexes_total (tl b)) as [r' Hr']. exists r'. rewrite !bytes_app, Eb, suffix_bytes.
    assert (Et : skipn (place e + 1) (list_ascii_of_string text) = tl b).
    { unfold b. generalize (list_ascii_of_string text) as l. generalize (place e) as k. induction k as [|k IH]; intros [|x l]; cbn; auto. }
    rewrite Et, app_length, La. split; [now rewrite <- app_assoc|]. split; [reflexivity|].
    split; [rewrite <- (app_nil_r pre); apply lexes_join; [exact Ha|constructor]|]. split; [exact Hr'|].
    split; [rewrite <- app_assoc; apply lexes_join; auto|]. rewrite <- Lb. destruct b as [|x b']; [|cbn; lia].
    elim Hne. now apply lexes_nil. }
  inversion Hf as [c K|c K|c K|K G|x y K|x y kept removed K P Ek Hl]; subst advice text' n; rewrite K in Hk.
  - (* add a token *)
    rewrite bytes_app, Eb. cbn [list_ascii_of_string]. rewrite Ef.
    assert (Hc : In c ["("; ")"; ","]%char) by (destruct Hk as [[-> _]|[-> _]]; cbn; auto).
    destruct (mark_lexes a pre c b r Hc Ha Hb) as [L1 L2].
    destruct Hk as [[-> [f [fr ->]]]|[-> [bare [pf [first [s' [-> ->]]]]]]].
    + exists (a ++ ["("%char]), b, (pre ++ [TSym "("]), r, (Need true), (Arguments_of f 0 fr :: s).
      split; [now rewrite <- app_assoc|]. split; [rewrite app_length; cbn; lia|]. split; [lia|]. split; [exact L1|]. split; [exact Hb|]. split; [exact L2|].
      split; [rewrite run_app, Hrun; reflexivity|]. right. split; [reflexivity|]. split; [reflexivity|]. right. left. eauto.
    + exists (a ++ [")"%char]), b, (pre ++ [TSym ")"]), r, (Have (first && bare) true), s'.
      split; [now rewrite <- app_assoc|]. split; [rewrite app_length; cbn; lia|]. split; [lia|]. split; [exact L1|]. split; [exact Hb|]. split; [exact L2|].
      split; [rewrite run_app, Hrun; apply close_group_run|]. right. split; [reflexivity|]. split; [reflexivity|]. left. eauto 8.
  - destruct (Rem Hk) as [r' [E [L [A [B [C D]]]]]]. exists (a ++ [" "%char]), (tl b), pre, r', m, s. split; [exact E|]. split; [exact L|].
    split; [lia|]. auto 8.
  - destruct (Rem Hk) as [r' [E [L [A [B [C D]]]]]]. exists (a ++ [" "%char]), (tl b), pre, r', m, s. split; [exact E|]. split; [exact L|].
    split; [lia|]. auto 8.
  - (* an argument before the parenthesis *)
    assert (Eb0 : exists b0, b = ")"%char :: b0).
    { rewrite get_bytes in G. unfold b. clear - G. revert G. generalize (list_ascii_of_string text) as l. generalize (place e) as k.
      induction k as [|k IH]; intros [|x l] G; cbn in *; try discriminate G; [injection G as ->; eauto|]. eauto. }
    destruct Eb0 as [b0 E0]. destruct (mark_facts ")"%char ltac:(cbn; auto)) as [S0 [S1 [S2 [S3 S4]]]].
    assert (E1 : exists r0, r = TSym ")" :: r0).
    { destruct (lexes_total b0) as [r0 H0]. exists r0. eapply lexes_unique; [exact Hb|]. rewrite E0. now apply L_sym. }
    destruct E1 as [r0 E1]. destruct Hk as [_ Hk]. destruct (Hk r0 E1) as [[first ->] Hw].
    assert (L1 : lexes [" "%char; "1"%char] [TNum "1"]).
    { apply L_ws; [reflexivity|]. apply (L_num ["1"%char] []); [|constructor]. apply NT_plain; try (repeat constructor; fail); cbn; auto. }
    assert (L2 : lexes (a ++ [" "%char; "1"%char]) (pre ++ [TNum "1"])).
    { apply lexes_glue; auto. }
    exists (a ++ [" "%char; "1"%char]), b, (pre ++ [TNum "1"]), r, (Have first true), s.
    split; [rewrite !bytes_app, Eb, Ef; now rewrite <- app_assoc|]. split; [rewrite app_length, La; reflexivity|]. split; [lia|].
    split; [exact L2|]. split; [exact Hb|].
    split; [rewrite E0 in Hb |- *; apply lexes_glue; auto|].
    split.
    { rewrite run_app, Hrun. cbn [run read_token read_operand]. destruct one_value as [v ->]. reflexivity. }
    right. split; [reflexivity|]. split; [reflexivity|]. right. right. exists first, true. rewrite K. eauto.
  - (* the missing arguments *)
    destruct Hk as [bare [pf [f [k [fr [s' [r0 [-> [-> [-> [Ex [-> L]]]]]]]]]]]].
    destruct (lexes_first _ _ _ Hb Hn) as [b0 [E0 Hb0]].
    destruct (more_run ctx (x - S k) bare pf f k fr s') as [b1 [p1 R1]].
    pose proof (more_lexes (x - S k)) as M0.
    assert (M1 : lexes (a ++ list_ascii_of_string (more_arguments (x - S k))) (pre ++ more_tokens (x - S k))).
    { destruct (x - S k) as [|d] eqn:Ed; [lia|]. cbn [more_arguments] in *. rewrite bytes_app in *. cbn [list_ascii_of_string app] in *.
      apply lexes_glue; auto. repeat split. }
    destruct (mark_lexes _ _ ")"%char b0 r0 ltac:(cbn; auto) M1 Hb0) as [L1 L2].
    exists ((a ++ list_ascii_of_string (more_arguments (x - S k))) ++ [")"%char]), b0, ((pre ++ more_tokens (x - S k)) ++ [TSym ")"]), r0, (Have false true), s'.
    split; [rewrite !bytes_app, Eb, Ef, E0, <- !app_assoc; reflexivity|].
    split; [rewrite !app_length, La, more_length; cbn [List.length]; lia|]. split; [lia|]. split; [exact L1|]. split; [exact Hb0|]. split; [exact L2|].
    split; [rewrite !run_app, Hrun, R1; eapply close_run; [exact Ex|lia]|]. left. rewrite <- Lb, E0. cbn. lia.
  - (* the superfluous arguments *)
    destruct Hk as [bare [pf [f [k [fr [s' [r0 [-> [-> [-> [Ex [-> L]]]]]]]]]]]].
    destruct (lexes_first _ _ _ Hb Hn) as [b0 [E0 Hb0]]. destruct Hl as [Ho [rest ->]].
    assert (Ea : a = list_ascii_of_string kept ++ ","%char :: list_ascii_of_string rest) by (rewrite <- Eb, Ek, bytes_app; reflexivity).
    destruct (mark_facts ","%char ltac:(cbn; auto)) as [S0 [S1 [S2 [S3 S4]]]].
    rewrite Ea in Ha. destruct (lexes_mark _ _ _ _ S0 S1 S2 S3 S4 Ha) as [p [q [-> [Hp Hq]]]].
    rewrite run_app in Hrun. destruct (run ctx (Need true) [] p) as [[m0 s0]|] eqn:Rp; [|discriminate Hrun].
    cbn [run] in Hrun. destruct (read_token ctx m0 s0 (TSym ",") [TSym ","]) as [[m1 s1]|v] eqn:T; [|discriminate Hrun].
    apply token_effect in T. cbn [Ascii.eqb Bool.eqb] in T. destruct T as [bare0 [pf0 [g [j [fr0 [s00 [-> [-> [-> ->]]]]]]]]].
    assert (Ho' : outer_tokens 0 q = Some (0, S k - x - 1)).
    { cbn [outer Ascii.eqb Bool.eqb] in Ho. rewrite <- (string_of_list_ascii_of_string rest), (outer_lexes _ _ Hq) in Ho.
      destruct (outer_tokens 0 q) as [[d c]|]; [|discriminate Ho]. cbn [andb Ascii.eqb Nat.eqb Bool.eqb] in Ho. assert (Hd : d = 0 /\ S c = S k - x) by (split; congruence). destruct Hd as [-> Hd]. replace c with (S k - x - 1) by lia. reflexivity. }
    destruct (frame_counts ctx q _ [] g (S j) fr0 s00 _ _ _ _ Hrun Ho') as [l' [El Hl']].
    destruct l' as [|? l']; [|discriminate Hl']. cbn [app] in El. assert (Ej : k = S j + (S k - x - 1)) by congruence. assert (f = g) as <- by congruence. assert (s00 = s') as -> by congruence. clear El.
    destruct (mark_lexes _ _ ")"%char b0 r0 ltac:(cbn; auto) Hp Hb0) as [L1 L2].
    exists (list_ascii_of_string kept ++ [")"%char]), b0, (p ++ [TSym ")"]), r0, (Have false true), s'.
    split; [rewrite !bytes_app, Ef, E0, <- !app_assoc; reflexivity|].
    split; [rewrite app_length, list_ascii_length; reflexivity|]. split; [lia|]. split; [exact L1|]. split; [exact Hb0|]. split; [exact L2|].
    split; [rewrite run_app, Rp; eapply close_run; [exact Ex|lia]|]. left. rewrite <- Lb, E0. cbn. lia.
Qed.

Lemma follows_kind : forall text e advice text' n, follows text e advice text' n ->
  text <> ""%string \/ pe_kind e <> UnexpectedEndOfExpression.
Proof. intros text e advice text' n H. right. inversion H; congruence. Qed.

Lemma follows_declared : forall text e advice text' n, follows text e advice text' n -> forall v l, pe_kind e <> VariableNotDeclared v l.
Proof. intros text e advice text' n H v l. inversion H; congruence. Qed.

Lemma nonempty_length : forall text (a b : list ascii), list_ascii_of_string text = a ++ b -> 0 < List.length a -> text <> ""%string.
Proof. intros text a b E L ->. destruct a; [cbn in L; lia|discriminate E]. Qed.

(** what is known after one round *)
Lemma round_state : forall cfg w ctx text e advice text' n, specified cfg w ctx text -> parse cfg w ctx text = Parse_err e ->
  follows text e advice text' n ->
  place e <= String.length text /\
  exists pre m s r, stuck ctx (firstn (place e) (list_ascii_of_string text)) (skipn (place e) (list_ascii_of_string text)) pre m s r (pe_kind e).
Proof.
  intros cfg w ctx text e advice text' n Hc He Hf.
  assert (Hne : text <> ""%string).
  { intros ->. apply empty_kind in He. inversion Hf; congruence. }
  exact (stuck_at cfg w ctx text e Hc Hne He (follows_declared _ _ _ _ _ Hf)).
Qed.

(** ** C84: the advice helps *)
Theorem C84_advice_is_the_help : forall cfg w ctx text e advice text' n, specified cfg w ctx text ->
  parse cfg w ctx text = Parse_err e -> follows text e advice text' n -> help cfg e = Val advice.
Proof.
  intros cfg w ctx text e advice text' n Hc He Hf.
  destruct (round_state _ _ _ _ _ _ _ _ Hc He Hf) as [_ [pre [m [s [r [_ [_ [_ [_ Hr]]]]]]]]].
  apply refused in Hr. unfold help. inversion Hf as [c K|c K|c K|K G|x y K|x y kept removed K P Ek Hl]; subst advice; rewrite K in *; try reflexivity.
  - destruct Hr as [[-> _]|[-> _]]; reflexivity.
  - destruct Hr as [? [? [? [? [? [? [? [_ [_ [_ [_ [_ L]]]]]]]]]]]]. rewrite usize_sub_nat by lia. cbn. now rewrite plural_nat.
  - destruct Hr as [? [? [? [? [? [? [? [_ [_ [_ [_ [_ L]]]]]]]]]]]]. rewrite usize_sub_nat by lia. cbn. now rewrite plural_nat.
Qed.

Theorem C84_advice_helps : forall cfg w ctx text e advice text' n, specified cfg w ctx text -> specified cfg w ctx text' ->
  parse cfg w ctx text = Parse_err e -> follows text e advice text' n ->
  in_order_before n (parse cfg w ctx text').
Proof.
  intros cfg w ctx text e advice text' n Hc Hc' He Hf.
  destruct (round_state _ _ _ _ _ _ _ _ Hc He Hf) as [Hle [pre [m [s [r Hs]]]]].
  destruct (edit ctx _ _ _ _ _ _ _ _ _ Hle Hs Hf) as [a' [b' [pre' [r' [m' [s' [E [L [P [A [B [C [R _]]]]]]]]]]]]].
  rewrite <- L. eapply go_on; eauto. eapply nonempty_length; eauto. lia.
Qed.

(** The place the advice is about is the one the report marks. *)
Theorem C84_label_marks_the_place : forall cfg w ctx text e, text <> ""%string -> parse cfg w ctx text = Parse_err e ->
  source_code e = Some text /\
  exists o l, labels e = Some [mk_label (Some "here"%string) o l] /\ (o + l <= N.of_nat (String.length text))%N /\
    N.to_nat o <= place e /\
    place e <= N.to_nat (o + match pe_kind e with UnexpectedEndOfExpression => 1 | _ => l end)%N.
Proof.
  intros cfg w ctx text e Hne He. destruct (C03_error_spans_inside_source cfg w ctx text e He) as [Hs Hi].
  split; [unfold source_code; now rewrite Hs|]. exists (pe_offset e), (pe_length e). split; [reflexivity|].
  destruct Hi as [Hi|[Hi _]]; [|congruence]. split; [exact Hi|].
  pose proof (C45_errors_truthful cfg w ctx text e He) as [_ Ht]. pose proof (parse_err_inv _ _ _ _ _ He) as [_ Hk].
  unfold place, stopped_at. destruct (pe_kind e) eqn:K; try lia.
  - destruct Ht as [_ [o [l [n [name [f [-> [-> [Hl _]]]]]]]]]. lia.
  - destruct Ht as [_ [o [l [n [name [f [-> [-> [Hl _]]]]]]]]]. lia.
Qed.

(** ** C84: no going in circles *)
Section Circles.
  Variable cfg : config.
  Variable w : world.
  Variable ctx : context.
  Let R (y x : string) : Prop := advised cfg w ctx x y.
  Definition remaining (text : string) (e : parse_error) : nat := String.length text - place e.

  Section Level.
    Variable n : nat.
    Hypothesis IHn : forall text e, specified cfg w ctx text -> parse cfg w ctx text = Parse_err e -> remaining text e < n -> Acc R text.

    Lemma no_error_acc : forall text, (forall e, parse cfg w ctx text <> Parse_err e) -> Acc R text.
    Proof. intros text H. constructor. intros y [_ [_ [e [adv [k [He _]]]]]]. now elim (H e). Qed.

    (* the states an edit can lead to *)
    Definition here (text : string) (e : parse_error) (pre : list token) (m : mode) (s : list frame) (r : list token) : Prop :=
      specified cfg w ctx text /\ parse cfg w ctx text = Parse_err e /\ remaining text e <= n /\ place e <= String.length text /\
      stuck ctx (firstn (place e) (list_ascii_of_string text)) (skipn (place e) (list_ascii_of_string text)) pre m s r (pe_kind e).

    Lemma enter : forall text e adv y k, specified cfg w ctx text -> parse cfg w ctx text = Parse_err e -> remaining text e <= n -> follows text e adv y k ->
      exists pre m s r, here text e pre m s r.
    Proof.
      intros text e adv y k Hc He Hn Hf. destruct (round_state _ _ _ _ _ _ _ _ Hc He Hf) as [Hle [pre [m [s [r Hs]]]]].
      exists pre, m, s, r. unfold here. auto.
    Qed.

    (** after the edit: less remains, or the same tokens are refused from the new state *)
    Lemma after_edit : forall text e pre m s r adv y k, here text e pre m s r -> specified cfg w ctx y -> follows text e adv y k ->
      (forall e' pre' m' s', here y e' pre' m' s' r -> refusal ctx m' s' r = Some (pe_kind e') ->
        (exists bare pf first, m' = Have bare pf /\ s = Group first :: s' /\ pe_kind e = ExpectedToken ")") \/
        (exists first, m' = Need first /\ pe_kind e = ExpectedToken "(") \/
        (exists bare pf, m' = Have bare pf /\ within_call s' = true /\ pe_kind e = MissingArgument /\ exists r0, r = TSym ")" :: r0) ->
        Acc R y) -> Acc R y.
    Proof.
      intros text e pre m s r adv y k [Hc [He [Hn [Hle Hs]]]] Hcy Hf Hsame.
      destruct (edit ctx _ _ _ _ _ _ _ _ _ Hle Hs Hf) as [a' [b' [pre' [r' [m' [s' [E [L [P [A [B [C [Rn Q]]]]]]]]]]]]].
      assert (Hne : y <> ""%string) by (eapply nonempty_length; eauto; lia).
      destruct (parse cfg w ctx y) as [x|e'| |] eqn:Ey; try (apply no_error_acc; intros e0; rewrite Ey; discriminate).
      destruct (match pe_kind e' with VariableNotDeclared _ _ => true | _ => false end) eqn:Ku.
      { constructor. intros z [_ [_ [e0 [adv0 [k0 [He0 Hf0]]]]]]. rewrite Ey in He0. injection He0 as <-.
        exfalso. inversion Hf0 as [c0 K0|c0 K0|c0 K0|K0 G0|x0 y0 K0|x0 y0 kept0 removed0 K0 P0 Ek0 Hl0]; rewrite K0 in Ku; discriminate Ku. }
      assert (Hk : forall v l, pe_kind e' <> VariableNotDeclared v l) by (intros v l K; rewrite K in Ku; discriminate Ku).
      destruct (go_on cfg w ctx y a' b' pre' r' m' s' Hcy Hne E A B C Rn) as [_ G]. destruct (G e' Ey Hk) as [G1 G2].
      assert (Ly : String.length y = k + List.length b') by (rewrite <- list_ascii_length, E, app_length; lia).
      destruct Q as [Q|[-> [-> Q]]].
      - apply (IHn y e' Hcy Ey). unfold remaining in *. lia.
      - destruct Hs as [Ha [Hb [Hnb [Hrun Hr]]]].
        assert (Lb : List.length (skipn (place e) (list_ascii_of_string text)) = String.length text - place e) by (rewrite skipn_length, list_ascii_length; lia).
        destruct (Nat.eq_dec (place e') k) as [Ep|Np].
        + apply (Hsame e' pre' m' s'); auto; [|apply G2; auto; lia].
          split; [exact Hcy|]. split; [exact Ey|]. split; [unfold remaining in *; lia|]. split; [lia|].
          rewrite E, Ep, <- L, firstn_app, firstn_all, Nat.sub_diag, firstn_O, app_nil_r, skipn_app, skipn_all, Nat.sub_diag. cbn [app skipn].
          split; [exact A|]. split; [exact B|]. split; [exact Hnb|]. split; [exact Rn|]. apply G2; auto. lia.
        + destruct (stuck_at cfg w ctx y e' Hcy Hne Ey Hk) as [Ly' _]. apply (IHn y e' Hcy Ey). unfold remaining in *. lia.
    Qed.

    Lemma acc_low : forall text e, specified cfg w ctx text -> parse cfg w ctx text = Parse_err e -> remaining text e <= n ->
      pe_kind e <> MissingArgument -> (forall c, pe_kind e <> ExpectedToken c) -> Acc R text.
    Proof.
      intros text e Hc He Hn K1 K2. constructor. intros y [_ [Hcy [e0 [adv [k [He0 Hf]]]]]]. rewrite He in He0. injection He0 as <-.
      destruct (enter _ _ _ _ _ Hc He Hn Hf) as [pre [m [s [r H]]]].
      eapply after_edit; [exact H|exact Hcy|exact Hf|]. intros e' pre' m' s' _ _ [[? [? [? [_ [_ K]]]]]|[[? [_ K]]|[? [? [_ [_ [K _]]]]]]]; congruence.
    Qed.

    Lemma acc_missing : forall text e, specified cfg w ctx text -> parse cfg w ctx text = Parse_err e -> remaining text e <= n ->
      pe_kind e = MissingArgument -> Acc R text.
    Proof.
      intros text e Hc He Hn K. constructor. intros y [_ [Hcy [e0 [adv [k [He0 Hf]]]]]]. rewrite He in He0. injection He0 as <-.
      destruct (enter _ _ _ _ _ Hc He Hn Hf) as [pre [m [s [r H]]]].
      eapply after_edit; [exact H|exact Hcy|exact Hf|].
      intros e' pre' m' s' [A [B [C [D F]]]] Hr [[? [? [? [_ [_ K']]]]]|[[? [_ K']]|[bare [pf [-> [Hw [_ [r0 ->]]]]]]]]; try congruence.
      apply (acc_low y e' A B C).
      - intro K'. rewrite K' in Hr. apply refused in Hr. destruct Hr as [_ Hr]. destruct (Hr r0 eq_refl) as [[? X] _]. discriminate X.
      - intros c K'. rewrite K' in Hr. pose proof (refused _ _ _ _ _ Hr) as Hk.
        destruct Hk as [[-> [? [? X]]]|[-> [bare' [pf' [first [s'' [_ ->]]]]]]]; [discriminate X|]. discriminate Hr.
    Qed.

    Lemma acc_close : forall d text e pre m s r, here text e pre m s r -> List.length s = d -> pe_kind e = ExpectedToken ")" -> Acc R text.
    Proof.
      induction d as [d IHd] using lt_wf_ind. intros text e pre m s r H Hd K. constructor. intros y [_ [Hcy [e0 [adv [k [He0 Hf]]]]]].
      pose proof H as [Hc [He _]]. rewrite He in He0. injection He0 as <-.
      eapply after_edit; [exact H|exact Hcy|exact Hf|].
      intros e' pre' m' s' H' Hr [[bare [pf [first [-> [-> _]]]]]|[[? [_ K']]|[? [? [_ [_ [K' _]]]]]]]; try congruence.
      pose proof (refused _ _ _ _ _ Hr) as Hk. pose proof H' as [A [B [C _]]].
      destruct (pe_kind e') eqn:K'; try (apply (acc_low y e' A B C); [rewrite K'; discriminate|intros ?; rewrite K'; discriminate]).
      - destruct Hk as [[_ [? [? X]]]|[-> _]]; [discriminate X|]. apply (IHd (List.length s')) with (e := e') (pre := pre') (m := Have bare pf) (s := s') (r := r); auto. cbn in Hd. lia.
      - exact (acc_missing y e' A B C K').
    Qed.

    Lemma acc_level : forall text e, specified cfg w ctx text -> parse cfg w ctx text = Parse_err e -> remaining text e <= n -> Acc R text.
    Proof.
      assert (Rest : forall text e, specified cfg w ctx text -> parse cfg w ctx text = Parse_err e -> remaining text e <= n ->
        pe_kind e <> ExpectedToken "(" -> Acc R text).
      { intros text e Hc He Hn Ko. destruct (pe_kind e) eqn:K; try (apply (acc_low text e Hc He Hn); [rewrite K; discriminate|intros ?; rewrite K; discriminate]).
        - constructor. intros y Hy. pose proof Hy as [_ [Hcy [e0 [adv [k [He0 Hf]]]]]]. rewrite He in He0. injection He0 as <-.
          destruct (enter _ _ _ _ _ Hc He Hn Hf) as [pre [m [s [r H]]]].
          assert (Hk : pe_kind e = ExpectedToken ")").
          { pose proof H as [_ [_ [_ [_ [_ [_ [_ [_ Hr]]]]]]]]. apply refused in Hr. rewrite K in Hr. destruct Hr as [[-> _]|[-> _]]; [now elim Ko|exact K]. }
          destruct (acc_close (List.length s) text e pre m s r H eq_refl Hk) as [Ha]. exact (Ha y Hy).
        - exact (acc_missing text e Hc He Hn K). }
      intros text e Hc He Hn. destruct (match pe_kind e with ExpectedToken c => Ascii.eqb c "(" | _ => false end) eqn:Eo.
      2:{ eapply Rest; eauto. intro K. rewrite K in Eo. discriminate Eo. }
      constructor. intros y [_ [Hcy [e0 [adv [k [He0 Hf]]]]]]. rewrite He in He0. injection He0 as <-.
      destruct (enter _ _ _ _ _ Hc He Hn Hf) as [pre [m [s [r H]]]].
      eapply after_edit; [exact H|exact Hcy|exact Hf|].
      intros e' pre' m' s' [A [B [C _]]] Hr [[? [? [? [_ [_ K']]]]]|[[first [-> _]]|[? [? [_ [_ [K' _]]]]]]]; try (rewrite K' in Eo; discriminate Eo).
      eapply Rest; eauto. intro K'. rewrite K' in Hr. apply refused in Hr. destruct Hr as [[_ [? [? X]]]|[X _]]; discriminate X.
    Qed.
  End Level.

  Lemma advised_wf : forall text, Acc R text.
  Proof.
    assert (W : forall n text e, specified cfg w ctx text -> parse cfg w ctx text = Parse_err e -> remaining text e < n -> Acc R text).
    { induction n as [|n IH]; intros text e Hc He L; [lia|]. apply (acc_level n IH text e Hc He). lia. }
    intro text. constructor. intros y Hy. pose proof Hy as [Hc [_ [e [adv [k [He _]]]]]].
    destruct (W (S (remaining text e)) text e Hc He ltac:(lia)) as [H]. exact (H y Hy).
  Qed.
End Circles.

Theorem C84_no_circles : forall cfg w ctx (texts : nat -> string), ~ forall i, advised cfg w ctx (texts i) (texts (S i)).
Proof.
  intros cfg w ctx texts H. pose proof (advised_wf cfg w ctx (texts 0)) as A. remember (texts 0) as x eqn:Ex.
  assert (G : forall x, Acc (fun y x => advised cfg w ctx x y) x -> forall i, x = texts i -> False).
  { intros z Hz. induction Hz as [z _ IH]. intros i ->. apply (IH (texts (S i)) (H i) (S i) eq_refl). }
  exact (G x A 0 Ex).
Qed.

(** ** C84: where the advice leads *)
Theorem C84_advice_given : forall cfg w ctx text e, specified cfg w ctx text -> parse cfg w ctx text = Parse_err e ->
  no_advice text e \/ exists advice text' n, follows text e advice text' n.
Proof.
  intros cfg w ctx text e Hc He. destruct (pe_kind e) eqn:K; try (left; unfold no_advice; rewrite K; exact I);
    try (right; eexists _, _, _; econstructor; exact K).
  - destruct expected as [|m]; [left; unfold no_advice; now rewrite K|]. right.
    assert (Hne : text <> ""%string) by (intros ->; apply empty_kind in He; congruence).
    assert (Hk : forall v l, pe_kind e <> VariableNotDeclared v l) by (intros; congruence).
    destruct (stuck_at cfg w ctx text e Hc Hne He Hk) as [Hle [pre [md [s [r [Ha [Hb [Hn [Hrun Hr]]]]]]]]].
    apply refused in Hr. rewrite K in Hr. destruct Hr as [bare [pf [f [k [fr [s' [r' [-> [-> [-> [Ex [-> L]]]]]]]]]]]].
    destruct (last_commas ctx pre _ [] f k fr s' (S k - S m) Hrun ltac:(lia) ltac:(lia)) as [p [q [-> Ho]]].
    destruct (lexes_split _ _ Ha p _ eq_refl) as [x [y [Ea [Hx [Hy Hny]]]]]. destruct (lexes_first _ _ _ Hy Hny) as [y' [-> Hy']].
    eexists _, _, _. eapply (Remove_arguments text e (S m) (S k) (string_of_list_ascii x) (String "," (string_of_list_ascii y'))); [exact K|lia| |].
    + assert (Eq : forall a b, list_ascii_of_string a = list_ascii_of_string b -> a = b).
      { intros a b E. rewrite <- (string_of_list_ascii_of_string a), E. apply string_of_list_ascii_of_string. }
      apply Eq. unfold before. rewrite prefix_bytes, Ea, bytes_app. cbn [list_ascii_of_string]. now rewrite !list_ascii_of_string_of_list_ascii.
    + split; [|eauto]. change (String "," (string_of_list_ascii y')) with (string_of_list_ascii (","%char :: y')). rewrite (outer_lexes _ _ Hy). exact Ho.
  - destruct (String.get (place e) text) as [c|] eqn:G.
    + destruct (Ascii.eqb_spec c ")") as [->|N].
      * right. eexists _, _, _. now apply Add_argument.
      * left. unfold no_advice. rewrite K, G. congruence.
    + left. unfold no_advice. rewrite K, G. discriminate.
Qed.

Theorem C84_advice_leads_on : forall cfg w ctx text, optimize cfg = false -> text <> ""%string ->
  exists text', clos_refl_trans_1n _ (advised cfg w ctx) text text' /\
    match parse cfg w ctx text' with
    | Parse_ok _ => True
    | Parse_err e => no_advice text' e
    | _ => False
    end.
Proof.
  intros cfg w ctx text Ho. assert (Hs : forall t, specified cfg w ctx t) by (intro t; now left).
  induction (advised_wf cfg w ctx text) as [text _ IH]. intro Hne.
  destruct (lexes_total (list_ascii_of_string text)) as [ts Hts].
  pose proof (verdict_specified cfg w ctx text ts (Hs text) Hne Hts) as V.
  destruct (parse cfg w ctx text) as [x|e|p|] eqn:E.
  - exists text. split; [constructor|]. now rewrite E.
  - destruct (C84_advice_given cfg w ctx text e (Hs text) E) as [N|[adv [text' [n Hf]]]].
    + exists text. split; [constructor|]. now rewrite E.
    + assert (Ha : advised cfg w ctx text text') by (split; [apply Hs|split; [apply Hs|eauto 8]]).
      destruct (IH text' Ha) as [t [Ht Hp]].
      { destruct (round_state _ _ _ _ _ _ _ _ (Hs text) E Hf) as [Hle [pre [m [s [r Hst]]]]].
        destruct (edit ctx _ _ _ _ _ _ _ _ _ Hle Hst Hf) as [a' [b' [pre' [r' [m' [s' [Eb [L [P _]]]]]]]]]. eapply nonempty_length; eauto. lia. }
      exists t. split; [|exact Hp]. econstructor; eauto.
  - exfalso. destruct (verdict_of ctx ts).
    + destruct V as [[x V]|[_ [e' [v [l [V _]]]]]]; discriminate V.
    + destruct V as [e' [V _]]. discriminate V.
  - exfalso. destruct (verdict_of ctx ts).
    + destruct V as [[x V]|[_ [e' [v [l [V _]]]]]]; discriminate V.
    + destruct V as [e' [V _]]. discriminate V.
Qed.

Local Open Scope string_scope.
(** Three rounds: a character removed, an argument added, a parenthesis closed;
    and two of three arguments removed. *)
Example C84_example :
  let go := advised plain_config w0 ctx_default in
  go "(1 + hypot(2$)" "(1 + hypot(2 )" /\ go "(1 + hypot(2 )" "(1 + hypot(2 , 1)" /\
  go "(1 + hypot(2 , 1)" "(1 + hypot(2 , 1))" /\
  parses (parse plain_config w0 ctx_default "(1 + hypot(2 , 1))") = true /\
  go "abs(1, max(2, 3), 4)" "abs(1)" /\ parses (parse plain_config w0 ctx_default "abs(1)") = true /\
  go "max(1, )" "max(1,  1)" /\ parses (parse plain_config w0 ctx_default "max(1,  1)") = true.
Proof.
  assert (G : forall text text' e advice n, parse plain_config w0 ctx_default text = Parse_err e -> follows text e advice text' n ->
    advised plain_config w0 ctx_default text text').
  { intros text text' e advice n He Hf. split; [now left|]. split; [now left|]. eauto. }
  assert (E : forall text e advice t t' n, follows text e advice t n -> t = t' -> follows text e advice t' n) by (intros; now subst).
  cbv zeta. split; [|split; [|split; [|split; [vm_compute; reflexivity|split; [|split; [vm_compute; reflexivity|split; [|vm_compute; reflexivity]]]]]]].
  - eapply G; [vm_compute; reflexivity|]. eapply E; [apply (Remove_token _ _ "$"%char); reflexivity|reflexivity].
  - eapply G; [vm_compute; reflexivity|]. eapply E; [apply (Add_arguments _ _ 2 1); reflexivity|reflexivity].
  - eapply G; [vm_compute; reflexivity|]. eapply E; [apply (Add_token _ _ ")"%char); reflexivity|reflexivity].
  - eapply G; [vm_compute; reflexivity|]. eapply E.
    + apply (Remove_arguments _ _ 1 3 "abs(1" ", max(2, 3), 4"); [reflexivity|lia|reflexivity|]. split; [reflexivity|eexists; reflexivity].
    + reflexivity.
  - eapply G; [vm_compute; reflexivity|]. eapply E; [apply Add_argument; reflexivity|reflexivity].
Qed.

(** The advice of a missing argument does not help if the argument is not missing: the
    misfit is in a call inside.  And without a blank in its place, removing a character
    can cause an error before it. *)
Theorem C84_limits_refuted :
  (forall cfg, optimize cfg = false -> overflow_checks cfg = false -> pejmdas cfg = false ->
    let at_byte_10 text := exists e, parse cfg w0 ctx_default text = Parse_err e /\ pe_kind e = MissingArgument /\ place e = 10 /\
      help cfg e = Val "Either remove comma or add argument."%string in
    at_byte_10 "max(sin(1 2), 3)"%string /\
    at_byte_10 "max(sin(1 2) 3)"%string /\     (* the comma removed *)
    at_byte_10 "max(sin(1 1, 2), 3)"%string /\ (* an argument added *)
    at_byte_10 "max(sin(1 2), 1, 3)"%string) /\
  (exists e e', parse plain_config w0 ctx_default "1.2$.3" = Parse_err e /\ pe_kind e = UnexpectedToken "$"%char /\ place e = 3 /\
    parse plain_config w0 ctx_default "1.2.3" = Parse_err e' /\ place e' = 0).
Proof.
  split.
  - intros [a b c d] Ho Hv Hp. cbn in Ho, Hv, Hp. subst b d a.
    cbv zeta; repeat apply conj; (eexists; split; [destruct c; vm_compute; reflexivity|repeat split]).
  - eexists _, _. split; [vm_compute; reflexivity|]. split; [reflexivity|]. split; [reflexivity|]. split; [vm_compute; reflexivity|]. reflexivity.
Qed.

(** The default build, on a text it reads as the automaton does. *)
Example C84_default_example :
  advised default_config w0 ctx_default "2(x + max(1, )" "2(x + max(1,  1)" /\
  advised default_config w0 ctx_default "2(x + max(1,  1)" "2(x + max(1,  1))" /\
  parses (parse default_config w0 ctx_default "2(x + max(1,  1))") = true.
Proof.
  assert (S1 : forall text ts, context_functions_return w0 ctx_default -> tokens_of text ts -> clear_b ctx_default ts = true ->
    specified default_config w0 ctx_default text).
  { intros text ts Hc Hts Hcl. right. split; [exact Hc|]. exists ts. split; [exact Hts|]. now apply clear_check. }
  assert (Hc : context_functions_return w0 ctx_default) by apply default_context_returns.
  assert (A : specified default_config w0 ctx_default "2(x + max(1, )").
  { eapply (S1 _ [TNum "2"; TSym "("; TId "x"; TSym "+"; TId "max"; TSym "("; TNum "1"; TSym ","; TSym ")"] Hc); [apply tokens_check; vm_compute; reflexivity|vm_compute; reflexivity]. }
  assert (B : specified default_config w0 ctx_default "2(x + max(1,  1)").
  { eapply (S1 _ [TNum "2"; TSym "("; TId "x"; TSym "+"; TId "max"; TSym "("; TNum "1"; TSym ","; TNum "1"; TSym ")"] Hc); [apply tokens_check; vm_compute; reflexivity|vm_compute; reflexivity]. }
  assert (C : specified default_config w0 ctx_default "2(x + max(1,  1))").
  { eapply (S1 _ [TNum "2"; TSym "("; TId "x"; TSym "+"; TId "max"; TSym "("; TNum "1"; TSym ","; TNum "1"; TSym ")"; TSym ")"] Hc); [apply tokens_check; vm_compute; reflexivity|vm_compute; reflexivity]. }
  assert (E : forall text e advice t t' n, follows text e advice t n -> t = t' -> follows text e advice t' n) by (intros; now subst).
  split; [|split; [|vm_compute; reflexivity]].
  - split; [exact A|]. split; [exact B|]. eexists _, _, _. split; [vm_compute; reflexivity|]. eapply E; [apply Add_argument; reflexivity|reflexivity].
  - split; [exact B|]. split; [exact C|]. eexists _, _, _. split; [vm_compute; reflexivity|]. eapply E; [apply (Add_token _ _ ")"%char); reflexivity|reflexivity].
Qed.
