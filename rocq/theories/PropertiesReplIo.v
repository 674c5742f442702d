(** * C105: the REPL when reading or writing fails, and its exit status *)
From Coq Require Import ZArith NArith List String Ascii Bool Lia Permutation.
From Verif Require Import F64 Syntax Factorial Builtins Context Element Parser Xprs Display Repl ReplIo.
From Verif Require Import SpecUtf8 SpecRepl SpecReplIo ReplFacts SpecTokens LexExec TestWorld.
From Verif Require PropertiesRepl.
Import ListNotations.
Local Open Scope list_scope.

(** ** UTF-8 *)
Lemma byte_in_iff : forall c lo hi, byte_in c lo hi = true <-> within c lo hi.
Proof. intros c lo hi. unfold byte_in, within, code. rewrite andb_true_iff, !N.leb_le. reflexivity. Qed.
Lemma cont_iff : forall c, cont c = true <-> within c 128 191.
Proof. intro c. apply byte_in_iff. Qed.

Ltac bools := repeat rewrite ?andb_true_iff, ?orb_true_iff, ?byte_in_iff, ?cont_iff in *.

Lemma valid_utf8_sound : forall n l, List.length l <= n -> valid_utf8 l = true -> utf8 l.
Proof.
  induction n as [|n IH]; intros l Hn H.
  - destruct l; [constructor|cbn in Hn; lia].
  - destruct l as [|a l1]; [constructor|]. cbn [valid_utf8] in H. destruct (byte_in a 0 127) eqn:E1.
    { apply (utf8_cons [a] (code a)); [constructor; now apply byte_in_iff|]. apply IH; [cbn in Hn; lia|exact H]. }
    destruct l1 as [|b l2]; [discriminate|]. destruct (byte_in a 194 223 && cont b) eqn:E2.
    { bools. eapply (utf8_cons [a; b]); [apply U2; tauto|]. apply IH; [cbn in Hn; lia|exact H]. }
    destruct l2 as [|c l3]; [discriminate|].
    match type of H with (if ?t then _ else _) = true => destruct t eqn:E3 end.
    { bools. eapply (utf8_cons [a; b; c]); [apply U3; tauto|]. apply IH; [cbn in Hn; lia|exact H]. }
    destruct l3 as [|d l4]; [discriminate|].
    match type of H with (if ?t then _ else _) = true => destruct t eqn:E4 end; [|discriminate].
    bools. eapply (utf8_cons [a; b; c; d]); [apply U4; tauto|]. apply IH; [cbn in Hn; lia|exact H].
Qed.
Lemma byte_not : forall c lo hi lo' hi', within c lo' hi' -> (hi < lo' \/ hi' < lo)%N -> byte_in c lo hi = false.
Proof. intros c lo hi lo' hi' H D. destruct (byte_in c lo hi) eqn:E; [|reflexivity]. apply byte_in_iff in E. unfold within in *. lia. Qed.
Lemma valid_utf8_complete : forall l, utf8 l -> valid_utf8 l = true.
Proof.
  induction 1 as [|ch u rest Hc _ IH]; [reflexivity|].
  destruct Hc as [a Ha|a b Ha Hb|a b c Hab Hc|a b c d Hab Hc Hd]; cbn [app valid_utf8].
  - rewrite (proj2 (byte_in_iff _ _ _) Ha). exact IH.
  - rewrite (byte_not a 0 127 194 223 Ha) by lia. rewrite (proj2 (byte_in_iff _ _ _) Ha), (proj2 (cont_iff _) Hb). exact IH.
  - assert (A : within a 224 239) by (unfold within in *; lia).
    rewrite (byte_not a 0 127 _ _ A), (byte_not a 194 223 _ _ A) by lia. cbn [andb].
    match goal with |- (if ?t then _ else _) = true => assert (E : t = true); [|rewrite E; exact IH] end.
    bools. tauto.
  - assert (A : within a 240 244) by (unfold within in *; lia).
    rewrite (byte_not a 0 127 _ _ A), (byte_not a 194 223 _ _ A), (byte_not a 224 224 _ _ A), (byte_not a 225 236 _ _ A),
      (byte_not a 237 237 _ _ A), (byte_not a 238 239 _ _ A) by lia. cbn [andb orb].
    match goal with |- (if ?t then _ else _) = true => assert (E : t = true); [|rewrite E; exact IH] end.
    bools. tauto.
Qed.
(** A line is taken exactly if it is a text in UTF-8 as the Unicode standard has it. *)
Theorem C105_utf8 : forall line, valid_utf8 (list_ascii_of_string line) = true <-> is_str line.
Proof. intro line. split; [apply (valid_utf8_sound _ _ (le_n _))|apply valid_utf8_complete]. Qed.

(** ** Without failures: the program of Repl.v *)
Definition all_fine (lines : list string) : io := mk_io (map Bytes lines) [].
Definition standing (st : status) : unit * io + ending :=
  match st with
  | Running rest => inl (tt, all_fine rest)
  | Finished => inr Returned_ok
  | Not_a_number => inr (Panic_because Number_expected)
  | Panicked p => inr (Panic_because (Inside p))
  end.

Lemma andthen_go : forall A B (p : prog A) (k : A -> prog B) s ev a s', p s = (ev, inl (a, s')) ->
  andthen p k s = ((ev ++ fst (k a s'))%list, snd (k a s')).
Proof. intros A B p k s ev a s' H. unfold andthen. rewrite H. now destruct (k a s'). Qed.
Lemma andthen_end : forall A B (p : prog A) (k : A -> prog B) s ev e, p s = (ev, inr e) -> andthen p k s = (ev, inr e).
Proof. intros A B p k s ev e H. unfold andthen. now rewrite H. Qed.
Lemma op_fine : forall ev f lines, output_op ev f (all_fine lines) = (ev, inl (tt, all_fine lines)).
Proof. reflexivity. Qed.

Lemma read_fine : forall f lines, Forall is_str lines ->
  read_io f (all_fine lines) = ([], inl (fst (read_line lines), all_fine (snd (read_line lines)))) /\ Forall is_str (snd (read_line lines)).
Proof.
  intros f [|l lines] H; [now split|]. inversion H; subst. split; [|assumption]. unfold read_io, all_fine. cbn [inp map dev].
  now rewrite (proj2 (C105_utf8 l)).
Qed.
Lemma ask_fine : forall vars lines acc, Forall is_str lines ->
  match ask vars lines acc with
  | (ev, None) => ask_io vars acc (all_fine lines) = (map Ev ev, inr (Panic_because Number_expected))
  | (ev, Some (m, rest)) => ask_io vars acc (all_fine lines) = (map Ev ev, inl (m, all_fine rest)) /\ Forall is_str rest
  end.
Proof.
  induction vars as [|x vars IH]; intros lines acc H; cbn [ask ask_io]; [now split|].
  destruct (read_fine (fun e => Panic_because (Reading e)) lines H) as [R F].
  destruct (read_line lines) as [input rest]. cbn [fst snd] in *.
  unfold say, flush_ask, flush_main, read_ask, read_main.
  rewrite (andthen_go _ _ _ _ _ _ _ _ (op_fine _ _ _)), (andthen_go _ _ _ _ _ _ _ _ (op_fine _ _ _)), (andthen_go _ _ _ _ _ _ _ _ R).
  cbn [fst snd app]. destruct (f64_from_str (trim (list_ascii_of_string input))) as [v|]; [|reflexivity].
  specialize (IH rest (sinsert x v acc) F). destruct (ask vars rest (sinsert x v acc)) as [ev [[m rest']|]].
  - destruct IH as [E F']. rewrite E. now split.
  - rewrite IH. reflexivity.
Qed.
Lemma turn_fine : forall cfg w lines, Forall is_str lines ->
  match turn cfg w lines with
  | (ev, Running rest) => turn_io cfg w (all_fine lines) = (map Ev ev, inl (true, all_fine rest)) /\ Forall is_str rest
  | (ev, Finished) => exists l, turn_io cfg w (all_fine lines) = (map Ev [Prompt], inl (false, all_fine l)) /\ ev = [Prompt; Bye]
  | (ev, st) => exists e, standing st = inr e /\ turn_io cfg w (all_fine lines) = (map Ev ev, inr e)
  end.
Proof.
  intros cfg w lines H. unfold turn, turn_io. destruct (read_fine Returned_err lines H) as [R F].
  destruct (read_line lines) as [line rest]. cbn [fst snd] in *.
  unfold say, flush_ask, flush_main, read_ask, read_main.
  rewrite (andthen_go _ _ _ _ _ _ _ _ (op_fine _ _ _)), (andthen_go _ _ _ _ _ _ _ _ (op_fine _ _ _)), (andthen_go _ _ _ _ _ _ _ _ R).
  cbn [fst snd app]. destruct (String.eqb _ "exit"). { exists rest. now split. }
  destruct (parse cfg w ctx_default line) as [x|e|p|].
  - rewrite (andthen_go _ _ _ _ _ _ _ _ (op_fine _ _ _)), (andthen_go _ _ _ _ _ _ _ _ (op_fine _ _ _)), (andthen_go _ _ _ _ _ _ _ _ (op_fine _ _ _)).
    cbn [fst snd app].
    assert (A : match ask_variables w (vars x) rest with
      | (ev, None) => ask_variables_io w (vars x) (all_fine rest) = (map Ev ev, inr (Panic_because Number_expected))
      | (ev, Some (m, rest')) => ask_variables_io w (vars x) (all_fine rest) = (map Ev ev, inl (m, all_fine rest')) /\ Forall is_str rest'
      end).
    { unfold ask_variables, ask_variables_io, say. pose proof (ask_fine (hash_order w (vars x)) rest [] F) as A.
      destruct (ask (hash_order w (vars x)) rest []) as [ev [[m rest']|]]; destruct (vars x) as [|y ys]; auto.
      - destruct A as [A F']. split; [|exact F']. now rewrite (andthen_go _ _ _ _ _ _ _ _ (op_fine _ _ _)), A.
      - now rewrite (andthen_go _ _ _ _ _ _ _ _ (op_fine _ _ _)), A. }
    destruct (ask_variables w (vars x) rest) as [asked [[m rest']|]].
    + destruct A as [A F']. rewrite (andthen_go _ _ _ _ _ _ _ _ A). cbn [fst snd]. destruct (eval w x m) as [[v|er]|p].
      * rewrite (andthen_go _ _ _ _ _ _ _ _ (op_fine _ _ _)). cbn [fst snd app ret]. split; [|exact F'].
        cbn [map]. now rewrite map_app.
      * eexists. split; [reflexivity|]. cbn [fst snd stop map app]. now rewrite app_nil_r.
      * eexists. split; [reflexivity|]. cbn [fst snd stop map app]. now rewrite app_nil_r.
    + rewrite (andthen_end _ _ _ _ _ _ _ A). eexists. split; reflexivity.
  - split; [reflexivity|exact F].
  - eexists. split; reflexivity.
  - eexists. split; reflexivity.
Qed.
Theorem C105_no_failure : forall cfg w n lines, Forall is_str lines ->
  main_io cfg w n (all_fine lines) =
    (Welcome :: Feel_free :: map Ev (fst (rounds cfg w n lines)), standing (snd (rounds cfg w n lines))).
Proof.
  intros cfg w n lines H. unfold main_io, say. rewrite !(andthen_go _ _ _ _ _ _ _ _ (op_fine _ _ _)). cbn [fst snd app].
  assert (L : loop_io cfg w n (all_fine lines) = (map Ev (fst (rounds cfg w n lines)), standing (snd (rounds cfg w n lines)))).
  { revert lines H. induction n as [|n IH]; intros lines H; [reflexivity|]. cbn [loop_io rounds].
    pose proof (turn_fine cfg w lines H) as T. destruct (turn cfg w lines) as [ev [rest| | |p]].
    - destruct T as [T F]. rewrite (andthen_go _ _ _ _ _ _ _ _ T), (IH rest F). destruct (rounds cfg w n rest) as [ev' st]. cbn [fst snd].
      now rewrite map_app.
    - destruct T as [l [T ->]]. rewrite (andthen_go _ _ _ _ _ _ _ _ T). reflexivity.
    - destruct T as [e [S T]]. rewrite (andthen_end _ _ _ _ _ _ _ T). cbn [fst snd]. now rewrite S.
    - destruct T as [e [S T]]. rewrite (andthen_end _ _ _ _ _ _ _ T). cbn [fst snd]. now rewrite S. }
  now rewrite L.
Qed.

(** ** The program reads its input from the front *)
Definition consumes {A} (p : prog A) : Prop := forall s ev a s', p s = (ev, inl (a, s')) -> exists used, inp s = used ++ inp s'.
Lemma consumes_ret : forall A (a : A), consumes (ret a).
Proof. intros A a s ev b s' H. injection H as _ _ <-. now exists []. Qed.
Lemma consumes_stop : forall A e, consumes (@stop A e).
Proof. intros A e s ev b s' H. discriminate H. Qed.
Lemma consumes_op : forall ev f, consumes (output_op ev f).
Proof.
  intros ev f [i [|[] d]] ev' a s' H; unfold output_op in H; cbn [dev inp] in H; try discriminate; injection H as _ _ <-; now exists [].
Qed.
Lemma consumes_read : forall f, consumes (read_io f).
Proof.
  intros f [[|[l|] i] d] ev a s' H; unfold read_io in H; cbn [dev inp] in H; try discriminate.
  - injection H as _ _ <-. now exists [].
  - destruct (valid_utf8 _); [|discriminate]. injection H as _ _ <-. now exists [Bytes l].
Qed.
Lemma consumes_then : forall A B (p : prog A) (k : A -> prog B), consumes p -> (forall a, consumes (k a)) -> consumes (andthen p k).
Proof.
  intros A B p k Hp Hk s ev b s' H. unfold andthen in H. destruct (p s) as [ev1 [[a s1]|e]] eqn:E; [|discriminate].
  destruct (k a s1) as [ev2 r] eqn:E2. injection H as _ ->. destruct (Hp _ _ _ _ E) as [u ->]. destruct (Hk _ _ _ _ _ E2) as [v ->].
  exists (u ++ v). now rewrite app_assoc.
Qed.
Create HintDb io.
#[local] Hint Resolve consumes_ret consumes_stop consumes_op consumes_read consumes_then : io.

(** ** Writing fails *)
Definition out_rel {A} (d : list bool) (r r0 : A * io + ending) : Prop :=
  match r, r0 with
  | inl (a, s), inl (a0, s0) => a = a0 /\ s0 = mk_io (inp s) [] /\ incl (dev s) d
  | inr e, inr e0 => e = e0 /\ ~ cannot_write e
  | _, _ => False
  end.
Definition out_safe {A} (p : prog A) : Prop := forall i d,
  (fst (p (mk_io i d)) = fst (p (mk_io i [])) /\ out_rel d (snd (p (mk_io i d))) (snd (p (mk_io i [])))) \/
  (begins_with (fst (p (mk_io i d))) (fst (p (mk_io i []))) /\ In false d /\ exists e, snd (p (mk_io i d)) = inr e /\ cannot_write e).
Lemma out_ret : forall A (a : A), out_safe (ret a).
Proof. intros A a i d. left. cbn. repeat split. now intros b. Qed.
Lemma out_stop : forall A e, ~ cannot_write e -> out_safe (@stop A e).
Proof. intros A e H i d. left. cbn. auto. Qed.
Lemma out_op : forall ev f, cannot_write f -> out_safe (output_op ev f).
Proof.
  intros ev f H i [|[] d]; unfold output_op; cbn [dev inp fst snd].
  - left. cbn. repeat split. now intros b.
  - left. cbn. repeat split. intros b Hb. now right.
  - right. split; [now exists ev|]. split; [now left|]. now exists f.
Qed.
Lemma out_read : forall f, (forall e, e <> E_stdout -> ~ cannot_write (f e)) -> out_safe (read_io f).
Proof.
  intros f H [|[l|] i] d; unfold read_io; cbn [dev inp fst snd]; left.
  - cbn. repeat split. now intros b.
  - destruct (valid_utf8 _); cbn; [repeat split; now intros b|]. split; [reflexivity|]. split; [reflexivity|]. now apply H.
  - cbn. split; [reflexivity|]. split; [reflexivity|]. now apply H.
Qed.
Lemma out_then : forall A B (p : prog A) (k : A -> prog B), out_safe p -> (forall a, out_safe (k a)) -> out_safe (andthen p k).
Proof.
  intros A B p k Hp Hk i d. specialize (Hp i d). unfold andthen.
  destruct (p (mk_io i d)) as [ev r], (p (mk_io i [])) as [ev0 r0]. cbn [fst snd] in Hp.
  destruct Hp as [[<- R]|[[c P] [F [e [-> C]]]]].
  - destruct r as [[a s]|e], r0 as [[a0 s0]|e0]; cbn in R; try contradiction.
    + destruct R as [<- [-> I]]. destruct s as [i' d']. cbn [inp dev] in *. specialize (Hk a i' d').
      destruct (k a (mk_io i' d')) as [ev1 r1], (k a (mk_io i' [])) as [ev2 r2]. cbn [fst snd] in *.
      destruct Hk as [[-> R]|[[c ->] [F E]]].
      * left. split; [reflexivity|]. destruct r1 as [[b s1]|e1], r2 as [[b0 s2]|e2]; cbn in *; try contradiction; [|exact R].
        destruct R as [? [? R]]. repeat split; auto. intros x Hx. auto.
      * right. split; [exists c; now rewrite app_assoc|]. auto.
    + left. auto.
  - right. cbn [fst snd]. split; [|split; [exact F|now exists e]]. subst ev0. destruct r0 as [[a s]|e0]; [|now exists c].
    destruct (k a s) as [ev1 r1]. exists (c ++ ev1). cbn. now rewrite app_assoc.
Qed.

(** ** Reading fails *)
Definition in_rel {A} (bad more : list item) (r r2 : A * io + ending) : Prop :=
  match r, r2 with
  | inl (a, s), inl (a2, s2) => a = a2 /\ exists good, s = mk_io (good ++ bad) (dev s) /\ s2 = mk_io (good ++ more) (dev s)
  | inr e, inr e2 => e = e2
  | _, _ => False
  end.
Definition in_safe {A} (p : prog A) : Prop := forall good bad rest more d, unreadable bad ->
  let here := p (mk_io (good ++ bad :: rest) d) in let there := p (mk_io (good ++ more) d) in
  (fst here = fst there /\ in_rel (bad :: rest) more (snd here) (snd there)) \/
  (begins_with (fst here) (fst there) /\ (exists e, snd here = inr e /\ cannot_read e) /\
   forall a s, snd there = inl (a, s) -> more <> [] -> List.length (inp s) < List.length more).
Lemma in_ret : forall A (a : A), in_safe (ret a).
Proof. intros A a good bad rest more d U. left. cbn. repeat split. now exists good. Qed.
Lemma in_stop : forall A e, in_safe (@stop A e).
Proof. intros A e good bad rest more d U. left. now cbn. Qed.
Lemma in_op : forall ev f, in_safe (output_op ev f).
Proof.
  intros ev f good bad rest more [|[] d] U; left; unfold output_op; cbn [dev inp fst snd in_rel]; repeat split; now exists good.
Qed.
Lemma in_read : forall f, (forall e, cannot_read (f e)) -> in_safe (read_io f).
Proof.
  intros f H [|x good] bad rest more d U; unfold read_io; cbn [app inp dev].
  - right. split; [|split].
    + destruct bad as [l|]; [|eexists; reflexivity]. destruct (valid_utf8 _) eqn:V; [|eexists; reflexivity].
      apply C105_utf8 in V. contradiction.
    + destruct bad as [l|]; [|eexists; split; [reflexivity|apply H]]. destruct (valid_utf8 _) eqn:V; [|eexists; split; [reflexivity|apply H]].
      apply C105_utf8 in V. contradiction.
    + intros a s E N. destruct more as [|[l|] more]; [contradiction| |discriminate].
      destruct (valid_utf8 _); [|discriminate]. injection E as _ <-. cbn. lia.
  - left. destruct x as [l|]; [|now cbn]. destruct (valid_utf8 _); cbn; [|now split]. repeat split. now exists good.
Qed.
Lemma in_then : forall A B (p : prog A) (k : A -> prog B), in_safe p -> (forall a, in_safe (k a)) -> (forall a, consumes (k a)) ->
  in_safe (andthen p k).
Proof.
  intros A B p k Hp Hk Hc good bad rest more d U. cbv zeta. specialize (Hp good bad rest more d U). cbv zeta in Hp. unfold andthen.
  destruct (p (mk_io (good ++ bad :: rest) d)) as [ev r], (p (mk_io (good ++ more) d)) as [ev0 r0]. cbn [fst snd] in Hp.
  destruct Hp as [[<- R]|[[c P] [[e [-> C]] L]]].
  - destruct r as [[a s]|e], r0 as [[a0 s0]|e0]; cbn in R; try contradiction; [|subst e0; left; now split].
    destruct R as [<- [good' [-> ->]]]. cbn [dev] in *. specialize (Hk a good' bad rest more (dev s) U). cbv zeta in Hk.
    destruct (k a (mk_io (good' ++ bad :: rest) (dev s))) as [ev1 r1], (k a (mk_io (good' ++ more) (dev s))) as [ev2 r2]. cbn [fst snd] in *.
    destruct Hk as [[-> R]|[[c ->] E]]; [now left|]. right. split; [exists c; now rewrite app_assoc|exact E].
  - right. cbn [fst snd]. split; [|split; [now exists e|]].
    + subst ev0. destruct r0 as [[a s]|e0]; [|now exists c]. destruct (k a s) as [ev1 r1]. exists (c ++ ev1). cbn. now rewrite app_assoc.
    + intros b s' E N. destruct r0 as [[a s]|e0]; [|discriminate]. specialize (L a s eq_refl N).
      destruct (k a s) as [ev1 r1] eqn:Ek. cbn in E. subst r1. destruct (Hc _ _ _ _ _ Ek) as [u Hu]. rewrite Hu, app_length in L. lia.
Qed.
#[local] Hint Resolve out_ret out_stop out_op out_read out_then in_ret in_stop in_op in_read in_then : io.

Lemma not_cw_err : forall e, e <> E_stdout -> ~ cannot_write (Returned_err e).
Proof. intros e H C. inversion C. now apply H. Qed.
Lemma not_cw_reading : forall e, e <> E_stdout -> ~ cannot_write (Panic_because (Reading e)).
Proof. intros e H C. inversion C. Qed.
Lemma not_cw_number : ~ cannot_write (Panic_because Number_expected). Proof. intro C. inversion C. Qed.
Lemma not_cw_inside : forall p, ~ cannot_write (Panic_because (Inside p)). Proof. intros p C. inversion C. Qed.
Lemma not_cw_ok : ~ cannot_write Returned_ok. Proof. intro C. inversion C. Qed.
#[local] Hint Resolve not_cw_err not_cw_reading not_cw_number not_cw_inside not_cw_ok CW_at_the_prompt CW_printing CW_asking CR_expression CR_answer : io.

Definition orderly {A} (p : prog A) : Prop := consumes p /\ out_safe p /\ in_safe p.
Lemma orderly_then : forall A B (p : prog A) (k : A -> prog B), orderly p -> (forall a, orderly (k a)) -> orderly (andthen p k).
Proof.
  intros A B p k [P1 [P2 P3]] Hk. split; [|split].
  - apply consumes_then; [exact P1|intro a; apply Hk].
  - apply out_then; [exact P2|intro a; apply Hk].
  - apply in_then; [exact P3|intro a; apply Hk|intro a; apply Hk].
Qed.
Lemma orderly_ret : forall A (a : A), orderly (ret a). Proof. intros. repeat split; auto with io. Qed.
Lemma orderly_stop : forall A e, ~ cannot_write e -> orderly (@stop A e). Proof. intros. repeat split; auto with io. Qed.
Lemma orderly_say : forall e, orderly (say e). Proof. intros. repeat split; unfold say; auto with io. Qed.
Lemma orderly_flush_main : orderly flush_main. Proof. repeat split; unfold flush_main; auto with io. Qed.
Lemma orderly_flush_ask : orderly flush_ask. Proof. repeat split; unfold flush_ask; auto with io. Qed.
Lemma orderly_read_main : orderly read_main. Proof. repeat split; unfold read_main; auto with io. Qed.
Lemma orderly_read_ask : orderly read_ask. Proof. repeat split; unfold read_ask; auto with io. Qed.
#[local] Hint Resolve orderly_then orderly_ret orderly_stop orderly_say orderly_flush_main orderly_flush_ask orderly_read_main orderly_read_ask : io.

Lemma ask_orderly : forall vars acc, orderly (ask_io vars acc).
Proof.
  induction vars as [|x vars IH]; intro acc; cbn [ask_io]; auto with io.
  repeat (apply orderly_then; [auto with io|intro]). destruct (f64_from_str _); auto with io.
Qed.
Lemma turn_orderly : forall cfg w, orderly (turn_io cfg w).
Proof.
  intros cfg w. unfold turn_io. do 3 (apply orderly_then; [auto with io|intro]). destruct (String.eqb _ _); auto with io.
  destruct (parse cfg w ctx_default a1) as [x|e|p|]; [|auto with io ..].
  do 3 (apply orderly_then; [auto with io|intro]). apply orderly_then.
  - unfold ask_variables_io. destruct (vars x); [apply ask_orderly|]. apply orderly_then; auto with io. intro. apply ask_orderly.
  - intro m. destruct (eval w x m) as [[v|er]|p]; auto with io.
Qed.
Lemma loop_orderly : forall cfg w n, orderly (loop_io cfg w n).
Proof.
  intros cfg w. induction n as [|n IH]; cbn [loop_io]; auto with io. apply orderly_then; [apply turn_orderly|]. intros [].
  - exact IH.
  - apply orderly_then; auto with io.
Qed.
Lemma main_orderly : forall cfg w n, orderly (main_io cfg w n).
Proof.
  intros cfg w n. unfold main_io. do 2 (apply orderly_then; [auto with io|intro]). apply loop_orderly.
Qed.

(** ** Theorems *)
(** Writing fails: what has been printed is what would have been printed, up to
    the place where it broke off, and the program ended there; if it did not end
    for that reason, nothing differs. *)
Theorem C105_writing_fails : forall cfg w n i d,
  let real := main_io cfg w n (mk_io i d) in let ideal := main_io cfg w n (mk_io i []) in
  begins_with (fst real) (fst ideal) /\
  ((fst real = fst ideal /\ same_standing (snd real) (snd ideal) /\ forall e, snd real = inr e -> ~ cannot_write e) \/
   (In false d /\ exists e, snd real = inr e /\ cannot_write e)).
Proof.
  intros cfg w n i d. cbv zeta. destruct (main_orderly cfg w n) as [_ [H _]]. destruct (H i d) as [[E R]|[B [F X]]].
  - split; [rewrite E; exists []; now rewrite app_nil_r|]. left. split; [exact E|].
    destruct (snd (main_io cfg w n (mk_io i d))) as [[[] s]|e], (snd (main_io cfg w n (mk_io i []))) as [[[] s0]|e0]; cbn in *; try contradiction.
    + split; [exact I|discriminate].
    + destruct R as [-> C]. split; [reflexivity|]. intros e E1. now injection E1 as <-.
  - split; [exact B|]. right. auto.
Qed.

(** Reading fails: up to there everything is as with any other continuation of
    the input, and the program either ends without having come to that place or
    ends there. *)
Theorem C105_reading_fails : forall cfg w n good bad rest more d, unreadable bad ->
  let real := main_io cfg w n (mk_io (good ++ bad :: rest) d) in let other := main_io cfg w n (mk_io (good ++ more) d) in
  begins_with (fst real) (fst other) /\
  ((fst real = fst other /\ same_standing (snd real) (snd other)) \/ (exists e, snd real = inr e /\ cannot_read e)).
Proof.
  intros cfg w n good bad rest more d U. cbv zeta. destruct (main_orderly cfg w n) as [_ [_ H]].
  destruct (H good bad rest more d U) as [[E R]|[B [X _]]].
  - split; [rewrite E; exists []; now rewrite app_nil_r|]. left. split; [exact E|].
    destruct (snd (main_io cfg w n (mk_io (good ++ bad :: rest) d))) as [[[] s]|e], (snd (main_io cfg w n (mk_io (good ++ more) d))) as [[[] s0]|e0];
      cbn in *; try contradiction; auto.
  - split; [exact B|]. now right.
Qed.

(** ** How a session ends *)
(** pieces that print no farewell and end the program by a panic only *)
Definition quiet {A} (p : prog A) : Prop := forall s, ~ In (Ev Bye) (fst (p s)) /\ forall e, snd (p s) = inr e -> exit_status e = 101%N.
Lemma quiet_then : forall A B (p : prog A) (k : A -> prog B), quiet p -> (forall a, quiet (k a)) -> quiet (andthen p k).
Proof.
  intros A B p k Hp Hk s. unfold andthen. destruct (Hp s) as [P1 P2]. destruct (p s) as [ev [[a s1]|e]]; cbn [fst snd] in *.
  2:{ split; [exact P1|]. intros e' H. injection H as <-. now apply P2. }
  destruct (Hk a s1) as [K1 K2]. destruct (k a s1) as [ev2 r]. cbn [fst snd] in *. split; [|exact K2].
  intro H. apply in_app_or in H. tauto.
Qed.
Lemma quiet_ret : forall A (a : A), quiet (ret a). Proof. intros A a s. cbn. split; [tauto|discriminate]. Qed.
Lemma quiet_stop : forall A r, quiet (@stop A (Panic_because r)). Proof. intros A r s. cbn. split; [tauto|]. intros e H. now injection H as <-. Qed.
Lemma quiet_say : forall e, e <> Ev Bye -> quiet (say e).
Proof.
  intros e N [i [|[] d]]; unfold say, output_op; cbn; (split; [intuition congruence|]); intros x H; try discriminate. now injection H as <-.
Qed.
Lemma quiet_flush_ask : quiet flush_ask.
Proof. intros [i [|[] d]]; unfold flush_ask, output_op; cbn; (split; [tauto|]); intros x H; try discriminate. now injection H as <-. Qed.
Lemma quiet_read_ask : quiet read_ask.
Proof.
  intros [[|[l|] i] d]; unfold read_ask, read_io; cbn [inp dev]; try destruct (valid_utf8 _); cbn; (split; [tauto|]); intros x H; try discriminate; now injection H as <-.
Qed.
#[local] Hint Resolve quiet_then quiet_ret quiet_stop quiet_say quiet_flush_ask quiet_read_ask : io.
Lemma ask_quiet : forall vars acc, quiet (ask_io vars acc).
Proof.
  induction vars as [|x vars IH]; intro acc; cbn [ask_io]; auto with io.
  apply quiet_then; [apply quiet_say; discriminate|intro]. do 2 (apply quiet_then; [auto with io|intro]). destruct (f64_from_str _); auto with io.
Qed.

Definition after_reading (cfg : config) (w : world) (line : string) : prog bool :=
  if String.eqb (string_of_list_ascii (trim (list_ascii_of_string line))) "exit" then ret false
  else
    match parse cfg w ctx_default line with
    | Parse_ok ast =>
        andthen (say (Ev (Interpreted (display_xprs ast)))) (fun _ =>
        andthen (say (Ev (Tree ast))) (fun _ =>
        andthen (say (Ev (Variables (hash_order w (vars ast))))) (fun _ =>
        andthen (ask_variables_io w (vars ast)) (fun variables =>
        match eval w ast variables with
        | Val (Eval_ok v) => andthen (say (Ev (Evaluated v))) (fun _ => ret true)
        | Val (Eval_err _) => stop (Panic_because (Inside Unreachable))
        | Boom p => stop (Panic_because (Inside p))
        end))))
    | Parse_err e => andthen (say (Ev (Report e))) (fun _ => ret true)
    | Parse_panic p => stop (Panic_because (Inside p))
    | Parse_diverges => stop (Panic_because (Inside Unreachable))
    end.
Lemma turn_split : forall cfg w, turn_io cfg w = andthen (say (Ev Prompt)) (fun _ => andthen flush_main (fun _ => andthen read_main (after_reading cfg w))).
Proof. reflexivity. Qed.
Lemma after_quiet : forall cfg w line, quiet (after_reading cfg w line).
Proof.
  intros cfg w line. unfold after_reading. destruct (String.eqb _ _); auto with io.
  destruct (parse cfg w ctx_default line) as [x|e|p|]; auto with io;
    [|apply quiet_then; [apply quiet_say; discriminate|auto with io]].
  do 3 (apply quiet_then; [apply quiet_say; discriminate|intro]). apply quiet_then.
  - unfold ask_variables_io. destruct (vars x); [apply ask_quiet|]. apply quiet_then; [apply quiet_say; discriminate|]. intro. apply ask_quiet.
  - intro m. destruct (eval w x m) as [[v|er]|p]; auto with io. apply quiet_then; [apply quiet_say; discriminate|auto with io].
Qed.
(** [false] after a line that says exit only *)
Definition goes_on {A} (p : prog A) (P : A -> Prop) : Prop := forall s ev a s', p s = (ev, inl (a, s')) -> P a.
Lemma goes_then : forall A B (p : prog A) (k : A -> prog B) P, (forall a, goes_on (k a) P) -> goes_on (andthen p k) P.
Proof.
  intros A B p k P Hk s ev b s' H. unfold andthen in H. destruct (p s) as [ev1 [[a s1]|e]]; [|discriminate].
  destruct (k a s1) as [ev2 r] eqn:E2. injection H as _ ->. eapply Hk; eauto.
Qed.
Lemma after_false : forall cfg w line s ev s', after_reading cfg w line s = (ev, inl (false, s')) -> says_exit line /\ s' = s /\ ev = [].
Proof.
  intros cfg w line s ev s' H. unfold after_reading in H. destruct (String.eqb _ "exit") eqn:E.
  - apply exit_iff in E. injection H as <- <-. auto.
  - exfalso. assert (T : forall e, goes_on (andthen (say e) (fun _ => ret true)) (fun b => b = true)).
    { intro e. apply goes_then. intros _ t tev b t' Ht. now injection Ht as _ <- _. }
    destruct (parse cfg w ctx_default line) as [x|e|p|]; try discriminate H; [|discriminate (T _ _ _ _ _ H)].
    revert H. generalize (ask_variables_io w (vars x)). intros q H.
    assert (G : forall e1 e2 e3, goes_on (andthen (say e1) (fun _ => andthen (say e2) (fun _ => andthen (say e3) (fun _ => andthen q (fun variables =>
        match eval w x variables with
        | Val (Eval_ok v) => andthen (say (Ev (Evaluated v))) (fun _ => ret true)
        | Val (Eval_err _) => stop (Panic_because (Inside Unreachable))
        | Boom p => stop (Panic_because (Inside p))
        end))))) (fun b => b = true)).
    { intros. do 4 (apply goes_then; intro). destruct (eval w x a2) as [[v|er]|p]; [apply T| |]; intros t tev b t' Ht; discriminate Ht. }
    discriminate (G _ _ _ _ _ _ _ H).
Qed.

Lemma turn_shape : forall cfg w s ev r, turn_io cfg w s = (ev, r) ->
  ~ In (Ev Bye) ev /\
  (forall e, r = inr e -> exit_status e = 101%N \/ (ev = [Ev Prompt] /\ exists x, e = Returned_err x)) /\
  (forall s', r = inl (false, s') -> ev = [Ev Prompt] /\ exists line, In (Bytes line) (inp s) /\ says_exit line).
Proof.
  intros cfg w s ev r H. rewrite turn_split in H. unfold andthen at 1, say, output_op in H.
  assert (Read : forall i d ev r, andthen read_main (after_reading cfg w) (mk_io i d) = (ev, r) ->
    ~ In (Ev Bye) ev /\ (forall e, r = inr e -> exit_status e = 101%N \/ (ev = [] /\ exists x, e = Returned_err x)) /\
    (forall s', r = inl (false, s') -> ev = [] /\ exists line, In (Bytes line) i /\ says_exit line)).
  { clear. intros i d ev r H. unfold andthen, read_main, read_io in H. cbn [inp dev] in H. destruct i as [|[l|] i].
    - destruct (after_quiet cfg w ""%string (mk_io [] d)) as [Q1 Q2]. destruct (after_reading cfg w "" (mk_io [] d)) as [ev2 r2] eqn:E.
      injection H as <- <-. cbn [fst snd app] in *. split; [exact Q1|]. split; [auto|]. intros s' ->.
      destruct (after_false _ _ _ _ _ _ E) as [X _]. apply exit_iff in X. vm_compute in X. discriminate X.
    - destruct (valid_utf8 _).
      + destruct (after_quiet cfg w l (mk_io i d)) as [Q1 Q2]. destruct (after_reading cfg w l (mk_io i d)) as [ev2 r2] eqn:E.
        injection H as <- <-. cbn [fst snd app] in *. split; [exact Q1|]. split; [auto|]. intros s' ->.
        destruct (after_false _ _ _ _ _ _ E) as [X [_ Y]]. split; [exact Y|]. exists l. split; [now left|exact X].
      + injection H as <- <-. split; [tauto|]. split; [|discriminate]. intros e E. injection E as <-. right. split; eauto.
    - injection H as <- <-. split; [tauto|]. split; [|discriminate]. intros e E. injection E as <-. right. split; eauto. }
  assert (Flush : forall d ev r, andthen flush_main (fun _ => andthen read_main (after_reading cfg w)) (mk_io (inp s) d) = (ev, r) ->
    ~ In (Ev Bye) ev /\ (forall e, r = inr e -> exit_status e = 101%N \/ (ev = [] /\ exists x, e = Returned_err x)) /\
    (forall s', r = inl (false, s') -> ev = [] /\ exists line, In (Bytes line) (inp s) /\ says_exit line)).
  { clear - Read. intros d ev r H. unfold andthen at 1, flush_main, output_op in H. cbn [inp dev] in H. destruct d as [|[] d].
    - destruct (andthen read_main (after_reading cfg w) (mk_io (inp s) [])) as [ev2 r2] eqn:E. injection H as <- <-. cbn [app]. eapply Read; eauto.
    - destruct (andthen read_main (after_reading cfg w) (mk_io (inp s) d)) as [ev2 r2] eqn:E. injection H as <- <-. cbn [app]. eapply Read; eauto.
    - injection H as <- <-. split; [tauto|]. split; [|discriminate]. intros e E. injection E as <-. right. split; eauto. }
  assert (Put : forall ev2 r2, 
    ~ In (Ev Bye) ev2 /\ (forall e, r2 = inr e -> exit_status e = 101%N \/ (ev2 = [] /\ exists x, e = Returned_err x)) /\
    (forall s', r2 = inl (false, s') -> ev2 = [] /\ exists line, In (Bytes line) (inp s) /\ says_exit line) ->
    ([Ev Prompt] ++ ev2, r2) = (ev, r) ->
    ~ In (Ev Bye) ev /\ (forall e, r = inr e -> exit_status e = 101%N \/ (ev = [Ev Prompt] /\ exists x, e = Returned_err x)) /\
    (forall s', r = inl (false, s') -> ev = [Ev Prompt] /\ exists line, In (Bytes line) (inp s) /\ says_exit line)).
  { clear. intros ev2 r2 [A [B C]] E. injection E as <- <-. split; [cbn; intuition congruence|]. split.
    - intros e E. destruct (B e E) as [|[-> X]]; [now left|right; now split].
    - intros s' E. destruct (C s' E) as [-> X]. now split. }
  destruct s as [i d]. cbn [inp dev] in *. destruct d as [|[] d].
  - destruct (andthen flush_main _ (mk_io i [])) as [ev2 r2] eqn:E. apply (Put ev2 r2); [eapply Flush; eauto|exact H].
  - destruct (andthen flush_main _ (mk_io i d)) as [ev2 r2] eqn:E. apply (Put ev2 r2); [eapply Flush; eauto|exact H].
  - injection H as <- <-. split; [tauto|]. split; [|discriminate]. intros e E. injection E as <-. now left.
Qed.

Lemma loop_shape : forall cfg w n s ev e, loop_io cfg w n s = (ev, inr e) ->
  (exit_status e = 0%N /\ (exists before, ev = before ++ [Ev Prompt; Ev Bye] /\ ~ In (Ev Bye) before) /\ exists line, In (Bytes line) (inp s) /\ says_exit line) \/
  (exit_status e = 1%N /\ last_is ev (Ev Prompt) /\ ~ In (Ev Bye) ev /\ exists x, e = Returned_err x) \/
  (exit_status e = 101%N /\ ~ In (Ev Bye) ev).
Proof.
  intros cfg w. induction n as [|n IH]; intros s ev e H; cbn [loop_io] in H; [discriminate|].
  unfold andthen at 1 in H. destruct (turn_io cfg w s) as [ev1 r1] eqn:E. pose proof (turn_shape _ _ _ _ _ E) as [T1 [T2 T3]].
  destruct r1 as [[[] s1]|e1].
  - destruct (loop_io cfg w n s1) as [ev2 r2] eqn:E2. injection H as <- ->.
    destruct (proj1 (turn_orderly cfg w) _ _ _ _ E) as [used Hu].
    destruct (IH _ _ _ E2) as [[A [[b [-> Nb]] [l [Il Xl]]]]|[[A [[b ->] [Nb X]]]|[A Nb]]].
    + left. split; [exact A|]. split.
      * exists (ev1 ++ b). split; [now rewrite app_assoc|]. intro K. apply in_app_or in K. tauto.
      * exists l. split; [rewrite Hu; apply in_or_app; now right|exact Xl].
    + right. left. split; [exact A|]. split; [exists (ev1 ++ b); now rewrite app_assoc|]. split; [|exact X].
      intro K. apply in_app_or in K. tauto.
    + right. right. split; [exact A|]. intro K. apply in_app_or in K. tauto.
  - destruct (T3 s1 eq_refl) as [-> X]. unfold andthen, say, output_op, stop in H. destruct (dev s1) as [|[] d].
    + injection H as <- <-. left. split; [reflexivity|]. split; [|exact X]. exists []. split; [reflexivity|tauto].
    + injection H as <- <-. left. split; [reflexivity|]. split; [|exact X]. exists []. split; [reflexivity|tauto].
    + injection H as <- <-. right. right. split; [reflexivity|]. cbn. intuition discriminate.
  - injection H as <- <-. destruct (T2 e1 eq_refl) as [A|[-> [x ->]]]; [right; right; now split|].
    right. left. split; [reflexivity|]. split; [now exists []|]. split; [cbn; intuition discriminate|now exists x].
Qed.

(** Status 0: "Bye!" was printed, last, after a line that says exit.  Status 1:
    it ended right behind a prompt because it could not write or read there.
    Otherwise 101.  "Bye!" is printed in no other case. *)
Theorem C105_exit_status : forall cfg w n s ev e, main_io cfg w n s = (ev, inr e) ->
  (exit_status e = 0%N /\ last_is ev (Ev Bye) /\ exists line, In (Bytes line) (inp s) /\ says_exit line) \/
  (exit_status e = 1%N /\ last_is ev (Ev Prompt) /\ ~ In (Ev Bye) ev /\ exists x, e = Returned_err x) \/
  (exit_status e = 101%N /\ ~ In (Ev Bye) ev).
Proof.
  intros cfg w n s ev e H. unfold main_io in H.
  assert (Two : forall d ev e, andthen (say Feel_free) (fun _ => loop_io cfg w n) (mk_io (inp s) d) = (ev, inr e) ->
    (exit_status e = 0%N /\ last_is ev (Ev Bye) /\ exists line, In (Bytes line) (inp s) /\ says_exit line) \/
    (exit_status e = 1%N /\ last_is ev (Ev Prompt) /\ ~ In (Ev Bye) ev /\ exists x, e = Returned_err x) \/
    (exit_status e = 101%N /\ ~ In (Ev Bye) ev)).
  { clear. intros d ev e H.
    assert (Loop : forall d ev2 e, loop_io cfg w n (mk_io (inp s) d) = (ev2, inr e) -> forall ev, ev = [Feel_free] ++ ev2 ->
      (exit_status e = 0%N /\ last_is ev (Ev Bye) /\ exists line, In (Bytes line) (inp s) /\ says_exit line) \/
      (exit_status e = 1%N /\ last_is ev (Ev Prompt) /\ ~ In (Ev Bye) ev /\ exists x, e = Returned_err x) \/
      (exit_status e = 101%N /\ ~ In (Ev Bye) ev)).
    { clear. intros d ev2 e H ev ->. destruct (loop_shape _ _ _ _ _ _ H) as [[A [[b [-> Nb]] X]]|[[A [[b ->] [Nb X]]]|[A Nb]]].
      - left. split; [exact A|]. split; [|exact X]. exists (Feel_free :: b ++ [Ev Prompt]). cbn. now rewrite <- app_assoc.
      - right. left. split; [exact A|]. split; [now exists (Feel_free :: b)|]. split; [|exact X]. cbn. intuition discriminate.
      - right. right. split; [exact A|]. cbn. intuition discriminate. }
    unfold andthen, say, output_op in H. cbn [dev inp] in H. destruct d as [|[] d].
    - destruct (loop_io cfg w n (mk_io (inp s) [])) as [ev2 r2] eqn:E. injection H as <- ->. eapply Loop; [exact E|reflexivity].
    - destruct (loop_io cfg w n (mk_io (inp s) d)) as [ev2 r2] eqn:E. injection H as <- ->. eapply Loop; [exact E|reflexivity].
    - injection H as <- <-. right. right. split; [reflexivity|cbn; tauto]. }
  assert (One : forall ev2 e, forall ev, ev = [Welcome] ++ ev2 ->
    (exit_status e = 0%N /\ last_is ev2 (Ev Bye) /\ exists line, In (Bytes line) (inp s) /\ says_exit line) \/
    (exit_status e = 1%N /\ last_is ev2 (Ev Prompt) /\ ~ In (Ev Bye) ev2 /\ exists x, e = Returned_err x) \/
    (exit_status e = 101%N /\ ~ In (Ev Bye) ev2) ->
    (exit_status e = 0%N /\ last_is ev (Ev Bye) /\ exists line, In (Bytes line) (inp s) /\ says_exit line) \/
    (exit_status e = 1%N /\ last_is ev (Ev Prompt) /\ ~ In (Ev Bye) ev /\ exists x, e = Returned_err x) \/
    (exit_status e = 101%N /\ ~ In (Ev Bye) ev)).
  { clear. intros ev2 e ev -> [[A [[b ->] X]]|[[A [[b ->] [Nb X]]]|[A Nb]]].
    - left. split; [exact A|]. split; [now exists (Welcome :: b)|exact X].
    - right. left. split; [exact A|]. split; [now exists (Welcome :: b)|]. split; [|exact X]. cbn. intuition discriminate.
    - right. right. split; [exact A|]. cbn. intuition discriminate. }
  unfold andthen at 1, say at 1, output_op in H. destruct s as [i d]. cbn [dev inp] in *. destruct d as [|[] d].
  - destruct (andthen (say Feel_free) (fun _ => loop_io cfg w n) (mk_io i [])) as [ev2 r2] eqn:E. injection H as <- ->.
    eapply One; [reflexivity|]. eapply Two; eauto.
  - destruct (andthen (say Feel_free) (fun _ => loop_io cfg w n) (mk_io i d)) as [ev2 r2] eqn:E. injection H as <- ->.
    eapply One; [reflexivity|]. eapply Two; eauto.
  - injection H as <- <-. right. right. split; [reflexivity|cbn; tauto].
Qed.

(** ** Where the unreadable line stands *)
Lemma read_bad : forall f bad rest d, unreadable bad -> read_io f (mk_io (bad :: rest) d) = ([], inr (f (trouble bad))).
Proof.
  intros f [l|] rest d U; unfold read_io; cbn [inp trouble]; [|reflexivity]. destruct (valid_utf8 _) eqn:E; [|reflexivity].
  exfalso. apply U. now apply C105_utf8.
Qed.
Lemma turn_reply : forall cfg w consumed events later bad rest, fair_order w ->
  PropertiesRepl.reply cfg w consumed events -> Forall is_str consumed -> Forall is_str later -> unreadable bad ->
  turn_io cfg w (mk_io (map Bytes (consumed ++ later) ++ bad :: rest) []) = (map Ev events, inl (true, mk_io (map Bytes later ++ bad :: rest) [])).
Proof.
  intros cfg w consumed events later bad rest Hf R F Fl U.
  pose proof (PropertiesRepl.C67_reply cfg w consumed events (later ++ ["x"%string]) Hf R) as T. rewrite app_assoc in T.
  assert (F' : Forall is_str ((consumed ++ later) ++ ["x"%string])).
  { apply Forall_app. split; [now apply Forall_app|]. constructor; [|constructor]. apply C105_utf8. reflexivity. }
  pose proof (turn_fine cfg w _ F') as G. rewrite T in G. destruct G as [G _]. unfold all_fine in G. rewrite (map_app _ (consumed ++ later)) in G.
  destruct (turn_orderly cfg w) as [_ [_ S]]. destruct (S (map Bytes (consumed ++ later)) bad rest (map Bytes ["x"%string]) [] U) as [[A B]|[_ [_ C]]].
  - rewrite G in A, B. cbn [fst snd] in A, B. destruct (turn_io cfg w (mk_io (map Bytes (consumed ++ later) ++ bad :: rest) [])) as [ev r]. cbn [fst snd] in *.
    subst ev. destruct r as [[b s]|e]; [|contradiction]. destruct B as [-> [good [B1 B2]]]. rewrite map_app in B2. cbn [map] in B2.
    injection B2 as B2 B3. apply app_inj_tail in B2. destruct B2 as [<- _]. rewrite B1, <- B3. reflexivity.
  - exfalso. rewrite G in C. specialize (C true _ eq_refl). cbn [inp] in C. assert (K : map Bytes ["x"%string] <> []) by discriminate. apply C in K.
    rewrite map_length, app_length in K. cbn in K. lia.
Qed.
Lemma prompt_bad : forall cfg w bad rest, unreadable bad -> turn_io cfg w (mk_io (bad :: rest) []) = ([Ev Prompt], inr (Returned_err (trouble bad))).
Proof.
  intros cfg w bad rest U. rewrite turn_split. unfold say, flush_main, read_main.
  rewrite (andthen_go _ _ (output_op [Ev Prompt] _) _ (mk_io (bad :: rest) []) [Ev Prompt] tt (mk_io (bad :: rest) []) eq_refl).
  rewrite (andthen_go _ _ (output_op [] _) _ (mk_io (bad :: rest) []) [] tt (mk_io (bad :: rest) []) eq_refl).
  now rewrite (andthen_end _ _ _ _ _ _ _ (read_bad Returned_err bad rest [] U)).
Qed.
Lemma main_loop : forall cfg w n i ev r, loop_io cfg w n (mk_io i []) = (ev, r) -> main_io cfg w n (mk_io i []) = (Welcome :: Feel_free :: ev, r).
Proof.
  intros cfg w n i ev r H. unfold main_io, say.
  rewrite (andthen_go _ _ (output_op [Welcome] _) _ (mk_io i []) [Welcome] tt (mk_io i []) eq_refl).
  rewrite (andthen_go _ _ (output_op [Feel_free] _) _ (mk_io i []) [Feel_free] tt (mk_io i []) eq_refl). now rewrite H.
Qed.
(** Exchanges first; then whatever one round does with the unreadable line. *)
Lemma loop_exchanges : forall cfg w exchanges later bad rest ev e, fair_order w ->
  Forall (fun ce => PropertiesRepl.reply cfg w (fst ce) (snd ce) /\ Forall is_str (fst ce)) exchanges -> Forall is_str later -> unreadable bad ->
  turn_io cfg w (mk_io (map Bytes later ++ bad :: rest) []) = (ev, inr e) ->
  loop_io cfg w (S (List.length exchanges)) (mk_io (map Bytes (List.concat (map fst exchanges) ++ later) ++ bad :: rest) []) =
    (map Ev (List.concat (map snd exchanges)) ++ ev, inr e).
Proof.
  intros cfg w exchanges later bad rest ev e Hf H Fl U T.
  assert (S1 : forall n, loop_io cfg w (S n) = andthen (turn_io cfg w) (fun again =>
        if again then loop_io cfg w n else andthen (say (Ev Bye)) (fun _ => stop Returned_ok))) by reflexivity.
  induction H as [|[c x] l [Hc Fc] Hl IH].
  - cbn [List.length map List.concat app]. rewrite S1. now rewrite (andthen_end _ _ _ _ _ _ _ T).
  - cbn [List.length map List.concat fst snd] in *. rewrite S1, <- (app_assoc c), (map_app Ev x), <- (app_assoc (map Ev x)).
    assert (F2 : Forall is_str (List.concat (map fst l) ++ later)).
    { apply Forall_app. split; [|exact Fl]. clear -Hl. induction Hl as [|[a b] l [_ A] _ IH]; [constructor|]. cbn. apply Forall_app. now split. }
    rewrite (andthen_go _ _ _ _ _ _ _ _ (turn_reply cfg w c x _ bad rest Hf Hc Fc F2 U)). rewrite IH. reflexivity.
Qed.

(** An unreadable line where an expression is expected: the exchanges before it
    are answered as always, and the program returns the error behind a prompt. *)
Theorem C105_unreadable_expression : forall cfg w exchanges bad rest, fair_order w ->
  Forall (fun ce => PropertiesRepl.reply cfg w (fst ce) (snd ce) /\ Forall is_str (fst ce)) exchanges -> unreadable bad ->
  main_io cfg w (S (List.length exchanges)) (mk_io (map Bytes (List.concat (map fst exchanges)) ++ bad :: rest) []) =
    (Welcome :: Feel_free :: map Ev (List.concat (map snd exchanges)) ++ [Ev Prompt], inr (Returned_err (trouble bad))).
Proof.
  intros cfg w exchanges bad rest Hf H U. apply main_loop.
  pose proof (loop_exchanges cfg w exchanges [] bad rest _ _ Hf H (Forall_nil _) U (prompt_bad cfg w bad rest U)) as L.
  now rewrite app_nil_r in L.
Qed.

Lemma ask_bad : forall answers vars acc bad rest, Forall (fun a => exists v, answers_with a v) answers -> Forall is_str answers ->
  List.length answers < List.length vars -> unreadable bad ->
  ask_io vars acc (mk_io (map Bytes answers ++ bad :: rest) []) =
    (map Ev (map Ask (firstn (S (List.length answers)) vars)), inr (Panic_because (Reading (trouble bad)))).
Proof.
  induction answers as [|a answers IH]; intros [|x vars] acc bad rest Ha Fa Hn U; cbn [List.length] in Hn; try lia; cbn [ask_io map app firstn List.length];
    unfold say, flush_ask, read_ask;
    match goal with |- context [mk_io ?i []] =>
      rewrite (andthen_go _ _ (output_op [Ev (Ask x)] _) _ (mk_io i []) [Ev (Ask x)] tt (mk_io i []) eq_refl);
      rewrite (andthen_go _ _ (output_op [] _) _ (mk_io i []) [] tt (mk_io i []) eq_refl) end.
  - rewrite (andthen_end _ _ _ _ _ _ _ (read_bad (fun e => Panic_because (Reading e)) bad rest [] U)). reflexivity.
  - inversion Ha as [|? ? [v Hv] Ha']; subst. inversion Fa as [|? ? Fa1 Fa']; subst.
    assert (R : read_io (fun e => Panic_because (Reading e)) (mk_io (Bytes a :: map Bytes answers ++ bad :: rest) []) =
      ([], inl (a, mk_io (map Bytes answers ++ bad :: rest) []))).
    { unfold read_io. cbn [inp dev]. now rewrite (proj2 (C105_utf8 a) Fa1). }
    rewrite (andthen_go _ _ _ _ _ _ _ _ R). rewrite (proj2 (answers_iff a v) Hv). rewrite (IH vars (sinsert x v acc) bad rest Ha' Fa' ltac:(lia) U). reflexivity.
Qed.

(** An unreadable line where a value is expected, [answers] already given: the
    expression is shown, one more variable is asked for, and the program panics. *)
Theorem C105_unreadable_answer : forall cfg w exchanges line x answers bad rest, fair_order w ->
  Forall (fun ce => PropertiesRepl.reply cfg w (fst ce) (snd ce) /\ Forall is_str (fst ce)) exchanges ->
  ~ says_exit line -> is_str line -> parse cfg w ctx_default line = Parse_ok x ->
  Forall (fun a => exists v, answers_with a v) answers -> Forall is_str answers -> List.length answers < List.length (vars x) -> unreadable bad ->
  main_io cfg w (S (List.length exchanges)) (mk_io (map Bytes (List.concat (map fst exchanges) ++ line :: answers) ++ bad :: rest) []) =
    (Welcome :: Feel_free :: map Ev (List.concat (map snd exchanges)) ++
       map Ev ([Prompt; Interpreted (display_xprs x); Tree x; Variables (hash_order w (vars x)); Please_enter] ++
               map Ask (firstn (S (List.length answers)) (hash_order w (vars x)))),
     inr (Panic_because (Reading (trouble bad)))).
Proof.
  intros cfg w exchanges line x answers bad rest Hf H Hx Fl Hp Ha Fa Hn U. apply main_loop. apply loop_exchanges; auto.
  rewrite turn_split. unfold say, flush_main, read_main. cbn [map app]. set (i := map Bytes answers ++ bad :: rest).
  rewrite (andthen_go _ _ (output_op [Ev Prompt] _) _ (mk_io (Bytes line :: i) []) [Ev Prompt] tt (mk_io (Bytes line :: i) []) eq_refl).
  rewrite (andthen_go _ _ (output_op [] _) _ (mk_io (Bytes line :: i) []) [] tt (mk_io (Bytes line :: i) []) eq_refl).
  assert (R : read_io Returned_err (mk_io (Bytes line :: i) []) = ([], inl (line, mk_io i []))).
  { unfold read_io. cbn [inp dev]. now rewrite (proj2 (C105_utf8 line) Fl). }
  rewrite (andthen_go _ _ _ _ _ _ _ _ R). unfold after_reading. rewrite (PropertiesRepl.not_exit _ Hx), Hp. unfold say.
  rewrite (andthen_go _ _ (output_op [Ev (Interpreted (display_xprs x))] _) _ (mk_io i []) _ tt (mk_io i []) eq_refl).
  rewrite (andthen_go _ _ (output_op [Ev (Tree x)] _) _ (mk_io i []) _ tt (mk_io i []) eq_refl).
  rewrite (andthen_go _ _ (output_op [Ev (Variables (hash_order w (vars x)))] _) _ (mk_io i []) _ tt (mk_io i []) eq_refl).
  assert (A : ask_variables_io w (vars x) (mk_io i []) =
    (Ev Please_enter :: map Ev (map Ask (firstn (S (List.length answers)) (hash_order w (vars x)))), inr (Panic_because (Reading (trouble bad))))).
  { unfold ask_variables_io, say.
    pose proof (ask_bad answers (hash_order w (vars x)) [] bad rest Ha Fa) as B. specialize (B ltac:(rewrite <- (Permutation_length (Hf (vars x))); exact Hn) U).
    destruct (vars x) as [|y ys]; [cbn in Hn; lia|].
    rewrite (andthen_go _ _ (output_op [Ev Please_enter] _) _ (mk_io i []) _ tt (mk_io i []) eq_refl). unfold i. rewrite B. reflexivity. }
  rewrite (andthen_end _ _ _ _ _ _ _ A). reflexivity.
Qed.

(** ** Which operation fails *)
Definition exact {A} (p : prog A) : Prop := forall i d,
  p (mk_io i d) =
    (let t := flat_map operations (fst (p (mk_io i []))) in
     (fst (perform t d), match snd (perform t d) with
                         | Some e => inr e
                         | None => match snd (p (mk_io i [])) with
                                   | inl (a, s) => inl (a, mk_io (inp s) (skipn (List.length t) d))
                                   | inr e => inr e
                                   end
                         end)) /\
  forall a s, snd (p (mk_io i [])) = inl (a, s) -> dev s = [].
Lemma perform_app : forall t u d, perform (t ++ u) d =
  match perform t d with
  | (ev, Some e) => (ev, Some e)
  | (ev, None) => let '(ev', f) := perform u (skipn (List.length t) d) in (ev ++ ev', f)
  end.
Proof.
  induction t as [|o t IH]; intros u d; cbn [app perform List.length skipn]. { destruct (perform u d); reflexivity. }
  assert (N : perform (t ++ u) [] = match perform t [] with
    | (ev, Some e) => (ev, Some e) | (ev, None) => let '(ev', f) := perform u [] in (ev ++ ev', f) end) by (rewrite IH; destruct (List.length t); reflexivity).
  destruct d as [|[] d]; [| |reflexivity].
  - cbn [tl]. rewrite N. destruct (perform t []) as [ev [e|]]; [reflexivity|]. destruct (perform u []) as [ev' f]. now rewrite app_assoc.
  - cbn [tl]. rewrite IH. destruct (perform t d) as [ev [e|]]; [reflexivity|]. destruct (perform u (skipn (List.length t) d)) as [ev' f]. now rewrite app_assoc.
Qed.
Lemma skipn_add : forall A n m (l : list A), skipn (n + m) l = skipn m (skipn n l).
Proof. induction n as [|n IH]; intros m l; [reflexivity|]. destruct l; [now rewrite !skipn_nil|]. apply IH. Qed.
Lemma exact_then : forall A B (p : prog A) (k : A -> prog B), exact p -> (forall a, exact (k a)) -> exact (andthen p k).
Proof.
  intros A B p k P K i d. destruct (P i d) as [P1 P2]. unfold andthen at 1. rewrite P1. clear P1.
  unfold andthen. destruct (p (mk_io i [])) as [ev0 r0] eqn:E0. cbn [fst snd] in *. destruct r0 as [[a [i1 d1]]|e].
  - pose proof (P2 _ _ eq_refl) as D. cbn in D. subst d1. cbn [inp].
    destruct (K a i1 (skipn (List.length (flat_map operations ev0)) d)) as [K1 K2]. destruct (k a (mk_io i1 [])) as [ev1 r1] eqn:E1. cbn [fst snd] in *.
    split; [|exact K2]. rewrite flat_map_app, perform_app. destruct (perform (flat_map operations ev0) d) as [x [e|]]; cbn [fst snd]; [reflexivity|].
    rewrite K1. cbv zeta. destruct (perform (flat_map operations ev1) _) as [y f]. cbn [fst snd]. rewrite app_length, skipn_add. reflexivity.
  - split; [|discriminate]. cbn [fst snd]. cbv zeta. destruct (perform (flat_map operations ev0) d) as [x [e'|]]; reflexivity.
Qed.
Lemma exact_ret : forall A (a : A), exact (ret a). Proof. intros A a i d. split; [reflexivity|]. intros b s H. now injection H as _ <-. Qed.
Lemma exact_stop : forall A e, exact (@stop A e). Proof. intros A e i d. split; [reflexivity|discriminate]. Qed.
Lemma exact_read : forall f, exact (read_io f).
Proof.
  intros f [|[l|] i] d; unfold read_io; cbn [inp dev]; try destruct (valid_utf8 _); (split; [reflexivity|]); intros b s H; try discriminate; now injection H as _ <-.
Qed.
Lemma exact_say : forall e, operations e = [Print e] -> exact (say e).
Proof.
  intros e H i d. unfold say, output_op. cbn [dev inp fst snd flat_map app]. rewrite H. split; [|intros a s X; now injection X as _ <-].
  destruct d as [|[] d]; reflexivity.
Qed.
Lemma exact_eq : forall A (p q : prog A), (forall s, p s = q s) -> exact p -> exact q.
Proof. intros A p q E P i d. rewrite <- !E. apply P. Qed.
Lemma assoc : forall A B C (p : prog A) (k : A -> prog B) (h : B -> prog C) s,
  andthen (andthen p k) h s = andthen p (fun a => andthen (k a) h) s.
Proof.
  intros A B C p k h s. unfold andthen. destruct (p s) as [ev [[a s1]|e]]; [|reflexivity]. destruct (k a s1) as [ev1 [[b s2]|e]]; [|reflexivity].
  destruct (h b s2) as [ev2 r]. now rewrite app_assoc.
Qed.
Lemma exact_prompt : forall B (k : unit -> prog B), (forall a, exact (k a)) -> exact (andthen (say (Ev Prompt)) (fun _ => andthen flush_main k)).
Proof.
  intros B k K. eapply exact_eq; [intro s; apply assoc|]. apply exact_then; [|exact K]. intros i d. split.
  - destruct d as [|[] [|[] d]]; reflexivity.
  - intros a s X. now injection X as _ <-.
Qed.
Lemma exact_question : forall B x (k : unit -> prog B), (forall a, exact (k a)) -> exact (andthen (say (Ev (Ask x))) (fun _ => andthen flush_ask k)).
Proof.
  intros B x k K. eapply exact_eq; [intro s; apply assoc|]. apply exact_then; [|exact K]. intros i d. split.
  - destruct d as [|[] [|[] d]]; reflexivity.
  - intros a s X. now injection X as _ <-.
Qed.
#[local] Hint Resolve exact_then exact_ret exact_stop exact_read exact_say : io.
Lemma ask_exact : forall vars acc, exact (ask_io vars acc).
Proof.
  induction vars as [|x vars IH]; intro acc; cbn [ask_io]; auto with io. apply exact_question. intros _.
  apply exact_then; [apply exact_read|]. intro input. destruct (f64_from_str _); auto with io.
Qed.
Lemma turn_exact : forall cfg w, exact (turn_io cfg w).
Proof.
  intros cfg w. rewrite turn_split. apply exact_prompt. intros _. apply exact_then; [apply exact_read|]. intro line. unfold after_reading.
  destruct (String.eqb _ _); auto with io. destruct (parse cfg w ctx_default line) as [x|e|p|]; [|auto with io ..].
  do 3 (apply exact_then; [auto with io|intro]). apply exact_then.
  - unfold ask_variables_io. destruct (vars x); [apply ask_exact|]. apply exact_then; auto with io. intro. apply ask_exact.
  - intro m. destruct (eval w x m) as [[v|er]|p]; auto with io.
Qed.
Lemma main_exact : forall cfg w n, exact (main_io cfg w n).
Proof.
  intros cfg w n. unfold main_io. do 2 (apply exact_then; [auto with io|intro]). induction n as [|n IH]; cbn [loop_io]; auto with io.
  apply exact_then; [apply turn_exact|]. intros []; auto with io.
Qed.
(** Writing fails, exactly: the session does the operations of the session
    without failures, up to the first that fails, and ends as that one says. *)
Theorem C105_first_failure : forall cfg w n i d ev r ev' f,
  main_io cfg w n (mk_io i []) = (ev, r) -> perform (flat_map operations ev) d = (ev', f) ->
  fst (main_io cfg w n (mk_io i d)) = ev' /\
  match f with
  | Some e => snd (main_io cfg w n (mk_io i d)) = inr e
  | None => same_standing (snd (main_io cfg w n (mk_io i d))) r
  end.
Proof.
  intros cfg w n i d ev r ev' f H P. destruct (main_exact cfg w n i d) as [X _]. rewrite X, H. cbn [fst snd]. rewrite P. cbn [fst snd].
  split; [reflexivity|]. destruct f; [reflexivity|]. destruct r as [[[] s]|e]; reflexivity.
Qed.

(** With nothing but readable lines and an output that works, the status is 0 or 101. *)
Corollary C105_fine_status : forall cfg w n lines ev e, Forall is_str lines ->
  main_io cfg w n (all_fine lines) = (ev, inr e) -> exit_status e = 0%N \/ exit_status e = 101%N.
Proof.
  intros cfg w n lines ev e F H. rewrite (C105_no_failure cfg w n lines F) in H. injection H as _ H.
  destruct (snd (rounds cfg w n lines)); cbn in H; try discriminate; injection H as <-; auto.
Qed.

(** ** Witnesses *)
Definition bad_line : item := Bytes (String (ascii_of_N 195) (String (ascii_of_N 40) "")).   (* 0xC3 '(' *)
Definition surrogate : string := String (ascii_of_N 237) (String (ascii_of_N 160) (String (ascii_of_N 128) "")).
Example C105_witness :
  unreadable bad_line /\ unreadable Broken /\ ~ is_str surrogate /\
  (* "exit" at once: status 0 *)
  main_io default_config w0 5 (all_fine ["exit"%string]) = ([Welcome; Feel_free; Ev Prompt; Ev Bye], inr Returned_ok) /\
  (* an unreadable expression: status 1 *)
  main_io default_config w0 5 (mk_io [bad_line; Bytes "exit"] []) = ([Welcome; Feel_free; Ev Prompt], inr (Returned_err E_utf8)) /\
  (* an unreadable value: status 101 *)
  match main_io default_config w0 5 (mk_io [Bytes "x+1"; Broken; Bytes "exit"] []) with
  | ([Welcome; Feel_free; Ev Prompt; Ev (Interpreted _); Ev (Tree _); Ev (Variables _); Ev Please_enter; Ev (Ask _)],
     inr (Panic_because (Reading E_stdin))) => true
  | _ => false
  end = true /\
  (* the flush behind the prompt fails, and the first line cannot be printed *)
  main_io default_config w0 5 (mk_io [Bytes "exit"] [true; true; true; false]) = ([Welcome; Feel_free; Ev Prompt], inr (Returned_err E_stdout)) /\
  main_io default_config w0 5 (mk_io [Bytes "exit"] [false]) = ([], inr (Panic_because Printing)) /\
  perform (flat_map operations [Welcome; Feel_free; Ev Prompt; Ev Bye]) [true; true; true; false] =
    ([Welcome; Feel_free; Ev Prompt], Some (Returned_err E_stdout)).
Proof.
  split. { intro H. apply C105_utf8 in H. vm_compute in H. discriminate H. }
  split; [exact I|]. split. { intro H. apply C105_utf8 in H. vm_compute in H. discriminate H. }
  split; [reflexivity|]. split; [reflexivity|]. split; [vm_compute; reflexivity|]. repeat split; reflexivity.
Qed.
