(** * C80: threads that share a parser, expressions and functions *)
From Coq Require Import ZArith NArith List String Ascii Bool Lia.
From Verif Require Import F64 Syntax Factorial Builtins Context Element Parser Xprs TestWorld.
From Verif Require Import Stateful SpecStateful StatefulFacts PropertiesStateful Threads ThreadsFacts.
Import ListNotations.
Local Open Scope string_scope.

(** Whatever a thread does with the library is a conversation with the user
    functions, and only one. *)
Theorem C80_conversation : forall w c, exists t, works_as w c t /\ forall t', works_as w c t' -> same_talk t t'.
Proof.
  intros w c. destruct (c_client w c) as [t H]. exists t. split; [exact H|].
  intros t' H'. apply follow_unique. intros b h. rewrite H, H'. reflexivity.
Qed.

(** Functions without state: in every interleaving with any other threads, a
    thread that has finished has got what the library gives it when nothing else
    runs. *)
Theorem C80_without_state : forall w b cs ts h tr ts' i c rs,
  (forall h' id args, b h' id args = user_fn w id args) ->
  Forall2 (works_as w) cs ts -> interleaved b h ts tr ts' ->
  nth_error cs i = Some c -> nth_error ts' i = Some (Done rs) ->
  rs = plain_results w c.
Proof.
  intros w b cs ts h tr ts' i c rs Hb Hw Ht Hc Hr.
  destruct (Forall2_nth_error_l _ _ _ _ _ Hw i c Hc) as [t [Hi Hwt]].
  assert (E : follow b t h = (rs, (h ++ own i tr)%list)).
  { apply (interleaved_follow _ b b i h ts tr ts' Ht t rs h Hi Hr). intros. now rewrite !Hb. }
  rewrite Hwt in E. clear - Hb E. revert h rs E. generalize (own i tr) as ran.
  assert (P : forall op h, fst (perform w b op h) = plain_result w op).
  { intros op h. destruct op as [cfg ctx text|x vars|x vars|cfg x l]; unfold perform, plain_result.
    - rewrite <- (proj1 (C77_without_state cfg w b ctx text (mk_xprs (Number fzero) []) [] [] h Hb)). now destruct (parse_s cfg w b ctx text h).
    - destruct (C77_without_state debug_plain w b ctx_default "" x [] vars h Hb) as [_ [_ [E _]]]. rewrite <- E. now destruct (eval_s w b x vars h).
    - destruct (C77_without_state debug_plain w b ctx_default "" x [] vars h Hb) as [_ [_ [_ E]]]. rewrite <- E. now destruct (eval_unchecked_s w b x vars h).
    - destruct (C77_without_state cfg w b ctx_default "" x l [] h Hb) as [_ [E _]]. rewrite <- E. now destruct (simplify_for_multiple_s w b cfg x l h). }
  induction c as [|op next IH]; intros ran h rs E; cbn [alone plain_results] in *; [congruence|].
  specialize (P op h). destruct (perform w b op h) as [r h1]. cbn in P. subst r.
  destruct (alone w b (next (plain_result w op)) h1) as [rs' h2] eqn:E2. injection E as <- E.
  f_equal. assert (X : exists ran', h2 = (h1 ++ ran')%list).
  { destruct (c_client w (next (plain_result w op))) as [t H]. specialize (H b h1). rewrite E2 in H.
    destruct (follow_extends _ b t h1) as [ran' X]. rewrite H in X. eauto. }
  destruct X as [ran' ->]. eapply IH. exact E2.
Qed.

(** Functions with a state, in groups that share one state: if the groups a thread
    uses are used by no other thread (except for functions that keep no state), it
    gets the same results, and makes the same calls, as running alone. *)
Theorem C80_own_state : forall w b (group : nat -> nat) cs ts h tr ts' i c rs,
  (forall h1 h2 id args,
     filter (fun call => Nat.eqb (group (fst call)) (group id)) h1 = filter (fun call => Nat.eqb (group (fst call)) (group id)) h2 ->
     b h1 id args = b h2 id args) ->
  Forall2 (works_as w) cs ts -> interleaved b h ts tr ts' ->
  nth_error cs i = Some c -> nth_error ts' i = Some (Done rs) ->
  (forall id args j id' args', In (i, (id, args)) tr -> In (j, (id', args')) tr ->
     j = i \/ group id' <> group id \/ forall h1 h2 xs, b h1 id xs = b h2 id xs) ->
  alone w b c h = (rs, (h ++ own i tr)%list).
Proof.
  intros w b group cs ts h tr ts' i c rs Hg Hw Ht Hc Hr Hd.
  destruct (Forall2_nth_error_l _ _ _ _ _ Hw i c Hc) as [t [Hi Hwt]]. rewrite <- Hwt.
  apply (interleaved_follow _ b b i h ts tr ts' Ht t rs h Hi Hr). intros tr1 id args tr2 ->.
  assert (Hin : In (i, (id, args)) (tr1 ++ (i, (id, args)) :: tr2)%list) by (apply in_or_app; right; now left).
  assert (Hd' : forall j id' args', In (j, (id', args')) tr1 -> j = i \/ group id' <> group id \/ forall h1 h2 xs, b h1 id xs = b h2 id xs).
  { intros j id' args' H. apply (Hd id args j id' args' Hin). apply in_or_app. now left. }
  assert (K : (forall h1 h2 xs, b h1 id xs = b h2 id xs) \/
    filter (fun call => Nat.eqb (group (fst call)) (group id)) (map snd tr1) = filter (fun call => Nat.eqb (group (fst call)) (group id)) (own i tr1)).
  { clear - Hd'. induction tr1 as [|[j [id' args']] tr1 IH]; [now right|].
    destruct IH as [IH|IH]; [intros; eapply Hd'; right; eauto|now left|].
    rewrite own_cons. cbn [map snd filter fst]. destruct (Nat.eqb_spec i j) as [->|Hne].
    - right. cbn [filter fst]. now rewrite IH.
    - destruct (Hd' j id' args') as [->|[Hn|Hs]]; [now left|congruence| |now left].
      right. apply Nat.eqb_neq in Hn. rewrite Hn. exact IH. }
  destruct K as [K|K]; [apply K|]. apply Hg. rewrite !filter_app. now rewrite K.
Qed.

(** Any functions: what a thread gets and the calls it makes are those of a run
    alone in which the functions give the answers they have given (answers the
    functions do give, after other histories). *)
Theorem C80_as_alone : forall w b cs ts h tr ts' i c rs,
  Forall2 (works_as w) cs ts -> interleaved b h ts tr ts' ->
  nth_error cs i = Some c -> nth_error ts' i = Some (Done rs) ->
  exists b', alone w b' c h = (rs, (h ++ own i tr)%list) /\
    (forall h1, exists h2, forall id args, b' h1 id args = b h2 id args) /\
    forall tr1 id args tr2, tr = (tr1 ++ (i, (id, args)) :: tr2)%list ->
      b' (h ++ own i tr1)%list id args = b (h ++ map snd tr1)%list id args.
Proof.
  intros w b cs ts h tr ts' i c rs Hw Ht Hc Hr.
  destruct (Forall2_nth_error_l _ _ _ _ _ Hw i c Hc) as [t [Hi Hwt]].
  set (b' := fun h1 : history => b (h ++ map snd (before i tr (List.length h1 - List.length h)))%list).
  assert (Hb : forall tr1 id args tr2, tr = (tr1 ++ (i, (id, args)) :: tr2)%list ->
      b' (h ++ own i tr1)%list id args = b (h ++ map snd tr1)%list id args).
  { intros tr1 id args tr2 ->. unfold b'. rewrite app_length. replace (List.length h + List.length (own i tr1) - List.length h) with (List.length (own i tr1)) by lia.
    now rewrite before_own. }
  exists b'. repeat split.
  - rewrite <- Hwt. apply (interleaved_follow _ b b' i h ts tr ts' Ht t rs h Hi Hr). intros. symmetry. eapply Hb; eauto.
  - intro h1. eexists. reflexivity.
  - exact Hb.
Qed.

(** So a thread that has evaluated an expression to a number has made exactly the
    calls written in it, in their order, whatever the other threads did in
    between. *)
Theorem C80_calls_in_order : forall w b cs ts h tr ts' i x vars v,
  Forall2 (works_as w) cs ts -> interleaved b h ts tr ts' ->
  nth_error cs i = Some (Do (Op_eval x vars) (fun _ => Finish)) ->
  nth_error ts' i = Some (Done [Got_value (Val (Eval_ok v))]) ->
  who (own i tr) = calls_of (root x).
Proof.
  intros w b cs ts h tr ts' i x vars v Hw Ht Hc Hr.
  destruct (C80_as_alone _ _ _ _ _ _ _ _ _ _ Hw Ht Hc Hr) as [b' [E _]].
  cbn [alone perform] in E. destruct (eval_s w b' x vars h) as [r h1] eqn:Ee. injection E as -> ->.
  apply C77_calls_in_order in Ee. destruct Ee as [ran [Ea Ew]]. apply app_inv_head in Ea. now rewrite Ea.
Qed.

(** No thread ever waits for another: one that has not finished can make its next
    call in every state. *)
Theorem C80_no_waiting : forall R b h (ts : list (talk R)) i t, nth_error ts i = Some t ->
  (exists r, t = Done r) \/ exists call t', interleaved b h ts [(i, call)] (replace i t' ts).
Proof.
  intros R b h ts i [r|id args k] H; [left; eauto|right]. exists (id, args), (k (b h id args)).
  econstructor; [exact H|constructor].
Qed.

(** No interleaving goes on for ever, and each can be carried on until all threads
    have finished. *)
Theorem C80_ends : forall w b cs ts h, Forall2 (works_as w) cs ts ->
  (forall s : nat -> history * list (talk (list result)), s 0 = (h, ts) ->
     ~ forall n, exists call, interleaved b (fst (s n)) (snd (s n)) [call] (snd (s (S n))) /\
                              fst (s (S n)) = (fst (s n) ++ [snd call])%list) /\
  forall tr ts1, interleaved b h ts tr ts1 ->
    exists tr' ts2, interleaved b h ts (tr ++ tr')%list ts2 /\ forall t, In t ts2 -> exists rs, t = Done rs.
Proof.
  intros w b cs ts h _. split.
  - intros s _ H. assert (G : forall n, goes_on (snd (s (S n))) (snd (s n))).
    { intro n. destruct (H n) as [call [Hi _]]. inversion Hi as [|h' ts' i id args k tr ts'' Hn Hi' Ea Eb Ec Ed]; subst.
      inversion Hi'; subst. unfold goes_on. exists i, id, args, k, (b (fst (s n)) id args). auto. }
    assert (K : forall l, Acc goes_on l -> forall n, snd (s n) <> l).
    { intros l Hl. induction Hl as [l _ IH]. intros n E. subst l. exact (IH _ (G n) (S n) eq_refl). }
    exact (K _ (goes_on_wf _ (snd (s 0))) 0 eq_refl).
  - intros tr ts1 Ht. destruct (run_to_end _ b ts1 (h ++ map snd tr)%list) as (tr' & ts2 & Ht' & Hf).
    exists tr', ts2. split; [eapply interleaved_app; eauto|]. intros t Hin. rewrite forallb_forall in Hf.
    specialize (Hf t Hin). destruct t; [eauto|discriminate Hf].
Qed.

(** ** Two threads *)
(** the expression f(n) - f(m) *)
Definition difference (f : function) (n m : f64) : element := BinOp Minus (Call f [Number n]) (Call f [Number m]).
Definition evaluating (f : function) (n m : f64) : client := Do (Op_eval (mk_xprs (difference f n m) []) []) (fun _ => Finish).
Definition asking (id : nat) (n m : f64) : talk (list result) :=
  Ask id [n] (fun a => match a with
    | None => Done [Got_value (Boom UserPanic)]
    | Some v => Ask id [m] (fun a => match a with
        | None => Done [Got_value (Boom UserPanic)]
        | Some u => Done [Got_value (Val (Eval_ok (fsub v u)))]
        end)
    end).
Lemma evaluating_asking : forall w id name n m, works_as w (evaluating (mk_function name (Dyn_user id) (Some 1)) n m) (asking id n m).
Proof.
  intros w id name n m b h.
  unfold asking, evaluating, difference. cbn [follow alone perform]. unfold eval_s. cbn [root eval_element_s map_eval_s].
  unfold ebind_s, abind, aret, alift, call_function_s. cbn [fn_ptr].
  destruct (b h id [n]) as [v|]; cbn [follow]; [|reflexivity].
  destruct (b (h ++ [(id, [n])])%list id [m]) as [u|]; cbn [follow]; reflexivity.
Qed.

(** functions that answer how often they themselves were called before *)
Definition own_counter : behaviour := fun h id _ =>
  Some (f64_of_Z (Z.of_nat (List.length (filter (fun call => Nat.eqb (fst call) id) h)))).

(** The hypotheses of [C80_own_state] are met: one thread uses [f], the other [g],
    each having its own state; their calls alternate, and both get 0 - 1. *)
Example C80_witness : exists ts tr ts',
  Forall2 (works_as w0) [evaluating f_fn (lit "1") (lit "2"); evaluating g_fn (lit "3") (lit "4")] ts /\
  interleaved own_counter [] ts tr ts' /\
  map fst tr = [0; 1; 1; 0] /\ who (map snd tr) = [10; 11; 11; 10] /\
  nth_error ts' 0 = Some (Done [Got_value (Val (Eval_ok (fsub (f64_of_Z 0) (f64_of_Z 1))))]) /\
  nth_error ts' 1 = Some (Done [Got_value (Val (Eval_ok (fsub (f64_of_Z 0) (f64_of_Z 1))))]) /\
  (forall h1 h2 id args, filter (fun call => Nat.eqb (fst call) id) h1 = filter (fun call => Nat.eqb (fst call) id) h2 ->
     own_counter h1 id args = own_counter h2 id args) /\
  (forall id args j id' args', In (0, (id, args)) tr -> In (j, (id', args')) tr -> j = 0 \/ id' <> id).
Proof.
  exists [asking 10 (lit "1") (lit "2"); asking 11 (lit "3") (lit "4")].
  generalize (lit "1") as a, (lit "2") as b, (lit "3") as c, (lit "4") as d. intros a b c d.
  exists [(0, (10, [a])); (1, (11, [c])); (1, (11, [d])); (0, (10, [b]))]. eexists. repeat match goal with |- _ /\ _ => split end.
  - repeat constructor; apply evaluating_asking.
  - econstructor; [reflexivity|]. econstructor; [reflexivity|]. econstructor; [reflexivity|]. econstructor; [reflexivity|]. apply I_pause.
  - reflexivity.
  - reflexivity.
  - reflexivity.
  - reflexivity.
  - intros h1 h2 id args E. unfold own_counter. now rewrite E.
  - cbn [In]. intros id args j id' args' H H'.
    repeat match goal with H : _ \/ _ |- _ => destruct H | H : (_, (_, _)) = (_, (_, _)) |- _ => injection H as; subst | H : False |- _ => destruct H end; auto; try discriminate; right; congruence.
Qed.

(** An evaluation is not one step: with a state shared by both threads the value
    0 - 2 is possible, which neither order of two whole evaluations gives. *)
Example C80_not_atomic :
  exists ts tr ts',
    Forall2 (works_as w0) [evaluating f_fn (lit "1") (lit "2"); evaluating f_fn (lit "3") (lit "4")] ts /\
    interleaved counter [] ts tr ts' /\
    nth_error ts' 0 = Some (Done [Got_value (Val (Eval_ok (fsub (f64_of_Z 0) (f64_of_Z 2))))]) /\
    fst (alone w0 counter (evaluating f_fn (lit "1") (lit "2")) []) = [Got_value (Val (Eval_ok (fsub (f64_of_Z 0) (f64_of_Z 1))))] /\
    (forall h, snd (alone w0 counter (evaluating f_fn (lit "3") (lit "4")) []) = h ->
       fst (alone w0 counter (evaluating f_fn (lit "1") (lit "2")) h) = [Got_value (Val (Eval_ok (fsub (f64_of_Z 2) (f64_of_Z 3))))]) /\
    same_f64 (fsub (f64_of_Z 0) (f64_of_Z 2)) (fsub (f64_of_Z 0) (f64_of_Z 1)) = false /\
    same_f64 (fsub (f64_of_Z 0) (f64_of_Z 2)) (fsub (f64_of_Z 2) (f64_of_Z 3)) = false.
Proof.
  exists [asking 10 (lit "1") (lit "2"); asking 10 (lit "3") (lit "4")].
  generalize (lit "1") as a, (lit "2") as b, (lit "3") as c, (lit "4") as d. intros a b c d.
  exists [(0, (10, [a])); (1, (10, [c])); (0, (10, [b]))]. eexists. repeat match goal with |- _ /\ _ => split end.
  - repeat constructor; apply evaluating_asking.
  - econstructor; [reflexivity|]. econstructor; [reflexivity|]. econstructor; [reflexivity|]. apply I_pause.
  - reflexivity.
  - unfold f_fn. rewrite <- (evaluating_asking w0 10 "f" a b counter []). reflexivity.
  - intros h <-. unfold f_fn. rewrite <- (evaluating_asking w0 10 "f" c d counter []).
    rewrite <- (evaluating_asking w0 10 "f" a b counter _). reflexivity.
  - vm_compute. reflexivity.
  - vm_compute. reflexivity.
Qed.
