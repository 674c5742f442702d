(** * C77: when user functions with a state are called *)
From Coq Require Import ZArith NArith List String Ascii Bool Lia.
From Verif Require Import F64 Syntax Factorial Builtins Context Element Parser Xprs TestWorld.
From Verif Require Import SpecTree SpecTokens SpecGrammar TokenFacts LexExec Stateful SpecStateful StatefulFacts StatefulParse.
Import ListNotations.
Local Open Scope string_scope.

(** Evaluation runs the expression from left to right, arguments before the call;
    each function answers knowing all the calls before it. *)
Theorem C77_eval_runs : forall w b x vars h v h',
  eval_s w b x vars h = (Val (Eval_ok v), h') <-> runs w b (fun n => sget n vars) (root x) h v h'.
Proof. intros. split; [apply eval_runs|apply runs_eval_both]. Qed.

(** [eval_unchecked], and with it every bound closure, does the same. *)
Theorem C77_unchecked_runs : forall w b x vars h v h',
  eval_unchecked_s w b x vars h = (Val v, h') <-> runs w b (fun n => sget n vars) (root x) h v h'.
Proof. intros. rewrite <- C77_eval_runs. apply unchecked_same. Qed.

(** A successful evaluation makes exactly the calls written in the expression, in
    this order, each once, whatever the functions answer. *)
Theorem C77_calls_in_order : forall w b x vars h v h',
  eval_s w b x vars h = (Val (Eval_ok v), h') ->
  exists ran, h' = (h ++ ran)%list /\ who ran = calls_of (root x).
Proof.
  intros w b x vars h v h' H. apply eval_calls in H. destruct H as [Hs [ran [-> Hw]]].
  exists ran. split; auto. rewrite Hw. now apply until_all.
Qed.

(** If a variable has no value, the calls before it have already been made, and
    none after it. *)
Theorem C77_calls_before_missing_variable : forall w b x vars h y h',
  eval_s w b x vars h = (Val (Eval_err y), h') ->
  exists ran, h' = (h ++ ran)%list /\
    who ran = calls_until_stop (fun n => match sget n vars with Some _ => true | None => false end) (root x).
Proof. intros w b x vars h y h' H. apply eval_calls in H. destruct H as [Hs [ran [-> Hw]]]. exists ran. auto. Qed.

(** If a function panics, the calls made are the first ones of that order. *)
Theorem C77_calls_before_panic : forall w b x vars h p h',
  eval_s w b x vars h = (Boom p, h') ->
  exists ran rest, h' = (h ++ ran)%list /\
    calls_until_stop (fun n => match sget n vars with Some _ => true | None => false end) (root x) = (who ran ++ rest)%list.
Proof. intros w b x vars h p h' H. apply eval_calls in H. exact H. Qed.

(** Without compile-time optimisation parsing calls no function, and what it
    returns does not depend on the functions. *)
Theorem C77_plain_parse_calls_nothing : forall cfg w b ctx text h, optimize cfg = false ->
  parse_s cfg w b ctx text h = (parse cfg w ctx text, h).
Proof.
  intros cfg w b ctx text h Ho.
  destruct (parse_agrees cfg w b ctx text True) with (h := h) as [Ha Hq].
  - intros el h'. unfold finish_element_s, finish_element. rewrite Ho. auto.
  - destruct (parse_s cfg w b ctx text h) as [r h']. cbn in *. subst. now rewrite Hq.
Qed.

(** Parsing, rejecting included, calls no function more often than the text
    names it. *)
Theorem C77_parse_calls : forall cfg w b ctx text ts h r h', tokens_of text ts ->
  parse_s cfg w b ctx text h = (r, h') ->
  exists ran, h' = (h ++ ran)%list /\ part_of (who ran) (calls_written ctx ts).
Proof.
  intros cfg w b ctx text ts h r h' Hts H. destruct (parse_spends cfg w b ctx text ts h Hts) as [ran [E Hr]].
  rewrite H in E, Hr. cbn [fst snd] in *. exists ran. split; auto. destruct r; auto. eapply part_cut; exact Hr.
Qed.

(** From the text to the value — parsing, then any substitutions, then one
    evaluation — every call written in the text is made at most once. *)
Theorem C77_at_most_once : forall cfg w b ctx text ts h x h1 l r h2,
  tokens_of text ts ->
  parse_s cfg w b ctx text h = (Parse_ok x, h1) ->
  simplify_for_multiple_s w b cfg x l h1 = (r, h2) ->
  (exists ran, h2 = (h ++ ran)%list /\ part_of (who ran) (calls_written ctx ts)) /\
  forall x' vars r' h3, r = Val x' -> eval_s w b x' vars h2 = (r', h3) ->
    exists ran, h3 = (h ++ ran)%list /\ part_of (who ran) (calls_written ctx ts).
Proof.
  intros cfg w b ctx text ts h x h1 l r h2 Hts Hp Hs.
  destruct (parse_spends cfg w b ctx text ts h Hts) as [ran [E Hr]]. rewrite Hp in E, Hr. cbn [fst snd] in *. subst h1.
  destruct (spends_multiple w b cfg l x (h ++ ran)%list) as [ran2 [E2 Hr2]]. rewrite Hs in E2, Hr2. cbn [fst snd] in *. subst h2.
  split.
  - exists (ran ++ ran2)%list. rewrite app_assoc. split; auto. rewrite who_app.
    eapply part_trans; [|exact Hr]. apply part_app; [apply part_refl|]. destruct r; auto. eapply part_cut; exact Hr2.
  - intros x' vars r' h3 -> He. apply eval_calls in He.
    assert (Hm : exists ran3, h3 = ((h ++ ran) ++ ran2 ++ ran3)%list /\ part_of (who ran3) (calls_of (root x'))).
    { assert (Hu : part_of (calls_until_stop (known vars) (root x')) (calls_of (root x'))) by apply until_part.
      destruct r' as [[v|y]|p].
      - destruct He as [_ [ran3 [-> Ew]]]. rewrite <- Ew in Hu. exists ran3. rewrite app_assoc. auto.
      - destruct He as [_ [ran3 [-> Ew]]]. rewrite <- Ew in Hu. exists ran3. rewrite app_assoc. auto.
      - destruct He as [ran3 [rest [-> Er]]]. rewrite Er in Hu. exists ran3. rewrite app_assoc. split; auto. eapply part_cut; exact Hu. }
    destruct Hm as [ran3 [-> H3]]. exists (ran ++ ran2 ++ ran3)%list. rewrite !app_assoc. split; auto. rewrite !who_app.
    eapply part_trans; [|exact Hr]. rewrite <- app_assoc. apply part_app; [apply part_refl|].
    eapply part_trans; [|exact Hr2]. apply part_app; [apply part_refl|exact H3].
Qed.

(** For functions that ignore what happened before, all this is the ordinary
    behaviour: the results are those of the model without histories. *)
Theorem C77_without_state : forall cfg w b ctx text x l vars h,
  (forall h' id args, b h' id args = user_fn w id args) ->
  fst (parse_s cfg w b ctx text h) = parse cfg w ctx text /\
  fst (simplify_for_multiple_s w b cfg x l h) = simplify_for_multiple cfg w x l /\
  fst (eval_s w b x vars h) = eval w x vars /\
  fst (eval_unchecked_s w b x vars h) = eval_unchecked w x vars.
Proof.
  intros cfg w b ctx text x l vars h Hb. repeat split.
  - apply (parse_agrees cfg w b ctx text False). intros el h'. split; [|intros []].
    unfold finish_element_s, finish_element. destruct (optimize cfg); [|reflexivity]. now apply agrees_simplify.
  - now apply agrees_multiple.
  - now apply agrees_eval.
  - now apply agrees_eval_unchecked.
Qed.

(** ** A counter

    Two functions [f] and [g] of one argument that answer how many calls were
    made before. *)
Definition f_fn : function := mk_function "f" (Dyn_user 10) (Some 1).
Definition g_fn : function := mk_function "g" (Dyn_user 11) (Some 1).
Definition ctx_fg : context := with_fn (with_fn ctx_default f_fn) g_fn.
Definition counter : behaviour := fun h _ _ => Some (f64_of_Z (Z.of_nat (List.length h))).

(** the calls made by parsing and by a following evaluation, and the value *)
Definition session (cfg : config) (text : string) (vars : smap f64) : option (list nat * list nat * f64) :=
  match parse_s cfg w0 counter ctx_fg text [] with
  | (Parse_ok x, h1) =>
      match eval_s w0 counter x vars h1 with
      | (Val (Eval_ok v), h2) => Some (who h1, who (skipn (List.length h1) h2), v)
      | _ => None
      end
  | _ => None
  end.
Definition session_is (cfg : config) (text : string) (vars : smap f64) (at_parse at_eval : list nat) (v : f64) : bool :=
  match session cfg text vars with
  | Some (p, e, u) => (if list_eq_dec Nat.eq_dec p at_parse then true else false) &&
                      (if list_eq_dec Nat.eq_dec e at_eval then true else false) && same_f64 u v
  | None => false
  end.
Lemma session_is_spec : forall cfg text vars p e v, session_is cfg text vars p e v = true ->
  exists x h1 h2, parse_s cfg w0 counter ctx_fg text [] = (Parse_ok x, h1) /\
    eval_s w0 counter x vars h1 = (Val (Eval_ok v), h2) /\ who h1 = p /\ who (skipn (List.length h1) h2) = e.
Proof.
  intros cfg text vars p e v H. unfold session_is, session in H.
  destruct (parse_s cfg w0 counter ctx_fg text []) as [[x| | |] h1]; try discriminate H.
  destruct (eval_s w0 counter x vars h1) as [[[u|y]|pn] h2] eqn:E; try discriminate H.
  destruct (list_eq_dec Nat.eq_dec (who h1) p) as [<-|]; [|discriminate H].
  destruct (list_eq_dec Nat.eq_dec _ e) as [<-|]; [|discriminate H].
  apply same_f64_eq in H. subst u. exists x, h1, h2. auto.
Qed.

(** Left to right at run time: "f(1) - g(2)" is 0 - 1. *)
Example C77_run_time_order : exists x h1 h2,
  parse_s debug_plain w0 counter ctx_fg "f(1) - g(2)" [] = (Parse_ok x, h1) /\
  eval_s w0 counter x [] h1 = (Val (Eval_ok (fneg (lit "1"))), h2) /\
  who h1 = [] /\ who (skipn (List.length h1) h2) = [10; 11].
Proof. apply session_is_spec. vm_compute. reflexivity. Qed.

(** Compile-time optimisation makes the calls of constants while parsing, and the
    one on the right first: the same text is 1 - 0. *)
Example C77_parse_time_order : exists x h1 h2,
  parse_s debug_opt w0 counter ctx_fg "f(1) - g(2)" [] = (Parse_ok x, h1) /\
  eval_s w0 counter x [] h1 = (Val (Eval_ok (lit "1")), h2) /\
  who h1 = [11; 10] /\ who (skipn (List.length h1) h2) = [].
Proof. apply session_is_spec. vm_compute. reflexivity. Qed.

(** Optimisation may drop calls: "f(x) - f(x)" is 0 - 1 at run time, and 0 without
    any call when optimised. *)
Example C77_dropped_calls :
  (exists x h1 h2,
    parse_s debug_plain w0 counter ctx_fg "f(x) - f(x)" [] = (Parse_ok x, h1) /\
    eval_s w0 counter x [("x", lit "3")] h1 = (Val (Eval_ok (fneg (lit "1"))), h2) /\
    who h1 = [] /\ who (skipn (List.length h1) h2) = [10; 10]) /\
  (exists x h1 h2,
    parse_s debug_opt w0 counter ctx_fg "f(x) - f(x)" [] = (Parse_ok x, h1) /\
    eval_s w0 counter x [("x", lit "3")] h1 = (Val (Eval_ok (lit "0")), h2) /\
    who h1 = [] /\ who (skipn (List.length h1) h2) = []).
Proof. split; apply session_is_spec; vm_compute; reflexivity. Qed.

(** A rejected text may have called functions. *)
Example C77_rejected_after_calls :
  match parse_s debug_opt w0 counter ctx_fg "(f(1)) * " [] with
  | (Parse_err e, h) => pe_kind e = UnexpectedEndOfExpression /\ who h = [10]
  | _ => False
  end.
Proof. vm_compute. auto. Qed.

(** The call before a missing variable is made, the one after it is not. *)
Example C77_missing_variable :
  match parse_s debug_plain w0 counter ctx_fg "f(1) + y + g(2)" [] with
  | (Parse_ok x, h) =>
      match eval_s w0 counter x [] h with
      | (Val (Eval_err y), h') => y = "y" /\ who h' = [10] /\
          calls_until_stop (fun _ => false) (root x) = [10] /\ calls_of (root x) = [10; 11]
      | _ => False
      end
  | _ => False
  end.
Proof. vm_compute. auto. Qed.

(** The hypotheses are met: one call made while parsing, one by substituting, one
    by evaluating, one never. *)
Example C77_witness :
  exists ts x h1 x' h2 v h3, tokens_of "f(1) + g(x) + f(y) + (g(y) - g(y))" ts /\
    calls_written ctx_fg ts = [10; 11; 10; 11; 11] /\
    parse_s debug_opt w0 counter ctx_fg "f(1) + g(x) + f(y) + (g(y) - g(y))" [] = (Parse_ok x, h1) /\ who h1 = [10] /\
    simplify_for_multiple_s w0 counter debug_opt x [("x", lit "5")] h1 = (Val x', h2) /\ who h2 = [10; 11] /\
    eval_s w0 counter x' [("y", lit "7")] h2 = (Val (Eval_ok v), h3) /\ who h3 = [10; 11; 10].
Proof.
  assert (Ht : exists ts, lex (S (String.length "f(1) + g(x) + f(y) + (g(y) - g(y))"))
      (list_ascii_of_string "f(1) + g(x) + f(y) + (g(y) - g(y))") = Some ts /\ calls_written ctx_fg ts = [10; 11; 10; 11; 11]).
  { eexists. split; [vm_compute; reflexivity|]. vm_compute. reflexivity. }
  destruct Ht as [ts [Ht Hw]]. apply tokens_check in Ht. exists ts.
  assert (H : match parse_s debug_opt w0 counter ctx_fg "f(1) + g(x) + f(y) + (g(y) - g(y))" [] with
    | (Parse_ok x, h1) => who h1 = [10] /\
        match simplify_for_multiple_s w0 counter debug_opt x [("x", lit "5")] h1 with
        | (Val x', h2) => who h2 = [10; 11] /\
            match eval_s w0 counter x' [("y", lit "7")] h2 with
            | (Val (Eval_ok v), h3) => who h3 = [10; 11; 10]
            | _ => False
            end
        | _ => False
        end
    | _ => False
    end) by (vm_compute; auto).
  destruct (parse_s debug_opt w0 counter ctx_fg "f(1) + g(x) + f(y) + (g(y) - g(y))" []) as [[x| | |] h1]; try contradiction.
  destruct H as [H1 H]. destruct (simplify_for_multiple_s w0 counter debug_opt x [("x", lit "5")] h1) as [[x'|] h2] eqn:E2; [|contradiction].
  destruct H as [H2 H]. destruct (eval_s w0 counter x' [("y", lit "7")] h2) as [[[v|]|] h3] eqn:E3; try contradiction.
  exists x, h1, x', h2, v, h3. auto 10.
Qed.
