(** * Facts about the REPL's output *)
From Coq Require Import ZArith NArith List String Ascii Bool Lia.
From Flocq Require Import BinarySingleNaN.
From Verif Require Import F64 Syntax Factorial Builtins Context Element Parser Xprs Display Repl DebugText DebugFacts Transcript SpecTranscript.
Import ListNotations.
Local Open Scope string_scope.

Lemma sapp_assoc : forall a b c : string, (a ++ b) ++ c = a ++ (b ++ c).
Proof. induction a as [|x a IH]; intros; cbn; [reflexivity|now rewrite IH]. Qed.
Lemma sapp_nil : forall a : string, a ++ "" = a.
Proof. induction a as [|x a IH]; cbn; [reflexivity|now rewrite IH]. Qed.

(** ** Pieces *)
Lemma pieces_cons : forall sep s, exists p l, pieces sep s = p :: l.
Proof.
  intros sep. induction s as [|c s [p [l IH]]]; cbn; [eauto|]. destruct (Ascii.eqb c sep); [eauto|]. rewrite IH. eauto.
Qed.
Lemma pieces_app : forall sep a b, pieces sep (a ++ String sep b) = (pieces sep a ++ pieces sep b)%list.
Proof.
  intros sep a b. induction a as [|c a IH]; cbn.
  - now rewrite Ascii.eqb_refl.
  - destruct (Ascii.eqb c sep); [now rewrite IH|]. rewrite IH. destruct (pieces_cons sep a) as [p [l ->]]. reflexivity.
Qed.
Lemma pieces_none : forall sep s, ~ In sep (list_ascii_of_string s) -> pieces sep s = [s].
Proof.
  intros sep s. induction s as [|c s IH]; intro H; cbn in *; [reflexivity|].
  destruct (Ascii.eqb_spec c sep) as [->|]; [now elim H; left|]. rewrite IH by tauto. reflexivity.
Qed.
(** a piece is a part of the text *)
Lemma pieces_first : forall sep s p l, pieces sep s = p :: l -> exists b, s = p ++ b.
Proof.
  intros sep. induction s as [|c s IH]; intros p l H; cbn in H.
  - injection H as <- <-. now exists "".
  - destruct (Ascii.eqb c sep); [injection H as <- <-; now exists (String c s)|].
    destruct (pieces_cons sep s) as [q [m E]]. rewrite E in H. injection H as <- <-. destruct (IH _ _ E) as [b ->]. now exists b.
Qed.
Lemma pieces_part : forall sep s p, In p (pieces sep s) -> exists a b, s = a ++ p ++ b.
Proof.
  intros sep. induction s as [|c s IH]; intros p H; cbn in H.
  - destruct H as [<-|[]]. now exists "", "".
  - destruct (Ascii.eqb c sep).
    + destruct H as [<-|H]; [now exists "", (String c s)|]. destruct (IH _ H) as [a [b ->]]. now exists (String c a), b.
    + destruct (pieces_cons sep s) as [q [m E]]. rewrite E in H. destruct H as [<-|H].
      * destruct (pieces_first _ _ _ _ E) as [b ->]. now exists "", b.
      * destruct (IH p) as [a [b ->]]; [rewrite E; now right|]. now exists (String c a), b.
Qed.

Lemma words_app : forall a b, words (a ++ " " ++ b) = (words a ++ words b)%list.
Proof. intros a b. unfold words. cbn [append]. now rewrite pieces_app, filter_app. Qed.
Lemma words_word : forall s, s <> "" -> ~ In " "%char (list_ascii_of_string s) -> words s = [s].
Proof.
  intros s Hn H. unfold words. rewrite pieces_none by exact H. cbn. destruct (String.eqb_spec s ""); [contradiction|reflexivity].
Qed.
Lemma results_app : forall a b, results (a ++ nl ++ b) = (results a ++ results b)%list.
Proof. intros a b. unfold results, lines, nl. cbn [append]. now rewrite pieces_app, flat_map_app. Qed.

(** ** Texts in which no word ends in "ed:" *)
Definition ed_step (st : nat) (c : ascii) : option nat :=
  if Ascii.eqb c ":" then (if Nat.eqb st 2 then None else Some 0)
  else if Ascii.eqb c "e" then Some 1
  else if Ascii.eqb c "d" then (if Nat.eqb st 1 then Some 2 else Some 0)
  else Some 0.
Fixpoint ed_run (st : nat) (s : string) : option nat :=
  match s with
  | EmptyString => Some st
  | String c s' => match ed_step st c with Some st' => ed_run st' s' | None => None end
  end.
Definition quiet (s : string) : Prop := forall st, exists st', ed_run st s = Some st'.

Lemma ed_app : forall a b st, ed_run st (a ++ b) = match ed_run st a with Some st' => ed_run st' b | None => None end.
Proof. induction a as [|c a IH]; intros b st; cbn; [reflexivity|]. destruct (ed_step st c); [apply IH|reflexivity]. Qed.
Lemma quiet_app : forall a b, quiet a -> quiet b -> quiet (a ++ b).
Proof. intros a b Ha Hb st. rewrite ed_app. destruct (Ha st) as [st' ->]. apply Hb. Qed.
Lemma quiet_nil : quiet "".
Proof. intro st. now exists st. Qed.
Lemma quiet_concat : forall l, Forall quiet l -> quiet (String.concat "" l).
Proof. induction 1 as [|s l Hs _ IH]; [apply quiet_nil|]. rewrite concat_cons. now apply quiet_app. Qed.
Lemma quiet_no_colon : forall s, forallb (fun c => negb (Ascii.eqb c ":")) (list_ascii_of_string s) = true -> quiet s.
Proof.
  induction s as [|c s IH]; intros H st; cbn in *; [eauto|]. apply andb_true_iff in H. destruct H as [Hc H]. apply negb_true_iff in Hc.
  unfold ed_step. rewrite Hc. destruct (Ascii.eqb c "e"); [now apply IH|]. destruct (Ascii.eqb c "d"); [|now apply IH].
  destruct (Nat.eqb st 1); now apply IH.
Qed.
Lemma quiet_word : forall s, forallb word_char (list_ascii_of_string s) = true -> quiet s.
Proof.
  intros s H. apply quiet_no_colon. rewrite forallb_forall in *. intros c Hc. specialize (H c Hc).
  destruct (Ascii.eqb_spec c ":") as [->|]; [discriminate H|reflexivity].
Qed.
Lemma quiet_join : forall sep l, quiet sep -> Forall quiet l -> quiet (join sep l).
Proof.
  intros sep l Hs H. unfold join. induction H as [|s l H Hl IH]; [apply quiet_nil|]. cbn. destruct l; [exact H|].
  apply quiet_app; [exact H|]. now apply quiet_app.
Qed.

Lemma flat_map_none : forall A B (f : A -> list B) l, (forall x, In x l -> f x = []) -> flat_map f l = [].
Proof. intros A B f l H. induction l as [|a l IH]; [reflexivity|]. cbn. rewrite H by now left. apply IH. intros. apply H. now right. Qed.
Lemma quiet_no_result : forall s, quiet s -> results s = [].
Proof.
  intros s H. unfold results. apply flat_map_none. intros line Hl. unfold result_of.
  destruct (rev (words line)) as [|a [|b r]] eqn:E; try reflexivity. destruct (String.eqb_spec b "Evaluated:") as [->|]; [|reflexivity]. exfalso.
  assert (I : In "Evaluated:" (words line)) by (apply in_rev; rewrite E; right; now left).
  unfold words in I. apply filter_In in I. destruct I as [I _]. apply pieces_part in I. destruct I as [p [q I]].
  unfold lines in Hl. apply pieces_part in Hl. destruct Hl as [p' [q' Hl]]. subst line.
  destruct (H 0) as [st E']. rewrite Hl, !ed_app in E'. destruct (ed_run 0 p') as [s1|]; [|discriminate].
  rewrite !ed_app in E'. destruct (ed_run s1 p) as [s2|]; [|discriminate].
  replace (ed_run s2 "Evaluated:") with (@None nat) in E'; [discriminate|].
  destruct s2 as [|[|[|]]]; reflexivity.
Qed.

Lemma quiet_pad : forall s, quiet s -> quiet (pad s).
Proof.
  assert (K : forall s on st, (on = true -> st = 0) -> ed_run st (pad_from on s) = ed_run st s).
  { induction s as [|c s IH]; intros on st H; [reflexivity|]. cbn [pad_from].
    assert (Hn : forall st', ed_step st c = Some st' -> Ascii.eqb c "010" = true -> st' = 0).
    { intros st' E Ec. apply Ascii.eqb_eq in Ec. subst c. cbn in E. congruence. }
    assert (T : ed_run st (String c (pad_from (Ascii.eqb c "010") s)) = ed_run st (String c s)).
    { cbn. destruct (ed_step st c) as [st'|] eqn:E; [|reflexivity]. apply IH. intro Ec. eauto. }
    destruct on; [|exact T]. rewrite H in * by reflexivity. exact T. }
  intros s H st. unfold pad. destruct s as [|c s]; [now exists st|]. cbn [pad_from]. rewrite ed_app.
  change (ed_run st "    ") with (Some 0). cbv iota.
  pose proof (K (String c s) true 0 (fun _ => eq_refl)) as E. cbn [pad_from] in E. rewrite ed_app in E.
  change (ed_run 0 "    ") with (Some 0) in E. cbv iota in E. rewrite E. apply H.
Qed.

(** ** Dumps *)
Inductive fields_quiet : dbg -> Prop :=
| FQ_word : forall t, quiet t -> fields_quiet (D_word t)
| FQ_tuple : forall n l, quiet n -> Forall fields_quiet l -> fields_quiet (D_tuple n l)
| FQ_struct : forall n l, quiet n -> Forall (fun f => quiet (fst f ++ ": ")) l -> Forall (fun f => fields_quiet (snd f)) l -> fields_quiet (D_struct n l)
| FQ_list : forall l, Forall fields_quiet l -> fields_quiet (D_list l)
| FQ_set : forall l, Forall fields_quiet l -> fields_quiet (D_set l).

Ltac colonless := apply quiet_no_colon; reflexivity.
Lemma quiet_items : forall A (f : A -> string) l, Forall (fun x => quiet (f x)) l ->
  quiet (String.concat "" (map (fun x => pad (f x ++ "," ++ nl)) l)).
Proof.
  intros A f l H. apply quiet_concat. rewrite Forall_map. eapply Forall_impl; [|exact H]. intros x Hx. cbn beta.
  apply quiet_pad. apply quiet_app; [exact Hx|colonless].
Qed.
Lemma pretty_quiet : forall d, fields_quiet d -> quiet (pretty d).
Proof.
  induction d as [t|n l IH|n l IH|l IH|l IH|k v IH] using dbg_ind'; intro H; inversion H; subst.
  - assumption.
  - cbn [pretty]. repeat (apply quiet_app; [solve [assumption|colonless]|]). apply quiet_app; [|colonless].
    apply (quiet_items dbg pretty). rewrite Forall_forall in *. auto.
  - cbn [pretty]. repeat (apply quiet_app; [solve [assumption|colonless]|]). apply quiet_app; [|colonless].
    pose proof (quiet_items (string * dbg) (fun f => fst f ++ ": " ++ pretty (snd f)) l) as Q.
    replace (map (fun f => pad (fst f ++ ": " ++ pretty (snd f) ++ "," ++ nl)) l)
      with (map (fun f => pad ((fst f ++ ": " ++ pretty (snd f)) ++ "," ++ nl)) l).
    + apply Q. rewrite Forall_forall in *. intros f Hf. rewrite <- sapp_assoc. apply quiet_app; auto.
    + apply map_ext. intro f. now rewrite !sapp_assoc.
  - cbn [pretty]. destruct l as [|a l]; [colonless|]. repeat (apply quiet_app; [solve [assumption|colonless]|]). apply quiet_app; [|colonless].
    apply (quiet_items dbg pretty). rewrite Forall_forall in *. auto.
  - cbn [pretty]. destruct l as [|a l]; [colonless|]. repeat (apply quiet_app; [solve [assumption|colonless]|]). apply quiet_app; [|colonless].
    apply (quiet_items dbg pretty). rewrite Forall_forall in *. auto.
Qed.
Lemma quiet_check : forall s, (forall st, exists st', ed_run (S (S (S st))) s = Some st') ->
  (exists st', ed_run 0 s = Some st') -> (exists st', ed_run 1 s = Some st') -> (exists st', ed_run 2 s = Some st') -> quiet s.
Proof. intros s H H0 H1 H2 [|[|[|st]]]; auto. Qed.
Ltac colon_at_end := apply quiet_check; [intro|..]; eexists; reflexivity.
Lemma wf_words : forall t, word t -> quiet t.
Proof. intros t [_ H]. now apply quiet_word. Qed.
