(** * Debug texts with literals in them determine what was printed *)
From Coq Require Import ZArith NArith List String Ascii Bool Lia.
From Verif Require Import F64 Syntax Parser Xprs Display SpecUtf8 SpecLiteral DebugText DebugErrors SpecDebug DebugFacts LiteralFacts.
Import ListNotations.
Local Open Scope string_scope.

(** ** Masking: outside literals blanks and line ends are dropped, inside every
    byte is replaced by eight digits *)
Definition is_quote (c : ascii) : bool := Ascii.eqb c quote || Ascii.eqb c tick.
Definition bits (c : ascii) : list ascii :=
  let '(Ascii a b c d e f g h) := c in map (fun x : bool => if x then "1"%char else "0"%char) [a; b; c; d; e; f; g; h].
Definition state := option (ascii * bool).
Definition next (st : state) (c : ascii) : state :=
  match st with
  | None => if is_quote c then Some (c, false) else None
  | Some (q, true) => Some (q, false)
  | Some (q, false) => if Ascii.eqb c "\" then Some (q, true) else if Ascii.eqb c q then None else Some (q, false)
  end.
Definition shape (st : state) (c : ascii) : list ascii :=
  match st with
  | None => if kept c then [c] else []
  | Some (q, false) => if Ascii.eqb c "\" then bits c else if Ascii.eqb c q then [c] else bits c
  | Some (q, true) => bits c
  end.
Fixpoint mask (st : state) (l : list ascii) : list ascii :=
  match l with [] => [] | c :: l' => (shape st c ++ mask (next st c) l')%list end.
Fixpoint run (st : state) (l : list ascii) : state :=
  match l with [] => st | c :: l' => run (next st c) l' end.
Fixpoint calm (st : state) (l : list ascii) : Prop :=
  match l with [] => True | c :: l' => (newline c = true -> st = None) /\ calm (next st c) l' end.

Lemma mask_app : forall a b st, mask st (a ++ b) = (mask st a ++ mask (run st a) b)%list.
Proof. induction a as [|c a IH]; intros b st; cbn; [reflexivity|]. now rewrite IH, app_assoc. Qed.
Lemma run_app : forall a b st, run st (a ++ b) = run (run st a) b.
Proof. induction a as [|c a IH]; intros b st; cbn; [reflexivity|]. apply IH. Qed.
Lemma calm_app : forall a b st, calm st a -> calm (run st a) b -> calm st (a ++ b).
Proof. induction a as [|c a IH]; intros b st Ha Hb; cbn in *; [exact Hb|]. destruct Ha. split; auto. Qed.

Definition masks (s : string) (m : list ascii) : Prop :=
  run None (list_ascii_of_string s) = None /\ mask None (list_ascii_of_string s) = m /\ calm None (list_ascii_of_string s).

Lemma masks_app : forall a b m n, masks a m -> masks b n -> masks (a ++ b) (m ++ n)%list.
Proof.
  intros a b m n [A1 [A2 A3]] [B1 [B2 B3]]. unfold masks. rewrite las_app, run_app, mask_app, A1, A2, B1, B2. split; [reflexivity|]. split; [reflexivity|].
  apply calm_app; [exact A3|]. now rewrite A1.
Qed.

Lemma blanks : forall l, mask None ([" "; " "; " "; " "]%char ++ l) = mask None l. Proof. reflexivity. Qed.
Lemma pad_mask : forall s on st, calm st (list_ascii_of_string s) -> (on = true -> st = None) ->
  mask st (list_ascii_of_string (pad_from on s)) = mask st (list_ascii_of_string s) /\
  run st (list_ascii_of_string (pad_from on s)) = run st (list_ascii_of_string s) /\
  calm st (list_ascii_of_string (pad_from on s)).
Proof.
  induction s as [|c s IH]; intros on st Hc Ho; [cbn; auto|]. cbn [pad_from]. cbn [list_ascii_of_string calm] in Hc. destruct Hc as [Hn Hc].
  assert (K : (Ascii.eqb c "010" = true -> next st c = None)).
  { intro E. apply Hn in E as E'. subst st. apply Ascii.eqb_eq in E. subst c. reflexivity. }
  destruct (IH (Ascii.eqb c "010") (next st c) Hc K) as [I1 [I2 I3]].
  assert (P : mask st (list_ascii_of_string (String c (pad_from (Ascii.eqb c "010") s))) = mask st (c :: list_ascii_of_string s) /\
              run st (list_ascii_of_string (String c (pad_from (Ascii.eqb c "010") s))) = run st (c :: list_ascii_of_string s) /\
              calm st (list_ascii_of_string (String c (pad_from (Ascii.eqb c "010") s)))).
  { cbn [list_ascii_of_string mask run calm]. rewrite I1, I2. auto. }
  destruct on; [|exact P]. rewrite (Ho eq_refl) in *. rewrite las_app. change (list_ascii_of_string "    ") with [" "; " "; " "; " "]%char.
  rewrite blanks. destruct P as [P1 [P2 P3]]. split; [exact P1|]. split; [exact P2|]. apply calm_app; [cbn; repeat (split; [intro; reflexivity|]); exact I|exact P3].
Qed.
Lemma masks_pad : forall s m, masks s m -> masks (pad s) m.
Proof.
  intros s m [H1 [H2 H3]]. unfold pad, masks. destruct (pad_mask s true None H3 (fun _ => eq_refl)) as [-> [-> K]]. auto.
Qed.

(** ** Words and literals *)
Definition bare_char (c : ascii) : bool := word_char c && negb (is_quote c).
Definition bare (s : string) : Prop := s <> "" /\ forallb bare_char (list_ascii_of_string s) = true.
Fixpoint body (q : ascii) (esc : bool) (l : list ascii) : bool :=
  match l with
  | [] => false
  | c :: l' =>
      negb (newline c) &&
      (if esc then body q false l'
       else if Ascii.eqb c "\" then body q true l'
       else if Ascii.eqb c q then match l' with [] => true | _ => false end
       else body q false l')
  end.
Definition literal (s : string) : Prop := exists q l, list_ascii_of_string s = q :: l /\ is_quote q = true /\ body q false l = true.
Definition spelled (s : string) : Prop := bare s \/ literal s.

Lemma word_kept : forall c, word_char c = true -> kept c = true /\ newline c = false.
Proof. intros c. destruct c as [[] [] [] [] [] [] [] []]; vm_compute; auto. Qed.

Lemma bare_masks_list : forall l, forallb bare_char l = true -> run None l = None /\ mask None l = l /\ calm None l.
Proof.
  induction l as [|c l IH]; [cbn; auto|]. cbn [forallb]. intro H. apply andb_true_iff in H. destruct H as [Hc Hl].
  unfold bare_char in Hc. apply andb_true_iff in Hc. destruct Hc as [Hw Hn]. apply negb_true_iff in Hn.
  destruct (IH Hl) as [I1 [I2 I3]]. destruct (word_kept c Hw) as [K1 K2].
  cbn [run mask calm next shape]. rewrite Hn, K1, I1, I2. split; [reflexivity|]. split; [reflexivity|]. split; [intro; reflexivity|exact I3].
Qed.
Lemma bare_masks : forall s, bare s -> masks s (list_ascii_of_string s).
Proof. intros s [_ H]. exact (bare_masks_list _ H). Qed.

Lemma body_masks : forall q l e, body q e l = true -> run (Some (q, e)) l = None /\ calm (Some (q, e)) l.
Proof.
  intros q. induction l as [|c l IH]; intros e H; [discriminate H|]. cbn [body] in H. apply andb_true_iff in H. destruct H as [Hn H].
  apply negb_true_iff in Hn. cbn [run calm next]. destruct e.
  - destruct (IH _ H). split; [assumption|]. split; [intro; congruence|assumption].
  - destruct (Ascii.eqb c "\"); [destruct (IH _ H); split; [assumption|]; split; [intro; congruence|assumption]|].
    destruct (Ascii.eqb c q).
    + destruct l; [|discriminate H]. cbn. split; [reflexivity|]. split; [intro; congruence|exact I].
    + destruct (IH _ H). split; [assumption|]. split; [intro; congruence|assumption].
Qed.

Definition mword (t : string) : string := string_of_list_ascii (mask None (list_ascii_of_string t)).
Lemma mword_las : forall t, list_ascii_of_string (mword t) = mask None (list_ascii_of_string t).
Proof. intro t. apply list_ascii_of_string_of_list_ascii. Qed.
Lemma quote_kept : forall q, is_quote q = true -> kept q = true /\ newline q = false /\ word_char q = true.
Proof. intros q. destruct q as [[] [] [] [] [] [] [] []]; vm_compute; auto. Qed.

Lemma spelled_masks : forall t, spelled t -> masks t (list_ascii_of_string (mword t)).
Proof.
  intros t H. rewrite mword_las. destruct H as [H|[q [l [E [Hq H]]]]].
  - destruct (bare_masks t H) as [H1 [H2 H3]]. split; [exact H1|]. split; [reflexivity|exact H3].
  - unfold masks. rewrite E. destruct (quote_kept q Hq) as [_ [Hn _]]. cbn [run mask calm next]. rewrite Hq. destruct (body_masks q l false H).
    split; [assumption|]. split; [reflexivity|]. split; [intro; congruence|assumption].
Qed.

Lemma bits_word : forall c, forallb word_char (bits c) = true.
Proof. intros c. destruct c as [[] [] [] [] [] [] [] []]; reflexivity. Qed.
Lemma mask_body_word : forall q l e, is_quote q = true -> body q e l = true -> forallb word_char (mask (Some (q, e)) l) = true.
Proof.
  intros q l e Hq. revert e. induction l as [|c l IH]; intros e H; [discriminate H|]. cbn [body] in H. apply andb_true_iff in H. destruct H as [_ H].
  cbn [mask next shape]. rewrite forallb_app. destruct e; [now rewrite bits_word, IH|].
  destruct (Ascii.eqb c "\"); [now rewrite bits_word, IH|].
  destruct (Ascii.eqb_spec c q) as [->|_].
  - destruct l; [|discriminate H]. cbn. destruct (quote_kept q Hq) as [_ [_ ->]]. reflexivity.
  - now rewrite bits_word, IH.
Qed.
Lemma mword_word : forall t, spelled t -> word (mword t).
Proof.
  intros t [H|[q [l [E [Hq H]]]]]; unfold word; rewrite mword_las.
  - destruct (bare_masks t H) as [_ [-> _]]. destruct H as [Hn H]. split.
    + unfold mword. rewrite (proj1 (proj2 (bare_masks_list _ H))), string_of_list_ascii_of_string. exact Hn.
    + apply forallb_forall. rewrite forallb_forall in H. intros c Hc. specialize (H c Hc). unfold bare_char in H. apply andb_true_iff in H. tauto.
  - destruct (quote_kept q Hq) as [Hk [_ Hw]]. unfold mword. rewrite E. cbn [mask next shape]. rewrite Hk, Hq. cbn [app]. split; [discriminate|].
    cbn [forallb]. rewrite Hw. cbn. now apply mask_body_word.
Qed.

Lemma bits_inj : forall c d, bits c = bits d -> c = d.
Proof.
  assert (B : forall x y : bool, (if x then "1"%char else "0"%char) = (if y then "1"%char else "0"%char) -> x = y) by (intros [] [] H; try reflexivity; discriminate H).
  intros [a0 a1 a2 a3 a4 a5 a6 a7] [b0 b1 b2 b3 b4 b5 b6 b7] H. cbn [bits map] in H. injection H; intros. f_equal; now apply B.
Qed.
Lemma bits_split : forall c d r s, (bits c ++ r = bits d ++ s)%list -> c = d /\ r = s.
Proof.
  intros [a0 a1 a2 a3 a4 a5 a6 a7] [b0 b1 b2 b3 b4 b5 b6 b7] r s H. cbn [bits map app] in H. injection H; intros.
  split; [|assumption]. apply bits_inj. cbn [bits map]. congruence.
Qed.
Lemma bits_quote : forall c q r s, is_quote q = true -> (bits c ++ r)%list <> (q :: s).
Proof. intros [[] [] [] [] [] [] [] []] q r s Hq E; cbn in E; injection E as <- _; discriminate Hq. Qed.

Lemma mask_body_inj : forall q l e l', is_quote q = true -> body q e l = true -> body q e l' = true ->
  mask (Some (q, e)) l = mask (Some (q, e)) l' -> l = l'.
Proof.
  intros q l e l' Hq. revert e l'. induction l as [|c l IH]; intros e [|d l'] H H' E; try discriminate H; try discriminate H'.
  cbn [body] in H, H'. apply andb_true_iff in H, H'. destruct H as [_ H], H' as [_ H'].
  cbn [mask next shape] in E. destruct e.
  - apply bits_split in E as [-> E]. f_equal. eauto.
  - destruct (Ascii.eqb_spec c "\") as [->|Nc], (Ascii.eqb_spec d "\") as [->|Nd].
    + apply bits_split in E as [_ E]. f_equal. eauto.
    + destruct (Ascii.eqb_spec d q) as [->|Ndq]; [exfalso; cbn [app] in E; eapply bits_quote; eauto|].
      apply bits_split in E as [E _]. congruence.
    + destruct (Ascii.eqb_spec c q) as [->|Ncq]; [exfalso; cbn [app] in E; symmetry in E; eapply bits_quote; eauto|].
      apply bits_split in E as [E _]. congruence.
    + destruct (Ascii.eqb_spec c q) as [->|Ncq], (Ascii.eqb_spec d q) as [->|Ndq].
      * destruct l; [|discriminate H]. destruct l'; [|discriminate H']. reflexivity.
      * exfalso. cbn [app] in E. symmetry in E. eapply bits_quote; eauto.
      * exfalso. cbn [app] in E. eapply bits_quote; eauto.
      * apply bits_split in E as [-> E]. f_equal. eauto.
Qed.

Lemma mword_inj : forall t t', spelled t -> spelled t' -> mword t = mword t' -> t = t'.
Proof.
  intros t t' H H' E. apply (f_equal list_ascii_of_string) in E. rewrite !mword_las in E. apply las_inj.
  assert (X : forall s u, bare s -> literal u -> mask None (list_ascii_of_string s) = mask None (list_ascii_of_string u) -> False).
  { intros s u [Hn Hs] [q [l [Eu [Hq Hu]]]] F. destruct (quote_kept q Hq) as [Hk _]. rewrite Eu, (proj1 (proj2 (bare_masks_list _ Hs))) in F.
    cbn [mask next shape] in F. rewrite Hk, Hq in F. cbn [app] in F. rewrite F in Hs. cbn [forallb] in Hs. unfold bare_char in Hs. rewrite Hq, andb_false_r in Hs. discriminate Hs. }
  destruct H as [H|H], H' as [H'|H'].
  - destruct H as [_ H], H' as [_ H']. now rewrite (proj1 (proj2 (bare_masks_list _ H))), (proj1 (proj2 (bare_masks_list _ H'))) in E.
  - exfalso. eauto.
  - exfalso. symmetry in E. eauto.
  - destruct H as [q [l [Et [Hq H]]]], H' as [q' [l' [Et' [Hq' H']]]]. destruct (quote_kept q Hq) as [Hk _]. destruct (quote_kept q' Hq') as [Hk' _].
    rewrite Et, Et' in *. cbn [mask next shape] in E. rewrite Hk, Hk', Hq, Hq' in E. cbn [app] in E. injection E as <- E.
    f_equal. eapply mask_body_inj; eauto.
Qed.

(** ** Trees *)
Inductive wfq : dbg -> Prop :=
| WQ_word : forall t, spelled t -> wfq (D_word t)
| WQ_tuple : forall n l, bare n -> l <> [] -> Forall wfq l -> wfq (D_tuple n l)
| WQ_struct : forall n l, bare n -> l <> [] -> Forall (fun f => bare (fst f)) l -> Forall (fun f => wfq (snd f)) l -> wfq (D_struct n l)
| WQ_list : forall l, Forall wfq l -> wfq (D_list l)
| WQ_set : forall l, Forall wfq l -> wfq (D_set l)
| WQ_entry : forall k v, spelled k -> wfq v -> wfq (D_entry k v).

Fixpoint maskd (d : dbg) : dbg :=
  match d with
  | D_word t => D_word (mword t)
  | D_tuple n l => D_tuple n (map maskd l)
  | D_struct n l => D_struct n (map (fun f => (fst f, maskd (snd f))) l)
  | D_list l => D_list (map maskd l)
  | D_set l => D_set (map maskd l)
  | D_entry k v => D_entry (mword k) (maskd v)
  end.

Lemma bare_word : forall s, bare s -> word s.
Proof.
  intros s [Hn H]. split; [exact Hn|]. apply forallb_forall. rewrite forallb_forall in H. intros c Hc. specialize (H c Hc). unfold bare_char in H.
  apply andb_true_iff in H. tauto.
Qed.
Lemma maskd_wf : forall d, wfq d -> wf (maskd d).
Proof.
  induction d as [t|n l IH|n l IH|l IH|l IH|k v IH] using dbg_ind'; intro W; inversion W; subst; cbn [maskd].
  - constructor. now apply mword_word.
  - constructor; [now apply bare_word|destruct l; [congruence|discriminate]|]. rewrite Forall_forall in *. intros x Hx. apply in_map_iff in Hx. destruct Hx as [y [<- Hy]]. auto.
  - constructor; [now apply bare_word|destruct l; [congruence|discriminate]| |]; rewrite Forall_forall in *; intros x Hx; apply in_map_iff in Hx; destruct Hx as [y [<- Hy]]; cbn [fst snd]; auto using bare_word.
  - constructor. rewrite Forall_forall in *. intros x Hx. apply in_map_iff in Hx. destruct Hx as [y [<- Hy]]. auto.
  - constructor. rewrite Forall_forall in *. intros x Hx. apply in_map_iff in Hx. destruct Hx as [y [<- Hy]]. auto.
  - constructor; [now apply mword_word|auto].
Qed.

Lemma maskd_inj : forall d, wfq d -> forall d', wfq d' -> maskd d = maskd d' -> d = d'.
Proof.
  assert (L : forall l, Forall (fun d => wfq d -> forall d', wfq d' -> maskd d = maskd d' -> d = d') l -> Forall wfq l ->
    forall l', Forall wfq l' -> map maskd l = map maskd l' -> l = l').
  { intros l IH W. induction l as [|a l IHl]; intros [|b l'] W' E; try reflexivity; try discriminate E. cbn in E. injection E as E1 E2.
    inversion IH; inversion W; inversion W'; subst. f_equal; auto. }
  assert (L' : forall l, Forall (fun f : string * dbg => wfq (snd f) -> forall d', wfq d' -> maskd (snd f) = maskd d' -> snd f = d') l -> Forall (fun f => wfq (snd f)) l ->
    forall l', Forall (fun f => wfq (snd f)) l' -> map (fun f => (fst f, maskd (snd f))) l = map (fun f => (fst f, maskd (snd f))) l' -> l = l').
  { intros l IH W. induction l as [|[fa a] l IHl]; intros [|[fb b] l'] W' E; try reflexivity; try discriminate E. cbn in E. injection E as -> E1 E2.
    inversion IH; inversion W; inversion W'; subst. cbn [snd] in *. f_equal; [f_equal; auto|auto]. }
  induction d as [t|n l IH|n l IH|l IH|l IH|k v IH] using dbg_ind'; intros W d' W' E; inversion W; subst; inversion W'; subst; cbn [maskd] in E; try discriminate E; injection E; intros; subst; f_equal; auto.
  - now apply mword_inj.
  - now apply mword_inj.
Qed.

Lemma masks_join : forall A (f : A -> string) g l, (forall x, In x l -> masks (f x) (g x)) -> masks (join ", " (map f l)) (items false (map g l)).
Proof.
  intros A f g l H. induction l as [|a l IH]; [cbn; split; [reflexivity|]; split; [reflexivity|exact I]|].
  destruct l as [|b l]; [apply H; now left|].
  change (join ", " (map f (a :: b :: l))) with (f a ++ ", " ++ join ", " (map f (b :: l))).
  change (items false (map g (a :: b :: l))) with (g a ++ [","%char] ++ items false (map g (b :: l)))%list.
  apply masks_app; [apply H; now left|]. apply masks_app; [split; [reflexivity|]; split; [reflexivity|cbn; repeat split; intro; reflexivity]|].
  apply IH. intros x Hx. apply H. now right.
Qed.
Lemma masks_lines : forall A (f : A -> string) g l, (forall x, In x l -> masks (f x) (g x ++ [","%char])%list) ->
  masks (String.concat "" (map f l)) (items true (map g l)).
Proof.
  intros A f g l H. induction l as [|a l IH]; [cbn; split; [reflexivity|]; split; [reflexivity|exact I]|]. cbn [map]. rewrite concat_cons.
  replace (items true (g a :: map g l)) with ((g a ++ [","%char]) ++ items true (map g l))%list.
  - apply masks_app; [apply H; now left|]. apply IH. intros x Hx. apply H. now right.
  - destruct l as [|b l]; cbn [map items]; [now rewrite app_nil_r|]. now rewrite <- app_assoc.
Qed.

Ltac small := split; [reflexivity|]; split; [reflexivity|cbn; repeat (split; [intro; reflexivity|]); exact I].

Lemma compact_masks : forall d, wfq d -> masks (compact d) (flat false (maskd d)).
Proof.
  induction d as [t|n l IH|n l IH|l IH|l IH|k v IH] using dbg_ind'; intro W; inversion W; subst; cbn [compact maskd flat].
  - now apply spelled_masks.
  - apply masks_app; [now apply bare_masks|]. change (masks ("(" ++ (join ", " (map compact l) ++ ")")) (["("%char] ++ (items false (map (flat false) (map maskd l)) ++ [")"%char]))%list).
    apply masks_app; [small|]. apply masks_app; [|small]. rewrite map_map. apply masks_join. intros x Hx. rewrite Forall_forall in *. auto.
  - apply masks_app; [now apply bare_masks|]. rewrite map_map.
    change (masks (" { " ++ (join ", " (map (fun f => fst f ++ ": " ++ compact (snd f)) l) ++ " }"))
      (["{"%char] ++ (items false (map (fun f => (list_ascii_of_string (fst f) ++ [":"%char] ++ flat false (maskd (snd f)))%list) l) ++ ["}"%char]))%list).
    apply masks_app; [small|]. apply masks_app; [|small]. apply masks_join. intros x Hx. rewrite Forall_forall in *.
    apply masks_app; [apply bare_masks; auto|]. apply masks_app; [small|]. apply IH; auto.
  - rewrite map_map. change (masks ("[" ++ (join ", " (map compact l) ++ "]")) (["["%char] ++ (items false (map (fun x => flat false (maskd x)) l) ++ ["]"%char]))%list).
    apply masks_app; [small|]. apply masks_app; [|small]. apply masks_join. intros x Hx. rewrite Forall_forall in *. auto.
  - rewrite map_map. change (masks ("{" ++ (join ", " (map compact l) ++ "}")) (["{"%char] ++ (items false (map (fun x => flat false (maskd x)) l) ++ ["}"%char]))%list).
    apply masks_app; [small|]. apply masks_app; [|small]. apply masks_join. intros x Hx. rewrite Forall_forall in *. auto.
  - apply masks_app; [now apply spelled_masks|].
    match goal with |- masks (": " ++ ?a) (":"%char :: ?c)%list => change (masks (": " ++ a) ([":"%char] ++ c)%list) end.
    apply masks_app; [small|auto].
Qed.

Lemma pretty_masks : forall d, wfq d -> masks (pretty d) (flat true (maskd d)).
Proof.
  assert (CN : masks ("," ++ nl) [","%char]) by small.
  assert (IT : forall l, Forall (fun d => wfq d -> masks (pretty d) (flat true (maskd d))) l -> Forall wfq l ->
    masks (String.concat "" (map (fun x => pad (pretty x ++ "," ++ nl)) l)) (items true (map (fun x => flat true (maskd x)) l))).
  { intros l IH W. apply masks_lines. intros x Hx. rewrite Forall_forall in *. apply masks_pad. apply masks_app; [auto|exact CN]. }
  induction d as [t|n l IH|n l IH|l IH|l IH|k v IH] using dbg_ind'; intro W; inversion W; subst; cbn [pretty maskd flat]; rewrite ?map_map.
  - now apply spelled_masks.
  - apply masks_app; [now apply bare_masks|].
    match goal with |- masks ("(" ++ nl ++ ?a ++ ")") ("("%char :: ?b ++ _)%list => change (masks (("(" ++ nl) ++ (a ++ ")")) (["("%char] ++ (b ++ [")"%char]))%list) end.
    apply masks_app; [small|]. apply masks_app; [|small]. auto.
  - apply masks_app; [now apply bare_masks|].
    match goal with |- masks (" {" ++ nl ++ ?a ++ "}") ("{"%char :: ?b ++ _)%list => change (masks ((" {" ++ nl) ++ (a ++ "}")) (["{"%char] ++ (b ++ ["}"%char]))%list) end.
    apply masks_app; [small|]. apply masks_app; [|small]. apply masks_lines. intros x Hx. rewrite Forall_forall in *. cbn [fst snd]. apply masks_pad.
    rewrite <- app_assoc. apply masks_app; [apply bare_masks; auto|].
    match goal with |- masks (": " ++ ?a ++ ?b) ((":"%char :: ?c) ++ ?d)%list => change (masks (": " ++ (a ++ b)) ([":"%char] ++ (c ++ d))%list) end.
    apply masks_app; [small|]. apply masks_app; [apply IH; auto|exact CN].
  - destruct l as [|a l]; [small|].
    match goal with |- masks ("[" ++ nl ++ ?a ++ "]") ("["%char :: ?b ++ _)%list => change (masks (("[" ++ nl) ++ (a ++ "]")) (["["%char] ++ (b ++ ["]"%char]))%list) end.
    apply masks_app; [small|]. apply masks_app; [|small]. auto.
  - destruct l as [|a l]; [small|].
    match goal with |- masks ("{" ++ nl ++ ?a ++ "}") ("{"%char :: ?b ++ _)%list => change (masks (("{" ++ nl) ++ (a ++ "}")) (["{"%char] ++ (b ++ ["}"%char]))%list) end.
    apply masks_app; [small|]. apply masks_app; [|small]. auto.
  - apply masks_app; [now apply spelled_masks|].
    match goal with |- masks (": " ++ ?a) (":"%char :: ?c)%list => change (masks (": " ++ a) ([":"%char] ++ c)%list) end.
    apply masks_app; [small|auto].
Qed.

Lemma compact_determines : forall d d', wfq d -> wfq d' -> compact d = compact d' -> d = d'.
Proof.
  intros d d' W W' E. destruct (compact_masks d W) as [_ [F _]]. destruct (compact_masks d' W') as [_ [F' _]]. rewrite E, F' in F.
  apply maskd_inj; auto. apply (flat_split false (maskd d) (maskd_wf d W) (maskd d') [] []); cbn; auto using maskd_wf. now rewrite F.
Qed.
Lemma pretty_determines : forall d d', wfq d -> wfq d' -> pretty d = pretty d' -> d = d'.
Proof.
  intros d d' W W' E. destruct (pretty_masks d W) as [_ [F _]]. destruct (pretty_masks d' W') as [_ [F' _]]. rewrite E, F' in F.
  apply maskd_inj; auto. apply (flat_split true (maskd d) (maskd_wf d W) (maskd d') [] []); cbn; auto using maskd_wf. now rewrite F.
Qed.
