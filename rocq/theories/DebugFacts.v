(** * Facts about Debug texts *)
From Coq Require Import ZArith NArith List String Ascii Bool Lia.
From Flocq Require Import BinarySingleNaN.
From Verif Require Import F64 Syntax Parser Xprs Display DebugText SpecDebug.
Import ListNotations.
Local Open Scope string_scope.

(** ** Trees of names and items *)
Section DbgInd.
  Variable P : dbg -> Prop.
  Hypothesis Hw : forall t, P (D_word t).
  Hypothesis Ht : forall n l, Forall P l -> P (D_tuple n l).
  Hypothesis Hs : forall n l, Forall (fun f => P (snd f)) l -> P (D_struct n l).
  Hypothesis Hl : forall l, Forall P l -> P (D_list l).
  Hypothesis He : forall l, Forall P l -> P (D_set l).
  Hypothesis Hk : forall k v, P v -> P (D_entry k v).
  Fixpoint dbg_ind' (d : dbg) : P d :=
    match d with
    | D_word t => Hw t
    | D_tuple n l => Ht n l ((fix go l := match l return Forall P l with [] => Forall_nil _ | a :: l => Forall_cons _ (dbg_ind' a) (go l) end) l)
    | D_struct n l => Hs n l ((fix go l := match l return Forall (fun f => P (snd f)) l with [] => Forall_nil _ | a :: l => Forall_cons _ (dbg_ind' (snd a)) (go l) end) l)
    | D_list l => Hl l ((fix go l := match l return Forall P l with [] => Forall_nil _ | a :: l => Forall_cons _ (dbg_ind' a) (go l) end) l)
    | D_set l => He l ((fix go l := match l return Forall P l with [] => Forall_nil _ | a :: l => Forall_cons _ (dbg_ind' a) (go l) end) l)
    | D_entry k v => Hk k v (dbg_ind' v)
    end.
End DbgInd.

(** bytes that a word can have *)
Definition word_char (c : ascii) : bool :=
  negb (existsb (Ascii.eqb c) ["("; ")"; "["; "]"; "{"; "}"; ","; ":"; " "; "010"]%char).
Definition word (s : string) : Prop := s <> "" /\ forallb word_char (list_ascii_of_string s) = true.

Inductive wf : dbg -> Prop :=
| WF_word : forall t, word t -> wf (D_word t)
| WF_tuple : forall n l, word n -> l <> [] -> Forall wf l -> wf (D_tuple n l)
| WF_struct : forall n l, word n -> l <> [] -> Forall (fun f => word (fst f)) l -> Forall (fun f => wf (snd f)) l -> wf (D_struct n l)
| WF_list : forall l, Forall wf l -> wf (D_list l)
| WF_set : forall l, Forall wf l -> wf (D_set l)
| WF_entry : forall k v, word k -> wf v -> wf (D_entry k v).

(** ** Texts without blanks and line ends *)
Definition kept (c : ascii) : bool := negb (newline c) && negb (space c).
Definition squash (s : string) : list ascii := filter kept (list_ascii_of_string s).

Lemma las_app : forall a b, list_ascii_of_string (a ++ b) = (list_ascii_of_string a ++ list_ascii_of_string b)%list.
Proof. induction a as [|c a IH]; intro b; cbn; [reflexivity|]. now rewrite IH. Qed.
Lemma squash_app : forall a b, squash (a ++ b) = (squash a ++ squash b)%list.
Proof. intros a b. unfold squash. rewrite las_app. apply filter_app. Qed.
Lemma squash_pad : forall s on, squash (pad_from on s) = squash s.
Proof.
  induction s as [|c s IH]; intro on; [reflexivity|]. cbn [pad_from]. rewrite squash_app.
  replace (squash (if on then "    " else "")) with (@nil ascii) by (destruct on; reflexivity).
  cbn [app]. unfold squash in *. cbn [list_ascii_of_string filter]. rewrite IH. reflexivity.
Qed.
Lemma squash_word : forall s, word s -> squash s = list_ascii_of_string s.
Proof.
  intros s [_ H]. unfold squash. induction (list_ascii_of_string s) as [|c l IH]; [reflexivity|].
  cbn in H. apply andb_true_iff in H. destruct H as [Hc Hl]. cbn [filter].
  assert (E : kept c = true).
  { unfold word_char in Hc. cbn in Hc. unfold kept, newline, space. destruct (Ascii.eqb c "010"), (Ascii.eqb c " "); auto;
    rewrite ?orb_true_r in Hc; cbn in Hc; rewrite ?orb_true_r in Hc; discriminate Hc. }
  rewrite E. f_equal. auto.
Qed.

(** the items, each followed by a comma, or with commas between them *)
Fixpoint items (trail : bool) (l : list (list ascii)) : list ascii :=
  match l with
  | [] => []
  | [a] => if trail then (a ++ [","%char])%list else a
  | a :: l' => (a ++ ","%char :: items trail l')%list
  end.
Fixpoint flat (trail : bool) (d : dbg) : list ascii :=
  match d with
  | D_word t => list_ascii_of_string t
  | D_tuple n l => (list_ascii_of_string n ++ "("%char :: items trail (map (flat trail) l) ++ [")"%char])%list
  | D_struct n l => (list_ascii_of_string n ++ "{"%char ::
      items trail (map (fun f => (list_ascii_of_string (fst f) ++ ":"%char :: flat trail (snd f))%list) l) ++ ["}"%char])%list
  | D_list l => ("["%char :: items trail (map (flat trail) l) ++ ["]"%char])%list
  | D_set l => ("{"%char :: items trail (map (flat trail) l) ++ ["}"%char])%list
  | D_entry k v => (list_ascii_of_string k ++ ":"%char :: flat trail v)%list
  end.

Lemma squash_join : forall l, squash (join ", " l) = items false (map squash l).
Proof.
  induction l as [|a l IH]; [reflexivity|]. destruct l as [|b l]; [reflexivity|].
  change (join ", " (a :: b :: l)) with (a ++ ", " ++ join ", " (b :: l)).
  rewrite !squash_app, IH. reflexivity.
Qed.
Lemma concat_cons : forall a l, String.concat "" (a :: l) = a ++ String.concat "" l.
Proof. intros a [|b l]; [|reflexivity]. cbn. induction a as [|c a IH]; [reflexivity|]. cbn. now rewrite <- IH. Qed.
Lemma squash_lines : forall A (f : A -> string) g l, (forall x, In x l -> squash (f x) = (g x ++ [","%char])%list) ->
  squash (String.concat "" (map f l)) = items true (map g l).
Proof.
  intros A f g l H. induction l as [|a l IH]; [reflexivity|]. cbn [map]. rewrite concat_cons, squash_app, (H a) by (left; reflexivity).
  rewrite IH by (intros; apply H; now right). destruct l as [|b l]; cbn [map items]; [now rewrite app_nil_r|].
  now rewrite <- app_assoc.
Qed.

Lemma compact_flat : forall d, wf d -> squash (compact d) = flat false d.
Proof.
  induction d as [t|n l IH|n l IH|l IH|l IH|k v IH] using dbg_ind'; intro W; inversion W; subst; cbn [compact flat].
  - now apply squash_word.
  - rewrite squash_app, squash_word by assumption. f_equal. rewrite squash_app. change (squash "(") with ["("%char]. cbn [app]. f_equal.
    rewrite squash_app, squash_join, map_map. change (squash ")") with [")"%char]. do 2 f_equal.
    apply map_ext_in. intros a Ha. rewrite Forall_forall in *. auto.
  - rewrite squash_app, squash_word by assumption. f_equal. rewrite squash_app. change (squash " { ") with ["{"%char]. cbn [app]. f_equal.
    rewrite squash_app, squash_join, map_map. change (squash " }") with ["}"%char]. do 2 f_equal.
    apply map_ext_in. intros a Ha. rewrite Forall_forall in *. rewrite !squash_app, squash_word by auto. f_equal.
    change (squash ": ") with [":"%char]. cbn [app]. f_equal. apply IH; auto.
  - rewrite squash_app. change (squash "[") with ["["%char]. cbn [app]. f_equal.
    rewrite squash_app, squash_join, map_map. change (squash "]") with ["]"%char]. do 2 f_equal.
    apply map_ext_in. intros a Ha. rewrite Forall_forall in *. auto.
  - rewrite squash_app. change (squash "{") with ["{"%char]. cbn [app]. f_equal.
    rewrite squash_app, squash_join, map_map. change (squash "}") with ["}"%char]. do 2 f_equal.
    apply map_ext_in. intros a Ha. rewrite Forall_forall in *. auto.
  - rewrite !squash_app, squash_word by assumption. f_equal. change (squash ": ") with [":"%char]. cbn [app]. f_equal. auto.
Qed.

Lemma pretty_flat : forall d, wf d -> squash (pretty d) = flat true d.
Proof.
  assert (IT : forall l, Forall (fun d => wf d -> squash (pretty d) = flat true d) l -> Forall wf l ->
    squash (String.concat "" (map (fun x => pad (pretty x ++ "," ++ nl)) l)) = items true (map (flat true) l)).
  { intros l IH W. apply squash_lines. intros x Hx. rewrite Forall_forall in *. unfold pad. rewrite squash_pad, squash_app.
    rewrite IH by auto. reflexivity. }
  induction d as [t|n l IH|n l IH|l IH|l IH|k v IH] using dbg_ind'; intro W; inversion W; subst; cbn [pretty flat].
  - now apply squash_word.
  - rewrite squash_app, squash_word by assumption. f_equal. rewrite !squash_app. rewrite IT by assumption. reflexivity.
  - rewrite squash_app, squash_word by assumption. f_equal. rewrite !squash_app.
    rewrite (squash_lines _ _ (fun f => (list_ascii_of_string (fst f) ++ ":"%char :: flat true (snd f))%list)).
    + reflexivity.
    + intros x Hx. rewrite Forall_forall in *. unfold pad. rewrite squash_pad, !squash_app, squash_word by auto.
      rewrite IH by auto. rewrite <- app_assoc. reflexivity.
  - destruct l as [|a l]; [reflexivity|]. rewrite !squash_app. rewrite IT by assumption. reflexivity.
  - destruct l as [|a l]; [reflexivity|]. rewrite !squash_app. rewrite IT by assumption. reflexivity.
  - rewrite !squash_app, squash_word by assumption. f_equal. change (squash ": ") with [":"%char]. cbn [app]. f_equal. auto.
Qed.

(** ** The flat text determines the tree *)
Definition stop (c : ascii) : bool := existsb (Ascii.eqb c) [")"; "]"; "}"; ","]%char.
Definition stopped (r : list ascii) : Prop := match r with [] => True | c :: _ => stop c = true end.
Definition no_word (r : list ascii) : Prop := match r with [] => True | c :: _ => word_char c = false end.

Lemma word_split : forall a b r r', forallb word_char a = true -> forallb word_char b = true -> no_word r -> no_word r' ->
  (a ++ r = b ++ r' -> a = b /\ r = r')%list.
Proof.
  induction a as [|c a IH]; intros [|d b] r r' Ha Hb Hr Hr' E; cbn in *; auto.
  - subst r. cbn in Hr. apply andb_true_iff in Hb. destruct Hb as [Hb _]. congruence.
  - subst r'. cbn in Hr'. apply andb_true_iff in Ha. destruct Ha as [Ha _]. congruence.
  - injection E as <- E. apply andb_true_iff in Ha, Hb. destruct (IH b r r') as [-> ->]; try tauto.
Qed.
Lemma stopped_no_word : forall r, stopped r -> no_word r.
Proof.
  intros [|c r]; [auto|]. cbn [stopped no_word]. unfold stop, word_char. cbn [existsb]. intro H.
  repeat (apply orb_true_iff in H; destruct H as [H|H]); try discriminate H; apply Ascii.eqb_eq in H; subst c; reflexivity.
Qed.
Lemma las_inj : forall a b, list_ascii_of_string a = list_ascii_of_string b -> a = b.
Proof. intros a b H. rewrite <- (string_of_list_ascii_of_string a), <- (string_of_list_ascii_of_string b). now f_equal. Qed.
Lemma word_split' : forall a b r r', word a -> word b -> no_word r -> no_word r' ->
  (list_ascii_of_string a ++ r = list_ascii_of_string b ++ r' -> a = b /\ r = r')%list.
Proof. intros a b r r' [_ Ha] [_ Hb] Hr Hr' E. destruct (word_split _ _ r r' Ha Hb Hr Hr' E) as [K ->]. split; [now apply las_inj|reflexivity]. Qed.

(** the first byte *)
Lemma word_first : forall s r, word s -> exists c t, (list_ascii_of_string s ++ r)%list = c :: t /\ word_char c = true.
Proof.
  intros [|c s] r [H1 H2]; [congruence|]. cbn in *. apply andb_true_iff in H2. exists c, (list_ascii_of_string s ++ r)%list. tauto.
Qed.
Definition begins (l : list ascii) : Prop := exists c t, l = c :: t /\ stop c = false.
Lemma word_not_stop : forall c, word_char c = true -> stop c = false.
Proof.
  intros c H. destruct (stop c) eqn:E; [|reflexivity]. pose proof (stopped_no_word [c] E) as K. cbn in K. congruence.
Qed.
Lemma flat_begins : forall tr d r, wf d -> begins (flat tr d ++ r)%list.
Proof.
  intros tr d r W. inversion W; subst; cbn [flat]; rewrite <- ?app_assoc.
  - destruct (word_first t r) as [c [u [E K]]]; auto. exists c, u. split; [exact E|now apply word_not_stop].
  - match goal with |- begins (_ ++ ?q) => destruct (word_first n q) as [c [u [E K]]]; auto end. exists c, u. split; [exact E|now apply word_not_stop].
  - match goal with |- begins (_ ++ ?q) => destruct (word_first n q) as [c [u [E K]]]; auto end. exists c, u. split; [exact E|now apply word_not_stop].
  - eexists _, _. split; [reflexivity|reflexivity].
  - eexists _, _. split; [reflexivity|reflexivity].
  - match goal with |- begins (_ ++ ?q) => destruct (word_first k q) as [c [u [E K]]]; auto end. exists c, u. split; [exact E|now apply word_not_stop].
Qed.

(** parts that can be told apart *)
Definition separable {A} (g : A -> list ascii) (a : A) : Prop :=
  forall b r r', stopped r -> stopped r' -> (g a ++ r = g b ++ r')%list -> a = b /\ r = r'.

Lemma items_split : forall A (g : A -> list ascii) tr (Q : A -> Prop),
  (forall a r, Q a -> begins (g a ++ r)%list) ->
  forall l, Forall Q l -> Forall (fun a => forall b r r', Q b -> stopped r -> stopped r' -> (g a ++ r = g b ++ r')%list -> a = b /\ r = r') l ->
  forall l' x y r r', Forall Q l' -> stop x = true -> stop y = true -> x <> ","%char -> y <> ","%char ->
  (items tr (map g l) ++ x :: r = items tr (map g l') ++ y :: r')%list -> l = l' /\ x = y /\ r = r'.
Proof.
  intros A g tr Q HB. induction l as [|a l IH]; intros HQ HS l' x y r r' HQ' Hx Hy Nx Ny E.
  - destruct l' as [|b l']; [cbn in E; injection E as -> ->; auto|]. exfalso.
    inversion HQ'; subst.
    assert (K : exists q, (items tr (map g (b :: l')) ++ y :: r' = g b ++ q)%list).
    { cbn [map items]. destruct (map g l'); [destruct tr|]; rewrite <- ?app_assoc; eauto. }
    destruct K as [q K]. rewrite K in E. destruct (HB b q) as [c [t [E' N]]]; auto. rewrite E' in E. cbn in E. injection E as -> _. congruence.
  - inversion HQ as [|? ? Qa Ql]; inversion HS as [|? ? Sa Sl]; subst.
    destruct l' as [|b l'].
    { exfalso. assert (K : exists q, (items tr (map g (a :: l)) ++ x :: r = g a ++ q)%list).
      { cbn [map items]. destruct (map g l); [destruct tr|]; rewrite <- ?app_assoc; eauto. }
      destruct K as [q K]. rewrite K in E. destruct (HB a q) as [c [t [E' N]]]; auto. rewrite E' in E. cbn in E. injection E as -> _. congruence. }
    inversion HQ' as [|? ? Qb Ql']; subst.
    assert (K : forall z u s, stop u = true -> u <> ","%char -> exists q, (items tr (map g (a :: z)) ++ u :: s = g a ++ q)%list /\ stopped q /\
      (q = (if (match z with [] => tr | _ => true end) then ","%char :: items tr (map g z) ++ u :: s else u :: s)%list)).
    { intros z u s Hu Nu. destruct z as [|z0 z]; [destruct tr|]; cbn [map items]; rewrite <- ?app_assoc; eexists; (split; [reflexivity|split; [|reflexivity]]); cbn; auto. }
    assert (K' : forall b z u s, stop u = true -> u <> ","%char -> exists q, (items tr (map g (b :: z)) ++ u :: s = g b ++ q)%list /\ stopped q /\
      (q = (if (match z with [] => tr | _ => true end) then ","%char :: items tr (map g z) ++ u :: s else u :: s)%list)).
    { clear. intros b z u s Hu Nu. destruct z as [|z0 z]; [destruct tr|]; cbn [map items]; rewrite <- ?app_assoc; eexists; (split; [reflexivity|split; [|reflexivity]]); cbn; auto. }
    destruct (K' a l x r Hx Nx) as [q [Eq [Sq Dq]]]. destruct (K' b l' y r' Hy Ny) as [q' [Eq' [Sq' Dq']]].
    rewrite Eq, Eq' in E. destruct (Sa b q q' Qb Sq Sq' E) as [<- Eqq].
    rewrite Dq, Dq' in Eqq.
    assert (F : (items tr (map g l) ++ x :: r = items tr (map g l') ++ y :: r')%list).
    { destruct l as [|a0 l], l' as [|b0 l']; destruct tr; cbn [app] in Eqq;
        try (injection Eqq as Eqq; exact Eqq); try (exact Eqq); try (injection Eqq as E1 E2; congruence). }
    destruct (IH Ql Sl l' x y r r') as [-> [-> ->]]; auto.
Qed.

Lemma flat_split : forall tr d, wf d -> forall d' r r', wf d' -> stopped r -> stopped r' ->
  (flat tr d ++ r = flat tr d' ++ r')%list -> d = d' /\ r = r'.
Proof.
  intro tr.
  assert (NW : forall c r, word_char c = false -> no_word (c :: r)) by (intros; assumption).
  assert (Not : forall s c q r, word s -> word_char c = false -> (list_ascii_of_string s ++ q = c :: r)%list -> False).
  { intros s c q r Ws Wc E. destruct (word_first s q Ws) as [x [t [E' Hx]]]. rewrite E' in E. injection E as -> _. congruence. }
  induction d as [t|n l IH|n l IH|l IH|l IH|k v IH] using dbg_ind'; intros W d' r r' W' Sr Sr' E; inversion W; subst; inversion W'; subst;
    cbn [flat] in E; rewrite <- ?app_assoc in E; cbn [app] in E; rewrite <- ?app_assoc in E; cbn [app] in E;
    try (exfalso; eapply Not; [| |exact E]; [assumption|reflexivity]);
    try (exfalso; symmetry in E; eapply Not; [| |exact E]; [assumption|reflexivity]);
    try discriminate E.
  - apply word_split' in E; auto using stopped_no_word. destruct E as [-> ->]. auto.
  - apply word_split' in E; auto using stopped_no_word. destruct E as [_ ->]. cbn in Sr. discriminate Sr.
  - apply word_split' in E; auto using stopped_no_word. destruct E as [_ ->]. cbn in Sr. discriminate Sr.
  - apply word_split' in E; auto using stopped_no_word. destruct E as [_ ->]. cbn in Sr. discriminate Sr.
  - apply word_split' in E; auto using stopped_no_word. destruct E as [_ <-]. cbn in Sr'. discriminate Sr'.
  - apply word_split' in E; auto. destruct E as [-> E]. injection E as E.
    apply (items_split _ (flat tr) tr wf) in E; auto using flat_begins; try discriminate.
    + destruct E as [-> [_ ->]]. auto.
    + rewrite Forall_forall in *. intros a Ha b s s' Wb. apply IH; auto.
  - apply word_split' in E; auto. destruct E as [_ E]. discriminate E.
  - apply word_split' in E; auto. destruct E as [_ E]. discriminate E.
  - apply word_split' in E; auto using stopped_no_word. destruct E as [_ <-]. cbn in Sr'. discriminate Sr'.
  - apply word_split' in E; auto. destruct E as [_ E]. discriminate E.
  - apply word_split' in E; auto. destruct E as [-> E]. injection E as E.
    apply (items_split _ (fun f => (list_ascii_of_string (fst f) ++ ":"%char :: flat tr (snd f))%list) tr (fun f => word (fst f) /\ wf (snd f))) in E;
      try discriminate; try reflexivity.
    + destruct E as [-> [_ ->]]. auto.
    + intros a s [Wa _]. rewrite <- app_assoc. match goal with |- begins (_ ++ ?q) => destruct (word_first (fst a) q Wa) as [c [u [E' K]]] end.
      exists c, u. split; [exact E'|now apply word_not_stop].
    + rewrite Forall_forall in *. auto.
    + rewrite Forall_forall in *. intros [fa a] Ha [fb b] s s' [Wf Wb] Ss Ss' E'. cbn [fst snd] in *. rewrite <- !app_assoc in E'. cbn [app] in E'.
      apply word_split' in E'; auto; [|match goal with K : forall x, In x l -> word (fst x) |- _ => apply (K _ Ha) end]. destruct E' as [-> E']. injection E' as E'.
      apply (IH _ Ha) in E'; auto. cbn [snd] in E'. destruct E' as [-> ->]. auto.
    + rewrite Forall_forall in *. auto.
  - apply word_split' in E; auto. destruct E as [_ E]. discriminate E.
  - injection E as E. apply (items_split _ (flat tr) tr wf) in E; auto using flat_begins; try discriminate.
    + destruct E as [-> [_ ->]]. auto.
    + rewrite Forall_forall in *. intros a Ha b s s' Wb. apply IH; auto.
  - injection E as E. apply (items_split _ (flat tr) tr wf) in E; auto using flat_begins; try discriminate.
    + destruct E as [-> [_ ->]]. auto.
    + rewrite Forall_forall in *. intros a Ha b s s' Wb. apply IH; auto.
  - apply word_split' in E; auto using stopped_no_word. destruct E as [_ <-]. cbn in Sr'. discriminate Sr'.
  - apply word_split' in E; auto. destruct E as [_ E]. discriminate E.
  - apply word_split' in E; auto. destruct E as [_ E]. discriminate E.
  - apply word_split' in E; auto. destruct E as [-> E]. injection E as E. apply IH in E; auto. destruct E as [-> ->]. auto.
Qed.

Lemma compact_injective : forall d d', wf d -> wf d' -> compact d = compact d' -> d = d'.
Proof.
  intros d d' W W' E. assert (F : flat false d = flat false d') by (rewrite <- !compact_flat by assumption; now rewrite E).
  apply (flat_split false d W d' [] []); cbn; auto. now rewrite F.
Qed.
Lemma pretty_injective : forall d d', wf d -> wf d' -> pretty d = pretty d' -> d = d'.
Proof.
  intros d d' W W' E. assert (F : flat true d = flat true d') by (rewrite <- !pretty_flat by assumption; now rewrite E).
  apply (flat_split true d W d' [] []); cbn; auto. now rewrite F.
Qed.

(** ** Layout *)
Lemma scan_app : forall a b st, scan st (a ++ b) = match scan st a with Some st' => scan st' b | None => None end.
Proof. induction a as [|c a IH]; intros b st; cbn [append scan]; [reflexivity|]. destruct (step st c); auto. Qed.

Definition deeper (st : nat * option nat) : nat * option nat :=
  (S (fst st), match snd st with None => None | Some 0 => Some 0 | Some k => Some (k + 4) end).
Definition fresh (st : nat * option nat) : bool := match snd st with Some 0 => true | _ => false end.

Lemma scan_pad : forall s st st', scan st s = Some st' -> scan (deeper st) (pad_from (fresh st) s) = Some (deeper st').
Proof.
  induction s as [|c s IH]; intros st st' H; [cbn in *; now injection H as ->|].
  cbn [scan] in H. destruct (step st c) as [st1|] eqn:E; [|discriminate H]. apply IH in H. cbn [pad_from]. rewrite scan_app.
  destruct st as [o lead].
  assert (K : exists st2, scan (deeper (o, lead)) (if fresh (o, lead) then "    " else "") = Some st2 /\
    step st2 c = Some (deeper st1) /\ fresh st1 = newline c).
  { unfold step in E. destruct (newline c) eqn:En.
    - injection E as <-. destruct lead as [[|k]|]; cbn [fresh snd]; eexists; (split; [reflexivity|]); unfold step; rewrite En; auto.
    - destruct lead as [k|].
      + assert (K : exists st2, scan (deeper (o, Some k)) (if fresh (o, Some k) then "    " else "") = Some st2 /\ st2 = (S o, Some (k + 4))).
        { destruct k as [|k]; cbn [fresh snd]; eexists; split; reflexivity. }
        destruct K as [st2 [K ->]]. exists (S o, Some (k + 4)). split; [exact K|]. unfold step. rewrite En.
        destruct (space c); [injection E as <-; split; reflexivity|].
        destruct (closes c).
        * destruct o as [|n]; [discriminate E|]. destruct (Nat.eqb_spec k (4 * n)) as [->|N]; [|discriminate E]. injection E as <-.
          split; [|reflexivity]. replace (4 * n + 4) with (4 * S n) by lia. now rewrite Nat.eqb_refl.
        * destruct (Nat.eqb_spec k (4 * o)) as [->|N]; [|discriminate E]. injection E as <-.
          replace (4 * o + 4) with (4 * S o) by lia. rewrite Nat.eqb_refl. split; [|reflexivity]. destruct (opens c); reflexivity.
      + exists (S o, None). split; [reflexivity|]. unfold step. rewrite En. destruct (closes c).
        * destruct o as [|n]; [discriminate E|]. injection E as <-. split; reflexivity.
        * injection E as <-. split; [|reflexivity]. destruct (opens c); reflexivity. }
  destruct K as [st2 [K1 [K2 K3]]]. rewrite K1. cbn [scan]. rewrite K2. unfold newline in K3. rewrite <- K3. exact H.
Qed.

Lemma word_step : forall c, word_char c = true -> newline c = false /\ space c = false /\ closes c = false /\ opens c = false.
Proof.
  intros c H. unfold word_char in H. apply negb_true_iff in H. cbn [existsb] in H.
  repeat (apply orb_false_iff in H; destruct H as [? H]). unfold newline, space, closes, opens. cbn [existsb].
  repeat match goal with E : Ascii.eqb c _ = false |- _ => rewrite E end. auto.
Qed.
Lemma scan_word_rest : forall s o, forallb word_char (list_ascii_of_string s) = true -> scan (o, None) s = Some (o, None).
Proof.
  induction s as [|c s IH]; intros o H; [reflexivity|]. cbn in H. apply andb_true_iff in H. destruct H as [Hc H].
  destruct (word_step c Hc) as [H1 [H2 [H3 H4]]]. cbn [scan step]. rewrite H1, H3, H4. auto.
Qed.
Lemma scan_word : forall s, word s -> scan (0, Some 0) s = Some (0, None).
Proof.
  intros [|c s] [H1 H]; [congruence|]. cbn in H. apply andb_true_iff in H. destruct H as [Hc H].
  destruct (word_step c Hc) as [K1 [K2 [K3 K4]]]. cbn [scan step]. rewrite K1, K2, K3, K4. cbn. now apply scan_word_rest.
Qed.

Lemma pretty_scan : forall d, wf d -> scan (0, None) (pretty d) = Some (0, None) /\ scan (0, Some 0) (pretty d) = Some (0, None).
Proof.
  assert (L1 : forall s, scan (0, Some 0) s = Some (0, Some 0) -> scan (1, Some 0) (pad s) = Some (1, Some 0)).
  { intros s H. exact (scan_pad s (0, Some 0) _ H). }
  assert (LS : forall A (f : A -> string) l, (forall x, In x l -> scan (0, Some 0) (f x) = Some (0, Some 0)) ->
     scan (1, Some 0) (String.concat "" (map (fun x => pad (f x)) l)) = Some (1, Some 0)).
  { intros A f l H. induction l as [|a l IH]; [reflexivity|]. cbn [map]. rewrite concat_cons, scan_app, L1 by (apply H; now left).
    apply IH. intros. apply H. now right. }
  assert (EndI : forall s, scan (0, Some 0) s = Some (0, None) -> scan (0, Some 0) (s ++ "," ++ nl) = Some (0, Some 0)).
  { intros s H. rewrite scan_app, H. reflexivity. }
  assert (Items : forall l, Forall (fun d => wf d -> scan (0, None) (pretty d) = Some (0, None) /\ scan (0, Some 0) (pretty d) = Some (0, None)) l ->
     Forall wf l -> scan (1, Some 0) (String.concat "" (map (fun x => pad (pretty x ++ "," ++ nl)) l)) = Some (1, Some 0)).
  { intros l IH W. apply (LS _ (fun x => pretty x ++ "," ++ nl)). intros x Hx. rewrite Forall_forall in *. apply EndI. apply IH; auto. }
  assert (Named : forall n body, word n -> (scan (0, None) body = Some (0, None)) ->
     scan (0, None) (n ++ body) = Some (0, None) /\ scan (0, Some 0) (n ++ body) = Some (0, None)).
  { intros n body Wn H. rewrite !scan_app, scan_word by exact Wn. rewrite scan_word_rest by apply Wn. auto. }
  induction d as [t|n l IH|n l IH|l IH|l IH|k v IH] using dbg_ind'; intro W; inversion W; subst; cbn [pretty].
  - split; [apply scan_word_rest; apply H0|now apply scan_word].
  - apply Named; [assumption|]. rewrite scan_app. change (scan (0, None) "(") with (Some (1, @None nat)). cbn [scan]. rewrite scan_app.
    change (scan (1, None) nl) with (Some (1, Some 0)). cbn iota. rewrite scan_app, Items by assumption. reflexivity.
  - apply Named; [assumption|]. rewrite scan_app. change (scan (0, None) " {") with (Some (1, @None nat)). cbn iota. rewrite scan_app.
    change (scan (1, None) nl) with (Some (1, Some 0)). cbn iota. rewrite scan_app.
    rewrite (LS _ (fun f => fst f ++ ": " ++ pretty (snd f) ++ "," ++ nl)); [reflexivity|].
    intros f Hf. rewrite Forall_forall in *. rewrite scan_app, scan_word by auto. rewrite scan_app.
    change (scan (0, None) ": ") with (Some (0, @None nat)). cbn iota. rewrite scan_app.
    destruct (IH f Hf) as [K _]; auto. rewrite K. reflexivity.
  - destruct l as [|a l]; [split; reflexivity|]. split.
    + rewrite scan_app. change (scan (0, None) "[") with (Some (1, @None nat)). cbn iota. rewrite scan_app.
      change (scan (1, None) nl) with (Some (1, Some 0)). cbn iota. rewrite scan_app, Items by assumption. reflexivity.
    + rewrite scan_app. change (scan (0, Some 0) "[") with (Some (1, @None nat)). cbn iota. rewrite scan_app.
      change (scan (1, None) nl) with (Some (1, Some 0)). cbn iota. rewrite scan_app, Items by assumption. reflexivity.
  - destruct l as [|a l]; [split; reflexivity|]. split.
    + rewrite scan_app. change (scan (0, None) "{") with (Some (1, @None nat)). cbn iota. rewrite scan_app.
      change (scan (1, None) nl) with (Some (1, Some 0)). cbn iota. rewrite scan_app, Items by assumption. reflexivity.
    + rewrite scan_app. change (scan (0, Some 0) "{") with (Some (1, @None nat)). cbn iota. rewrite scan_app.
      change (scan (1, None) nl) with (Some (1, Some 0)). cbn iota. rewrite scan_app, Items by assumption. reflexivity.
  - apply Named; [assumption|]. rewrite scan_app. change (scan (0, None) ": ") with (Some (0, @None nat)). cbn iota. apply IH. assumption.
Qed.
