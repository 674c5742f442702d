(** * Facts about reading in the REPL: trimming and numbers *)
From Coq Require Import ZArith NArith List String Ascii Bool Lia Reals Lra.
From Verif Require Import F64 Syntax Parser Repl SpecUtf8 SpecNumber SpecRepl NumberFacts.
Import ListNotations.
Local Open Scope list_scope.

(** ** The table of white space *)
Lemma ascii_code : forall a n, code a = n -> a = ascii_of_N n.
Proof. intros a n <-. unfold code. symmetry. apply ascii_N_embedding. Qed.

Lemma in_check : forall x l, (if in_dec (list_eq_dec ascii_dec) x l then true else false) = true -> In x l.
Proof. intros x l. destruct (in_dec _ x l); [auto|discriminate]. Qed.

Lemma white_space_iff : forall ch, In ch white_space <-> exists u, utf8_char ch u /\ is_white u.
Proof.
  intro ch. split.
  - intro H. unfold white_space in H. cbn [map] in H.
    repeat (destruct H as [<-|H]; [
      (eexists; split; [first [apply U1|apply U2|apply U3]; unfold within, code; repeat rewrite N_ascii_embedding by lia; lia|];
       unfold is_white, code; repeat rewrite N_ascii_embedding by lia; lia)|]). destruct H.
  - intros [u [Hu Hw]]. unfold is_white in Hw.
    destruct Hu as [a Ha|a b Ha Hb|a b c Hab Hc|a b c d Hab Hc Hd]; unfold within in *.
    + assert (K : (code a = 9 \/ code a = 10 \/ code a = 11 \/ code a = 12 \/ code a = 13 \/ code a = 32)%N) by lia.
      repeat (destruct K as [K|K]); rewrite (ascii_code _ _ K); apply in_check; vm_compute; reflexivity.
    + assert (K : (code a = 194 /\ code b = 133 \/ code a = 194 /\ code b = 160)%N) by lia.
      destruct K as [[K1 K2]|[K1 K2]]; rewrite (ascii_code _ _ K1), (ascii_code _ _ K2); apply in_check; vm_compute; reflexivity.
    + assert (K : (code a = 225 /\ code b = 154 /\ code c = 128 \/
                   code a = 226 /\ code b = 128 /\ (128 <= code c <= 138 \/ code c = 168 \/ code c = 169 \/ code c = 175) \/
                   code a = 226 /\ code b = 129 /\ code c = 159 \/
                   code a = 227 /\ code b = 128 /\ code c = 128)%N) by lia.
      destruct K as [[K1 [K2 K3]]|[[K1 [K2 K3]]|[[K1 [K2 K3]]|[K1 [K2 K3]]]]]; rewrite (ascii_code _ _ K1), (ascii_code _ _ K2);
        try (rewrite (ascii_code _ _ K3); apply in_check; vm_compute; reflexivity).
      assert (K : (code c = 128 \/ code c = 129 \/ code c = 130 \/ code c = 131 \/ code c = 132 \/ code c = 133 \/ code c = 134 \/
        code c = 135 \/ code c = 136 \/ code c = 137 \/ code c = 138 \/ code c = 168 \/ code c = 169 \/ code c = 175)%N) by lia. clear K3.
      repeat (destruct K as [K|K]); rewrite (ascii_code _ _ K); apply in_check; vm_compute; reflexivity.
    + exfalso. lia.
Qed.

Definition pieces (ps : list (list ascii)) (p : list ascii) : Prop :=
  exists cs, Forall (fun c => In c ps) cs /\ p = List.concat cs.

Lemma blanks_pieces : forall p, blanks p <-> pieces white_space p.
Proof.
  intro p. split.
  - induction 1 as [|ch u rest Hu Hw Hr [cs [IH ->]]]; [exists []; auto|]. exists (ch :: cs). split; [constructor; [|auto]|reflexivity].
    apply white_space_iff. eauto.
  - intros [cs [H ->]]. induction H as [|c cs Hc Hcs IH]; [constructor|]. cbn. apply white_space_iff in Hc. destruct Hc as [u [Hu Hw]].
    econstructor; eauto.
Qed.

Lemma pieces_rev : forall ps p, pieces ps p -> pieces (map (@rev ascii) ps) (rev p).
Proof.
  intros ps p [cs [H ->]]. exists (rev (map (@rev ascii) cs)). split.
  - apply Forall_rev. apply Forall_map. eapply Forall_impl; [|exact H]. intros c Hc. now apply in_map.
  - clear H. induction cs as [|c cs IH]; [reflexivity|]. cbn. rewrite rev_app_distr, concat_app, <- IH. cbn. now rewrite app_nil_r.
Qed.

(** ** Stripping *)
Fixpoint comparable (p q : list ascii) : bool :=
  match p, q with
  | a :: p', b :: q' => Ascii.eqb a b && comparable p' q'
  | _, _ => true
  end.
Definition prefix_free (ps : list (list ascii)) : bool :=
  forallb (fun p => forallb (fun q => if list_eq_dec ascii_dec p q then true else negb (comparable p q)) ps) ps.
Definition graphic (c : ascii) : bool := ((33 <=? N_of_ascii c) && (N_of_ascii c <=? 126))%N.
Definition begins_blank (ps : list (list ascii)) : bool :=
  forallb (fun p => match p with a :: _ => negb (graphic a) | [] => false end) ps.

Lemma without_prefix_some : forall p l r, without_prefix p l = Some r -> l = p ++ r.
Proof.
  induction p as [|a p IH]; intros l r H; [injection H as ->; reflexivity|]. destruct l as [|b l]; [discriminate|]. cbn in H.
  destruct (Ascii.eqb_spec a b) as [->|]; [|discriminate]. cbn. f_equal. auto.
Qed.
Lemma without_prefix_app : forall p l, without_prefix p (p ++ l) = Some l.
Proof. induction p; intros; [reflexivity|]. cbn. rewrite Ascii.eqb_refl. auto. Qed.
Lemma without_prefix_comparable : forall p q l r, without_prefix p (q ++ l) = Some r -> comparable p q = true.
Proof.
  induction p as [|a p IH]; intros [|b q] l r H; try reflexivity. cbn in *. destruct (Ascii.eqb a b); [|discriminate]. eauto.
Qed.
Lemma without_any_some : forall ps l r, without_any ps l = Some r -> exists c, In c ps /\ l = c ++ r.
Proof.
  induction ps as [|p ps IH]; intros l r H; [discriminate|]. cbn in H. destruct (without_prefix p l) as [l'|] eqn:E.
  - injection H as <-. apply without_prefix_some in E. exists p. split; [now left|exact E].
  - destruct (IH _ _ H) as [c [Hc E']]. exists c. split; [now right|exact E'].
Qed.
Lemma without_any_app : forall ps c l, prefix_free ps = true -> In c ps -> without_any ps (c ++ l) = Some l.
Proof.
  intros ps c l Hp Hc. unfold prefix_free in Hp. rewrite forallb_forall in Hp.
  assert (G : forall qs, incl qs ps -> In c qs -> without_any qs (c ++ l) = Some l).
  { induction qs as [|q qs IH]; intros Hi H; [destruct H|]. cbn. destruct (without_prefix q (c ++ l)) as [r|] eqn:E.
    - pose proof (without_prefix_comparable _ _ _ _ E) as K. specialize (Hp q (Hi q (or_introl eq_refl))). rewrite forallb_forall in Hp.
      specialize (Hp c Hc). destruct (list_eq_dec ascii_dec q c) as [->|]; [|rewrite K in Hp; discriminate].
      rewrite without_prefix_app in E. exact (eq_sym E).
    - destruct H as [->|H]; [rewrite without_prefix_app in E; discriminate|]. apply IH; auto. intros x Hx. apply Hi. now right. }
  apply G; auto. apply incl_refl.
Qed.
Lemma without_any_graphic : forall ps c l, begins_blank ps = true -> graphic c = true -> without_any ps (c :: l) = None.
Proof.
  induction ps as [|p ps IH]; intros c l H Hc; [reflexivity|]. cbn in H. apply andb_true_iff in H. destruct H as [H1 H2].
  cbn. destruct p as [|a p]; [discriminate|]. cbn. destruct (Ascii.eqb_spec a c) as [->|]; [rewrite Hc in H1; discriminate|]. auto.
Qed.

Lemma strip_pieces : forall ps fuel l, exists p, pieces ps p /\ l = p ++ strip fuel ps l.
Proof.
  induction fuel as [|fuel IH]; intros l; [exists []; split; [exists []; auto|reflexivity]|]. cbn.
  destruct (without_any ps l) as [l'|] eqn:E; [|exists []; split; [exists []; auto|reflexivity]].
  apply without_any_some in E. destruct E as [c [Hc ->]]. destruct (IH l') as [p [[cs [Hcs ->]] E]].
  exists (c ++ List.concat cs). split; [exists (c :: cs); auto|]. rewrite <- app_assoc. f_equal. exact E.
Qed.
Lemma strip_app : forall ps s, prefix_free ps = true -> begins_blank ps = true -> without_any ps s = None ->
  forall cs fuel, Forall (fun c => In c ps) cs -> List.length (List.concat cs ++ s) <= fuel -> strip fuel ps (List.concat cs ++ s) = s.
Proof.
  intros ps s Hp Hb Hs cs. induction cs as [|c cs IH]; intros fuel H L.
  - cbn. destruct fuel; cbn; [reflexivity|]. now rewrite Hs.
  - inversion H as [|? ? Hc Hcs]; subst. cbn [List.concat] in *. rewrite <- app_assoc in *. rewrite app_length in L.
    assert (1 <= List.length c).
    { unfold begins_blank in Hb. rewrite forallb_forall in Hb. specialize (Hb c Hc). destruct c; [discriminate|cbn; lia]. }
    destruct fuel as [|fuel]; [lia|]. cbn. rewrite without_any_app by auto. apply IH; auto. lia.
Qed.

(** Trimming leaves exactly the text between the blanks. *)
Lemma trim_iff : forall l t, t <> [] -> Forall (fun c => graphic c = true) t ->
  (trim l = t <-> exists p q, blanks p /\ blanks q /\ l = p ++ t ++ q).
Proof.
  intros l t Hn Hg.
  assert (F1 : prefix_free white_space = true) by (vm_compute; reflexivity).
  assert (F2 : prefix_free (map (@rev ascii) white_space) = true) by (vm_compute; reflexivity).
  assert (F3 : begins_blank white_space = true) by (vm_compute; reflexivity).
  assert (F4 : begins_blank (map (@rev ascii) white_space) = true) by (vm_compute; reflexivity).
  assert (Hhead : forall ps u r, begins_blank ps = true -> u <> [] -> Forall (fun c => graphic c = true) u -> without_any ps (u ++ r) = None).
  { intros ps u r Hb Hu Hf. destruct Hf as [|a u Ha _]; [congruence|]. now apply without_any_graphic. }
  split.
  - intro H. unfold trim in H. destruct (strip_pieces white_space (List.length l) l) as [p [Hp E]]. set (s := strip (List.length l) white_space l) in *.
    destruct (strip_pieces (map (@rev ascii) white_space) (List.length s) (rev s)) as [q [Hq E2]].
    set (s2 := strip (List.length s) (map (@rev ascii) white_space) (rev s)) in *.
    exists p, (rev q). split; [now apply blanks_pieces|]. split.
    + apply blanks_pieces. apply pieces_rev in Hq. rewrite map_map in Hq.
      rewrite (map_ext _ (fun x => x)) in Hq by apply rev_involutive. now rewrite map_id in Hq.
    + rewrite E. f_equal. rewrite <- H. apply (f_equal (@rev ascii)) in E2. rewrite rev_involutive, rev_app_distr in E2. exact E2.
  - intros [p [q [Hp [Hq ->]]]]. apply blanks_pieces in Hp, Hq. apply pieces_rev in Hq. destruct Hp as [cs [Hcs ->]]. destruct Hq as [ds [Hds E]].
    unfold trim. rewrite (strip_app white_space (t ++ q)); auto.
    rewrite rev_app_distr, E. rewrite (strip_app (map (@rev ascii) white_space) (rev t)); auto.
    + apply rev_involutive.
    + specialize (Hhead (map (@rev ascii) white_space) (rev t) []). rewrite app_nil_r in Hhead. apply Hhead; auto.
      * intro K. apply (f_equal (@rev ascii)) in K. rewrite rev_involutive in K. now apply Hn.
      * now apply Forall_rev.
    + rewrite <- E, <- rev_app_distr, rev_length. lia.
Qed.

(** ** Numbers *)
Lemma mantissa_head : forall a m k, mantissa a m k -> exists c r, a = c :: r /\ (decimal_digit c \/ c = "."%char).
Proof.
  intros a m k [i Hi Hn|i f Hi Hf Hn].
  - destruct Hi as [|c i Hc _]; [congruence|]. eauto.
  - destruct Hi as [|c i Hc _]; cbn; eauto.
Qed.

Lemma decimal_iff : forall l v, parse_f64 l = Some v <->
  exists a b m k x, l = a ++ b /\ mantissa a m k /\ exponent b x /\ correctly_rounded (IZR m * powerRZ 10 (x - Z.of_nat k)) v.
Proof.
  intros l v. rewrite parse_f64_reads. split.
  - intros [m [e [[a [b [k [x [-> [Hm [Hx ->]]]]]]] ->]]]. exists a, b, (Z.of_N m), k, x. split; [auto|]. split; [auto|]. split; [auto|]. apply f64_of_dec_correct.
  - intros [a [b [m [k [x [-> [Hm [Hx Hr]]]]]]]].
    assert (Hp : (0 <= m)%Z).
    { inversion Hm; subst; apply digits_value_nonneg; auto. apply Forall_app; auto. }
    exists (Z.to_N m), (x - Z.of_nat k)%Z. rewrite Z2N.id by auto. split; [exists a, b, k, x; auto|].
    eapply correctly_rounded_unique; [|exact Hr|].
    + apply Rmult_le_pos; [now apply IZR_le|]. apply powerRZ_le. lra.
    + pose proof (f64_of_dec_correct (Z.to_N m) (x - Z.of_nat k)) as H. now rewrite Z2N.id in H by auto.
Qed.

Definition small (c : ascii) : bool := ((97 <=? N_of_ascii c) && (N_of_ascii c <=? 122))%N.
Lemma same_letter_lower : forall a c, small c = true -> (same_letter a c <-> lower a = c).
Proof.
  intros a c Hc. unfold small in Hc. apply andb_true_iff in Hc. destruct Hc as [H1 H2]. apply N.leb_le in H1, H2.
  unfold same_letter, lower. destruct (is_upper a) eqn:E.
  - assert (U : (65 <= N_of_ascii a <= 90)%N).
    { unfold is_upper, in_range in E. apply andb_true_iff in E. destruct E as [E1 E2]. apply N.leb_le in E1, E2.
      change (N_of_ascii "A") with 65%N in E1. change (N_of_ascii "Z") with 90%N in E2. lia. }
    split.
    + intros [->|[K _]]; [lia|]. rewrite K. apply ascii_N_embedding.
    + intros <-. right. split; [|exact U]. rewrite N_ascii_embedding; lia.
  - split; [|auto]. intros [->|[K U]]; [reflexivity|]. exfalso. unfold is_upper, in_range in E.
    apply andb_false_iff in E. change (N_of_ascii "A") with 65%N in E. change (N_of_ascii "Z") with 90%N in E.
    destruct E as [E|E]; apply N.leb_gt in E; lia.
Qed.
Lemma spells_iff : forall word l, forallb small (list_ascii_of_string word) = true -> (same_word l word = true <-> spells word l).
Proof.
  intros word l Hw. unfold same_word, spells. rewrite String.eqb_eq.
  assert (G : forall ws, forallb small ws = true -> forall l, map lower l = ws <-> Forall2 same_letter l ws).
  { induction ws as [|c ws IH]; intros H m.
    - split; [intro E; destruct m; [constructor|discriminate]|intro F; inversion F; reflexivity].
    - cbn in H. apply andb_true_iff in H. destruct H as [Hc Hr]. split.
      + intro E. destruct m as [|a m]; [discriminate|]. cbn in E. injection E as E1 E2. constructor; [now apply same_letter_lower|now apply IH].
      + intro F. inversion F as [|a ? m' ? Fa Fm]; subst. cbn. f_equal; [now apply same_letter_lower|now apply IH]. }
  rewrite <- (G _ Hw). split; intro E.
  - rewrite <- E. now rewrite list_ascii_of_string_of_list_ascii.
  - rewrite E. apply string_of_list_ascii_of_string.
Qed.

Lemma spells_letters : forall word l, forallb small (list_ascii_of_string word) = true -> spells word l ->
  Forall (fun c => graphic c = true /\ (65 <= N_of_ascii c)%N) l.
Proof.
  intros word l Hw H. unfold spells in H. revert Hw. induction H as [|a c l ws Ha Hl IH]; intro Hw; [constructor|].
  cbn in Hw. apply andb_true_iff in Hw. destruct Hw as [Hc Hr]. constructor; [|auto].
  unfold small in Hc. apply andb_true_iff in Hc. destruct Hc as [H1 H2]. apply N.leb_le in H1, H2.
  unfold graphic. rewrite andb_true_iff, !N.leb_le. destruct Ha as [->|[K U]]; lia.
Qed.

Lemma digit_graphic : forall c, decimal_digit c -> graphic c = true.
Proof. intros c H. unfold decimal_digit in H. unfold graphic. rewrite andb_true_iff, !N.leb_le. lia. Qed.
Lemma digits_graphic : forall l, all_digits l -> Forall (fun c => graphic c = true) l.
Proof. intros l H. eapply Forall_impl; [|exact H]. apply digit_graphic. Qed.

(** What a number without its sign begins with, and that it has no blanks. *)
Lemma unsigned_shape : forall l v, unsigned_number l v ->
  Forall (fun c => graphic c = true) l /\ exists c r, l = c :: r /\ c <> "+"%char /\ c <> "-"%char.
Proof.
  intros l v [a b m k x u Hm Hx _|w Hw|w Hw].
  - split.
    + apply Forall_app. split.
      * destruct Hm as [i Hi _|i f Hi Hf _]; [now apply digits_graphic|]. apply Forall_app. split; [now apply digits_graphic|].
        constructor; [reflexivity|now apply digits_graphic].
      * destruct Hx as [|c ds [-> | ->] Hd _|c ds [-> | ->] Hd _|c ds [-> | ->] Hd _]; repeat (constructor; [reflexivity|]); try constructor; now apply digits_graphic.
    + destruct (mantissa_head _ _ _ Hm) as [c [r [-> Hc]]]. exists c, (r ++ b). split; [reflexivity|].
      destruct Hc as [Hc| ->]; [|split; discriminate]. unfold decimal_digit in Hc. split; intros ->; cbn in Hc; lia.
  - assert (G : exists word, forallb small (list_ascii_of_string word) = true /\ spells word w /\ word <> ""%string).
    { destruct Hw as [Hw|Hw]; [exists "inf"%string|exists "infinity"%string]; (split; [reflexivity|]); (split; [exact Hw|discriminate]). }
    destruct G as [word [Hs [Hp Hn]]]. pose proof (spells_letters _ _ Hs Hp) as F. split; [eapply Forall_impl; [|exact F]; intros ? [K _]; exact K|].
    destruct F as [|c r [_ Hc] _].
    + unfold spells in Hp. destruct word; [congruence|]. inversion Hp.
    + exists c, r. split; [reflexivity|]. split; intros ->; cbn in Hc; lia.
  - pose proof (spells_letters "nan" w eq_refl Hw) as F. split; [eapply Forall_impl; [|exact F]; intros ? [K _]; exact K|].
    destruct F as [|c r [_ Hc] _]; [inversion Hw|]. exists c, r. split; [reflexivity|]. split; intros ->; cbn in Hc; lia.
Qed.

Lemma word_not_decimal : forall word l, forallb small (list_ascii_of_string word) = true -> spells word l -> parse_f64 l = None.
Proof.
  intros word l Hs Hp. destruct (parse_f64 l) as [v|] eqn:E; [|reflexivity]. apply decimal_iff in E.
  destruct E as [a [b [m [k [x [-> [Hm _]]]]]]]. destruct (mantissa_head _ _ _ Hm) as [c [r [-> Hc]]].
  pose proof (spells_letters _ _ Hs Hp) as F. cbn in F. inversion F as [|? ? [_ K] _]; subst.
  destruct Hc as [Hc| ->]; [unfold decimal_digit in Hc; lia|cbn in K; lia].
Qed.

Lemma unsigned_iff : forall l v, unsigned_from_str l = Some v <-> unsigned_number l v.
Proof.
  intros l v. unfold unsigned_from_str. split.
  - destruct (parse_f64 l) as [u|] eqn:E.
    + intro H. injection H as <-. apply decimal_iff in E. destruct E as [a [b [m [k [x [-> [Hm [Hx Hr]]]]]]]]. econstructor; eauto.
    + destruct (same_word l "inf") eqn:E1; cbn [orb].
      { intro H. injection H as <-. apply UN_inf. left. apply spells_iff; [reflexivity|exact E1]. }
      destruct (same_word l "infinity") eqn:E2.
      { intro H. injection H as <-. apply UN_inf. right. apply spells_iff; [reflexivity|exact E2]. }
      destruct (same_word l "nan") eqn:E3; [|discriminate]. intro H. injection H as <-. apply UN_nan. apply spells_iff; [reflexivity|exact E3].
  - intros [a b m k x u Hm Hx Hr|w [Hw|Hw]|w Hw].
    + assert (E : parse_f64 (a ++ b) = Some u) by (apply decimal_iff; exists a, b, m, k, x; auto). now rewrite E.
    + rewrite (word_not_decimal "inf") by auto. now rewrite (proj2 (spells_iff "inf" w eq_refl)).
    + rewrite (word_not_decimal "infinity") by auto. rewrite (proj2 (spells_iff "infinity" w eq_refl)) by auto. now rewrite orb_true_r.
    + rewrite (word_not_decimal "nan") by auto. rewrite (proj2 (spells_iff "nan" w eq_refl)) by auto.
      destruct (same_word w "inf") eqn:E1; [apply (spells_iff "inf" w eq_refl) in E1; exfalso|].
      { unfold spells in *. cbn in *. inversion Hw as [|a ? m ? Ha Hm]; subst. inversion E1 as [|? ? ? ? Hb _]; subst.
        apply same_letter_lower in Ha, Hb; [|reflexivity..]. congruence. }
      destruct (same_word w "infinity") eqn:E2; [apply (spells_iff "infinity" w eq_refl) in E2; exfalso|reflexivity].
      unfold spells in *. cbn in *. inversion Hw as [|a ? m ? Ha Hm]; subst. inversion E2 as [|? ? ? ? Hb _]; subst.
      apply same_letter_lower in Ha, Hb; [|reflexivity..]. congruence.
Qed.

Lemma from_str_iff : forall l v, f64_from_str l = Some v <-> number_text l v.
Proof.
  intros l v. unfold f64_from_str. split.
  - destruct l as [|c l]; [intro H; apply NT_bare; now apply unsigned_iff|].
    destruct (Ascii.eqb_spec c "-") as [->|N1].
    { destruct (unsigned_from_str l) as [u|] eqn:E; cbn; [|discriminate]. intro H. injection H as <-. apply NT_minus. now apply unsigned_iff. }
    destruct (Ascii.eqb_spec c "+") as [->|N2]; [intro H; apply NT_plus; now apply unsigned_iff|].
    intro H. apply NT_bare. now apply unsigned_iff.
  - intros [m u H|m u H|m u H].
    + destruct (unsigned_shape _ _ H) as [_ [c [r [-> [N1 N2]]]]]. destruct (Ascii.eqb_spec c "-"); [congruence|].
      destruct (Ascii.eqb_spec c "+"); [congruence|]. now apply unsigned_iff.
    + cbn. now apply unsigned_iff.
    + cbn. apply unsigned_iff in H. now rewrite H.
Qed.

Lemma number_text_shape : forall l v, number_text l v -> l <> [] /\ Forall (fun c => graphic c = true) l.
Proof.
  intros l v [m u H|m u H|m u H]; destruct (unsigned_shape _ _ H) as [F [c [r [-> _]]]]; (split; [discriminate|]); auto; constructor; auto.
Qed.

(** The two readings of a line. *)
Lemma answers_iff : forall line v, f64_from_str (trim (list_ascii_of_string line)) = Some v <-> answers_with line v.
Proof.
  intros line v. rewrite from_str_iff. unfold answers_with, surrounded. split.
  - intro H. exists (trim (list_ascii_of_string line)). split; [exact H|]. destruct (number_text_shape _ _ H) as [Hn Hg].
    now apply trim_iff.
  - intros [t [Ht Hs]]. destruct (number_text_shape _ _ Ht) as [Hn Hg]. apply (trim_iff _ t Hn Hg) in Hs. now rewrite Hs.
Qed.
Lemma exit_iff : forall line, String.eqb (string_of_list_ascii (trim (list_ascii_of_string line))) "exit" = true <-> says_exit line.
Proof.
  intro line. rewrite String.eqb_eq. unfold says_exit, surrounded. rewrite <- trim_iff; [|discriminate|repeat (constructor; [reflexivity|]); constructor].
  split; intro E.
  - rewrite <- E. now rewrite list_ascii_of_string_of_list_ascii.
  - rewrite E. apply string_of_list_ascii_of_string.
Qed.
