(** * Facts about literals and Debug texts with literals in them *)
From Coq Require Import ZArith NArith List String Ascii Bool Lia.
From Verif Require Import F64 Syntax Parser Xprs Display SpecUtf8 SpecLiteral DebugText DebugErrors SpecDebug DebugFacts.
Import ListNotations.
Local Open Scope N_scope.

(** ** UTF-8 *)
Lemma code_inj : forall a b, code a = code b -> a = b.
Proof. intros a b H. unfold code in H. rewrite <- (ascii_N_embedding a), <- (ascii_N_embedding b). now f_equal. Qed.
Lemma code_bound : forall a, code a < 256.
Proof. intro a. unfold code. apply N_ascii_bounded. Qed.

Lemma utf8_char_prefix : forall ch u ch' u' r r', utf8_char ch u -> utf8_char ch' u' -> (ch ++ r = ch' ++ r')%list ->
  ch = ch' /\ u = u' /\ r = r'.
Proof.
  intros ch u ch' u' r r' H H' E. inversion H; subst; inversion H'; subst; cbn in E; injection E; intros; subst;
    unfold within in *; try lia; auto.
Qed.
Lemma utf8_char_inj : forall ch ch' u, utf8_char ch u -> utf8_char ch' u -> ch = ch'.
Proof.
  intros ch ch' u H H'. inversion H; subst; inversion H'; subst; unfold within in *;
    try (exfalso; lia);
    repeat match goal with |- ?a :: ?l = ?b :: ?m => f_equal end; try reflexivity; apply code_inj; try lia.
Qed.
Lemma utf8_char_ascii : forall ch u, utf8_char ch u -> u < 128 -> exists a, ch = [a] /\ u = code a.
Proof. intros ch u H L. inversion H; subst; unfold within in *; try lia. eauto. Qed.
Lemma utf8_char_first : forall ch u, utf8_char ch u -> exists a t, ch = a :: t /\ (u < 128 -> u = code a) /\ (128 <= u -> 128 <= code a).
Proof. intros ch u H. inversion H; subst; unfold within in *; eexists _, _; split; try reflexivity; lia. Qed.
Lemma utf8_char_bytes : forall ch u, utf8_char ch u -> 128 <= u -> Forall (fun a => 128 <= code a) ch.
Proof. intros ch u H L. inversion H; subst; unfold within in *; repeat constructor; lia. Qed.

(** ** Hexadecimal numbers *)
Lemma hex_char_value : forall d, d < 16 -> hex_value (hex_char d) = Some d.
Proof.
  intros d H. assert (Hd : d = 0 \/ d = 1 \/ d = 2 \/ d = 3 \/ d = 4 \/ d = 5 \/ d = 6 \/ d = 7 \/ d = 8 \/ d = 9 \/ d = 10 \/ d = 11 \/ d = 12 \/ d = 13 \/ d = 14 \/ d = 15) by lia.
  repeat destruct Hd as [->|Hd]; try subst d; reflexivity.
Qed.
Fixpoint hex_fold (acc : N) (l : list ascii) : option N :=
  match l with [] => Some acc | c :: l' => match hex_value c with Some d => hex_fold (16 * acc + d) l' | None => None end end.
Lemma hex_fold_app : forall a b acc, hex_fold acc (a ++ b) = match hex_fold acc a with Some n => hex_fold n b | None => None end.
Proof. induction a as [|c a IH]; intros b acc; cbn; [reflexivity|]. destruct (hex_value c); [apply IH|reflexivity]. Qed.
Lemma hex_number_fold : forall l n, hex_number l n <-> hex_fold 0 l = Some n.
Proof.
  intros l n. split.
  - induction 1 as [|l n c d H IH Hc]; [reflexivity|]. rewrite hex_fold_app, IH. cbn [hex_fold]. now rewrite Hc.
  - revert n. induction l as [|c l IH] using rev_ind; intros n H; [injection H as <-; constructor|].
    rewrite hex_fold_app in H. destruct (hex_fold 0 l) as [m|]; [|discriminate H]. cbn [hex_fold] in H.
    destruct (hex_value c) as [d|] eqn:E; [|discriminate H]. injection H as <-. constructor; auto.
Qed.
Lemma hex_from_spec : forall fuel n acc, n < 2 ^ N.of_nat fuel -> (0 < fuel)%nat ->
  exists l, hex_from fuel n acc = (l ++ acc)%list /\ l <> [] /\ hex_number l n.
Proof.
  induction fuel as [|fuel IH]; intros n acc Hn Hf; [lia|]. cbn [hex_from].
  pose proof (N.div_mod n 16 ltac:(lia)) as Hdm. pose proof (N.mod_lt n 16 ltac:(lia)) as Hml.
  destruct (N.ltb_spec n 16) as [Hlt|Hge].
  - exists [hex_char (n mod 16)]. split; [reflexivity|]. split; [discriminate|].
    change [hex_char (n mod 16)] with ([] ++ [hex_char (n mod 16)])%list. replace n with (16 * 0 + n mod 16) at 2 by (rewrite N.mod_small; lia).
    constructor; [constructor|]. now apply hex_char_value.
  - assert (Hq : n / 16 < 2 ^ N.of_nat fuel).
    { rewrite Nat2N.inj_succ, N.pow_succ_r in Hn by lia. apply N.div_lt_upper_bound; lia. }
    assert (Hf' : (0 < fuel)%nat). { destruct fuel; [|lia]. exfalso. change (2 ^ N.of_nat 0) with 1 in Hq. lia. }
    destruct (IH (n / 16) (hex_char (n mod 16) :: acc) Hq Hf') as [l [-> [_ Hl]]].
    exists (l ++ [hex_char (n mod 16)])%list. rewrite <- app_assoc. split; [reflexivity|]. split; [destruct l; discriminate|].
    replace n with (16 * (n / 16) + n mod 16) at 2 by lia. constructor; [exact Hl|]. now apply hex_char_value.
Qed.
Lemma size_bound' : forall n, n < 2 ^ N.of_nat (N.size_nat n).
Proof.
  intros [|p]; [reflexivity|]. cbn [N.size_nat]. induction p as [p IH|p IH|]; cbn [Pos.size_nat]; try reflexivity;
    rewrite Nat2N.inj_succ, N.pow_succ_r by lia; lia.
Qed.
Lemma hex_of_spec : forall n, hex_of n <> [] /\ hex_number (hex_of n) n.
Proof.
  intro n. unfold hex_of. destruct (hex_from_spec (S (N.size_nat n)) n []) as [l [-> [H1 H2]]].
  - rewrite Nat2N.inj_succ, N.pow_succ_r by lia. pose proof (size_bound' n). lia.
  - lia.
  - rewrite app_nil_r. auto.
Qed.
Lemma hex_prefix : forall a b r r' n m, hex_fold n a <> None -> hex_fold m b <> None ->
  (a ++ "}"%char :: r = b ++ "}"%char :: r')%list -> a = b /\ r = r'.
Proof.
  induction a as [|c a IH]; intros [|d b] r r' n m Ha Hb E; cbn in E.
  - injection E as ->. auto.
  - injection E as <- E. cbn in Hb. congruence.
  - injection E as -> E. cbn in Ha. congruence.
  - injection E as <- E. cbn [hex_fold] in Ha, Hb. destruct (hex_value c) as [x|]; [|congruence].
    destruct (IH b r r' _ _ Ha Hb E) as [-> ->]. auto.
Qed.

(** ** What a literal stands for is determined by its text *)
Lemma escape_not_u : simple_escape "u" = None. Proof. reflexivity. Qed.

Lemma denotes_read : forall q l v, code q < 128 -> q <> "\"%char -> denotes q l v ->
  forall l' v' r r', denotes q l' v' -> (l ++ r = l' ++ r')%list -> l = l' /\ v = v' /\ r = r'.
Proof.
  intros q l v Hq Nq H. assert (HB : code "\" = 92) by reflexivity.
  induction H as [|ch u l v Hc H32 Nb Nqu H IH|c b l v Hs H IH|h u ch l v Hh Hn Hc H IH]; intros l' v' r r' H' E.
  - destruct H' as [|ch' u' l' v' Hc' H32' Nb' Nqu' H'|c' b' l' v' Hs' H'|h' u' ch' l' v' Hh' Hn' Hc' H'].
    + cbn in E. injection E as ->. auto.
    + exfalso. destruct (utf8_char_first _ _ Hc') as [a [t [-> [L1 L2]]]]. cbn in E. injection E as -> _.
      apply Nqu'. destruct (N.lt_ge_cases u' 128); [auto|]. specialize (L2 ltac:(assumption)). lia.
    + exfalso. cbn in E. injection E as -> _. congruence.
    + exfalso. cbn in E. injection E as -> _. congruence.
  - destruct H' as [|ch' u' l' v' Hc' H32' Nb' Nqu' H'|c' b' l' v' Hs' H'|h' u' ch' l' v' Hh' Hn' Hc' H'].
    + exfalso. destruct (utf8_char_first _ _ Hc) as [a [t [-> [L1 L2]]]]. cbn in E. injection E as -> _.
      apply Nqu. destruct (N.lt_ge_cases u 128); [auto|]. specialize (L2 ltac:(assumption)). lia.
    + rewrite <- !app_assoc in E. destruct (utf8_char_prefix _ _ _ _ _ _ Hc Hc' E) as [-> [_ E']].
      destruct (IH _ _ _ _ H' E') as [-> [-> ->]]. auto.
    + exfalso. destruct (utf8_char_first _ _ Hc) as [a [t [-> [L1 L2]]]]. cbn in E. injection E as -> _.
      apply Nb. destruct (N.lt_ge_cases u 128); [auto|]. specialize (L2 ltac:(assumption)). lia.
    + exfalso. destruct (utf8_char_first _ _ Hc) as [a [t [-> [L1 L2]]]]. cbn in E. injection E as -> _.
      apply Nb. destruct (N.lt_ge_cases u 128); [auto|]. specialize (L2 ltac:(assumption)). lia.
  - destruct H' as [|ch' u' l' v' Hc' H32' Nb' Nqu' H'|c' b' l' v' Hs' H'|h' u' ch' l' v' Hh' Hn' Hc' H'].
    + exfalso. cbn in E. injection E as E _. congruence.
    + exfalso. destruct (utf8_char_first _ _ Hc') as [a [t [-> [L1 L2]]]]. cbn in E. injection E as <- _.
      apply Nb'. destruct (N.lt_ge_cases u' 128); [auto|]. specialize (L2 ltac:(assumption)). lia.
    + cbn in E. injection E as <- E. rewrite Hs in Hs'. injection Hs' as <-. destruct (IH _ _ _ _ H' E) as [-> [-> ->]]. auto.
    + exfalso. cbn in E. injection E as -> _. rewrite escape_not_u in Hs. discriminate Hs.
  - destruct H' as [|ch' u' l' v' Hc' H32' Nb' Nqu' H'|c' b' l' v' Hs' H'|h' u' ch' l' v' Hh' Hn' Hc' H'].
    + exfalso. cbn in E. injection E as E _. congruence.
    + exfalso. destruct (utf8_char_first _ _ Hc') as [a [t [-> [L1 L2]]]]. cbn in E. injection E as <- _.
      apply Nb'. destruct (N.lt_ge_cases u' 128); [auto|]. specialize (L2 ltac:(assumption)). lia.
    + exfalso. cbn in E. injection E as <- _. rewrite escape_not_u in Hs'. discriminate Hs'.
    + cbn in E. injection E as E. rewrite <- !app_assoc in E. cbn [app] in E.
      apply hex_number_fold in Hn, Hn'. destruct (hex_prefix h h' (l ++ r) (l' ++ r') 0 0) as [<- E'];
        [rewrite Hn; discriminate|rewrite Hn'; discriminate|exact E|].
      rewrite Hn in Hn'. injection Hn' as <-. rewrite (utf8_char_inj _ _ _ Hc Hc') in *.
      destruct (IH _ _ _ _ H' E') as [-> [-> ->]]. auto.
Qed.

(** ** The escaped text denotes the text *)
Section Escape.
  Variable shown : N -> bool.
  Hypothesis Hshown : forall u, u < 32 -> shown u = false.
  Variable q : ascii.
  Hypothesis Hq : q = quote \/ q = tick.

  Lemma denotes_escape : forall ch u l v, utf8_char ch u -> denotes q l v ->
    denotes q (escape_char shown q u ch ++ l) (ch ++ v).
  Proof.
    intros ch u l v Hc H. unfold escape_char.
    assert (S1 : forall b c, simple_escape c = Some b -> u = code b -> denotes q (["\"%char; c] ++ l) (ch ++ v)).
    { intros b c Hs Hu. destruct (utf8_char_ascii ch u Hc) as [a [-> Ha]].
      { rewrite Hu. unfold simple_escape in Hs. repeat match type of Hs with (if ?x then _ else _) = _ => destruct x; [injection Hs as <-; reflexivity|] end. discriminate Hs. }
      rewrite Ha in Hu. apply code_inj in Hu. subst b. cbn [app]. now constructor. }
    destruct (N.eqb_spec u 0) as [E|N0]; [apply (S1 (ascii_of_N 0)); [reflexivity|exact E]|].
    destruct (N.eqb_spec u 9) as [E|N9]; [apply (S1 (ascii_of_N 9)); [reflexivity|exact E]|].
    destruct (N.eqb_spec u 13) as [E|N13]; [apply (S1 (ascii_of_N 13)); [reflexivity|exact E]|].
    destruct (N.eqb_spec u 10) as [E|N10]; [apply (S1 (ascii_of_N 10)); [reflexivity|exact E]|].
    destruct (N.eqb_spec u (N_of_ascii "\")) as [E|Nb]; [apply (S1 "\"%char); [reflexivity|exact E]|].
    destruct (N.eqb_spec u (N_of_ascii q)) as [E|Nq]; [apply (S1 q); [destruct Hq as [-> | ->]; reflexivity|exact E]|].
    destruct (shown u) eqn:Es.
    - econstructor; eauto. destruct (N.lt_ge_cases u 32) as [L|L]; [rewrite (Hshown u L) in Es; discriminate Es|exact L].
    - destruct (hex_of_spec u) as [H1 H2]. cbn [app]. rewrite <- app_assoc. cbn [app]. econstructor; eauto.
  Qed.

  Lemma escape_step : forall ch u rest, utf8_char ch u ->
    escape_bytes shown q (ch ++ rest) = (escape_char shown q u ch ++ escape_bytes shown q rest)%list.
  Proof.
    assert (F : forall x y, y <= x -> (x <? y) = false) by (intros x y Hxy; apply N.ltb_ge; exact Hxy).
    assert (T : forall x y, x < y -> (x <? y) = true) by (intros x y Hxy; apply N.ltb_lt; exact Hxy).
    intros ch u rest H. inversion H; subst; unfold within in *; cbn [app escape_bytes]; fold (code a).
    - now rewrite T by lia.
    - rewrite F by lia. rewrite T by lia. reflexivity.
    - rewrite F by lia. rewrite F by lia. rewrite T by lia. reflexivity.
    - rewrite F by lia. rewrite F by lia. rewrite F by lia. reflexivity.
  Qed.

  Lemma escape_denotes : forall l, utf8 l -> denotes q (escape_bytes shown q l ++ [q]) l.
  Proof.
    intros l H. induction H as [|ch u rest Hc Hr IH]; [constructor|].
    rewrite (escape_step _ _ _ Hc), <- app_assoc. now apply denotes_escape.
  Qed.
End Escape.
