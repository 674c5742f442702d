(** * The token relation: every text has exactly one token sequence *)
From Coq Require Import ZArith NArith List String Ascii Bool Lia.
From Verif Require Import SpecChars CharFacts.
From Verif Require Import F64 Syntax Builtins Context Parser ParserFacts SpecTokens.
Import ListNotations.
Local Open Scope nat_scope.

(** ** byte classes are disjoint *)
Lemma in_range_iff : forall c lo hi, between c lo hi = true <->
  (N_of_ascii lo <= N_of_ascii c <= N_of_ascii hi)%N.
Proof. intros. unfold between. rewrite andb_true_iff, !N.leb_le. tauto. Qed.

Lemma byte_cases : forall P : ascii -> bool, forallb P
  (map (fun n => ascii_of_N (N.of_nat n)) (seq 0 256)) = true -> forall c, P c = true.
Proof.
  intros P H c. rewrite forallb_forall in H. apply H. apply in_map_iff.
  exists (N.to_nat (N_of_ascii c)). rewrite N2Nat.id, ascii_N_embedding. split; auto.
  apply in_seq. pose proof (N_ascii_bounded c). lia.
Qed.

Lemma classes : forall c,
  (a_blank c = true -> a_digit c = false /\ a_letter c = false /\ in_mantissa c = false /\
     in_name c = false /\ exponent_mark c = false /\ a_sign c = false /\ Ascii.eqb c "." = false) /\
  (a_digit c = true -> in_mantissa c = true /\ in_name c = true /\ a_letter c = false /\
     exponent_mark c = false /\ a_sign c = false /\ a_small c = false /\ a_blank c = false) /\
  (a_letter c = true -> in_mantissa c = false /\ in_name c = true /\ a_digit c = false /\
     Ascii.eqb c "." = false /\ a_blank c = false) /\
  (exponent_mark c = true -> in_mantissa c = false /\ a_sign c = false /\ a_digit c = false /\ a_letter c = true) /\
  (a_sign c = true -> in_mantissa c = false /\ a_digit c = false) /\
  (Ascii.eqb c "." = true -> a_letter c = false /\ in_mantissa c = true /\ a_digit c = false /\ a_blank c = false).
Proof.
  intro c.
  assert (H : (
    (implb (a_blank c) (negb (a_digit c) && negb (a_letter c) && negb (in_mantissa c) && negb (in_name c)
       && negb (exponent_mark c) && negb (a_sign c) && negb (Ascii.eqb c "."))) &&
    (implb (a_digit c) (in_mantissa c && in_name c && negb (a_letter c) && negb (exponent_mark c)
       && negb (a_sign c) && negb (a_small c) && negb (a_blank c))) &&
    (implb (a_letter c) (negb (in_mantissa c) && in_name c && negb (a_digit c) && negb (Ascii.eqb c ".") && negb (a_blank c))) &&
    (implb (exponent_mark c) (negb (in_mantissa c) && negb (a_sign c) && negb (a_digit c) && a_letter c)) &&
    (implb (a_sign c) (negb (in_mantissa c) && negb (a_digit c))) &&
    (implb (Ascii.eqb c ".") (negb (a_letter c) && in_mantissa c && negb (a_digit c) && negb (a_blank c))))%bool = true).
  { revert c. apply byte_cases. vm_compute. reflexivity. }
  rewrite !andb_true_iff in H. destruct H as [[[[[H1 H2] H3] H4] H5] H6].
  refine (conj _ (conj _ (conj _ (conj _ (conj _ _))))); intro E;
    [rewrite E in H1; rename H1 into H|rewrite E in H2; rename H2 into H|rewrite E in H3; rename H3 into H
    |rewrite E in H4; rename H4 into H|rewrite E in H5; rename H5 into H|rewrite E in H6; rename H6 into H];
    cbn [implb] in H; rewrite ?andb_true_iff, ?negb_true_iff in H; tauto.
Qed.

Lemma num_start : forall c, a_digit c || Ascii.eqb c "." = true -> in_mantissa c = true /\ a_letter c = false /\ a_blank c = false.
Proof.
  intros c H. apply orb_true_iff in H. destruct (classes c) as [_ [Hd [_ [_ [_ Hp]]]]]. destruct H as [H|H].
  - destruct (Hd H) as [? [? [? [? [? [? ?]]]]]]. auto.
  - destruct (Hp H) as [? [? [? ?]]]. auto.
Qed.

(** ** maximal runs *)
Lemma run_unique : forall p (a b s t : list ascii),
  Forall (fun c => p c = true) a -> Forall (fun c => p c = true) b ->
  ~ head_is p s -> ~ head_is p t -> a ++ s = b ++ t -> a = b /\ s = t.
Proof.
  induction a as [|x a IH]; intros [|y b] s t Ha Hb Hs Ht E; cbn in E.
  - auto.
  - subst s. exfalso. apply Hs. cbn. now inversion Hb.
  - subst t. exfalso. apply Ht. cbn. now inversion Ha.
  - injection E as -> E. inversion Ha; inversion Hb; subst.
    destruct (IH b s t) as [-> ->]; auto.
Qed.

Lemma run_exists : forall p (l : list ascii), exists a s, l = a ++ s /\
  Forall (fun c => p c = true) a /\ ~ head_is p s.
Proof.
  intros p. induction l as [|c l [a [s [-> [Ha Hs]]]]].
  - exists [], []. auto.
  - destruct (p c) eqn:E.
    + exists (c :: a), s. auto.
    + exists [], (c :: a ++ s). repeat split; auto. cbn. congruence.
Qed.

Lemma exp_not_number : forall e l, exponent_mark e = true -> ~ head_is in_mantissa (e :: l).
Proof. intros e l H. cbn. destruct (classes e) as [_ [_ [_ [He _]]]]. destruct (He H) as [? _]. congruence. Qed.

Lemma head_digits : forall ds (l : list ascii), ds <> [] -> Forall (fun c => a_digit c = true) ds ->
  exists d ds', ds = d :: ds' /\ a_digit d = true.
Proof. intros [|d ds] l H F; [congruence|]. inversion F; subst. eauto. Qed.

Ltac byte_class H :=
  match type of H with
  | exponent_mark ?e = true => destruct (proj1 (proj2 (proj2 (proj2 (classes e)))) H) as [? [? [? ?]]]
  | a_digit ?e = true => destruct (proj1 (proj2 (classes e)) H) as [? [? [? [? [? [? ?]]]]]]
  | a_sign ?e = true => destruct (proj1 (proj2 (proj2 (proj2 (proj2 (classes e))))) H) as [? ?]
  | a_letter ?e = true => destruct (proj1 (proj2 (proj2 (classes e))) H) as [? [? [? [? ?]]]]
  | a_blank ?e = true => destruct (proj1 (classes e) H) as [? [? [? [? [? [? ?]]]]]]
  end.

Lemma number_token_unique : forall a b s t,
  number_token a s -> number_token b t -> a ++ s = b ++ t -> a = b /\ s = t.
Proof.
  assert (Hrun : forall m x s m' x' s',
    Forall (fun c => in_mantissa c = true) m -> Forall (fun c => in_mantissa c = true) m' ->
    ~ head_is in_mantissa (x ++ s) -> ~ head_is in_mantissa (x' ++ s') ->
    (m ++ x) ++ s = (m' ++ x') ++ s' -> m = m' /\ x ++ s = x' ++ s').
  { intros m x s m' x' s' F F' N N' E. rewrite <- !app_assoc in E. eapply run_unique; eauto. }
  assert (Hdig : forall ds s ds' s' : list ascii, Forall (fun c => a_digit c = true) ds ->
    Forall (fun c => a_digit c = true) ds' -> ~ head_is a_digit s -> ~ head_is a_digit s' ->
    ds ++ s = ds' ++ s' -> ds = ds' /\ s = s').
  { intros. eapply run_unique; eauto. }
  intros a b s t Ha Hb E.
  destruct Ha as [m s Hh F N X|m e ds s Hh F He Hn Fd Nd|m e sg ds s Hh F He Hs Hn Fd Nd];
  destruct Hb as [m' t Hh' F' N' X'|m' e' ds' t Hh' F' He' Hn' Fd' Nd'|m' e' sg' ds' t Hh' F' He' Hs' Hn' Fd' Nd'].
  - eapply run_unique; eauto.
  - exfalso. rewrite <- (app_nil_r m) in E. apply Hrun in E; auto; [|now apply exp_not_number].
    destruct E as [_ E]. cbn in E. subst s. apply X. destruct (head_digits ds' t Hn' Fd') as [d [ds [-> Hd]]]. cbn. auto.
  - exfalso. rewrite <- (app_nil_r m) in E. apply Hrun in E; auto; [|now apply exp_not_number].
    destruct E as [_ E]. cbn in E. subst s. apply X. destruct (head_digits ds' t Hn' Fd') as [d [ds [-> Hd]]]. cbn. auto.
  - exfalso. rewrite <- (app_nil_r m') in E. apply Hrun in E; auto; [|now apply exp_not_number].
    destruct E as [_ E]. cbn in E. subst t. apply X'. destruct (head_digits ds s Hn Fd) as [d [ds' [-> Hd]]]. cbn. auto.
  - apply Hrun in E; auto; try (now apply exp_not_number). destruct E as [-> E]. cbn in E. injection E as -> E.
    apply Hdig in E; auto. destruct E as [-> ->]. auto.
  - exfalso. apply Hrun in E; auto; try (now apply exp_not_number). destruct E as [-> E]. cbn in E. injection E as -> E.
    destruct (head_digits ds s Hn Fd) as [d [ds0 [-> Hd]]]. cbn in E. injection E as -> E.
    byte_class Hs'. congruence.
  - exfalso. rewrite <- (app_nil_r m') in E. apply Hrun in E; auto; [|now apply exp_not_number].
    destruct E as [_ E]. cbn in E. subst t. apply X'. destruct (head_digits ds s Hn Fd) as [d [ds' [-> Hd]]]. cbn. auto.
  - exfalso. apply Hrun in E; auto; try (now apply exp_not_number). destruct E as [-> E]. cbn in E. injection E as -> E.
    destruct (head_digits ds' t Hn' Fd') as [d [ds0 [-> Hd]]]. cbn in E. injection E as -> E.
    byte_class Hs. congruence.
  - apply Hrun in E; auto; try (now apply exp_not_number). destruct E as [-> E]. cbn in E. injection E as -> -> E.
    apply Hdig in E; auto. destruct E as [-> ->]. auto.
Qed.

Lemma number_token_head : forall a s, number_token a s -> head_is (fun c => a_digit c || Ascii.eqb c ".") a.
Proof. intros a s H. destruct H as [m|m|m]; auto; destruct m; auto; contradiction. Qed.

Lemma number_token_exists : forall c l, a_digit c || Ascii.eqb c "." = true ->
  exists m s, c :: l = m ++ s /\ number_token m s.
Proof.
  intros c l Hc. destruct (run_exists in_mantissa l) as [m [s [-> [Fm Ns]]]].
  assert (F : Forall (fun c => in_mantissa c = true) (c :: m)) by (constructor; auto; now apply num_start).
  assert (Hx : exponent_follows s \/ ~ exponent_follows s).
  { destruct s as [|e [|d s]]; cbn; auto. destruct (exponent_mark e), (a_digit d), (a_sign d); auto;
    destruct s as [|d' s]; cbn; try (right; intuition congruence); destruct (a_digit d'); auto; right; intuition congruence. }
  destruct Hx as [Hx|Hx].
  - destruct s as [|e [|d s]]; try contradiction. destruct Hx as [He [Hd|[Hs Hd]]].
    + destruct (run_exists a_digit (d :: s)) as [ds [r [E [Fd Nd]]]].
      exists ((c :: m) ++ e :: ds), r. split; [cbn; rewrite <- app_assoc; cbn; now rewrite <- E|].
      apply NT_exp; auto. intros ->. cbn in E. subst r. now apply Nd.
    + destruct (run_exists a_digit s) as [ds [r [E [Fd Nd]]]].
      exists ((c :: m) ++ e :: d :: ds), r. split; [cbn; rewrite <- app_assoc; cbn; now rewrite <- E|].
      apply NT_signed_exp; auto. intros ->. cbn in E. subst r. now apply Nd.
  - exists (c :: m), s. split; auto. now apply NT_plain.
Qed.

Lemma name_token_exists : forall c l, a_letter c = true -> exists m s, c :: l = m ++ s /\ name_token m s.
Proof.
  intros c l Hc. destruct (run_exists in_name l) as [m [s [-> [Fm Ns]]]].
  exists (c :: m), s. split; auto. split; [auto|]. split; auto. constructor; auto.
  byte_class Hc. auto.
Qed.

(** Every text has a token sequence. *)
Theorem lexes_total : forall s, exists ts, lexes s ts.
Proof.
  intro s. remember (List.length s) as n eqn:En. assert (Hn : List.length s <= n) by lia. clear En.
  revert s Hn. induction n as [|n IH]; intros s Hn.
  - destruct s; [exists []; constructor|cbn in Hn; lia].
  - destruct s as [|c s]; [exists []; constructor|]. cbn in Hn.
    destruct (a_blank c) eqn:Ew; [destruct (IH s) as [ts Ht]; [lia|]; exists ts; now constructor|].
    destruct (a_digit c || Ascii.eqb c ".") eqn:Ed.
    { destruct (number_token_exists c s Ed) as [m [r [E Hm]]].
      assert (Hl : List.length r <= n).
      { pose proof (number_token_head _ _ Hm) as Hh. destruct m; [contradiction|].
        injection E as -> ->. rewrite app_length in Hn. lia. }
      destruct (IH r Hl) as [ts Ht]. rewrite E. eexists. eapply L_num; eauto. }
    destruct (a_letter c) eqn:Ea.
    { destruct (name_token_exists c s Ea) as [m [r [E Hm]]].
      assert (Hl : List.length r <= n).
      { destruct Hm as [Hh _]. destruct m; [contradiction|]. injection E as -> ->. rewrite app_length in Hn. lia. }
      destruct (IH r Hl) as [ts Ht]. rewrite E. eexists. eapply L_name; eauto. }
    apply orb_false_iff in Ed. destruct Ed as [Ed Ep].
    destruct (IH s) as [ts Ht]; [lia|]. eexists. apply L_sym; eauto.
Qed.

(** And only one. *)
Lemma string_list_inj : forall a b, string_of_list_ascii a = string_of_list_ascii b -> a = b.
Proof. intros a b H. rewrite <- (list_ascii_of_string_of_list_ascii a), H. apply list_ascii_of_string_of_list_ascii. Qed.

Lemma lexes_cons_inv : forall c s ts, lexes (c :: s) ts ->
  (a_blank c = true /\ lexes s ts) \/
  (a_blank c = false /\ (a_digit c || Ascii.eqb c ".") = true /\ exists m r ts', c :: s = m ++ r /\ number_token m r /\
     ts = TNum (string_of_list_ascii m) :: ts' /\ lexes r ts') \/
  (a_blank c = false /\ (a_digit c || Ascii.eqb c ".") = false /\ a_letter c = true /\
     exists m r ts', c :: s = m ++ r /\ name_token m r /\
     ts = TId (string_of_list_ascii m) :: ts' /\ lexes r ts') \/
  (a_blank c = false /\ (a_digit c || Ascii.eqb c ".") = false /\ a_letter c = false /\
     exists ts', ts = TSym c :: ts' /\ lexes s ts').
Proof.
  intros c s ts H. inversion H as [|c0 s0 ts0 Hw Hl|m r u Hm Hl E1 E2|m r u Hm Hl E1 E2|c0 s0 ts0 Hw Hd Hp Ha Hl]; subst.
  - auto.
  - right; left. pose proof (number_token_head _ _ Hm) as Hh. destruct m as [|c' m]; [contradiction|].
    cbn in E1. injection E1 as -> <-. cbn in Hh. destruct (num_start _ Hh) as [? [? ?]].
    split; auto. split; auto. exists (c :: m), r, u. auto.
  - right; right; left. pose proof Hm as [Hh _]. destruct m as [|c' m]; [contradiction|].
    cbn in E1. injection E1 as -> <-. cbn in Hh. byte_class Hh. split; auto.
    split; [apply orb_false_iff; auto|]. split; auto. exists (c :: m), r, u. auto.
  - right; right; right. split; auto. split; [apply orb_false_iff; auto|]. split; auto. eauto.
Qed.

Theorem lexes_unique : forall s ts ts', lexes s ts -> lexes s ts' -> ts = ts'.
Proof.
  intro s. remember (List.length s) as n eqn:En. assert (Hn : List.length s <= n) by lia. clear En.
  revert s Hn. induction n as [|n IH]; intros s Hn ts ts' H H'.
  - destruct s; [|cbn in Hn; lia]. inversion H; inversion H'; subst; auto;
      repeat match goal with E : ?m ++ ?r = [] |- _ => apply app_eq_nil in E; destruct E; subst end;
      repeat match goal with Hm : number_token [] _ |- _ => apply number_token_head in Hm; contradiction
             | Hm : name_token [] _ |- _ => destruct Hm as [Hm _]; contradiction end.
  - destruct s as [|c s].
    { inversion H; inversion H'; subst; auto;
      repeat match goal with E : ?m ++ ?r = [] |- _ => apply app_eq_nil in E; destruct E; subst end;
      repeat match goal with Hm : number_token [] _ |- _ => apply number_token_head in Hm; contradiction
             | Hm : name_token [] _ |- _ => destruct Hm as [Hm _]; contradiction end. }
    cbn in Hn. apply lexes_cons_inv in H. apply lexes_cons_inv in H'.
    destruct H as [[Hw H]|[[Hw [Hd [m [r [u [E [Hm [-> H]]]]]]]]|[[Hw [Hd [Ha [m [r [u [E [Hm [-> H]]]]]]]]]|[Hw [Hd [Ha [u [-> H]]]]]]]];
    destruct H' as [[Hw' H']|[[Hw' [Hd' [m' [r' [u' [E' [Hm' [-> H']]]]]]]]|[[Hw' [Hd' [Ha' [m' [r' [u' [E' [Hm' [-> H']]]]]]]]]|[Hw' [Hd' [Ha' [u' [-> H']]]]]]]];
    try congruence.
    + apply (IH s); auto. lia.
    + destruct (number_token_unique m m' r r') as [-> ->]; auto; [congruence|]. f_equal.
      apply (IH r'); auto. apply number_token_head in Hm. destruct m'; [contradiction|].
      injection E as -> ->. rewrite app_length in Hn. lia.
    + destruct Hm as [Hh [F N]]. destruct Hm' as [Hh' [F' N']].
      destruct (run_unique in_name m m' r r') as [-> ->]; auto; [congruence|]. f_equal.
      apply (IH r'); auto. destruct m'; [contradiction|].
      injection E as -> ->. rewrite app_length in Hn. lia.
    + f_equal. apply (IH s); auto. lia.
Qed.
