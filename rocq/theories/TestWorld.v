(** * A concrete world, for the examples beside the theorems

    libm functions are stand-ins; user function 0 doubles its argument and user
    function 1 panics. *)
From Coq Require Import ZArith NArith List String Ascii Bool Permutation.
From Flocq Require Import BinarySingleNaN.
From Coq Require Import SpecFloat.
From Verif Require Import F64 Syntax Builtins Context Parser.
Import ListNotations.
Local Open Scope string_scope.

Definition w0 : world :=
  let f := fun x : f64 => x in
  let g := fun x y : f64 => fmul x y in
  mk_world f f f f f f f f f f f f g f f f f g g f false false (fun s => s)
    (fun id args => match id, args with
                    | 0, x :: _ => Some (fadd x x)
                    | 2, _ => Some fone
                    | _, _ => None
                    end).

Lemma w0_fair : fair_order w0.
Proof. intro s. apply Permutation_refl. Qed.

(** the same with sets iterated backwards *)
Definition w1 : world :=
  let f := fun x : f64 => x in
  let g := fun x y : f64 => fmul x y in
  mk_world f f f f f f f f f f f f g f f f f g g f false false (@rev string)
    (fun id args => None).

Lemma w1_fair : fair_order w1.
Proof. intro s. apply Permutation_rev. Qed.

Definition double_fn : function := mk_function "double" (Static_user 0) (Some 1).
Definition bad_fn : function := mk_function "bad" (Static_user 1) (Some 1).

(** a context with a value, a function, and the expected variables x and y *)
Definition ctx1 : context :=
  with_expected_vars (with_fn (with_var ctx_default "k" (lit "2.5")) double_fn) ["x"; "y"].

(** features: pemdas with all build modes *)
Definition debug_plain : config :=
  {| pejmdas := false; optimize := false; nightly := false; overflow_checks := true |}.
Definition debug_opt : config :=
  {| pejmdas := false; optimize := true; nightly := false; overflow_checks := true |}.
Definition pejmdas_plain : config :=
  {| pejmdas := true; optimize := false; nightly := false; overflow_checks := false |}.
Definition nightly_config : config :=
  {| pejmdas := false; optimize := true; nightly := true; overflow_checks := false |}.

(** deciding statements about parse results by computation *)
Definition parses (r : parse_result) : bool := match r with Parse_ok _ => true | _ => false end.
Definition error_of (r : parse_result) : option (error_kind * N * N) :=
  match r with Parse_err e => Some (pe_kind e, pe_offset e, pe_length e) | _ => None end.
Lemma parses_ok : forall r, parses r = true -> exists x, r = Parse_ok x.
Proof. destruct r; try discriminate. eauto. Qed.

(** [r] is [Ok x] and the computable test [t x] succeeds *)
Definition ok_and (r : parse_result) (t : xprs -> bool) : bool :=
  match r with Parse_ok x => t x | _ => false end.
Lemma ok_and_spec : forall r t, ok_and r t = true -> exists x, r = Parse_ok x /\ t x = true.
Proof. destruct r; try discriminate. eauto. Qed.

(** computable tests on trees *)
Fixpoint occurs_b (x : string) (e : element) : bool :=
  match e with
  | Number _ => false
  | Var y => String.eqb x y
  | BinOp _ l r => occurs_b x l || occurs_b x r
  | UnOp _ a => occurs_b x a
  | Call _ args => existsb (occurs_b x) args
  end.

(** trees compared node by node, numbers by their bits *)
Definition sf_eqb (a b : spec_float) : bool :=
  match a, b with
  | S754_zero s, S754_zero t => Bool.eqb s t
  | S754_infinity s, S754_infinity t => Bool.eqb s t
  | S754_nan, S754_nan => true
  | S754_finite s m e, S754_finite s' m' e' => Bool.eqb s s' && Pos.eqb m m' && Z.eqb e e'
  | _, _ => false
  end.
Definition same_f64 (a b : f64) : bool := sf_eqb (B2SF a) (B2SF b).

Lemma same_f64_eq : forall a b, same_f64 a b = true -> a = b.
Proof.
  intros a b H. apply B2SF_inj. unfold same_f64 in H.
  destruct (B2SF a), (B2SF b); try discriminate; simpl in H.
  - apply Bool.eqb_prop in H. congruence.
  - apply Bool.eqb_prop in H. congruence.
  - reflexivity.
  - apply andb_true_iff in H. destruct H as [H He]. apply andb_true_iff in H. destruct H as [Hs Hm].
    apply Bool.eqb_prop in Hs. apply Pos.eqb_eq in Hm. apply Z.eqb_eq in He. congruence.
Qed.

Fixpoint same_tree (a b : element) {struct a} : bool :=
  match a, b with
  | Number x, Number y => same_f64 x y
  | BinOp op l r, BinOp op' l' r' => operator_eqb op op' && same_tree l l' && same_tree r r'
  | UnOp op e, UnOp op' e' => operator_eqb op op' && same_tree e e'
  | Call f args, Call g args' =>
      function_eqb f g &&
      (fix go (l m : list element) : bool :=
         match l, m with
         | [], [] => true
         | a :: l', b :: m' => same_tree a b && go l' m'
         | _, _ => false
         end) args args'
  | Var x, Var y => String.eqb x y
  | _, _ => false
  end.

Lemma operator_eqb_eq : forall a b, operator_eqb a b = true <-> a = b.
Proof. destruct a, b; simpl; split; intro; congruence. Qed.

Lemma function_eqb_eq : forall f g, function_eqb f g = true <-> f = g.
Proof.
  intros [n p a] [n' p' a']. unfold function_eqb. cbn [fn_name fn_ptr fn_nb_args]. split.
  - intro H. apply andb_true_iff in H. destruct H as [H Ha]. apply andb_true_iff in H. destruct H as [Hn Hp].
    apply String.eqb_eq in Hn. subst n'. f_equal.
    + destruct p, p'; simpl in Hp; try discriminate.
      * destruct (builtin_eq_dec b b0); congruence.
      * apply Nat.eqb_eq in Hp. congruence.
      * apply Nat.eqb_eq in Hp. congruence.
    + destruct a, a'; simpl in Ha; try discriminate; auto. apply Nat.eqb_eq in Ha. congruence.
  - intro H. injection H as <- <- <-. rewrite String.eqb_refl.
    assert (fn_pointer_eqb p p = true) as ->.
    { destruct p; simpl; try apply Nat.eqb_refl. destruct (builtin_eq_dec b b); congruence. }
    destruct a; simpl; auto. apply Nat.eqb_refl.
Qed.

Lemma same_tree_eq : forall a b, same_tree a b = true -> a = b.
Proof.
  induction a using element_ind'; intros b H'; destruct b; try discriminate; cbn [same_tree] in H'.
  - f_equal. now apply same_f64_eq.
  - apply andb_true_iff in H'. destruct H' as [H' Hr]. apply andb_true_iff in H'. destruct H' as [Ho Hl].
    apply operator_eqb_eq in Ho. f_equal; auto.
  - apply andb_true_iff in H'. destruct H' as [Ho Hl]. apply operator_eqb_eq in Ho. f_equal; auto.
  - apply andb_true_iff in H'. destruct H' as [Ho Hl]. apply function_eqb_eq in Ho. f_equal; auto.
    revert args0 Hl. induction H; intros [|b l'] Hl; try discriminate; auto.
    apply andb_true_iff in Hl. destruct Hl as [Hb Hl]. f_equal; auto.
  - apply String.eqb_eq in H'. congruence.
Qed.

(** what an input parses to *)
Lemma parses_to : forall r t, ok_and r (fun x => same_tree (root x) t) = true ->
  exists x, r = Parse_ok x /\ root x = t.
Proof.
  intros r t H. apply ok_and_spec in H. destruct H as [x [H1 H2]]. exists x. split; auto.
  now apply same_tree_eq.
Qed.

(** evaluating to a given f64 *)
Definition is_val (o : out f64) (v : f64) : bool := match o with Val u => same_f64 u v | _ => false end.
Lemma is_val_eq : forall o v, is_val o v = true -> o = Val v.
Proof. destruct o; try discriminate. intros v H. apply same_f64_eq in H. congruence. Qed.
