(** * Specification: even and odd expressions

    A function of mathematics is even if f(-x) = f(x) and odd if f(-x) = -f(x).
    Here the signs of several variables may change together: [flips x] says
    whether the sign of [x] changes.  [parity e s]: by the rules of signs, the
    sign of the value of [e] changes ([s = true], odd) or does not change
    ([s = false], even).

    The sign of a zero result is left open.  For this reason a part whose parity
    is used as a divisor, or as argument of a function that can tell the zeros
    apart, must not have the value zero. *)
From Coq Require Import List String Bool.
From Flocq Require Import BinarySingleNaN.
From Verif Require Import F64 Syntax Builtins SpecTree SpecApi SpecLaws.
Import ListNotations.

(** [v'] is [v], or [v] with the other sign, except perhaps for the sign of a zero *)
Definition a_zero (v : f64) : Prop := v = fzero \/ v = fnzero.
Definition mirrored (s : bool) (v v' : f64) : Prop :=
  v' = (if s then fneg v else v) \/ a_zero v /\ a_zero v'.

(** the functions that cut off digits: their results change sign with the argument *)
Definition cuts_off (b : builtin) : bool := match b with B_ROUND | B_TRUNC | B_FRACT => true | _ => false end.

Section Parity.
  Variable w : world.
  Variable flips : string -> bool.
  Variable rho : string -> option f64.

  Definition not_zero (e : element) : Prop := forall v, means w rho e v -> ~ a_zero v.
  Definition untouched (e : element) : Prop := forall x, occurs x e -> flips x = false.

  Inductive parity : element -> bool -> Prop :=
  | P_untouched : forall e, untouched e -> parity e false
  | P_zero : forall z s, a_zero z -> parity (Number z) s
  | P_var : forall x, parity (Var x) (flips x)
  | P_plus : forall a b s, parity a s -> parity b s -> parity (BinOp Plus a b) s
  | P_minus : forall a b s, parity a s -> parity b s -> parity (BinOp Minus a b) s
  | P_times : forall a b s t, parity a s -> parity b t -> parity (BinOp Times a b) (xorb s t)
  | P_divide : forall a b s t, parity a s -> parity b t -> not_zero b -> parity (BinOp Divide a b) (xorb s t)
  | P_modulo : forall a b s t, parity a s -> parity b t -> parity (BinOp Modulo a b) s
  | P_plus_sign : forall a s, parity a s -> parity (UnOp Plus a) s
  | P_minus_sign : forall a s, parity a s -> parity (UnOp Minus a) s
  | P_factorial : forall a, parity a false -> parity (UnOp Factorial a) false
  (** powers: the exponent is fixed, and with it the power is an even or an odd function *)
  | P_even_power : forall a b s y, parity a s -> untouched b -> means w rho b y ->
      (forall v, l_powf w (fneg v) y = l_powf w v y) -> parity (BinOp Power a b) false
  | P_odd_power : forall a b s y, parity a s -> untouched b -> means w rho b y ->
      (forall v, l_powf w (fneg v) y = fneg (l_powf w v y)) ->
      not_zero a \/ a_zero (l_powf w fzero y) -> parity (BinOp Power a b) s
  | P_power : forall a b, parity a false -> parity b false -> not_zero a -> not_zero b -> parity (BinOp Power a b) false
  (** functions *)
  | P_abs : forall a s, parity a s -> parity (call B_ABS [a]) false
  | P_cut_off : forall f a s, cuts_off f = true -> parity a s -> parity (call f [a]) s
  | P_recip : forall a s, parity a s -> not_zero a -> parity (call B_RECIP [a]) s
  | P_sum : forall args s, parity_all args s -> parity (call B_SUM args) s
  | P_mean : forall args s, parity_all args s -> parity (call B_MEAN args) s
  | P_even_function : forall f a s, (forall v, call_function w f [fneg v] = call_function w f [v]) ->
      parity a s -> parity (Call f [a]) false
  | P_odd_function : forall f a s,
      (forall v r, call_function w f [v] = Val r -> call_function w f [fneg v] = Val (fneg r)) ->
      not_zero a \/ (exists z, call_function w f [fzero] = Val z /\ a_zero z) ->
      parity a s -> parity (Call f [a]) s
  (** functions of even arguments *)
  | P_blind : forall f args, zero_blind f = true -> parity_all args false -> parity (call f args) false
  | P_call : forall f args, parity_all args false -> Forall not_zero args -> parity (Call f args) false
  with parity_all : list element -> bool -> Prop :=
  | PA_nil : forall s, parity_all [] s
  | PA_cons : forall a args s, parity a s -> parity_all args s -> parity_all (a :: args) s.
End Parity.

(** the values after the change of signs *)
Definition sign_change (flips : string -> bool) (rho rho' : string -> option f64) : Prop :=
  forall x v, rho x = Some v -> rho' x = Some (if flips x then fneg v else v).
