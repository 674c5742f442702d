(** * Specification: changing the unit by a power of two

    If lengths are given in another unit, areas change by the square of the
    factor.  [degree_of x] says with which power of the factor the variable [x]
    changes; the factor is 2^k.  [scales e d v]: by the rules for dimensions the
    expression [e], whose value is [v], changes with the power [d], and no
    intermediate result leaves the range of ordinary numbers, before or after the
    change. *)
From Coq Require Import ZArith Reals List String Bool.
From Flocq Require Import Core BinarySingleNaN.
From Verif Require Import F64 Syntax Factorial Builtins SpecTree SpecLaws.
Import ListNotations.
Local Open Scope R_scope.

(** [v'] is [v] times 2^j, with the same sign also for zeros *)
Definition scaled (j : Z) (v v' : f64) : Prop :=
  is_finite v = true /\ is_finite v' = true /\ B2R v' = B2R v * bpow radix2 j /\ Bsign v' = Bsign v.

Section Scale.
  Variable w : world.
  Variable k : Z.
  Variable degree_of : string -> Z.
  Variable rho : string -> option f64.

  (** no overflow, before and after *)
  Definition fits (d : Z) (v : f64) : Prop := is_finite v = true /\ Rabs (B2R v) * bpow radix2 (k * d) < bpow radix2 1024.
  (** no underflow, before and after *)
  Definition normal (d : Z) (v : f64) : Prop :=
    bpow radix2 (-1022) < Rabs (B2R v) /\ bpow radix2 (-1022) < Rabs (B2R v) * bpow radix2 (k * d).

  (** all partial sums *)
  Definition sums_fit (d : Z) (vs : list f64) : Prop :=
    forall n s, call_builtin w B_SUM (firstn n vs) = Val s -> fits d s.

  Inductive scales : element -> Z -> f64 -> Prop :=
  | S_number : forall n, is_finite n = true -> scales (Number n) 0 n
  | S_zero : forall s d, scales (Number (B754_zero s)) d (B754_zero s)
  | S_var : forall x v, rho x = Some v -> is_finite v = true -> scales (Var x) (degree_of x) v
  (** terms of the same degree *)
  | S_plus : forall a b d x y, scales a d x -> scales b d y -> fits d (fadd x y) -> scales (BinOp Plus a b) d (fadd x y)
  | S_minus : forall a b d x y, scales a d x -> scales b d y -> fits d (fsub x y) -> scales (BinOp Minus a b) d (fsub x y)
  | S_modulo : forall a b d x y, scales a d x -> scales b d y -> B2R y <> 0 -> scales (BinOp Modulo a b) d (frem x y)
  | S_sum : forall args d vs v, scales_all args d vs -> sums_fit d vs -> call_builtin w B_SUM vs = Val v ->
      scales (call B_SUM args) d v
  | S_mean : forall args d vs v, scales_all args d vs -> sums_fit d vs -> vs <> [] -> (Z.of_nat (List.length vs) <= 2 ^ 53)%Z ->
      call_builtin w B_MEAN vs = Val v -> (exists s, call_builtin w B_SUM vs = Val s /\ B2R s = 0) \/ normal d v -> scales (call B_MEAN args) d v
  | S_min : forall args d vs v, scales_all args d vs -> vs <> [] -> call_builtin w B_MIN vs = Val v -> scales (call B_MIN args) d v
  | S_max : forall args d vs v, scales_all args d vs -> vs <> [] -> call_builtin w B_MAX vs = Val v -> scales (call B_MAX args) d v
  (** degrees add up *)
  | S_times : forall a b d e x y, scales a d x -> scales b e y -> fits (d + e) (fmul x y) ->
      B2R x = 0 \/ B2R y = 0 \/ normal (d + e) (fmul x y) -> scales (BinOp Times a b) (d + e) (fmul x y)
  | S_divide : forall a b d e x y, scales a d x -> scales b e y -> B2R y <> 0 -> fits (d - e) (fdiv x y) ->
      B2R x = 0 \/ normal (d - e) (fdiv x y) -> scales (BinOp Divide a b) (d - e) (fdiv x y)
  | S_recip : forall a d x, scales a d x -> B2R x <> 0 -> fits (- d) (frecip x) -> normal (- d) (frecip x) ->
      scales (call B_RECIP [a]) (- d) (frecip x)
  | S_sqrt : forall a d x, scales a (2 * d) x -> 0 <= B2R x -> scales (call B_SQRT [a]) d (fsqrt x)
  (** signs *)
  | S_plus_sign : forall a d x, scales a d x -> scales (UnOp Plus a) d x
  | S_minus_sign : forall a d x, scales a d x -> scales (UnOp Minus a) d (fneg x)
  | S_abs : forall a d x, scales a d x -> scales (call B_ABS [a]) d (fabs x)
  (** everything else takes pure numbers *)
  | S_power : forall a b x y, scales a 0 x -> scales b 0 y -> is_finite (l_powf w x y) = true ->
      scales (BinOp Power a b) 0 (l_powf w x y)
  | S_factorial : forall a x, scales a 0 x -> is_finite (factorial x) = true -> scales (UnOp Factorial a) 0 (factorial x)
  | S_call : forall f args vs v, scales_all args 0 vs -> call_function w f vs = Val v -> is_finite v = true ->
      scales (Call f args) 0 v
  with scales_all : list element -> Z -> list f64 -> Prop :=
  | SA_nil : forall d, scales_all [] d []
  | SA_cons : forall a args d v vs, scales a d v -> scales_all args d vs -> scales_all (a :: args) d (v :: vs).
End Scale.

(** the values of the variables after the change *)
Definition rescaled (k : Z) (degree_of : string -> Z) (rho rho' : string -> option f64) : Prop :=
  forall x v, rho x = Some v -> is_finite v = true -> exists v', rho' x = Some v' /\ scaled (k * degree_of x) v v'.
