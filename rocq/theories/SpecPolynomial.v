(** * Specification: sums and products *)
From Coq Require Import ZArith List String Ascii Bool.
From Flocq Require Import BinarySingleNaN.
From Verif Require Import F64 Syntax FloatFacts Builtins Context SpecTokens SpecGrammar SpecRegular.
Import ListNotations.

(** What libm's [pow] is relied on for: a zero to a positive power is a zero, the
    power of an infinity or NaN to a positive exponent is not finite, and the
    first power is the base. *)
Definition powers_as_usual (w : world) : Prop := forall a c : f64, is_finite c = true -> flt fzero c = true ->
  (is_zero a -> is_zero (l_powf w a c)) /\
  (is_finite (l_powf w a c) = true -> is_finite a = true) /\
  l_powf w a fone = a.

(** Functions that do not tell +0 from -0 and whose value is finite only if all
    the arguments are. *)
Definition tame (w : world) (f : function) : Prop := forall vs v,
  match fn_nb_args f with None => True | Some n => List.length vs = n end ->
  call_function w f vs = Val v ->
  same_for_both_zeros w f vs /\ (is_finite v = true -> Forall (fun a => is_finite a = true) vs).

(** Built from numbers and variables with + - *, tame functions, signs, factorials, division by a
    number that is neither zero nor infinite and, if libm's powers are as usual,
    raising to a positive number. *)
Inductive polynomial (w : world) : element -> Prop :=
| PO_number : forall n, polynomial w (Number n)
| PO_var : forall x, polynomial w (Var x)
| PO_plus : forall l r, polynomial w l -> polynomial w r -> polynomial w (BinOp Plus l r)
| PO_minus : forall l r, polynomial w l -> polynomial w r -> polynomial w (BinOp Minus l r)
| PO_times : forall l r, polynomial w l -> polynomial w r -> polynomial w (BinOp Times l r)
| PO_divide : forall l (c : f64), polynomial w l -> is_finite c = true -> feq c fzero = false ->
    polynomial w (BinOp Divide l (Number c))
| PO_power : forall l (c : f64), powers_as_usual w -> polynomial w l -> is_finite c = true -> flt fzero c = true ->
    polynomial w (BinOp Power l (Number c))
| PO_call : forall f args, tame w f -> arity_ok f args -> Forall (polynomial w) args -> polynomial w (Call f args)
| PO_sign : forall op e, op = Plus \/ op = Minus -> polynomial w e -> polynomial w (UnOp op e)
| PO_factorial : forall e, polynomial w e -> polynomial w (UnOp Factorial e).

(** The texts: numbers, names that are not functions or are tame ones, + - * / ! ^
    , and brackets, where "^" is followed by a positive number without "!" after it,
    and "/" by a number other than zero that is a factor of its own. *)
Definition plain_token (w : world) (ctx : context) (t : token) : Prop :=
  match t with
  | TNum _ => True
  | TId s => forall f, stands_for ctx s = I_Function f -> tame w f
  | TSym c => In c ["+"; "-"; "*"; "/"; "!"; "("; ")"; ","; "^"]%char
  end.
Definition ends_factor (r : list token) : Prop :=
  match r with [] => True | t :: _ => In t [TSym "+"; TSym "-"; TSym "*"; TSym "/"; TSym ")"; TSym ","] end.
Definition plain_text (w : world) (ctx : context) (ts : list token) : Prop :=
  Forall (plain_token w ctx) ts /\
  (forall u v, ts = u ++ TSym "/" :: v ->
    exists s c r, v = TNum s :: r /\ literal_value s = Some c /\ is_finite c = true /\ feq c fzero = false /\ ends_factor r) /\
  (forall u v, ts = u ++ TSym "^" :: v -> powers_as_usual w /\
    exists s c r, v = TNum s :: r /\ literal_value s = Some c /\ is_finite c = true /\ flt fzero c = true /\
      forall r', r <> TSym "!" :: r').
