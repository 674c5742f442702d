(** * The domain on which simplification preserves values

    The rules of the simplifier (SpecRewrite.v) hold for real numbers; on f64
    each fails somewhere (an infinite or NaN operand, a zero divisor, ...).
    [regular w rho e v]: with libm and user functions [w] and variable values
    [rho], the expression [e] has the value [v] ([means], SpecTree.v), and on
    the way

    - the operands of + - * / and % are finite;
    - no divisor, modulus or exponent is a zero (there the sign of a zero could
      be observed);
    - a function called with a zero among its arguments does not tell +0 from -0;
    - a modulus is 1 only if the dividend is an integer;
    - a zero is raised only to exponents for which libm gives a zero for both
      zeros (as IEEE 754 recommends for positive exponents), and libm returns
      the base for exponent 1. *)
From Coq Require Import ZArith NArith List String Ascii Bool.
From Flocq Require Import BinarySingleNaN.
From Verif Require Import F64 Syntax Factorial Builtins Context Element FloatFacts SpecTokens SpecGrammar.
Import ListNotations.

Definition finite (v : f64) : Prop := is_finite v = true.

(** conditions on the two operands of a binary operation *)
Definition regular_operands (w : world) (op : operator) (a b : f64) : Prop :=
  match op with
  | Plus | Minus | Times => finite a /\ finite b
  | Divide => finite a /\ finite b /\ ~ is_zero b
  | Modulo => finite a /\ finite b /\ ~ is_zero b /\ (b = fone -> is_zero (frem a fone))
  | Power => ~ is_zero b /\ (is_zero a -> forall z, is_zero z -> is_zero (l_powf w z b)) /\
      (b = fone -> ~ is_zero a -> l_powf w a fone = a)
  | Factorial => False
  end.

(** the value of a binary operation *)
Definition operation (w : world) (op : operator) (a b : f64) : f64 :=
  match op with
  | Plus => fadd a b
  | Minus => fsub a b
  | Times => fmul a b
  | Divide => fdiv a b
  | Power => l_powf w a b
  | Modulo => frem a b
  | Factorial => fnan
  end.

(** the result does not depend on the signs of zeros, other than by the sign of a zero *)
Definition equal_or_zeros (x y : f64) : Prop := x = y \/ (is_zero x /\ is_zero y).
Definition same_for_both_zeros (w : world) (f : function) (vs : list f64) : Prop :=
  forall vs' v, Forall2 equal_or_zeros vs vs' -> call_function w f vs = Val v ->
  exists v', call_function w f vs' = Val v' /\ equal_or_zeros v v'.

Inductive regular (w : world) (rho : string -> option f64) : element -> f64 -> Prop :=
| RG_number : forall n, regular w rho (Number n) n
| RG_var : forall x v, rho x = Some v -> regular w rho (Var x) v
| RG_bin : forall op l r a b, regular w rho l a -> regular w rho r b ->
    regular_operands w op a b -> regular w rho (BinOp op l r) (operation w op a b)
| RG_plus : forall e a, regular w rho e a -> regular w rho (UnOp Plus e) a
| RG_minus : forall e a, regular w rho e a -> regular w rho (UnOp Minus e) (fneg a)
| RG_factorial : forall e a, regular w rho e a -> regular w rho (UnOp Factorial e) (factorial a)
| RG_call : forall f args vs v, regular_all w rho args vs ->
    (Exists is_zero vs -> same_for_both_zeros w f vs) ->
    call_function w f vs = Val v -> regular w rho (Call f args) v
with regular_all (w : world) (rho : string -> option f64) : list element -> list f64 -> Prop :=
| RG_nil : regular_all w rho [] []
| RG_cons : forall a args v vs, regular w rho a v -> regular_all w rho args vs ->
    regular_all w rho (a :: args) (v :: vs).

(** [simplified_from cfg w e e']: [e'] is [e] with some of its parts replaced by
    their simplification, inner parts first. *)
Inductive simplified_from (cfg : config) (w : world) : element -> element -> Prop :=
| Z_number : forall n, simplified_from cfg w (Number n) (Number n)
| Z_var : forall x, simplified_from cfg w (Var x) (Var x)
| Z_bin : forall op l r l' r', simplified_from cfg w l l' -> simplified_from cfg w r r' ->
    simplified_from cfg w (BinOp op l r) (BinOp op l' r')
| Z_un : forall op e e', simplified_from cfg w e e' -> simplified_from cfg w (UnOp op e) (UnOp op e')
| Z_call : forall f args args', simplified_all cfg w args args' ->
    simplified_from cfg w (Call f args) (Call f args')
| Z_simplify : forall e e1 e2, simplified_from cfg w e e1 -> simplify cfg w e1 = Val e2 ->
    simplified_from cfg w e e2
with simplified_all (cfg : config) (w : world) : list element -> list element -> Prop :=
| Z_nil : simplified_all cfg w [] []
| Z_cons : forall a a' l l', simplified_from cfg w a a' -> simplified_all cfg w l l' ->
    simplified_all cfg w (a :: l) (a' :: l').

(** the valuation [rho] with [x] given the value [v] *)
Definition given (rho : string -> option f64) (x : string) (v : f64) : string -> option f64 :=
  fun y => if String.eqb y x then Some v else rho y.

(** No number directly after ")". *)
Definition no_number_after_parenthesis (ts : list token) : Prop :=
  ~ adjacent (fun a b => a = TSym ")" /\ exists s, b = TNum s) ts.
