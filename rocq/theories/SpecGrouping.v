(** * Specification: how pemdas and pejmdas group differently *)
From Coq Require Import ZArith Reals List String Ascii Bool.
From Flocq Require Import BinarySingleNaN.
From Verif Require Import F64 Syntax Builtins Context Parser SpecTokens SpecTree SpecGrammar.
Import ListNotations.

(** [spread op l p e]: [e] is [l op p], where of the product [p] only the first
    factor is [op]'s right operand and the others multiply the result. *)
Inductive spread (op : operator) (l : element) : element -> element -> Prop :=
| spread_first : forall a, spread op l a (BinOp op l a)
| spread_next : forall p b e, spread op l p e -> spread op l (BinOp Times p b) (BinOp Times e b).

(** [regrouped e e']: [e] is [e'] except that right operands of [*], [/] and [%]
    that are products may be spread out. *)
Inductive regrouped : element -> element -> Prop :=
| RG_number : forall n, regrouped (Number n) (Number n)
| RG_variable : forall x, regrouped (Var x) (Var x)
| RG_sign : forall op a a', regrouped a a' -> regrouped (UnOp op a) (UnOp op a')
| RG_call : forall f l l', regrouped_all l l' -> regrouped (Call f l) (Call f l')
| RG_operation : forall op l l' r r', regrouped l l' -> regrouped r r' -> regrouped (BinOp op l r) (BinOp op l' r')
| RG_product : forall op l l' p p' e, op = Times \/ op = Divide \/ op = Modulo ->
    regrouped l l' -> regrouped p p' -> spread op l p e -> regrouped e (BinOp op l' p')
with regrouped_all : list element -> list element -> Prop :=
| RG_nil : regrouped_all [] []
| RG_cons : forall a a' l l', regrouped a a' -> regrouped_all l l' -> regrouped_all (a :: l) (a' :: l').

(** The same up to the grouping of products of several factors. *)
Inductive same_product : element -> element -> Prop :=
| SP_refl : forall a, same_product a a
| SP_sym : forall a b, same_product a b -> same_product b a
| SP_trans : forall a b c, same_product a b -> same_product b c -> same_product a c
| SP_regroup : forall a b c, same_product (BinOp Times (BinOp Times a b) c) (BinOp Times a (BinOp Times b c))
| SP_operation : forall op l l' r r', same_product l l' -> same_product r r' -> same_product (BinOp op l r) (BinOp op l' r')
| SP_sign : forall op a a', same_product a a' -> same_product (UnOp op a) (UnOp op a')
| SP_call : forall f l l', same_products l l' -> same_product (Call f l) (Call f l')
with same_products : list element -> list element -> Prop :=
| SP_nil : same_products [] []
| SP_cons : forall a a' l l', same_product a a' -> same_products l l' -> same_products (a :: l) (a' :: l').

(** Somewhere a [/] or [%] has a right operand that is directly followed by
    another operand, as in "1/2x". *)
Definition divides_juxtaposed (ctx : context) (ts : list token) : Prop :=
  exists u c operand t b v, ts = u ++ TSym c :: operand ++ b :: v /\
    (c = "/"%char \/ c = "%"%char) /\ signed true ctx operand t /\ starts_operand b = true.

(** The value on paper: real arithmetic, with any meaning whatsoever for
    powers, remainders, factorials and functions. *)
Section Paper.
  Variable power remainder : R -> R -> R.
  Variable factorial : R -> R.
  Variable call : function -> list R -> R.
  Variable rho : string -> R.
  Local Open Scope R_scope.

  Fixpoint on_paper (e : element) : R :=
    match e with
    | Number n => B2R n
    | Var x => rho x
    | UnOp Minus a => - on_paper a
    | UnOp Factorial a => factorial (on_paper a)
    | UnOp _ a => on_paper a
    | BinOp Plus l r => on_paper l + on_paper r
    | BinOp Minus l r => on_paper l - on_paper r
    | BinOp Times l r => on_paper l * on_paper r
    | BinOp Divide l r => on_paper l / on_paper r
    | BinOp Modulo l r => remainder (on_paper l) (on_paper r)
    | BinOp Power l r => power (on_paper l) (on_paper r)
    | BinOp Factorial l r => 0
    | Call f args => call f (map on_paper args)
    end.
End Paper.
