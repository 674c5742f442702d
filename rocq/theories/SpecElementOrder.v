(** * Specification: the order of expressions *)
From Coq Require Import NArith List String Ascii.
From Verif Require Import F64 Syntax SpecOrder.
Import ListNotations.
Local Open Scope string_scope.

Definition kind_of (e : element) : string :=
  match e with
  | Number _ => "number" | BinOp _ _ _ => "binary operation" | UnOp _ _ => "unary operation"
  | Call _ _ => "call" | Var _ => "variable"
  end.
(** the kinds of expressions from the least to the greatest *)
Definition kinds_in_order : list string := ["number"; "binary operation"; "unary operation"; "call"; "variable"].

(** neither is first: the same expression but for the sign of zeros and for the
    functions that share a name *)
Inductive tied : element -> element -> Prop :=
| T_num : forall x y, feq x y = true -> tied (Number x) (Number y)
| T_bin : forall op l r l' r', tied l l' -> tied r r' -> tied (BinOp op l r) (BinOp op l' r')
| T_un : forall op e e', tied e e' -> tied (UnOp op e) (UnOp op e')
| T_call : forall f g args args', fn_name f = fn_name g -> Forall2 tied args args' -> tied (Call f args) (Call g args')
| T_var : forall x, tied (Var x) (Var x).

(** [comes_first a b]: numbers by value, operations by operator and then by
    operands from left to right, calls by name and then by arguments, variables
    by name *)
Inductive comes_first : element -> element -> Prop :=
| F_kind : forall a b, listed_before (kind_of a) (kind_of b) kinds_in_order -> comes_first a b
| F_num : forall x y, flt x y = true -> comes_first (Number x) (Number y)
| F_bin_op : forall op op' l r l' r', listed_before (operator_name op) (operator_name op') documented_operators ->
    comes_first (BinOp op l r) (BinOp op' l' r')
| F_bin_left : forall op l r l' r', comes_first l l' -> comes_first (BinOp op l r) (BinOp op l' r')
| F_bin_right : forall op l r l' r', tied l l' -> comes_first r r' -> comes_first (BinOp op l r) (BinOp op l' r')
| F_un_op : forall op op' e e', listed_before (operator_name op) (operator_name op') documented_operators ->
    comes_first (UnOp op e) (UnOp op' e')
| F_un : forall op e e', comes_first e e' -> comes_first (UnOp op e) (UnOp op e')
| F_call_name : forall f g args args', before (fn_name f) (fn_name g) -> comes_first (Call f args) (Call g args')
| F_call_args : forall f g args args', fn_name f = fn_name g -> args_first args args' -> comes_first (Call f args) (Call g args')
| F_var : forall x y, before x y -> comes_first (Var x) (Var y)
(** the first argument that is not tied decides; fewer arguments come first *)
with args_first : list element -> list element -> Prop :=
| FA_fewer : forall b m, args_first [] (b :: m)
| FA_here : forall a b l m, comes_first a b -> args_first (a :: l) (b :: m)
| FA_later : forall a b l m, tied a b -> args_first l m -> args_first (a :: l) (b :: m).
