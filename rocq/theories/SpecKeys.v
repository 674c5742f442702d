(** * Specification: expressions that look alike when printed

    The same tree, except that the numbers "inf" and "NaN" look like variables
    of these names. *)
From Coq Require Import List String.
From Verif Require Import F64 Syntax.
Import ListNotations.
Local Open Scope string_scope.

Inductive alike : element -> element -> Prop :=
| AL_number : forall n, alike (Number n) (Number n)
| AL_variable : forall x, alike (Var x) (Var x)
| AL_inf : alike (Number finf) (Var "inf")
| AL_inf' : alike (Var "inf") (Number finf)
| AL_nan : alike (Number fnan) (Var "NaN")
| AL_nan' : alike (Var "NaN") (Number fnan)
| AL_binary : forall op l r l' r', alike l l' -> alike r r' -> alike (BinOp op l r) (BinOp op l' r')
| AL_unary : forall op a a', alike a a' -> alike (UnOp op a) (UnOp op a')
| AL_call : forall f args args', Forall2 alike args args' -> alike (Call f args) (Call f args').
