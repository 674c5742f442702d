(** * Specification: builds of the same source (C89)

    [overflow_checks] is on in debug builds and off in release builds;
    [nightly] says which compiler was used. *)
From Coq Require Import List String Ascii Bool.
From Verif Require Import F64 Syntax Factorial Builtins Context Element SpecTokens SpecGrammar.
Import ListNotations.

(** The same features of the crate. *)
Definition same_features (cfg cfg' : config) : Prop :=
  pejmdas cfg = pejmdas cfg' /\ optimize cfg = optimize cfg'.

(** No subtraction and no minus sign. *)
Inductive without_minus : element -> Prop :=
| WM_number : forall n, without_minus (Number n)
| WM_variable : forall x, without_minus (Var x)
| WM_binary : forall op l r, op <> Minus -> without_minus l -> without_minus r -> without_minus (BinOp op l r)
| WM_unary : forall op a, op <> Minus -> without_minus a -> without_minus (UnOp op a)
| WM_call : forall f args, Forall without_minus args -> without_minus (Call f args).
