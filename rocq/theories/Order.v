(** * Comparison of expressions: [PartialEq for Xprs] and [PartialOrd]

    Models the derived [PartialOrd] of /repo/src/element/mod.rs:20 ([Element]),
    binop.rs:7, unop.rs:7, function_call.rs:7 and token/operator.rs:5, the
    hand-written one of token/function.rs:58-63, and the derived [PartialEq] of
    /repo/src/xprs.rs:18. *)
From Coq Require Import ZArith NArith List String Ascii Bool.
From Flocq Require Import BinarySingleNaN.
From Verif Require Import F64 Syntax Element Parser.
Import ListNotations.

(** [f64::partial_cmp] *)
Definition fcmp (x y : f64) : option comparison := Bcompare x y.

(** The derived order compares the position of the variant in the enum. *)
Definition operator_index (o : operator) : nat :=
  match o with
  | Plus => 0 | Minus => 1 | Times => 2 | Divide => 3 | Power => 4 | Modulo => 5 | Factorial => 6
  end.
Definition element_index (e : element) : nat :=
  match e with
  | Number _ => 0 | BinOp _ _ _ => 1 | UnOp _ _ => 2 | Call _ _ => 3 | Var _ => 4
  end.

(** Lexicographic combination, as the derive macro and [Vec] do it: continue on
    [Some(Equal)] only. *)
Definition then_cmp (a b : option comparison) : option comparison :=
  match a with Some Eq => b | _ => a end.

(** [partial_cmp] on [Element] — derived, element/mod.rs:20.  Strings compare bytewise, functions by name,
    vectors lexicographically and then by length. *)
Fixpoint el_cmp (a b : element) {struct a} : option comparison :=
  match a, b with
  | Number x, Number y => fcmp x y
  | BinOp op l r, BinOp op' l' r' =>
      then_cmp (Some (Nat.compare (operator_index op) (operator_index op')))
        (then_cmp (el_cmp l l') (el_cmp r r'))
  | UnOp op e, UnOp op' e' =>
      then_cmp (Some (Nat.compare (operator_index op) (operator_index op'))) (el_cmp e e')
  | Call f args, Call g args' =>
      then_cmp (Some (String.compare (fn_name f) (fn_name g)))
        ((fix go (l m : list element) : option comparison :=
            match l, m with
            | [], [] => Some Eq
            | [], _ :: _ => Some Lt
            | _ :: _, [] => Some Gt
            | a :: l', b :: m' => then_cmp (el_cmp a b) (go l' m')
            end) args args')
  | Var x, Var y => Some (String.compare x y)
  | _, _ => Some (Nat.compare (element_index a) (element_index b))
  end.

(** [==] on [HashSet<&str>], for the field of xprs.rs:24 *)
Definition set_eqb (s t : list string) : bool :=
  Nat.eqb (List.length s) (List.length t) && forallb (fun x => mem x t) s.

(** [==] on [Xprs] — derived, fields in order: xprs.rs:18-25 *)
Definition xprs_eq (x y : xprs) : out bool :=
  and_out (el_eq (root x) (root y)) (Val (set_eqb (vars x) (vars y))).
