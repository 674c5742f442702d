(** * Specification: writing an expression with the fewest brackets *)
From Coq Require Import ZArith NArith List String Ascii Bool.
From Flocq Require Import BinarySingleNaN.
From Verif Require Import F64 Syntax Builtins Context Display SpecTokens SpecGrammar SpecNames.
Import ListNotations.
Local Open Scope string_scope.

(** Can it be written at all?  Numbers are finite and not negative (a negative
    number is written with a sign, which is another expression), names mean what
    they mean in the expression, and the factorial has one operand. *)
Inductive writable (ctx : context) : element -> Prop :=
| WR_number : forall n, fis_finite n = true -> Bsign n = false -> writable ctx (Number n)
| WR_var : forall x, is_name x -> stands_for ctx x = I_Variable x -> writable ctx (Var x)
| WR_bin : forall op l r, op <> Factorial -> writable ctx l -> writable ctx r -> writable ctx (BinOp op l r)
| WR_un : forall op e, op = Plus \/ op = Minus \/ op = Factorial -> writable ctx e -> writable ctx (UnOp op e)
| WR_call : forall f args, is_name (fn_name f) -> stands_for ctx (fn_name f) = I_Function f ->
    args <> [] -> SpecGrammar.arity_ok f args -> Forall (writable ctx) args -> writable ctx (Call f args).

Definition sign (e : element) : bool :=
  match e with UnOp Plus _ | UnOp Minus _ => true | _ => false end.
Definition atomic (e : element) : bool :=
  match e with Number _ | Var _ | Call _ _ => true | _ => false end.

(** Which operands need brackets.  Left of an operator: what a weaker operator
    joins, and left of '^' also a sign, by itself or as the exponent of another
    power.  Right of an operator: what an operator of the same strength or a weaker one
    joins.  Under a sign: everything but powers and single terms.  Before '!':
    everything but numbers, names and calls. *)
Definition bracket_left (op : operator) (l : element) : bool :=
  match op with Power => sign l || match l with BinOp Power _ r => sign r | _ => false end | _ => false end ||
  match l with BinOp op' _ _ => Nat.ltb (strength op') (strength op) | _ => false end.
Definition bracket_right (op : operator) (r : element) : bool :=
  match r with BinOp op' _ _ => Nat.leb (strength op') (strength op) | _ => false end.
Definition bracket_sign (e : element) : bool :=
  match e with BinOp Power _ _ => false | BinOp _ _ _ => true | _ => false end.

Definition bracket (needed : bool) (text : string) : string := if needed then "(" ++ text ++ ")" else text.

Fixpoint lean (e : element) : string :=
  match e with
  | Number n => display_f64 n
  | Var x => x
  | BinOp op l r =>
      bracket (bracket_left op l) (lean l) ++ " " ++ display_operator op ++ " " ++ bracket (bracket_right op r) (lean r)
  | UnOp Factorial a => bracket (negb (atomic a)) (lean a) ++ "!"
  | UnOp op a => display_operator op ++ bracket (bracket_sign a) (lean a)
  | Call f args => fn_name f ++ "(" ++ join ", " (map lean args) ++ ")"
  end.

(** How many opening brackets a text has (those of calls included). *)
Definition brackets (text : string) : nat := count_occ ascii_dec (list_ascii_of_string text) "("%char.
