(** * Specification: replacing names, in token sequences and in trees *)
From Coq Require Import List String Ascii Bool.
From Verif Require Import F64 Syntax SpecTokens.
Import ListNotations.

(** Every [x] of the tokens becomes [us] in parentheses. *)
Fixpoint replace_name (x : string) (us ts : list token) : list token :=
  match ts with
  | [] => []
  | TId s :: r => if String.eqb s x then TSym "(" :: us ++ TSym ")" :: replace_name x us r else TId s :: replace_name x us r
  | t :: r => t :: replace_name x us r
  end.

(** Some of them. *)
Inductive replaces_some (x : string) (us : list token) : list token -> list token -> Prop :=
| RS_nil : replaces_some x us [] []
| RS_keep : forall t ts ts', replaces_some x us ts ts' -> replaces_some x us (t :: ts) (t :: ts')
| RS_here : forall ts ts', replaces_some x us ts ts' ->
    replaces_some x us (TId x :: ts) (TSym "(" :: us ++ TSym ")" :: ts').

(** Every variable [x] of the tree becomes [q]. *)
Fixpoint substitute (x : string) (q t : element) : element :=
  match t with
  | Number n => Number n
  | Var y => if String.eqb y x then q else Var y
  | BinOp op l r => BinOp op (substitute x q l) (substitute x q r)
  | UnOp op a => UnOp op (substitute x q a)
  | Call f args => Call f (map (substitute x q) args)
  end.

(** Renaming the names of a text, and the variables of a tree. *)
Definition rename_tokens (f : string -> string) : list token -> list token :=
  map (fun t => match t with TId s => TId (f s) | t => t end).
Fixpoint rename (f : string -> string) (t : element) : element :=
  match t with
  | Number n => Number n
  | Var y => Var (f y)
  | BinOp op l r => BinOp op (rename f l) (rename f r)
  | UnOp op a => UnOp op (rename f a)
  | Call g args => Call g (map (rename f) args)
  end.
