(** * Specification: writing out the call of a function defined by a text *)
From Coq Require Import ZArith List String Ascii Bool.
From Verif Require Import F64 Syntax Builtins Context Element Parser Xprs SpecTokens SpecGrammar.
Import ListNotations.

(** The argument given for a name. *)
Fixpoint argument_for (names : list string) (args : list (list token)) (s : string) : option (list token) :=
  match names, args with
  | n :: names', a :: args' => if String.eqb s n then Some a else argument_for names' args' s
  | _, _ => None
  end.

(** The body, every name replaced by its argument in parentheses, all at once. *)
Fixpoint written_out (names : list string) (args : list (list token)) (body : list token) : list token :=
  match body with
  | [] => []
  | TId s :: r =>
      match argument_for names args s with
      | Some a => TSym "(" :: a ++ TSym ")" :: written_out names args r
      | None => TId s :: written_out names args r
      end
  | t :: r => t :: written_out names args r
  end.

(** In the body a number never stands directly after one of the names, as in
    "a 2": a name followed by a number is a product, "(3) 2" is an error. *)
Definition numbers_apart (names : list string) (ts : list token) : Prop :=
  ~ adjacent (fun a b => (exists n, In n names /\ a = TId n) /\ exists s, b = TNum s) ts.

(** ** all calls of a text at once *)

(** Opening minus closing brackets. *)
Definition depth_step (t : token) (n : Z) : Z :=
  match t with
  | TSym c => if Ascii.eqb c "(" then n + 1 else if Ascii.eqb c ")" then n - 1 else n
  | _ => n
  end%Z.
Definition depth (ts : list token) : Z := fold_right depth_step 0%Z ts.

(** One argument: balanced, and without a comma outside its own brackets. *)
Definition one_argument (ts : list token) : Prop :=
  depth ts = 0%Z /\ (forall u v, ts = u ++ v -> (0 <= depth u)%Z) /\
  (forall u v, ts = u ++ TSym "," :: v -> depth u <> 0%Z).

(** The arguments with commas between them. *)
Fixpoint separated (args : list (list token)) : list token :=
  match args with
  | [] => []
  | [a] => a
  | a :: r => a ++ TSym "," :: separated r
  end.

(** [expands name names body ts ts']: in [ts] every call "name(a1, ..., an)" is
    written out as the body in brackets, after writing out the calls in the
    arguments. *)
Section Expand.
  Variable name : string.
  Variable names : list string.
  Variable body : list token.

  Inductive expands : list token -> list token -> Prop :=
  | EX_nil : expands [] []
  | EX_keep : forall t ts ts', t <> TId name -> expands ts ts' -> expands (t :: ts) (t :: ts')
  | EX_call : forall args args' ts ts', List.length args = List.length names -> Forall one_argument args ->
      expand_all args args' -> expands ts ts' ->
      expands (TId name :: TSym "(" :: separated args ++ TSym ")" :: ts)
              (TSym "(" :: written_out names args' body ++ TSym ")" :: ts')
  with expand_all : list (list token) -> list (list token) -> Prop :=
  | EX_none : expand_all [] []
  | EX_more : forall a a' l l', expands a a' -> expand_all l l' -> expand_all (a :: l) (a' :: l').
End Expand.

(** ** functions defined by a text *)
(** [defines cfg w ctx0 inner names body bs]: [body] is the text of a function of
    [names]; [inner] is the expression it parses to and [bs] are its tokens. *)
Definition defines (cfg : config) (w : world) (ctx0 : context) (inner : xprs) (names : list string) (body : string) (bs : list token) : Prop :=
  tokens_of body bs /\ clear_tokens ctx0 bs /\ numbers_apart names bs /\
  parse cfg w ctx0 body = Parse_ok inner /\ NoDup names /\
  (forall n, In n names -> stands_for ctx0 n = I_Variable n) /\
  (forall x, In x (vars inner) -> In x names).

(** User function [id] is not in use yet. *)
Definition unused_id (ctx0 : context) (id : nat) : Prop :=
  forall s g, sget s (ctx_symbols ctx0) = Some (S_Function g) -> fn_ptr g <> Static_user id /\ fn_ptr g <> Dyn_user id.
