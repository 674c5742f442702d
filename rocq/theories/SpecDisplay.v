(** * Specification: expressions whose printed text can be read back *)
From Coq Require Import ZArith NArith List String Ascii Bool.
From Flocq Require Import BinarySingleNaN.
From Verif Require Import F64 Syntax Builtins Context SpecTokens SpecGrammar SpecNames.
Import ListNotations.

(** A number that is printed with a minus sign. *)
Definition minus_signed (e : element) : Prop :=
  match e with Number n => Bsign n = true | _ => False end.

(** No factorial, numbers finite, names that mean in [ctx] what they mean in the
    tree, and no minus-signed number as the base of a power. *)
Inductive printable (ctx : context) : element -> Prop :=
| PR_number : forall n, fis_finite n = true -> printable ctx (Number n)
| PR_var : forall x, is_name x -> stands_for ctx x = I_Variable x -> printable ctx (Var x)
| PR_bin : forall op l r, op <> Factorial -> (op = Power -> ~ minus_signed l) ->
    printable ctx l -> printable ctx r -> printable ctx (BinOp op l r)
| PR_un : forall op e, op = Plus \/ op = Minus -> printable ctx e -> printable ctx (UnOp op e)
| PR_call : forall f args, is_name (fn_name f) -> stands_for ctx (fn_name f) = I_Function f ->
    args <> [] -> SpecGrammar.arity_ok f args -> Forall (printable ctx) args -> printable ctx (Call f args).

(** The tree as its text is read: a minus-signed number is read as a minus sign
    before a number. *)
Fixpoint respelled (e : element) : element :=
  match e with
  | Number n => if Bsign n then UnOp Minus (Number (fneg n)) else Number n
  | Var x => Var x
  | BinOp op l r => BinOp op (respelled l) (respelled r)
  | UnOp op a => UnOp op (respelled a)
  | Call f args => Call f (map respelled args)
  end.

(** Every function that a name stands for goes by its own name. *)
Definition names_agree (ctx : context) : Prop :=
  forall s f, stands_for ctx s = I_Function f -> is_name s ->
    is_name (fn_name f) /\ stands_for ctx (fn_name f) = I_Function f.
