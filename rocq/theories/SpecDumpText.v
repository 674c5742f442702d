(** * Specification: the dump of an expression, word for word *)
From Coq Require Import ZArith NArith List String Ascii Bool Permutation.
From Verif Require Import F64 Syntax Parser Xprs DebugText SpecDebug.
Import ListNotations.
Local Open Scope string_scope.

Definition operator_name (op : operator) : string :=
  match op with
  | Plus => "Plus" | Minus => "Minus" | Times => "Times" | Divide => "Divide"
  | Power => "Power" | Modulo => "Modulo" | Factorial => "Factorial"
  end.
Definition pointer_name (p : fn_pointer) : string :=
  match p with Static_builtin _ => "Static" | Static_user _ => "Static" | Dyn_user _ => "Dyn" end.
Definition arity_text (n : option nat) : string :=
  match n with None => "None" | Some n => "Some(" ++ Display.display_nat n ++ ")" end.

(** [{:?}] of a tree *)
Inductive tree_text : element -> string -> Prop :=
| TT_number : forall v, tree_text (Number v) ("Number(" ++ debug_f64 v ++ ")")
| TT_variable : forall x, tree_text (Var x) ("Variable(""" ++ x ++ """)")
| TT_unary : forall op a t, tree_text a t ->
    tree_text (UnOp op a) ("UnOp(UnOp { op: " ++ operator_name op ++ ", operand: " ++ t ++ " })")
| TT_binary : forall op a b s t, tree_text a s -> tree_text b t ->
    tree_text (BinOp op a b) ("BinOp(BinOp { op: " ++ operator_name op ++ ", lhs: " ++ s ++ ", rhs: " ++ t ++ " })")
| TT_call : forall f args l, Forall2 tree_text args l ->
    tree_text (Call f args)
      ("Function(FunctionCall { desc: Function { name: """ ++ fn_name f ++ """, func: " ++ pointer_name (fn_ptr f) ++
       ", nb_args: " ++ arity_text (fn_nb_args f) ++ " }, args: [" ++ String.concat ", " l ++ "] })").

(** [{:?}] of an expression: the tree, then the variables in some order *)
Inductive expression_text : xprs -> string -> Prop :=
| XT : forall x t names, tree_text (root x) t -> Permutation (vars x) names ->
    expression_text x ("Xprs { root: " ++ t ++ ", vars: {" ++ String.concat ", " (map (fun y => """" ++ y ++ """") names) ++ "} }").

(** [{:#?}] against [{:?}]: blanks and line ends do not count, and in the long
    form the last item of a list is followed by a comma too. *)
Definition letters (s : string) : list ascii := filter (fun c => negb (newline c) && negb (space c)) (list_ascii_of_string s).
Fixpoint no_last_commas (l : list ascii) : list ascii :=
  match l with
  | [] => []
  | a :: t =>
      if Ascii.eqb a "," && match t with c :: _ => closes c | [] => false end
      then no_last_commas t else a :: no_last_commas t
  end.
