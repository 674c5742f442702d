(** * How deeply the calls nest, continued: printing, ordering, cloning, dropping

    As in [Depth.v]: the functions of [Display.v] and [Order.v] again, each also
    returning the greatest number of its calls open at the same time, one for
    every node (in the Rust code [Element::fmt] calls [BinOp::fmt] and the
    formatting machinery of the standard library: a fixed number of machine
    frames for each one counted here).  [Clone] and the drop glue are compiler
    generated; they are modelled here as the traversals the compiler generates
    from the type. *)
From Coq Require Import ZArith NArith List String Ascii Bool.
From Verif Require Import F64 Syntax Element Order Display.
Import ListNotations.
Local Open Scope nat_scope.

(** [Display] — element/mod.rs:35-45, binop.rs:33-37, unop.rs:30-34,
    function_call.rs:35-44 *)
Fixpoint display_d (e : element) : string * nat :=
  match e with
  | Number num => (display_f64 num, 1)
  | BinOp op lhs rhs =>
      let '(s1, n1) := display_d lhs in
      let '(s2, n2) := display_d rhs in
      (("(" ++ s1 ++ " " ++ display_operator op ++ " " ++ s2 ++ ")")%string, 1 + Nat.max n1 n2)
  | UnOp op operand =>
      let '(s, n) := display_d operand in (("(" ++ display_operator op ++ s ++ ")")%string, 1 + n)
  | Call f args =>
      let '(l, n) := fold_right (fun a p => let '(s, n) := display_d a in (s :: fst p, Nat.max n (snd p))) ([], 0) args in
      ((fn_name f ++ "(" ++ join ", " l ++ ")")%string, 1 + n)
  | Var var => (var, 1)
  end.

(** continue on [Some(Equal)] only: the second is called after the first has
    returned *)
Definition then_cmp_d (a b : option comparison * nat) : option comparison * nat :=
  match fst a with Some Eq => (fst b, Nat.max (snd a) (snd b)) | _ => a end.

(** [partial_cmp] — derived at element/mod.rs:20, binop.rs:7, unop.rs:7,
    function_call.rs:7; token/function.rs:58-63 *)
Fixpoint el_cmp_d (a b : element) {struct a} : option comparison * nat :=
  let '(r, n) :=
    match a, b with
    | Number x, Number y => (fcmp x y, 0)
    | BinOp op l r, BinOp op' l' r' =>
        then_cmp_d (Some (Nat.compare (operator_index op) (operator_index op')), 0)
          (then_cmp_d (el_cmp_d l l') (el_cmp_d r r'))
    | UnOp op e, UnOp op' e' =>
        then_cmp_d (Some (Nat.compare (operator_index op) (operator_index op')), 0) (el_cmp_d e e')
    | Call f args, Call g args' =>
        then_cmp_d (Some (String.compare (fn_name f) (fn_name g)), 0)
          ((fix go (l m : list element) : option comparison * nat :=
              match l, m with
              | [], [] => (Some Eq, 0)
              | [], _ :: _ => (Some Lt, 0)
              | _ :: _, [] => (Some Gt, 0)
              | a :: l', b :: m' => then_cmp_d (el_cmp_d a b) (go l' m')
              end) args args')
    | Var x, Var y => (Some (String.compare x y), 0)
    | _, _ => (Some (Nat.compare (element_index a) (element_index b)), 0)
    end in (r, 1 + n).

(** [Clone] — derived at element/mod.rs:20, binop.rs:7, unop.rs:7,
    function_call.rs:7 *)
Fixpoint clone_d (e : element) : element * nat :=
  match e with
  | Number num => (Number num, 1)
  | BinOp op lhs rhs =>
      let '(l, n1) := clone_d lhs in
      let '(r, n2) := clone_d rhs in (BinOp op l r, 1 + Nat.max n1 n2)
  | UnOp op operand => let '(a, n) := clone_d operand in (UnOp op a, 1 + n)
  | Call f args =>
      let '(l, n) := fold_right (fun a p => let '(x, n) := clone_d a in (x :: fst p, Nat.max n (snd p))) ([], 0) args in
      (Call f l, 1 + n)
  | Var var => (Var var, 1)
  end.

(** The drop glue of [Element] — element/mod.rs:22-33: the nodes dropped, and
    the frames. *)
Fixpoint drop_d (e : element) : nat * nat :=
  match e with
  | Number _ | Var _ => (1, 1)
  | BinOp _ lhs rhs =>
      let '(k1, n1) := drop_d lhs in
      let '(k2, n2) := drop_d rhs in (1 + k1 + k2, 1 + Nat.max n1 n2)
  | UnOp _ operand => let '(k, n) := drop_d operand in (1 + k, 1 + n)
  | Call _ args =>
      let '(k, n) := fold_right (fun a p => let '(k, n) := drop_d a in (k + fst p, Nat.max n (snd p))) (0, 0) args in
      (1 + k, 1 + n)
  end.
