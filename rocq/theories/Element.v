(** * Expression trees: equality, variables, simplification

    Models /repo/src/element/mod.rs, binop.rs and simplify.rs. *)
From Coq Require Import ZArith NArith List String Ascii Bool.
From Verif Require Import F64 Syntax Factorial Builtins.
Import ListNotations.

(** [a && b] and [a || b] on operands that may panic: short-circuiting. *)
Definition and_out (a : out bool) (b : out bool) : out bool :=
  match a with Val true => b | _ => a end.
Definition or_out (a : out bool) (b : out bool) : out bool :=
  match a with Val false => b | _ => a end.

(** [==] on [Element] — derived at mod.rs:20 (unop.rs:7, function_call.rs:7);
    [BinOp] by hand at binop.rs:39-60.  Panics ([unreachable!()]) when it meets
    two binary operations with the operator [Factorial]. *)
Fixpoint el_eq (a b : element) {struct a} : out bool :=
  match a, b with
  | Number x, Number y => Val (feq x y)
  | BinOp op l r, BinOp op' l' r' =>
      if operator_eqb op op' then
        match op with
        | Divide | Minus | Modulo | Power => and_out (el_eq l l') (el_eq r r')
        | Plus | Times =>
            or_out (and_out (el_eq l l') (el_eq r r'))
                   (and_out (el_eq l r') (el_eq r l'))
        | Factorial => Boom Unreachable
        end
      else Val false
  | UnOp op e, UnOp op' e' => if operator_eqb op op' then el_eq e e' else Val false
  | Call f args, Call g args' =>
      if function_eqb f g then
        if Nat.eqb (List.length args) (List.length args') then
          (fix go (l m : list element) : out bool :=
             match l, m with
             | a :: l', b :: m' => and_out (el_eq a b) (go l' m')
             | _, _ => Val true
             end) args args'
        else Val false
      else Val false
  | Var x, Var y => Val (String.eqb x y)
  | _, _ => Val false
  end.

(** [e == Element::Number(v)], the guards of simplify.rs:55-213 *)
Definition is_number (e : element) (v : f64) : bool :=
  match e with Number x => feq x v | _ => false end.

(** [find_variables] — mod.rs:76-93: depth first, left to right, inserting into
    the set. *)
Fixpoint find_variables (e : element) (vars : list string) : list string :=
  match e with
  | Var x => set_insert x vars
  | BinOp _ l r => find_variables r (find_variables l vars)
  | UnOp _ e => find_variables e vars
  | Call _ args => fold_left (fun s a => find_variables a s) args vars
  | Number _ => vars
  end.

(** The binary operators on two numbers — simplify.rs:227-235 and
    xprs.rs:296-304. *)
Definition apply_binop (w : world) (op : operator) (x y : f64) : out f64 :=
  match op with
  | Plus => Val (fadd x y)
  | Minus => Val (fsub x y)
  | Times => Val (fmul x y)
  | Divide => Val (fdiv x y)
  | Power => Val (l_powf w x y)
  | Modulo => Val (frem x y)
  | Factorial => Boom Unreachable
  end.

(** The last two arms of [BinOp::simplify] — simplify.rs:221-238: fold two
    numbers, otherwise keep the operation. *)
Definition fold_binop (w : world) (op : operator) (l r : element) : out element :=
  match l, r with
  | Number x, Number y => do v <- apply_binop w op x y; Val (Number v)
  | _, _ => Val (BinOp op l r)
  end.

(** [if a == b { x } else { y }], for the guards of simplify.rs:65-219 that compare two trees *)
Definition if_eq (a b : element) (x y : out element) : out element :=
  do c <- el_eq a b; if c then x else y.

(** The match of [BinOp::simplify] after both children are simplified —
    simplify.rs:52-239.  The arms of one operator are tried in source order;
    arms of other operators never match, so the cascade is split by operator.
    The arm commented "a ^ 0 => 1" (lines 185-188) tests [op: Divide] and comes
    after the arm "a / 0 => inf", so it never fires; it is kept in place. *)
Definition simplify_binop (cfg : config) (w : world) (op : operator) (l r : element) : out element :=
  match op with
  | Plus =>
      if is_number l fzero then Val r                                   (* 55 *)
      else if is_number r fzero then Val l                              (* 57 *)
      else
        let tail := fold_binop w Plus l r in
        if nightly cfg then
          let second :=                                                 (* 68-72 *)
            match r with
            | UnOp Minus operand => if_eq l operand (Val (Number fzero)) tail
            | _ => tail
            end in
          match l with                                                  (* 61-65 *)
          | UnOp Minus operand => if_eq operand r (Val (Number fzero)) second
          | _ => second
          end
        else tail
  | Minus =>
      if is_number l fzero then Val (UnOp Minus r)                      (* 75-79 *)
      else if is_number r fzero then Val l                              (* 81-85 *)
      else if_eq l r (Val (Number fzero))                               (* 87-91 *)
        (match r with
         | UnOp Minus operand =>
             if nightly cfg then Val (BinOp Plus l operand)             (* 95-99 *)
             else fold_binop w Minus l r
         | _ => fold_binop w Minus l r
         end)
  | Times =>
      if is_number l fzero then Val (Number fzero)                      (* 102 *)
      else if is_number r fzero then Val (Number fzero)                 (* 104 *)
      else if is_number l fone then Val r                               (* 106-110 *)
      else if is_number r fone then Val l                               (* 112-116 *)
      else match l, r with
           | UnOp Minus a, UnOp Minus b =>
               if nightly cfg then Val (BinOp Times a b)                (* 120-132 *)
               else fold_binop w Times l r
           | _, _ => fold_binop w Times l r
           end
  | Divide =>
      if is_number l fzero && is_number r fzero then Val (Number fnan)  (* 135-139 *)
      else if is_number l fzero then Val (Number fzero)                 (* 141-143 *)
      else if is_number r fzero then Val (Number finf)                  (* 145-147 *)
      else if is_number r fone then Val l                               (* 149-153 *)
      else if_eq l r (Val (Number fone))                                (* 155-159 *)
        (let tail :=
           if is_number r fzero then Val (Number fone)                  (* 186-188 *)
           else fold_binop w Divide l r in
         match l, r with
         | UnOp Minus a, UnOp Minus b =>
             if nightly cfg then Val (BinOp Divide a b)                 (* 163-175 *)
             else tail
         | _, _ => tail
         end)
  | Power =>
      if is_number l fzero && is_number r fzero then Val (Number fone)  (* 178-182 *)
      else if is_number l fzero then Val (Number fzero)                 (* 184 *)
      else if is_number r fone then Val l                               (* 190-194 *)
      else fold_binop w Power l r
  | Modulo =>
      if is_number l fzero && is_number r fzero then Val (Number fnan)  (* 197-201 *)
      else if is_number l fzero then Val (Number fzero)                 (* 203-205 *)
      else if is_number r fzero then Val (Number fnan)                  (* 207-209 *)
      else if is_number r fone then Val (Number fzero)                  (* 211-213 *)
      else if_eq l r (Val (Number fzero)) (fold_binop w Modulo l r)     (* 215-219 *)
  | Factorial => fold_binop w Factorial l r
  end.

(** [UnOp::simplify] after the operand is simplified — simplify.rs:252-272. *)
Definition simplify_unop (op : operator) (e : element) : out element :=
  match op with
  | Plus => Val e
  | Factorial => match e with
                 | Number n => Val (Number (factorial n))
                 | _ => Val (UnOp Factorial e)
                 end
  | Minus => match e with
             | Number n => Val (Number (fneg n))
             | _ => Val (UnOp Minus e)
             end
  | Times | Divide | Power | Modulo => Boom Unreachable
  end.

(** The numbers among the arguments, in order ([args_values],
    simplify.rs:290-302). *)
Fixpoint number_values (args : list element) : list f64 :=
  match args with
  | [] => []
  | Number n :: args' => n :: number_values args'
  | _ :: args' => number_values args'
  end.

(** [FunctionCall::simplify] after the arguments are simplified —
    simplify.rs:304-308. *)
Definition simplify_call (w : world) (f : function) (args : list element) : out element :=
  let vals := number_values args in
  if Nat.eqb (List.length vals) (List.length args) then
    do v <- call_function w f vals; Val (Number v)
  else Val (Call f args).

(** [Simplify::simplify] — simplify.rs:29-36, 47-51, 249-250, 286-302 *)
Fixpoint simplify (cfg : config) (w : world) (e : element) : out element :=
  match e with
  | BinOp op l r =>
      do l' <- simplify cfg w l;
      do r' <- simplify cfg w r;
      simplify_binop cfg w op l' r'
  | UnOp op e1 =>
      do e' <- simplify cfg w e1;
      simplify_unop op e'
  | Call f args =>
      do args' <- map_out (simplify cfg w) args;
      simplify_call w f args'
  | Number _ | Var _ => Val e
  end.

(** [Simplify::simplify_for] — simplify.rs:19-27, 40-44, 244-247, 277-284:
    substitute in the children, then simplify (which visits the children
    again). *)
Fixpoint el_simplify_for (cfg : config) (w : world) (x : string) (v : f64) (e : element) : out element :=
  match e with
  | BinOp op l r =>
      do l' <- el_simplify_for cfg w x v l;
      do r' <- el_simplify_for cfg w x v r;
      simplify cfg w (BinOp op l' r')
  | UnOp op e1 =>
      do e' <- el_simplify_for cfg w x v e1;
      simplify cfg w (UnOp op e')
  | Call f args =>
      do args' <- map_out (el_simplify_for cfg w x v) args;
      simplify cfg w (Call f args')
  | Var y => if String.eqb y x then Val (Number v) else Val e
  | Number _ => Val e
  end.
