(** * Xprs: evaluation, binding, partial evaluation — /repo/src/xprs.rs *)
From Coq Require Import ZArith NArith List String Ascii Bool.
From Verif Require Import F64 Syntax Factorial Builtins Context Element Parser.
Import ListNotations.
Local Open Scope string_scope.

(** [Result<f64, EvalError>]; [EvalError(name)] — xprs.rs:365-369 *)
Inductive eval_result :=
| Eval_ok (v : f64)
| Eval_err (name : string).

(** [?] on [Result] inside code that may panic *)
Definition ebind {A} (r : out eval_result) (f : f64 -> out A) (err : string -> A) : out A :=
  match r with
  | Val (Eval_ok v) => f v
  | Val (Eval_err x) => Val (err x)
  | Boom p => Boom p
  end.

(** The unary operators — xprs.rs:282-290, 328-336 *)
Definition apply_unop (op : operator) (x : f64) : out f64 :=
  match op with
  | Plus => Val x
  | Minus => Val (fneg x)
  | Factorial => Val (factorial x)
  | Times | Divide | Power | Modulo => Boom Unreachable
  end.

Definition ok (r : out f64) : out eval_result :=
  match r with Val v => Val (Eval_ok v) | Boom p => Boom p end.

(** [.map(..).collect::<Result<Vec<_>, EvalError>>()] — xprs.rs:307-311:
    stops at the first error.  [inr] is the error. *)
Definition map_eval {A} (f : A -> out eval_result) : list A -> out (list f64 + string) :=
  fix go (l : list A) : out (list f64 + string) :=
    match l with
    | [] => Val (inl [])
    | a :: l' =>
        match f a with
        | Boom p => Boom p
        | Val (Eval_err x) => Val (inr x)
        | Val (Eval_ok v) =>
            match go l' with
            | Boom p => Boom p
            | Val (inr x) => Val (inr x)
            | Val (inl vs) => Val (inl (v :: vs))
            end
        end
    end.

Section Eval.
  Variable w : world.
  Variable variables : smap f64.

  (** [eval_element] — xprs.rs:272-317 *)
  Fixpoint eval_element (e : element) : out eval_result :=
    match e with
    | Number n => Val (Eval_ok n)
    | Var x =>
        match sget x variables with
        | Some v => Val (Eval_ok v)
        | None => Val (Eval_err x)
        end
    | UnOp op e1 =>
        ebind (eval_element e1) (fun operand => ok (apply_unop op operand)) Eval_err
    | BinOp op l r =>
        ebind (eval_element l) (fun left =>
        ebind (eval_element r) (fun right =>
        ok (apply_binop w op left right)) Eval_err) Eval_err
    | Call f args =>
        match map_eval eval_element args with
        | Boom p => Boom p
        | Val (inr x) => Val (Eval_err x)
        | Val (inl vs) => ok (call_function w f vs)
        end
    end.

  (** [eval_element_unchecked] — xprs.rs:320-361 *)
  Fixpoint eval_element_unchecked (e : element) : out f64 :=
    match e with
    | Number n => Val n
    | Var x =>
        match sget x variables with
        | Some v => Val v
        | None => Boom UnwrapNone
        end
    | UnOp op e1 =>
        do operand <- eval_element_unchecked e1;
        apply_unop op operand
    | BinOp op l r =>
        do left <- eval_element_unchecked l;
        do right <- eval_element_unchecked r;
        apply_binop w op left right
    | Call f args =>
        do vs <- map_out eval_element_unchecked args;
        call_function w f vs
    end.
End Eval.

(** [eval] — xprs.rs:75-80 *)
Definition eval (w : world) (x : xprs) (variables : smap f64) : out eval_result :=
  eval_element w variables (root x).
(** [eval_unchecked] — xprs.rs:119-121 *)
Definition eval_unchecked (w : world) (x : xprs) (variables : smap f64) : out f64 :=
  eval_element_unchecked w variables (root x).
(** [eval_no_vars] — xprs.rs:157-159 *)
Definition eval_no_vars (w : world) (x : xprs) : out eval_result := eval w x [].
(** [eval_no_vars_unchecked] — xprs.rs:169-171 *)
Definition eval_no_vars_unchecked (w : world) (x : xprs) : out f64 := eval_unchecked w x [].

(** ** Partial evaluation

    The in-place versions move the tree out of [self.root] with [ptr::read] and
    put the new one back with [ptr::write] — xprs.rs:144-146, 221-226.  Between the two, [self.root] still
    holds the bits of a tree that is owned elsewhere.  [slot] records which of
    the two is the case when control leaves the function. *)
Inductive slot :=
| Owned (e : element)      (* self owns this tree *)
| MovedOut (e : element).  (* the bits of this tree are here, but it has been consumed *)

Record xprs_cell := mk_cell { cell_root : slot; cell_vars : list string }.

(** How a method on [&mut self] ends, with the state it leaves behind. *)
Inductive mut_result :=
| Returned (c : xprs_cell)
| Panicked (p : panic) (c : xprs_cell).

(** [simplify_for_in_place] — xprs.rs:143-148 *)
Definition simplify_for_in_place (cfg : config) (w : world) (self : xprs) (var : string * f64) : mut_result :=
  let tmp := root self in                                    (* ptr::read *)
  match el_simplify_for cfg w (fst var) (snd var) tmp with
  | Boom p => Panicked p (mk_cell (MovedOut (root self)) (vars self))
  | Val tmp' => Returned (mk_cell (Owned tmp') (set_remove (fst var) (vars self)))
  end.

(** [simplify_for_multiple_in_place] — xprs.rs:219-227 *)
Fixpoint simplify_multiple_loop (cfg : config) (w : world) (l : list (string * f64))
    (original tmp : element) (vs : list string) : mut_result :=
  match l with
  | [] => Returned (mk_cell (Owned tmp) vs)
  | var :: l' =>
      match el_simplify_for cfg w (fst var) (snd var) tmp with
      | Boom p => Panicked p (mk_cell (MovedOut original) vs)
      | Val tmp' => simplify_multiple_loop cfg w l' original tmp' (set_remove (fst var) vs)
      end
  end.
Definition simplify_for_multiple_in_place (cfg : config) (w : world) (self : xprs)
    (l : list (string * f64)) : mut_result :=
  simplify_multiple_loop cfg w l (root self) (root self) (vars self).

(** The by-value versions — xprs.rs:194-197, 250-253: run the in-place method
    and return [self]. *)
Definition take_self (r : mut_result) : out xprs :=
  match r with
  | Returned (mk_cell (Owned e) vs) => Val (mk_xprs e vs)
  | Returned (mk_cell (MovedOut e) vs) => Val (mk_xprs e vs)
  | Panicked p _ => Boom p
  end.
Definition simplify_for (cfg : config) (w : world) (self : xprs) (var : string * f64) : out xprs :=
  take_self (simplify_for_in_place cfg w self var).
Definition simplify_for_multiple (cfg : config) (w : world) (self : xprs) (l : list (string * f64)) : out xprs :=
  take_self (simplify_for_multiple_in_place cfg w self l).

(** ** Binding *)

(** [BindError] — xprs.rs:736-741 *)
Inductive bind_error :=
| OneVariable (s : string)
| MultipleVariables (s : string).

(** The loop of [BindError::from_diff] — xprs.rs:752-758: the [u8] counter and
    the text so far. *)
Fixpoint from_diff_loop (cfg : config) (missing : list string) (count : N) (text : string)
  : out (N * string) :=
  match missing with
  | [] => Val (count, text)
  | m :: rest =>
      if ((count =? 255)%N && overflow_checks cfg)%bool then Boom ArithOverflow
      else
        let count := ((count + 1) mod 256)%N in
        let text := text ++ m in
        let text := match rest with [] => text | _ => text ++ ", " end in
        from_diff_loop cfg rest count text
  end.

(** [BindError::from_diff] — xprs.rs:746-764 *)
Definition from_diff (cfg : config) (missing : list string) : out (option bind_error) :=
  do r <- from_diff_loop cfg missing 0%N "";
  let '(count, text) := r in
  Val (match count with
       | 0%N => None
       | 1%N => Some (OneVariable text)
       | _ => Some (MultipleVariables text)
       end).

(** The check shared by all [bind*] methods, e.g. xprs.rs:400-404. *)
Definition bind_check (cfg : config) (w : world) (x : xprs) (names : list string)
  : out (option bind_error) :=
  let variables := fold_left (fun s n => set_insert n s) names [] in
  let missing_vars := set_diff (hash_order w (vars x)) variables in
  from_diff cfg missing_vars.

(** [Result<impl Fn.., BindError>] *)
Inductive bind_result (F : Type) :=
| Bound (f : F)
| Bind_err (e : bind_error).
Arguments Bound {F} f.
Arguments Bind_err {F} e.

(** [bind_n] — xprs.rs:684-691.  The array type fixes the number of values to
    the number of names; here the closure takes a list which the theorems
    constrain to that length. *)
Definition bind_n (cfg : config) (w : world) (x : xprs) (names : list string)
  : out (bind_result (list f64 -> out f64)) :=
  do e <- bind_check cfg w x names;
  Val (match e with
       | Some err => Bind_err err
       | None => Bound (fun values => eval_unchecked w x (smap_of_list (combine names values)))
       end).

(** [bind] — xprs.rs:399-406 *)
Definition bind (cfg : config) (w : world) (x : xprs) (var : string)
  : out (bind_result (f64 -> out f64)) :=
  do e <- bind_check cfg w x [var];
  Val (match e with
       | Some err => Bind_err err
       | None => Bound (fun val => eval_unchecked w x (smap_of_list [(var, val)]))
       end).

(** [bind2] — xprs.rs:430-437 *)
Definition bind2 (cfg : config) (w : world) (x : xprs) (var1 var2 : string)
  : out (bind_result (f64 -> f64 -> out f64)) :=
  do e <- bind_check cfg w x [var1; var2];
  Val (match e with
       | Some err => Bind_err err
       | None => Bound (fun val1 val2 =>
           eval_unchecked w x (smap_of_list [(var1, val1); (var2, val2)]))
       end).

(** [bind3] — xprs.rs:461-468 *)
Definition bind3 (cfg : config) (w : world) (x : xprs) (var1 var2 var3 : string)
  : out (bind_result (f64 -> f64 -> f64 -> out f64)) :=
  do e <- bind_check cfg w x [var1; var2; var3];
  Val (match e with
       | Some err => Bind_err err
       | None => Bound (fun val1 val2 val3 =>
           eval_unchecked w x (smap_of_list [(var1, val1); (var2, val2); (var3, val3)]))
       end).

(** [bind4] — xprs.rs:492-499 *)
Definition bind4 (cfg : config) (w : world) (x : xprs) (var1 var2 var3 var4 : string)
  : out (bind_result (f64 -> f64 -> f64 -> f64 -> out f64)) :=
  do e <- bind_check cfg w x [var1; var2; var3; var4];
  Val (match e with
       | Some err => Bind_err err
       | None => Bound (fun val1 val2 val3 val4 =>
           eval_unchecked w x (smap_of_list [(var1, val1); (var2, val2); (var3, val3); (var4, val4)]))
       end).

(** [bind5] — xprs.rs:523-530 *)
Definition bind5 (cfg : config) (w : world) (x : xprs) (var1 var2 var3 var4 var5 : string)
  : out (bind_result (f64 -> f64 -> f64 -> f64 -> f64 -> out f64)) :=
  do e <- bind_check cfg w x [var1; var2; var3; var4; var5];
  Val (match e with
       | Some err => Bind_err err
       | None => Bound (fun val1 val2 val3 val4 val5 =>
           eval_unchecked w x (smap_of_list [(var1, val1); (var2, val2); (var3, val3); (var4, val4); (var5, val5)]))
       end).

(** [bind6] — xprs.rs:554-561 *)
Definition bind6 (cfg : config) (w : world) (x : xprs) (var1 var2 var3 var4 var5 var6 : string)
  : out (bind_result (f64 -> f64 -> f64 -> f64 -> f64 -> f64 -> out f64)) :=
  do e <- bind_check cfg w x [var1; var2; var3; var4; var5; var6];
  Val (match e with
       | Some err => Bind_err err
       | None => Bound (fun val1 val2 val3 val4 val5 val6 =>
           eval_unchecked w x (smap_of_list [(var1, val1); (var2, val2); (var3, val3); (var4, val4); (var5, val5); (var6, val6)]))
       end).

(** [bind7] — xprs.rs:585-592 *)
Definition bind7 (cfg : config) (w : world) (x : xprs) (var1 var2 var3 var4 var5 var6 var7 : string)
  : out (bind_result (f64 -> f64 -> f64 -> f64 -> f64 -> f64 -> f64 -> out f64)) :=
  do e <- bind_check cfg w x [var1; var2; var3; var4; var5; var6; var7];
  Val (match e with
       | Some err => Bind_err err
       | None => Bound (fun val1 val2 val3 val4 val5 val6 val7 =>
           eval_unchecked w x (smap_of_list [(var1, val1); (var2, val2); (var3, val3); (var4, val4); (var5, val5); (var6, val6); (var7, val7)]))
       end).

(** [bind8] — xprs.rs:616-623 *)
Definition bind8 (cfg : config) (w : world) (x : xprs) (var1 var2 var3 var4 var5 var6 var7 var8 : string)
  : out (bind_result (f64 -> f64 -> f64 -> f64 -> f64 -> f64 -> f64 -> f64 -> out f64)) :=
  do e <- bind_check cfg w x [var1; var2; var3; var4; var5; var6; var7; var8];
  Val (match e with
       | Some err => Bind_err err
       | None => Bound (fun val1 val2 val3 val4 val5 val6 val7 val8 =>
           eval_unchecked w x (smap_of_list [(var1, val1); (var2, val2); (var3, val3); (var4, val4); (var5, val5); (var6, val6); (var7, val7); (var8, val8)]))
       end).

(** [bind9] — xprs.rs:647-654 *)
Definition bind9 (cfg : config) (w : world) (x : xprs) (var1 var2 var3 var4 var5 var6 var7 var8 var9 : string)
  : out (bind_result (f64 -> f64 -> f64 -> f64 -> f64 -> f64 -> f64 -> f64 -> f64 -> out f64)) :=
  do e <- bind_check cfg w x [var1; var2; var3; var4; var5; var6; var7; var8; var9];
  Val (match e with
       | Some err => Bind_err err
       | None => Bound (fun val1 val2 val3 val4 val5 val6 val7 val8 val9 =>
           eval_unchecked w x (smap_of_list [(var1, val1); (var2, val2); (var3, val3); (var4, val4); (var5, val5); (var6, val6); (var7, val7); (var8, val8); (var9, val9)]))
       end).

(** [bind_n_runtime] — xprs.rs:718-728 *)
Definition bind_n_runtime (cfg : config) (w : world) (x : xprs) (names : list string)
  : out (bind_result (list f64 -> out eval_result)) :=
  do e <- bind_check cfg w x names;
  Val (match e with
       | Some err => Bind_err err
       | None => Bound (fun values => eval w x (smap_of_list (combine names values)))
       end).

(** ** The REPL — /repo/src/bin/repl.rs *)

(** One turn of the loop, lines 30-42, after the line has been read and is not
    "exit": what is printed in the end.  [answers] gives the number the user
    types for each variable (lines 52-73; a line that is not a number ends the
    program there and is not modelled). *)
Inductive repl_result :=
| Repl_value (v : f64)
| Repl_error (e : parse_error)
| Repl_panic (p : panic).

(** [ask_for_variables] — repl.rs:52-73: fold over the set, inserting. *)
Definition ask_for_variables (w : world) (answers : string -> f64) (set : list string) : smap f64 :=
  fold_left (fun acc var => sinsert var (answers var) acc) (hash_order w set) [].

Definition repl_turn (cfg : config) (w : world) (line : string) (answers : string -> f64) : repl_result :=
  match parse cfg w ctx_default line with
  | Parse_ok ast =>
      match eval w ast (ask_for_variables w answers (vars ast)) with
      | Val (Eval_ok v) => Repl_value v
      | Val (Eval_err _) => Repl_panic Unreachable      (* line 38 *)
      | Boom p => Repl_panic p
      end
  | Parse_err e => Repl_error e
  | Parse_panic p => Repl_panic p
  | Parse_diverges => Repl_panic Unreachable            (* never: C01 *)
  end.
