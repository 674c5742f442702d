(** * The [xprs_fn!] macro — /repo/src/token/function.rs:121-205 *)
From Coq Require Import ZArith NArith List String Ascii Bool.
From Verif Require Import F64 Syntax.
Import ListNotations.

(** The Rust expressions given to the macro, as far as the macro and the type
    checker tell them apart. *)
Inductive arg_expr :=
| E_str (s : string)      (* a string literal *)
| E_int (n : nat)         (* an integer literal *)
| E_fn (source : string) (captures : bool) (params : option nat) (id : nat).
    (* a function or closure: its text; does it capture its environment; [Some k]:
       it takes k f64s, [None]: one slice of f64s; the identity of the resulting
       slice function (the function itself, or the closure that wraps it) *)

(** One comma-separated part of the invocation, with or without [dyn] — function.rs:121-205. *)
Record macro_arg := mk_arg { is_dyn : bool; arg : arg_expr }.

(** The function expression in the expansion: as given, or through the [wrap] arms — function.rs:165-205. *)
Inductive fn_text :=
| As_is (e : arg_expr)
| Wrapped (e : arg_expr) (n : nat).      (* [xprs_fn!(wrap e, n)] *)

(** The call the macro expands to: [Function::new_static] / [new_dyn]. *)
Record expansion := mk_expansion {
  ex_dyn : bool;
  ex_name : arg_expr;
  ex_fn : fn_text;
  ex_nb_args : option nat
}.

(** [stringify!] *)
Definition stringify (e : arg_expr) : arg_expr :=
  E_str (match e with E_fn s _ _ _ => s | E_str s => s | E_int _ => "" end).

(** Matching, the arms in the order of the source.  An [expr] fragment takes any
    part without [dyn] ([dyn] cannot begin an expression), a [tt] fragment an
    integer literal; other token trees then fail in the [wrap] arms, which exist
    for 0 to 9 (lines 166-204).  The arm of lines 150-156, [$function, $nb_args], is
    never reached: the first arm takes every invocation it could take. *)
Definition expand (args : list macro_arg) : option expansion :=
  match args with
  | [mk_arg false name; mk_arg false f] =>                              (* 124-126 *)
      Some (mk_expansion false name (As_is f) None)
  | [mk_arg false name; mk_arg true f] =>                               (* 127-129 *)
      Some (mk_expansion true name (As_is f) None)
  | [mk_arg false f] =>                                                 (* 130-132 *)
      Some (mk_expansion false (stringify f) (As_is f) None)
  | [mk_arg true f] =>                                                  (* 133-135 *)
      Some (mk_expansion true (stringify f) (As_is f) None)
  | [mk_arg false name; mk_arg false f; mk_arg false (E_int n)] =>      (* 136-142 *)
      if Nat.leb n 9 then Some (mk_expansion false name (Wrapped f n) (Some n)) else None
  | [mk_arg false name; mk_arg true f; mk_arg false (E_int n)] =>       (* 143-149 *)
      if Nat.leb n 9 then Some (mk_expansion true name (Wrapped f n) (Some n)) else None
  | [mk_arg true f; mk_arg false (E_int n)] =>                          (* 157-163 *)
      if Nat.leb n 9 then Some (mk_expansion true (stringify f) (Wrapped f n) (Some n)) else None
  | _ => None
  end.

(** The parameter types of [new_static] and [new_dyn] — function.rs:27-56: the
    name is a string, the function takes a slice, and [new_static] takes a
    function pointer, which a capturing closure cannot become. *)
Definition type_check (x : expansion) : option function :=
  match ex_name x, ex_fn x with
  | E_str name, As_is (E_fn _ captures None id) =>
      if negb (ex_dyn x) && captures then None
      else Some (mk_function name (if ex_dyn x then Dyn_user id else Static_user id) (ex_nb_args x))
  | E_str name, Wrapped (E_fn _ captures (Some k) id) n =>
      if negb (ex_dyn x) && captures then None
      else if Nat.eqb k n then Some (mk_function name (if ex_dyn x then Dyn_user id else Static_user id) (ex_nb_args x))
      else None
  | _, _ => None
  end.

(** The function an invocation of the macro denotes, if it compiles. *)
Definition xprs_fn (args : list macro_arg) : option function :=
  match expand args with Some x => type_check x | None => None end.

(** The closure of [xprs_fn!(wrap f, n)] — lines 166-204:
    [move |args| f(args[0], ..., args[n - 1])]; [None] is a panic. *)
Definition wrap (n : nat) (f : list f64 -> option f64) (args : list f64) : option f64 :=
  if Nat.leb n (List.length args) then f (firstn n args) else None.
