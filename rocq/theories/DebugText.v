(** * Model: Debug texts ([{:?}] and [{:#?}])

    The Debug implementations of the expression types are derived; the REPL
    prints them with [{ast:#?}] (/repo/src/bin/repl.rs:33), [{:?}] for the
    variables (line 34) and [{:#?}] for the result (lines 36-39).  A derived
    implementation describes the value as a tree of names, fields and items,
    which the standard library's [DebugStruct], [DebugTuple], [DebugList],
    [DebugSet] and [DebugMap] write, on one line or with one line for each part. *)
From Coq Require Import ZArith NArith List String Ascii Bool.
From Flocq Require Import BinarySingleNaN.
From Verif Require Import F64 Syntax Parser Xprs Display.
Import ListNotations.
Local Open Scope string_scope.

(** what a derived Debug implementation passes to the formatter *)
Inductive dbg :=
| D_word (text : string)                          (* a name, a number, a quoted text *)
| D_tuple (name : string) (items : list dbg)      (* [debug_tuple], with at least one item *)
| D_struct (name : string) (fields : list (string * dbg))   (* [debug_struct] *)
| D_list (items : list dbg)                       (* [debug_list] *)
| D_set (items : list dbg)                        (* [debug_set] or [debug_map] *)
| D_entry (key : string) (value : dbg).           (* an item of [debug_map] *)

Definition nl : string := String "010" "".

(** [PadAdapter] (core::fmt::builders): four spaces before each line *)
Fixpoint pad_from (on_newline : bool) (s : string) : string :=
  match s with
  | EmptyString => ""
  | String c s' => (if on_newline then "    " else "") ++ String c (pad_from (Ascii.eqb c "010") s')
  end.
Definition pad (s : string) : string := pad_from true s.

(** [{:?}] *)
Fixpoint compact (d : dbg) : string :=
  match d with
  | D_word t => t
  | D_tuple n l => n ++ "(" ++ join ", " (map compact l) ++ ")"
  | D_struct n l => n ++ " { " ++ join ", " (map (fun f => fst f ++ ": " ++ compact (snd f)) l) ++ " }"
  | D_list l => "[" ++ join ", " (map compact l) ++ "]"
  | D_set l => "{" ++ join ", " (map compact l) ++ "}"
  | D_entry k v => k ++ ": " ++ compact v
  end.

(** [{:#?}] *)
Fixpoint pretty (d : dbg) : string :=
  match d with
  | D_word t => t
  | D_tuple n l => n ++ "(" ++ nl ++ String.concat "" (map (fun x => pad (pretty x ++ "," ++ nl)) l) ++ ")"
  | D_struct n l => n ++ " {" ++ nl ++ String.concat "" (map (fun f => pad (fst f ++ ": " ++ pretty (snd f) ++ "," ++ nl)) l) ++ "}"
  | D_list [] => "[]"
  | D_list l => "[" ++ nl ++ String.concat "" (map (fun x => pad (pretty x ++ "," ++ nl)) l) ++ "]"
  | D_set [] => "{}"
  | D_set l => "{" ++ nl ++ String.concat "" (map (fun x => pad (pretty x ++ "," ++ nl)) l) ++ "}"
  | D_entry k v => k ++ ": " ++ pretty v
  end.

(** [Debug for f64] (core::fmt::float): like Display but with at least one
    decimal, and in scientific notation from 1e16 on and below 1e-4 *)
Definition display_Z (z : Z) : string :=
  (if (z <? 0)%Z then "-" else "") ++ string_of_list_ascii (digits_of (Z.to_N (Z.abs z))).
Definition scientific (c p : Z) : list ascii :=
  match digits_of (Z.to_N c) with
  | [] => []
  | d :: rest =>
      (d :: (match rest with [] => [] | _ => "."%char :: rest end)
       ++ "e"%char :: list_ascii_of_string (display_Z (p + Z.of_nat (List.length rest))))%list
  end.
Definition debug_f64 (v : f64) : string :=
  match v with
  | B754_nan => "NaN"
  | B754_infinity s => if s then "-inf" else "inf"
  | B754_zero s => if s then "-0.0" else "0.0"
  | B754_finite s m e _ =>
      let '(c, p) := shortest_decimal (fabs v) m e in
      (if s then "-" else "") ++
      string_of_list_ascii
        (if flt (fabs v) (f64_of_dec 1 (-4)) || negb (flt (fabs v) (f64_of_dec 1 16)) then scientific c p
         else (positional c p ++ (if (0 <=? p)%Z then [".";"0"]%char else []))%list)
  end.

(** [Debug for str]: in quotes.  No escapes here: names that can occur
    in an expression are letters, digits and underscores, which are written as
    they are (theorem [C92_plain_text_unchanged] about [debug_str], with escapes). *)
Definition quoted (s : string) : string := """" ++ s ++ """".

(** derived [Debug for Operator] — /repo/src/token/operator.rs:5 *)
Definition debug_operator (op : operator) : dbg :=
  D_word match op with
         | Plus => "Plus" | Minus => "Minus" | Times => "Times" | Divide => "Divide"
         | Power => "Power" | Modulo => "Modulo" | Factorial => "Factorial"
         end.
(** [Debug for FnPointer] — /repo/src/token/function.rs:79-86 *)
Definition debug_pointer (p : fn_pointer) : dbg :=
  D_word match p with Dyn_user _ => "Dyn" | _ => "Static" end.
(** [Debug for Option<u8>] *)
Definition debug_arity (n : option nat) : dbg :=
  match n with None => D_word "None" | Some n => D_tuple "Some" [D_word (display_nat n)] end.
(** derived [Debug for Function] — /repo/src/token/function.rs:7 *)
Definition debug_function (f : function) : dbg :=
  D_struct "Function"
    [("name", D_word (quoted (fn_name f))); ("func", debug_pointer (fn_ptr f)); ("nb_args", debug_arity (fn_nb_args f))].
(** derived [Debug for Element], [BinOp], [UnOp], [FunctionCall] —
    /repo/src/element/mod.rs:20, binop.rs:7, unop.rs:7, function_call.rs:7 *)
Fixpoint debug_element (e : element) : dbg :=
  match e with
  | Number n => D_tuple "Number" [D_word (debug_f64 n)]
  | BinOp op l r => D_tuple "BinOp" [D_struct "BinOp" [("op", debug_operator op); ("lhs", debug_element l); ("rhs", debug_element r)]]
  | UnOp op a => D_tuple "UnOp" [D_struct "UnOp" [("op", debug_operator op); ("operand", debug_element a)]]
  | Call f args => D_tuple "Function" [D_struct "FunctionCall" [("desc", debug_function f); ("args", D_list (map debug_element args))]]
  | Var x => D_tuple "Variable" [D_word (quoted x)]
  end.
(** derived [Debug for Xprs] — /repo/src/xprs.rs:18; [Debug for HashSet<&str>] *)
Definition debug_vars (w : world) (l : list string) : dbg := D_set (map (fun x => D_word (quoted x)) (hash_order w l)).
Definition debug_xprs (w : world) (x : xprs) : dbg :=
  D_struct "Xprs" [("root", debug_element (root x)); ("vars", debug_vars w (vars x))].
