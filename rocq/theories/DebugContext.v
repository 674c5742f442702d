(** * Model: Debug texts of symbols, contexts and parsers

    All derived: /repo/src/context.rs:7 ([Symbol]) and 53 ([Context]),
    /repo/src/parser.rs:37 ([Parser]), /repo/src/token/function.rs:7 ([Function]),
    with the hand-written one of [FnPointer] (function.rs:79-86).  Names in a
    context are any [&str], so they are written with escapes
    ([DebugErrors.debug_str]). *)
From Coq Require Import ZArith NArith List String Ascii Bool.
From Verif Require Import F64 Syntax Builtins Context Parser Xprs Display DebugText DebugErrors.
Import ListNotations.
Local Open Scope string_scope.

Section Dump.
  (** the standard library's table of printable characters, see [DebugErrors.v] *)
  Variable shown : N -> bool.

  (** derived [Debug for Function] — /repo/src/token/function.rs:7, with any name *)
  Definition debug_function_escaped (f : function) : dbg :=
    D_struct "Function"
      [("name", D_word (debug_str shown (fn_name f))); ("func", debug_pointer (fn_ptr f)); ("nb_args", debug_arity (fn_nb_args f))].
  (** derived [Debug for Symbol] — /repo/src/context.rs:7-15 *)
  Definition debug_symbol (s : symbol) : dbg :=
    match s with
    | S_Variable v => D_tuple "Variable" [D_word (debug_f64 v)]
    | S_Function f => D_tuple "Function" [debug_function_escaped f]
    end.
  (** [Debug for HashMap<&str, Symbol>]: the entries in the order in which the
      map is iterated *)
  Definition debug_symbols (w : world) (m : smap symbol) : dbg :=
    D_set (flat_map (fun k => match sget k m with Some s => [D_entry (debug_str shown k) (debug_symbol s)] | None => [] end)
                    (hash_order w (map fst m))).
  (** [Debug for Option<HashSet<&str>>] *)
  Definition debug_expected (w : world) (o : option (list string)) : dbg :=
    match o with
    | None => D_word "None"
    | Some s => D_tuple "Some" [D_set (map (fun x => D_word (debug_str shown x)) (hash_order w s))]
    end.
  (** derived [Debug for Context] — /repo/src/context.rs:53-59 *)
  Definition debug_context (w : world) (c : context) : dbg :=
    D_struct "Context" [("symbols", debug_symbols w (ctx_symbols c)); ("expected_vars", debug_expected w (ctx_expected c))].
  (** derived [Debug for Parser] — /repo/src/parser.rs:37-41 *)
  Definition debug_parser (w : world) (c : context) : dbg := D_struct "Parser" [("ctx", debug_context w c)].
End Dump.
