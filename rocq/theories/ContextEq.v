(** * Comparing contexts, symbols and parsers

    Models the derived [PartialEq] of /repo/src/context.rs:7 ([Symbol]),
    context.rs:53 ([Context]) and parser.rs:37 ([Parser], whose only field is
    its context — parser.rs:38-41). *)
From Coq Require Import ZArith NArith List String Ascii Bool.
From Verif Require Import F64 Syntax Builtins Context Element Parser Order.
Import ListNotations.

(** derived [PartialEq for Symbol] — context.rs:7-14 *)
Definition symbol_eq (a b : symbol) : bool :=
  match a, b with
  | S_Variable x, S_Variable y => feq x y
  | S_Function f, S_Function g => function_eqb f g
  | _, _ => false
  end.

(** [PartialEq for HashMap<&str, V>] (std), for the field of context.rs:56: the same number of entries, and
    every entry of the first has an equal value under its key in the second. *)
Definition smap_eq {A} (eqv : A -> A -> bool) (m n : smap A) : bool :=
  Nat.eqb (List.length m) (List.length n)
  && forallb (fun kv => match sget (fst kv) n with Some v => eqv (snd kv) v | None => false end) m.

(** [PartialEq for Option<HashSet<&str>>] (std) *)
Definition expected_eq (a b : option (list string)) : bool :=
  match a, b with
  | None, None => true
  | Some s, Some t => set_eqb s t
  | _, _ => false
  end.

(** derived [PartialEq for Context] — context.rs:53-59, fields in order; also
    [==] on [Parser] — parser.rs:37-41 *)
Definition context_eq (a b : context) : bool :=
  smap_eq symbol_eq (ctx_symbols a) (ctx_symbols b) && expected_eq (ctx_expected a) (ctx_expected b).
