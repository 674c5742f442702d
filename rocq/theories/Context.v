(** * Context — /repo/src/context.rs *)
From Coq Require Import ZArith NArith List String Ascii Bool.
From Verif Require Import F64 Syntax Builtins.
Import ListNotations.

(** [Symbol] — context.rs:9-14 *)
Inductive symbol :=
| S_Variable (v : f64)
| S_Function (f : function).

(** [Context] — context.rs:54-59 *)
Record context := mk_context {
  ctx_symbols : smap symbol;
  ctx_expected : option (list string)
}.

(** derived [Default] — context.rs:53 *)
Definition ctx_default : context := {| ctx_symbols := []; ctx_expected := None |}.

(** [set_var] — context.rs:64-66; the updated [self] is returned *)
Definition set_var (c : context) (name : string) (v : f64) : context :=
  {| ctx_symbols := sinsert name (S_Variable v) (ctx_symbols c); ctx_expected := ctx_expected c |}.
(** [with_var] — context.rs:71-78 *)
Definition with_var (c : context) (name : string) (v : f64) : context :=
  {| ctx_symbols := sinsert name (S_Variable v) (ctx_symbols c); ctx_expected := ctx_expected c |}.
(** [set_fn] — context.rs:82-84 *)
Definition set_fn (c : context) (f : function) : context :=
  {| ctx_symbols := sinsert (fn_name f) (S_Function f) (ctx_symbols c); ctx_expected := ctx_expected c |}.
(** [with_fn] — context.rs:89-92 *)
Definition with_fn (c : context) (f : function) : context :=
  {| ctx_symbols := sinsert (fn_name f) (S_Function f) (ctx_symbols c); ctx_expected := ctx_expected c |}.
(** [set_expected_vars] — context.rs:96-98 *)
Definition set_expected_vars (c : context) (s : list string) : context :=
  {| ctx_symbols := ctx_symbols c; ctx_expected := Some s |}.
(** [with_expected_vars] — context.rs:103-109 *)
Definition with_expected_vars (c : context) (s : list string) : context :=
  {| ctx_symbols := ctx_symbols c; ctx_expected := Some s |}.
(** [with_symbols] — context.rs:114-120 *)
Definition with_symbols (c : context) (m : smap symbol) : context :=
  {| ctx_symbols := m; ctx_expected := ctx_expected c |}.
(** [get] — context.rs:125-127 *)
Definition ctx_get (c : context) (name : string) : option symbol := sget name (ctx_symbols c).
(** [get_expected_vars] — context.rs:132-134 *)
Definition get_expected_vars (c : context) : option (list string) := ctx_expected c.

(** [From<Symbol> for Identifier] — /repo/src/token/identifier.rs:86-93 *)
Definition identifier_of_symbol (s : symbol) : identifier :=
  match s with
  | S_Variable v => I_Constant v
  | S_Function f => I_Function f
  end.
