(** * What an error hands to [miette] for its report

    Besides [help] (Display.v): the labelled spans and the source text.  How
    [miette] draws them is not modelled. *)
From Coq Require Import NArith List String.
From Verif Require Import F64 Syntax Builtins Context Parser.
Import ListNotations.

(** [miette::LabeledSpan]: the label, the offset and the length *)
Record labelled_span := mk_label { label : option string; label_offset : N; label_length : N }.

(** [Diagnostic::labels for ParseError] — /repo/src/parser.rs:508-519: one label at the
    error's span *)
Definition labels (e : parse_error) : option (list labelled_span) :=
  Some [mk_label (Some "here"%string) (pe_offset e) (pe_length e)].

(** [Diagnostic::source_code for ParseError] — /repo/src/parser.rs:521-523: the text kept in
    the error *)
Definition source_code (e : parse_error) : option string := Some (pe_src e).
