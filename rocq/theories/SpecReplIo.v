(** * Specification: sessions of the REPL that break off *)
From Coq Require Import NArith List String Ascii.
From Verif Require Import SpecUtf8 Repl ReplIo.
Import ListNotations.

(** [whole] begins with [part] *)
Definition begins_with {A} (part whole : list A) : Prop := exists rest, whole = (part ++ rest)%list.

(** the program ended because it could not write *)
Inductive cannot_write : ending -> Prop :=
| CW_at_the_prompt : cannot_write (Returned_err E_stdout)
| CW_printing : cannot_write (Panic_because Printing)
| CW_asking : cannot_write (Panic_because Flushing).

(** ... could not read *)
Inductive cannot_read : ending -> Prop :=
| CR_expression : forall e, cannot_read (Returned_err e)
| CR_answer : forall e, cannot_read (Panic_because (Reading e)).

(** where the session stands: still going on, or ended *)
Definition same_standing (r r' : unit * io + ending) : Prop :=
  match r, r' with
  | inl _, inl _ => True
  | inr e, inr e' => e = e'
  | _, _ => False
  end.

(** the last thing printed *)
Definition last_is (ev : list shown) (e : shown) : Prop := exists before, ev = (before ++ [e])%list.

(** what cannot be read as a line of text, and why *)
Definition unreadable (x : item) : Prop := match x with Bytes l => ~ is_str l | Broken => True end.
Definition trouble (x : item) : io_error := match x with Bytes _ => E_utf8 | Broken => E_stdin end.

(** the operations on the output behind what is printed: one write each; prompts
    and questions are flushed, as they end no line *)
Inductive operation := Print (e : shown) | Flush_prompt | Flush_question.
Definition operations (e : shown) : list operation :=
  match e with
  | Ev Prompt => [Print e; Flush_prompt]
  | Ev (Ask _) => [Print e; Flush_question]
  | _ => [Print e]
  end.
(** how the program ends if one of them fails *)
Definition failing (o : operation) : ending :=
  match o with
  | Print _ => Panic_because Printing
  | Flush_prompt => Returned_err E_stdout
  | Flush_question => Panic_because Flushing
  end.
Definition printed (o : operation) : list shown := match o with Print e => [e] | _ => [] end.
(** done one after the other, up to the first that fails; [d] tells which do *)
Fixpoint perform (t : list operation) (d : list bool) : list shown * option ending :=
  match t, d with
  | [], _ => ([], None)
  | o :: _, false :: _ => ([], Some (failing o))
  | o :: t', _ => let '(ev, f) := perform t' (tl d) in ((printed o ++ ev)%list, f)
  end.
