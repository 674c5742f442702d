(** * Specification: how a dump is laid out

    A text is read byte by byte.  The state is the number of brackets that are
    open and, at the beginning of a line, how many blanks have been read. *)
From Coq Require Import Arith List String Ascii Bool.
Import ListNotations.
Local Open Scope string_scope.

Definition opens (c : ascii) : bool := existsb (Ascii.eqb c) ["("; "["; "{"]%char.
Definition closes (c : ascii) : bool := existsb (Ascii.eqb c) [")"; "]"; "}"]%char.
Definition newline (c : ascii) : bool := Ascii.eqb c "010".
Definition space (c : ascii) : bool := Ascii.eqb c " ".

(** Every line starts with four blanks for each bracket open around it; a
    bracket that closes counts as outside. *)
Definition step (st : nat * option nat) (c : ascii) : option (nat * option nat) :=
  let '(open, lead) := st in
  if newline c then Some (open, Some 0)
  else match lead with
       | Some k =>
           if space c then Some (open, Some (S k))
           else if closes c then
             match open with S n => if Nat.eqb k (4 * n) then Some (n, None) else None | O => None end
           else if Nat.eqb k (4 * open) then Some (if opens c then S open else open, None) else None
       | None =>
           if closes c then match open with S n => Some (n, None) | O => None end
           else Some (if opens c then S open else open, None)
       end.

Fixpoint scan (st : nat * option nat) (s : string) : option (nat * option nat) :=
  match s with
  | EmptyString => Some st
  | String c s' => match step st c with Some st' => scan st' s' | None => None end
  end.

(** the text is indented throughout, and its brackets match *)
Definition well_indented (s : string) : Prop := scan (0, Some 0) s = Some (0, None).
