(** * Specification: reading the REPL's output with a script

    The output is cut into lines and the lines into words, as awk does; the
    script prints the last word of every line whose last word but one is
    "Evaluated:":  [awk '$(NF-1) == "Evaluated:" { print $NF }']. *)
From Coq Require Import List String Ascii Bool.
Import ListNotations.
Local Open Scope string_scope.

(** what is between the separators *)
Fixpoint pieces (sep : ascii) (s : string) : list string :=
  match s with
  | EmptyString => [""]
  | String c s' =>
      if Ascii.eqb c sep then "" :: pieces sep s'
      else match pieces sep s' with p :: l => String c p :: l | [] => [] end
  end.
Definition lines (s : string) : list string := pieces "010" s.
Definition words (s : string) : list string := filter (fun w => negb (String.eqb w "")) (pieces " " s).

Definition result_of (line : string) : list string :=
  match rev (words line) with
  | last :: before :: _ => if String.eqb before "Evaluated:" then [last] else []
  | _ => []
  end.
Definition results (out : string) : list string := flat_map result_of (lines out).
