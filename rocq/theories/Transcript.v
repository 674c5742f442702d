(** * The text that the REPL prints — /repo/src/bin/repl.rs

    The events of Repl.v as the bytes written to standard output.  The text of
    [miette]'s report is not modelled: it is an arbitrary function of the error. *)
From Coq Require Import NArith List String Ascii Bool.
From Verif Require Import F64 Syntax Parser Xprs Display Repl DebugText.
Import ListNotations.
Local Open Scope string_scope.

(** lines 21-22 *)
Definition banner : string :=
  "Welcome to the XPRS REPL!" ++ nl ++ "Feel free to type in expressions and see the AST." ++ nl.

Definition text_of (report : parse_error -> string) (w : world) (ev : event) : string :=
  match ev with
  | Prompt => ">> "                                                      (* line 25 *)
  | Interpreted text => "Interpreted as: " ++ text ++ nl                 (* line 32 *)
  | Tree ast => pretty (debug_xprs w ast) ++ nl                          (* line 33 *)
  | Variables names =>                                                   (* line 34 *)
      "Variables: " ++ compact (D_set (map (fun x => D_word (quoted x)) names)) ++ nl
  | Please_enter => "Please enter the following variables:" ++ nl        (* line 54 *)
  | Ask var => var ++ ": "                                               (* line 58 *)
  | Evaluated v => "Evaluated: " ++ debug_f64 v ++ nl                    (* lines 36-39; [{:#?}] of an f64 is [{:?}] *)
  | Report e => report e ++ nl                                           (* line 41 *)
  | Bye => "Bye!" ++ nl                                                  (* line 47 *)
  end.

Fixpoint transcript (report : parse_error -> string) (w : world) (l : list event) : string :=
  match l with [] => "" | ev :: l' => text_of report w ev ++ transcript report w l' end.

(** everything written in the first [n] rounds *)
Definition output (report : parse_error -> string) (cfg : config) (w : world) (n : nat) (stdin : list string) : string :=
  banner ++ transcript report w (fst (rounds cfg w n stdin)).
