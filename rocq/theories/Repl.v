(** * The REPL — /repo/src/bin/repl.rs

    The program reads lines from standard input and prints.  Standard input is
    the list of lines not yet read, each with its newline, if it has one; all of
    them are UTF-8 (otherwise [read_line] fails and [main] returns that error,
    or [ask_for_variables] panics: ReplIo.v), and reading and writing do not
    fail.  Printed items are kept apart as events instead of being joined to one
    text; the text of [{ast:#?}] is in DebugText.v, that of [miette]'s report is not
    modelled, the event holds what they show.  One world serves the whole session, so sets
    with the same elements are iterated in the same order every time. *)
From Coq Require Import ZArith NArith List String Ascii Bool.
From Verif Require Import F64 Syntax Factorial Builtins Context Element Parser Xprs Display.
Import ListNotations.
Local Open Scope nat_scope.

(** ** [str::trim] — called in repl.rs:29 and 67 *)
(** The UTF-8 encodings of the characters with the property White_Space. *)
Definition white_space : list (list ascii) :=
  map (map ascii_of_N)
  [[9]; [10]; [11]; [12]; [13]; [32]; [194; 133]; [194; 160]; [225; 154; 128];
   [226; 128; 128]; [226; 128; 129]; [226; 128; 130]; [226; 128; 131]; [226; 128; 132]; [226; 128; 133];
   [226; 128; 134]; [226; 128; 135]; [226; 128; 136]; [226; 128; 137]; [226; 128; 138];
   [226; 128; 168]; [226; 128; 169]; [226; 128; 175]; [226; 129; 159]; [227; 128; 128]]%N.

(** [l] without [p] in front of it *)
Fixpoint without_prefix (p l : list ascii) : option (list ascii) :=
  match p, l with
  | [], _ => Some l
  | a :: p', b :: l' => if Ascii.eqb a b then without_prefix p' l' else None
  | _ :: _, [] => None
  end.
Fixpoint without_any (ps : list (list ascii)) (l : list ascii) : option (list ascii) :=
  match ps with
  | [] => None
  | p :: ps' => match without_prefix p l with Some l' => Some l' | None => without_any ps' l end
  end.
(** Strips as often as possible; every time at least one byte goes, so the
    length is enough fuel. *)
Fixpoint strip (fuel : nat) (ps : list (list ascii)) (l : list ascii) : list ascii :=
  match fuel with
  | 0 => l
  | S fuel' => match without_any ps l with Some l' => strip fuel' ps l' | None => l end
  end.
Definition trim (l : list ascii) : list ascii :=
  let l := strip (List.length l) white_space l in
  rev (strip (List.length l) (map (@rev ascii) white_space) (rev l)).

(** ** [str::parse::<f64>]: an optional sign, then a decimal number, "inf",
    "infinity" or "nan" in letters of any case *)
Definition lower (c : ascii) : ascii :=
  if is_upper c then ascii_of_N (N_of_ascii c + 32) else c.
Definition same_word (l : list ascii) (word : string) : bool :=
  String.eqb (string_of_list_ascii (map lower l)) word.
Definition unsigned_from_str (l : list ascii) : option f64 :=
  match parse_f64 l with
  | Some v => Some v
  | None =>
      if same_word l "inf" || same_word l "infinity" then Some finf
      else if same_word l "nan" then Some fnan
      else None
  end.
Definition f64_from_str (l : list ascii) : option f64 :=
  match l with
  | c :: l' =>
      if Ascii.eqb c "-" then option_map fneg (unsigned_from_str l')
      else if Ascii.eqb c "+" then unsigned_from_str l'
      else unsigned_from_str l
  | [] => unsigned_from_str l
  end.

(** ** The program *)
Inductive event :=
| Prompt                               (* ">> ", line 25 *)
| Interpreted (text : string)          (* line 32 *)
| Tree (ast : xprs)                    (* line 33 *)
| Variables (names : list string)      (* line 34, in the order of iteration *)
| Please_enter                         (* line 54 *)
| Ask (var : string)                   (* line 58 *)
| Evaluated (v : f64)                  (* lines 36-39 *)
| Report (e : parse_error)             (* line 41 *)
| Bye.                                 (* line 47 *)

Inductive status :=
| Running (stdin : list string)        (* at the top of the loop *)
| Finished                             (* main returns Ok *)
| Not_a_number                         (* the panic of line 69 *)
| Panicked (p : panic).

(** [read_line] — lines 27 and 61-63: at the end of the input it returns
    without having read anything. *)
Definition read_line (stdin : list string) : string * list string :=
  match stdin with [] => (""%string, []) | line :: rest => (line, rest) end.

(** [ask_for_variables] — lines 57-72.  [None]: an answer is not a number. *)
Fixpoint ask (vars : list string) (stdin : list string) (acc : smap f64)
  : list event * option (smap f64 * list string) :=
  match vars with
  | [] => ([], Some (acc, stdin))
  | var :: vars' =>
      let '(input, rest) := read_line stdin in
      match f64_from_str (trim (list_ascii_of_string input)) with
      | None => ([Ask var], None)
      | Some v => let '(events, r) := ask vars' rest (sinsert var v acc) in (Ask var :: events, r)
      end
  end.

(** Lines 53-57. *)
Definition ask_variables (w : world) (set : list string) (stdin : list string)
  : list event * option (smap f64 * list string) :=
  let '(events, r) := ask (hash_order w set) stdin [] in
  ((match set with [] => events | _ => Please_enter :: events end), r).

(** One round of the loop — lines 25-44 (and 47 after a [break]) *)
Definition turn (cfg : config) (w : world) (stdin : list string) : list event * status :=
  let '(line, rest) := read_line stdin in
  if String.eqb (string_of_list_ascii (trim (list_ascii_of_string line))) "exit" then ([Prompt; Bye], Finished)
  else
    match parse cfg w ctx_default line with
    | Parse_ok ast =>
        let shown := [Prompt; Interpreted (display_xprs ast); Tree ast; Variables (hash_order w (vars ast))] in
        let '(asked, r) := ask_variables w (vars ast) rest in
        match r with
        | None => (shown ++ asked, Not_a_number)%list
        | Some (variables, rest') =>
            match eval w ast variables with
            | Val (Eval_ok v) => (shown ++ asked ++ [Evaluated v], Running rest')%list
            | Val (Eval_err _) => (shown ++ asked, Panicked Unreachable)%list     (* line 38 *)
            | Boom p => (shown ++ asked, Panicked p)%list
            end
        end
    | Parse_err e => ([Prompt; Report e], Running rest)
    | Parse_panic p => ([Prompt], Panicked p)
    | Parse_diverges => ([Prompt], Panicked Unreachable)                          (* never: C01 *)
    end.

(** The first [n] rounds: what is printed and where the program is then. *)
Fixpoint rounds (cfg : config) (w : world) (n : nat) (stdin : list string) : list event * status :=
  match n with
  | 0 => ([], Running stdin)
  | S n' =>
      match turn cfg w stdin with
      | (events, Running rest) =>
          let '(events', st) := rounds cfg w n' rest in (events ++ events', st)%list
      | (events, st) => (events, st)
      end
  end.
