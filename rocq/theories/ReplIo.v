(** * The REPL when reading or writing fails — /repo/src/bin/repl.rs

    The program of Repl.v again, with input and output that can fail.

    Standard input is a list of things that [read_line] meets, one per call: the
    bytes of a line with its newline, if it has one, or an error of the system.
    Standard output is given by the outcomes of the coming operations ([print!],
    [println!], [flush]) on it; the list is empty if all of them succeed.  (In
    reality [print!] only fills a buffer, except when that is full, and most
    failures show at a newline or a flush; here any operation may fail.)  What is
    printed is the list of items handed over to standard output without an error.
    The exit status follows std: 0 for [Ok], 1 for an [Err] returned by [main],
    101 for a panic. *)
From Coq Require Import ZArith NArith List String Ascii Bool.
From Verif Require Import F64 Syntax Factorial Builtins Context Element Parser Xprs Display Repl.
Import ListNotations.

(** ** [str::from_utf8], which [read_line] applies to the bytes of a line *)
Definition byte_in (c : ascii) (lo hi : N) : bool := (lo <=? N_of_ascii c)%N && (N_of_ascii c <=? hi)%N.
Definition cont (c : ascii) : bool := byte_in c 128 191.
Fixpoint valid_utf8 (l : list ascii) : bool :=
  match l with
  | [] => true
  | a :: l1 =>
      if byte_in a 0 127 then valid_utf8 l1
      else match l1 with
      | [] => false
      | b :: l2 =>
          if byte_in a 194 223 && cont b then valid_utf8 l2
          else match l2 with
          | [] => false
          | c :: l3 =>
              if (byte_in a 224 224 && byte_in b 160 191 || byte_in a 225 236 && cont b ||
                  byte_in a 237 237 && byte_in b 128 159 || byte_in a 238 239 && cont b) && cont c then valid_utf8 l3
              else match l3 with
              | [] => false
              | d :: l4 =>
                  if (byte_in a 240 240 && byte_in b 144 191 || byte_in a 241 243 && cont b ||
                      byte_in a 244 244 && byte_in b 128 143) && cont c && cont d then valid_utf8 l4
                  else false
              end
          end
      end
  end.

(** ** Input, output, endings *)
Inductive item := Bytes (line : string) | Broken.
Record io := mk_io { inp : list item; dev : list bool }.

Inductive shown := Welcome | Feel_free | Ev (e : event).        (* lines 21, 22 *)

Inductive io_error := E_stdout | E_stdin | E_utf8.
Inductive reason := Printing | Flushing | Reading (e : io_error) | Number_expected | Inside (p : panic).
Inductive ending := Returned_ok | Returned_err (e : io_error) | Panic_because (r : reason).
Definition exit_status (e : ending) : N :=
  match e with Returned_ok => 0 | Returned_err _ => 1 | Panic_because _ => 101 end.

(** A piece of the program: what it prints, and its value and what is left of
    input and output, or how the program ended. *)
Definition prog (A : Type) : Type := io -> list shown * (A * io + ending).
Definition ret {A} (a : A) : prog A := fun s => ([], inl (a, s)).
Definition stop {A} (e : ending) : prog A := fun _ => ([], inr e).
Definition andthen {A B} (p : prog A) (k : A -> prog B) : prog B := fun s =>
  match p s with
  | (ev, inl (a, s')) => let '(ev', r) := k a s' in ((ev ++ ev')%list, r)
  | (ev, inr e) => (ev, inr e)
  end.

(** an operation on standard output *)
Definition output_op (ev : list shown) (failed : ending) : prog unit := fun s =>
  match dev s with
  | [] => (ev, inl (tt, s))
  | true :: d => (ev, inl (tt, mk_io (inp s) d))
  | false :: _ => ([], inr failed)
  end.
(** [print!] and [println!] panic *)
Definition say (e : shown) : prog unit := output_op [e] (Panic_because Printing).
(** [flush()?] — line 26; [flush().expect(..)] — line 59 *)
Definition flush_main : prog unit := output_op [] (Returned_err E_stdout).
Definition flush_ask : prog unit := output_op [] (Panic_because Flushing).

Definition read_io (failed : io_error -> ending) : prog string := fun s =>
  match inp s with
  | [] => ([], inl (""%string, s))
  | Bytes line :: rest =>
      if valid_utf8 (list_ascii_of_string line) then ([], inl (line, mk_io rest (dev s)))
      else ([], inr (failed E_utf8))
  | Broken :: _ => ([], inr (failed E_stdin))
  end.
(** [read_line(..)?] — line 27; [read_line(..).expect(..)] — lines 61-63 *)
Definition read_main : prog string := read_io Returned_err.
Definition read_ask : prog string := read_io (fun e => Panic_because (Reading e)).

(** ** The program *)
(** lines 57-72 *)
Fixpoint ask_io (vars : list string) (acc : smap f64) : prog (smap f64) :=
  match vars with
  | [] => ret acc
  | var :: vars' =>
      andthen (say (Ev (Ask var))) (fun _ =>
      andthen flush_ask (fun _ =>
      andthen read_ask (fun input =>
      match f64_from_str (trim (list_ascii_of_string input)) with
      | None => stop (Panic_because Number_expected)                  (* line 69 *)
      | Some v => ask_io vars' (sinsert var v acc)
      end)))
  end.
(** lines 52-57 *)
Definition ask_variables_io (w : world) (set : list string) : prog (smap f64) :=
  match set with
  | [] => ask_io (hash_order w set) []
  | _ => andthen (say (Ev Please_enter)) (fun _ => ask_io (hash_order w set) [])
  end.

(** One round — lines 25-44; [false]: [break] *)
Definition turn_io (cfg : config) (w : world) : prog bool :=
  andthen (say (Ev Prompt)) (fun _ =>
  andthen flush_main (fun _ =>
  andthen read_main (fun line =>
  if String.eqb (string_of_list_ascii (trim (list_ascii_of_string line))) "exit" then ret false
  else
    match parse cfg w ctx_default line with
    | Parse_ok ast =>
        andthen (say (Ev (Interpreted (display_xprs ast)))) (fun _ =>
        andthen (say (Ev (Tree ast))) (fun _ =>
        andthen (say (Ev (Variables (hash_order w (vars ast))))) (fun _ =>
        andthen (ask_variables_io w (vars ast)) (fun variables =>
        match eval w ast variables with
        | Val (Eval_ok v) => andthen (say (Ev (Evaluated v))) (fun _ => ret true)
        | Val (Eval_err _) => stop (Panic_because (Inside Unreachable))
        | Boom p => stop (Panic_because (Inside p))
        end))))
    | Parse_err e => andthen (say (Ev (Report e))) (fun _ => ret true)
    | Parse_panic p => stop (Panic_because (Inside p))
    | Parse_diverges => stop (Panic_because (Inside Unreachable))      (* never: C01 *)
    end))).

(** [n] rounds at most — lines 24-49 *)
Fixpoint loop_io (cfg : config) (w : world) (n : nat) : prog unit :=
  match n with
  | O => ret tt
  | S n' => andthen (turn_io cfg w) (fun again =>
      if again then loop_io cfg w n' else andthen (say (Ev Bye)) (fun _ => stop Returned_ok))
  end.
(** [main] — lines 17-50 *)
Definition main_io (cfg : config) (w : world) (n : nat) : prog unit :=
  andthen (say Welcome) (fun _ => andthen (say Feel_free) (fun _ => loop_io cfg w n)).
