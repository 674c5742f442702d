(** * Threads that share a parser, expressions and functions

    The types of the library are [Send] and [Sync] (src/tests/thread_safety.rs)
    and parsing and evaluating take [&self], so several threads may do it at the
    same time with the same parser and expression.  [simplify_for] takes the
    expression itself: a thread calls it on an expression of its own, for
    instance a clone of a shared one.  The [_in_place] variants need exclusive
    access.  What they share and what can change is the state of the user
    functions ([Arc<dyn Fn + Send + Sync>], src/token/function.rs:66-79).  A
    thread is modelled by the conversation its work amounts to: it computes on
    its own until it calls a user function, and goes on when it has the answer.
    Which thread goes on next is arbitrary.  A call of a user function is one
    step: functions that are entered by two threads at once must order their
    accesses to their state themselves (a lock, an atomic counter).  The code
    between two calls is that of [Stateful.v]; [ThreadsFacts.v] shows that it is
    such a conversation. *)
From Coq Require Import ZArith NArith List String Ascii Bool.
From Verif Require Import F64 Syntax Builtins Context Element Parser Xprs Stateful.
Import ListNotations.

(** Work that ends with an [R]: either done, or calling a function and going on
    with its answer ([None]: the function panicked). *)
Inductive talk (R : Type) :=
| Done (r : R)
| Ask (id : nat) (args : list f64) (go_on : option f64 -> talk R).
Arguments Done {R} r.
Arguments Ask {R} id args go_on.

(** The work done without interruption. *)
Fixpoint follow {R} (b : behaviour) (t : talk R) (h : history) : R * history :=
  match t with
  | Done r => (r, h)
  | Ask id args go_on => follow b (go_on (b h id args)) (h ++ [(id, args)])
  end.

(** The same questions, going on in the same way after every answer. *)
Inductive same_talk {R} : talk R -> talk R -> Prop :=
| Same_done : forall r, same_talk (Done r) (Done r)
| Same_ask : forall id args k k', (forall a, same_talk (k a) (k' a)) -> same_talk (Ask id args k) (Ask id args k').

(** ** What a thread does with the library *)
(** [Parser::parse] — parser.rs:85-106; [Xprs::eval], [eval_unchecked] (and the
    closures made by the [bind] methods) — xprs.rs:75-80, 119-121;
    [simplify_for], [simplify_for_multiple] — xprs.rs:194-197, 250-253 *)
Inductive operation :=
| Op_parse (cfg : config) (ctx : context) (text : string)
| Op_eval (x : xprs) (vars : smap f64)
| Op_eval_unchecked (x : xprs) (vars : smap f64)
| Op_simplify_for (cfg : config) (x : xprs) (l : list (string * f64)).
Inductive result :=
| Got_parsed (r : parse_result)
| Got_value (r : out eval_result)
| Got_number (r : out f64)
| Got_expression (r : out xprs).

Definition perform (w : world) (b : behaviour) (op : operation) (h : history) : result * history :=
  match op with
  | Op_parse cfg ctx text => let '(r, h') := parse_s cfg w b ctx text h in (Got_parsed r, h')
  | Op_eval x vars => let '(r, h') := eval_s w b x vars h in (Got_value r, h')
  | Op_eval_unchecked x vars => let '(r, h') := eval_unchecked_s w b x vars h in (Got_number r, h')
  | Op_simplify_for cfg x l => let '(r, h') := simplify_for_multiple_s w b cfg x l h in (Got_expression r, h')
  end.

(** A thread: what it does next may depend on all it has got so far. *)
Inductive client :=
| Finish
| Do (op : operation) (next : result -> client).

(** What it gets if it runs alone. *)
Fixpoint alone (w : world) (b : behaviour) (c : client) (h : history) : list result * history :=
  match c with
  | Finish => ([], h)
  | Do op next =>
      let '(r, h1) := perform w b op h in
      let '(rs, h2) := alone w b (next r) h1 in (r :: rs, h2)
  end.

(** What it gets from the library of [Parser.v] and [Xprs.v], where functions have
    no state. *)
Definition plain_result (w : world) (op : operation) : result :=
  match op with
  | Op_parse cfg ctx text => Got_parsed (parse cfg w ctx text)
  | Op_eval x vars => Got_value (eval w x vars)
  | Op_eval_unchecked x vars => Got_number (eval_unchecked w x vars)
  | Op_simplify_for cfg x l => Got_expression (simplify_for_multiple cfg w x l)
  end.
Fixpoint plain_results (w : world) (c : client) : list result :=
  match c with
  | Finish => []
  | Do op next => plain_result w op :: plain_results w (next (plain_result w op))
  end.

(** [t] is the conversation of client [c]: without interruption it is [c] running
    alone, whatever the functions do. *)
Definition works_as (w : world) (c : client) (t : talk (list result)) : Prop :=
  forall b h, follow b t h = alone w b c h.

(** ** Interleaving *)
Fixpoint replace {A} (i : nat) (a : A) (l : list A) : list A :=
  match l, i with
  | [], _ => []
  | _ :: l', 0 => a :: l'
  | x :: l', S i' => x :: replace i' a l'
  end.

(** [interleaved b h ts tr ts']: from the state [ts] of the threads, after the
    calls [h], the calls [tr] are made in this order, each with the number of the
    thread that makes it, and the threads are then in the state [ts']. *)
Inductive interleaved {R} (b : behaviour)
  : history -> list (talk R) -> list (nat * (nat * list f64)) -> list (talk R) -> Prop :=
| I_pause : forall h ts, interleaved b h ts [] ts
| I_step : forall h ts i id args go_on tr ts',
    nth_error ts i = Some (Ask id args go_on) ->
    interleaved b (h ++ [(id, args)]) (replace i (go_on (b h id args)) ts) tr ts' ->
    interleaved b h ts ((i, (id, args)) :: tr) ts'.

(** The calls of one thread. *)
Definition own (i : nat) (tr : list (nat * (nat * list f64))) : history :=
  map snd (filter (fun c => Nat.eqb i (fst c)) tr).
