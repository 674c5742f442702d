(** * User functions with a state: the same code with the calls made visible

    A user function may be a closure over a counter, a cache or a random number
    generator ([xprs_fn!(.., dyn ..)], src/utils/macros.rs; the pointer type is
    [Fn + Send + Sync], src/element/function.rs:72-85).  What such a function
    answers depends on what happened before.  Below, the functions of
    [Element.v], [Xprs.v] and [Parser.v] that can reach a call are written again;
    each takes the history of the calls made so far and returns the history it
    leaves.  The answer of a user function may depend on the whole history of the
    calls of all user functions.  [StatefulFacts.v] proves that for functions
    that ignore the history the results are those of [Element.v], [Xprs.v] and
    [Parser.v].  Functions of the code that never call a user function (equality,
    arithmetic, scanning) are used as they are. *)
From Coq Require Import ZArith NArith List String Ascii Bool.
From Verif Require Import F64 Syntax Factorial Builtins Context Element Parser Xprs.
Import ListNotations.
Local Open Scope nat_scope.

(** The calls of user functions so far, oldest first: which function, and with
    which arguments. *)
Definition history : Type := list (nat * list f64).

(** What the user functions do: the answer of function [id] to these arguments
    after this history; [None] is a panic. *)
Definition behaviour : Type := history -> nat -> list f64 -> option f64.

(** Code that may call user functions. *)
Definition act (A : Type) : Type := history -> out A * history.
Definition aret {A} (a : A) : act A := fun h => (Val a, h).
Definition alift {A} (a : out A) : act A := fun h => (a, h).
Definition abind {A B} (x : act A) (f : A -> act B) : act B := fun h =>
  match x h with
  | (Val a, h') => f a h'
  | (Boom p, h') => (Boom p, h')
  end.

(** [.into_iter().map(f).collect()] *)
Definition map_act {A B} (f : A -> act B) : list A -> act (list B) :=
  fix go (l : list A) : act (list B) :=
    match l with
    | [] => aret []
    | a :: l' => abind (f a) (fun b => abind (go l') (fun bs => aret (b :: bs)))
    end.

Section Calls.
  Variable w : world.
  Variable b : behaviour.

  (** Calling through a [FnPointer] — function.rs:87-96, function_call.rs:30-32.
      A call of a user function is recorded whether it returns or panics. *)
  Definition call_function_s (f : function) (args : list f64) : act f64 := fun h =>
    match fn_ptr f with
    | Static_builtin _ => (call_function w f args, h)
    | Static_user id | Dyn_user id =>
        (match b h id args with Some v => Val v | None => Boom UserPanic end, h ++ [(id, args)])
    end.

  (** ** Simplification — element/simplify.rs *)
  (** [FunctionCall::simplify] — simplify.rs:304-308 *)
  Definition simplify_call_s (f : function) (args : list element) : act element :=
    let vals := number_values args in
    if Nat.eqb (List.length vals) (List.length args) then
      abind (call_function_s f vals) (fun v => aret (Number v))
    else aret (Call f args).

  (** [Simplify::simplify] — simplify.rs:29-36, 47-51, 249-250, 286-302 *)
  Fixpoint simplify_s (cfg : config) (e : element) : act element :=
    match e with
    | BinOp op l r =>
        abind (simplify_s cfg l) (fun l' =>
        abind (simplify_s cfg r) (fun r' =>
        alift (simplify_binop cfg w op l' r')))
    | UnOp op e1 => abind (simplify_s cfg e1) (fun e' => alift (simplify_unop op e'))
    | Call f args => abind (map_act (simplify_s cfg) args) (fun args' => simplify_call_s f args')
    | Number _ | Var _ => aret e
    end.

  (** [Simplify::simplify_for] — simplify.rs:19-27, 40-44, 244-247, 277-284 *)
  Fixpoint el_simplify_for_s (cfg : config) (x : string) (v : f64) (e : element) : act element :=
    match e with
    | BinOp op l r =>
        abind (el_simplify_for_s cfg x v l) (fun l' =>
        abind (el_simplify_for_s cfg x v r) (fun r' =>
        simplify_s cfg (BinOp op l' r')))
    | UnOp op e1 => abind (el_simplify_for_s cfg x v e1) (fun e' => simplify_s cfg (UnOp op e'))
    | Call f args => abind (map_act (el_simplify_for_s cfg x v) args) (fun args' => simplify_s cfg (Call f args'))
    | Var y => if String.eqb y x then aret (Number v) else aret e
    | Number _ => aret e
    end.

  (** [simplify_for_multiple] — xprs.rs:219-227, 250-253 *)
  Fixpoint simplify_for_multiple_s (cfg : config) (x : xprs) (l : list (string * f64)) : act xprs :=
    match l with
    | [] => aret x
    | (y, v) :: l' =>
        abind (el_simplify_for_s cfg y v (root x)) (fun e =>
          simplify_for_multiple_s cfg (mk_xprs e (set_remove y (vars x))) l')
    end.
  (** [simplify_for] — xprs.rs:143-148, 194-197 *)
  Definition simplify_for_s (cfg : config) (x : xprs) (var : string * f64) : act xprs :=
    simplify_for_multiple_s cfg x [var].

  (** ** Evaluation — xprs.rs *)
  (** [?] on the [Result] of an evaluation; the calls made before stay made. *)
  Definition ebind_s (r : act eval_result) (f : f64 -> act eval_result) : act eval_result :=
    abind r (fun v => match v with Eval_ok v => f v | Eval_err x => aret (Eval_err x) end).

  (** [.map(..).collect::<Result<Vec<_>, EvalError>>()] — xprs.rs:307-311 *)
  Definition map_eval_s {A} (f : A -> act eval_result) : list A -> act (list f64 + string) :=
    fix go (l : list A) : act (list f64 + string) :=
      match l with
      | [] => aret (inl [])
      | a :: l' =>
          abind (f a) (fun r =>
            match r with
            | Eval_err x => aret (inr x)
            | Eval_ok v =>
                abind (go l') (fun rs =>
                  match rs with inr x => aret (inr x) | inl vs => aret (inl (v :: vs)) end)
            end)
      end.

  (** [eval_element] — xprs.rs:272-317 *)
  Fixpoint eval_element_s (variables : smap f64) (e : element) : act eval_result :=
    match e with
    | Number n => aret (Eval_ok n)
    | Var x =>
        match sget x variables with
        | Some v => aret (Eval_ok v)
        | None => aret (Eval_err x)
        end
    | UnOp op e1 =>
        ebind_s (eval_element_s variables e1) (fun operand => alift (ok (apply_unop op operand)))
    | BinOp op l r =>
        ebind_s (eval_element_s variables l) (fun left =>
        ebind_s (eval_element_s variables r) (fun right =>
        alift (ok (apply_binop w op left right))))
    | Call f args =>
        abind (map_eval_s (eval_element_s variables) args) (fun r =>
          match r with
          | inr x => aret (Eval_err x)
          | inl vs => abind (call_function_s f vs) (fun v => aret (Eval_ok v))
          end)
    end.

  (** [eval_element_unchecked] — xprs.rs:320-361: also what a bound closure runs *)
  Fixpoint eval_unchecked_element_s (variables : smap f64) (e : element) : act f64 :=
    match e with
    | Number n => aret n
    | Var x => alift (match sget x variables with Some v => Val v | None => Boom UnwrapNone end)
    | UnOp op e1 =>
        abind (eval_unchecked_element_s variables e1) (fun operand => alift (apply_unop op operand))
    | BinOp op l r =>
        abind (eval_unchecked_element_s variables l) (fun left =>
        abind (eval_unchecked_element_s variables r) (fun right =>
        alift (apply_binop w op left right)))
    | Call f args =>
        abind (map_act (eval_unchecked_element_s variables) args) (fun vs => call_function_s f vs)
    end.

  (** [eval] — xprs.rs:75-80; [eval_unchecked] — xprs.rs:119-121 *)
  Definition eval_s (x : xprs) (variables : smap f64) : act eval_result :=
    eval_element_s variables (root x).
  Definition eval_unchecked_s (x : xprs) (variables : smap f64) : act f64 :=
    eval_unchecked_element_s variables (root x).
End Calls.

(** ** The parser — parser.rs.  Only the simplification at the end of [element]
    can call a function. *)
Definition pact (A : Type) : Type := history -> pres A * history.
Definition pgive {A} (r : pres A) : pact A := fun h => (r, h).
Definition pbind_s {A B} (x : pact A) (f : A -> nat -> pact B) : pact B := fun h =>
  match x h with
  | (POk a c, h') => f a c h'
  | (PErr e c, h') => (PErr e c, h')
  | (PPanic p, h') => (PPanic p, h')
  | (PFuel, h') => (PFuel, h')
  end.

Section ParserCalls.
  Variable cfg : config.
  Variable w : world.
  Variable b : behaviour.
  Variable ctx : context.
  Variable input : string.

  (** [simplify] at the end of [element] — parser.rs:180-183 *)
  Definition finish_element_s (el : element) : act element :=
    if optimize cfg then simplify_s w b cfg el else aret el.

  Section OpenRecursion.
    Variable elem : nat -> nat -> pact element.

    (** parser.rs:173-178 *)
    Fixpoint binop_loop_s (budget : nat) (precedence : nat) (el : element) (c : nat) : pact element :=
      match budget with
      | 0 => pgive PFuel
      | S budget' =>
          match get_operator_infos cfg input el precedence c with
          | (None, c') => pgive (POk el c')
          | (Some (op, op_precedence), c') =>
              pbind_s (elem op_precedence c') (fun rhs c'' =>
                binop_loop_s budget' precedence (BinOp op el rhs) c'')
          end
      end.

    (** [argument] — parser.rs:337-354 *)
    Definition argument_s (c : nat) : pact element := fun h =>
      match elem NO_PRECEDENCE c h with
      | (PErr e c', h') =>
          match pe_kind e with
          | UnexpectedToken _ => (err_missing_argument cfg input c', h')
          | _ => (PErr e c', h')
          end
      | r => r
      end.

    (** [parse_arguments] — parser.rs:314-334 *)
    Fixpoint parse_arguments_s (budget : nat) (args : list element) (c : nat) : pact (list element) :=
      match budget with
      | 0 => pgive PFuel
      | S budget' =>
          pbind_s (argument_s c) (fun arg c1 =>
            let args := (args ++ [arg])%list in
            let '(o, c2) := next_trim input c1 in
            match o with
            | None => pgive (err_unexpected_end cfg input c2)
            | Some tok =>
                if Ascii.eqb tok "," then parse_arguments_s budget' args (S c2)
                else if Ascii.eqb tok ")" then pgive (POk args c2)
                else pgive (err_unexpected_token input tok c2)
            end)
      end.

    (** [parse_identifier] — parser.rs:228-280 *)
    Definition parse_identifier_s (budget : nat) (start : nat) : pact element :=
      let stop := skip_while input is_ident_char start in
      let name := slice input start stop in
      match resolve ctx name with
      | I_Constant v => pgive (POk (Number v) stop)
      | I_Variable x => pgive (POk (Var x) stop)
      | I_Function func =>
          let '(b, c1) := consume_if_eq input "(" stop in
          if b then
            pbind_s (parse_arguments_s budget [] c1) (fun args c2 =>
            pbind_s (pgive (assert_eq_consume input ")" c2)) (fun _ c3 =>
            pgive (check_arity input func args start c3)))
          else pgive (err_expected_token input "(" c1)
      end.

    (** [atom] — parser.rs:189-225 *)
    Definition atom_s (budget : nat) (c : nat) : pact element :=
      let '(o, c0) := next_trim input c in
      match o with
      | None => pgive (err_unexpected_end cfg input c0)
      | Some b =>
          if is_digit b || Ascii.eqb b "." then pgive (parse_number cfg input c0)
          else if is_alpha b then parse_identifier_s budget c0
          else if Ascii.eqb b "+" then
            pbind_s (elem UNOP_PRECEDENCE (S c0)) (fun e c1 => pgive (POk (UnOp Plus e) c1))
          else if Ascii.eqb b "-" then
            pbind_s (elem UNOP_PRECEDENCE (S c0)) (fun e c1 => pgive (POk (UnOp Minus e) c1))
          else if Ascii.eqb b "(" then
            pbind_s (elem NO_PRECEDENCE (S c0)) (fun e c1 =>
            pbind_s (pgive (assert_eq_consume input ")" c1)) (fun _ c2 => pgive (POk e c2)))
          else if Ascii.eqb b ")" then pgive (err_unexpected_token input ")" c0)
          else pgive (err_illegal_character input b c0)
      end.
  End OpenRecursion.

  (** [element] — parser.rs:161-186 *)
  Fixpoint element_at_s (budget : nat) (precedence : nat) (c : nat) : pact element :=
    match budget with
    | 0 => pgive PFuel
    | S budget' =>
        pbind_s (atom_s (element_at_s budget') budget' c) (fun el c1 =>
          let '(b, c2) := consume_if_eq input "!" c1 in
          let el := if b then UnOp Factorial el else el in
          pbind_s (binop_loop_s (element_at_s budget') budget' precedence el c2) (fun el c3 h =>
            let '(o, h') := finish_element_s el h in (plift o c3, h')))
    end.

  (** [ParserImpl::parse] — parser.rs:134-153 *)
  Definition parse_impl_s : pact (element * list string) :=
    pbind_s (element_at_s (parse_budget input) NO_PRECEDENCE 0) (fun root c =>
      let '(o, c') := next_trim input c in
      match o with
      | Some tok => pgive (err_unexpected_token input tok c')
      | None => pgive (POk (root, find_variables root []) c')
      end).
End ParserCalls.

(** [Parser::parse] — parser.rs:85-106 *)
Definition parse_s (cfg : config) (w : world) (b : behaviour) (ctx : context) (input : string) (h : history)
  : parse_result * history :=
  match parse_impl_s cfg w b ctx input h with
  | (PErr e _, h') => (Parse_err e, h')
  | (PPanic p, h') => (Parse_panic p, h')
  | (PFuel, h') => (Parse_diverges, h')
  | (POk (root, vars) _, h') =>
      (match get_expected_vars ctx with
       | None => Parse_ok (mk_xprs root vars)
       | Some expected =>
           match set_diff (hash_order w vars) expected with
           | [] => Parse_ok (mk_xprs root vars)
           | unknown_var :: _ =>
               Parse_err (mk_parse_error
                 (VariableNotDeclared unknown_var (hash_order w expected))
                 0 (N.of_nat (String.length input)) input)
           end
       end, h')
  end.
