(** * How deeply the calls nest: the same code with a stack meter

    The functions below are those of [Element.v], [Xprs.v] and [Parser.v] again,
    each returning besides its result the greatest number of calls that were
    open at the same time while it ran: the frames that had to be on the stack.
    [DepthFacts.v] proves that the results are the same (erasure), so only the
    metering is new here.  One frame is counted for every call of [==],
    [simplify], [simplify_for], [eval] or [find_variables] on a node (in the
    Rust code [Element::simplify] calls [BinOp::simplify] and so on: a fixed
    number of machine frames for each one counted here), and one for every call
    of [ParserImpl::parse], [element], [atom], [parse_identifier],
    [parse_arguments], [argument] and [parse_number].  Calls that do not lead
    back to one of these (the scanner, arithmetic, user functions, the standard
    library) are not counted.  Loops in the Rust code that are recursions in the
    model ([binop_loop], the arguments, lists) open no frame. *)
From Coq Require Import ZArith NArith List String Ascii Bool.
From Verif Require Import F64 Syntax Factorial Builtins Context Element Parser Xprs.
Import ListNotations.
Local Open Scope nat_scope.

(** A result and the frames open at the deepest moment. *)
Definition deep (A : Type) : Type := (out A * nat)%type.
Definition dret {A} (a : A) : deep A := (Val a, 0).
(** One after the other: the first has returned when the second is called. *)
Definition dbind {A B} (x : deep A) (f : A -> deep B) : deep B :=
  match fst x with
  | Val a => (fst (f a), Nat.max (snd x) (snd (f a)))
  | Boom p => (Boom p, snd x)
  end.
(** Inside a call: one more frame is open throughout. *)
Definition frame {A} (x : deep A) : deep A := (fst x, 1 + snd x).

(** ** Equality — element/mod.rs:20, binop.rs:39-60 *)
(** [&&] and [||]: the second operand is called after the first has returned. *)
Definition and_d (a b : deep bool) : deep bool :=
  match fst a with Val true => (fst b, Nat.max (snd a) (snd b)) | _ => a end.
Definition or_d (a b : deep bool) : deep bool :=
  match fst a with Val false => (fst b, Nat.max (snd a) (snd b)) | _ => a end.

Fixpoint el_eq_d (a b : element) {struct a} : deep bool :=
  frame
  match a, b with
  | Number x, Number y => dret (feq x y)
  | BinOp op l r, BinOp op' l' r' =>
      if operator_eqb op op' then
        match op with
        | Divide | Minus | Modulo | Power => and_d (el_eq_d l l') (el_eq_d r r')
        | Plus | Times =>
            or_d (and_d (el_eq_d l l') (el_eq_d r r'))
                 (and_d (el_eq_d l r') (el_eq_d r l'))
        | Factorial => (Boom Unreachable, 0)
        end
      else dret false
  | UnOp op e, UnOp op' e' => if operator_eqb op op' then el_eq_d e e' else dret false
  | Call f args, Call g args' =>
      if function_eqb f g then
        if Nat.eqb (List.length args) (List.length args') then
          (fix go (l m : list element) : deep bool :=
             match l, m with
             | a :: l', b :: m' => and_d (el_eq_d a b) (go l' m')
             | _, _ => dret true
             end) args args'
        else dret false
      else dret false
  | Var x, Var y => dret (String.eqb x y)
  | _, _ => dret false
  end.

(** ** Simplification — element/simplify.rs *)
Definition if_eq_d (a b : element) (x y : deep element) : deep element :=
  dbind (el_eq_d a b) (fun c => if c then x else y).

(** The match of [BinOp::simplify] — simplify.rs:52-239.  Only the arms that
    compare the two operands with each other are deep anew; for the other
    operators the match takes no step of its own. *)
Definition simplify_binop_d (cfg : config) (w : world) (op : operator) (l r : element) : deep element :=
  match op with
  | Plus =>
      if is_number l fzero then dret r
      else if is_number r fzero then dret l
      else
        let tail := (fold_binop w Plus l r, 0) in
        if nightly cfg then
          let second :=
            match r with
            | UnOp Minus operand => if_eq_d l operand (dret (Number fzero)) tail
            | _ => tail
            end in
          match l with
          | UnOp Minus operand => if_eq_d operand r (dret (Number fzero)) second
          | _ => second
          end
        else tail
  | Minus =>
      if is_number l fzero then dret (UnOp Minus r)
      else if is_number r fzero then dret l
      else if_eq_d l r (dret (Number fzero))
        (match r with
         | UnOp Minus operand =>
             if nightly cfg then dret (BinOp Plus l operand)
             else (fold_binop w Minus l r, 0)
         | _ => (fold_binop w Minus l r, 0)
         end)
  | Divide =>
      if is_number l fzero && is_number r fzero then dret (Number fnan)
      else if is_number l fzero then dret (Number fzero)
      else if is_number r fzero then dret (Number finf)
      else if is_number r fone then dret l
      else if_eq_d l r (dret (Number fone))
        (let tail :=
           if is_number r fzero then dret (Number fone)
           else (fold_binop w Divide l r, 0) in
         match l, r with
         | UnOp Minus a, UnOp Minus b =>
             if nightly cfg then dret (BinOp Divide a b)
             else tail
         | _, _ => tail
         end)
  | Modulo =>
      if is_number l fzero && is_number r fzero then dret (Number fnan)
      else if is_number l fzero then dret (Number fzero)
      else if is_number r fzero then dret (Number fnan)
      else if is_number r fone then dret (Number fzero)
      else if_eq_d l r (dret (Number fzero)) (fold_binop w Modulo l r, 0)
  | Times | Power | Factorial => (simplify_binop cfg w op l r, 0)
  end.

(** [.into_iter().map(f).collect()] *)
Definition map_d {A B} (f : A -> deep B) : list A -> deep (list B) :=
  fix go (l : list A) : deep (list B) :=
    match l with
    | [] => dret []
    | a :: l' => dbind (f a) (fun a' => dbind (go l') (fun l'' => dret (a' :: l'')))
    end.

(** [Simplify::simplify] — simplify.rs:29-36, 47-51, 249-250, 286-308 *)
Fixpoint simplify_d (cfg : config) (w : world) (e : element) : deep element :=
  frame
  match e with
  | BinOp op l r =>
      dbind (simplify_d cfg w l) (fun l' =>
      dbind (simplify_d cfg w r) (fun r' =>
      simplify_binop_d cfg w op l' r'))
  | UnOp op e1 => dbind (simplify_d cfg w e1) (fun e' => (simplify_unop op e', 0))
  | Call f args => dbind (map_d (simplify_d cfg w) args) (fun args' => (simplify_call w f args', 0))
  | Number _ | Var _ => dret e
  end.

(** [Simplify::simplify_for] — simplify.rs:19-27, 40-44, 244-247, 277-284 *)
Fixpoint el_simplify_for_d (cfg : config) (w : world) (x : string) (v : f64) (e : element) : deep element :=
  frame
  match e with
  | BinOp op l r =>
      dbind (el_simplify_for_d cfg w x v l) (fun l' =>
      dbind (el_simplify_for_d cfg w x v r) (fun r' =>
      simplify_d cfg w (BinOp op l' r')))
  | UnOp op e1 => dbind (el_simplify_for_d cfg w x v e1) (fun e' => simplify_d cfg w (UnOp op e'))
  | Call f args => dbind (map_d (el_simplify_for_d cfg w x v) args) (fun args' => simplify_d cfg w (Call f args'))
  | Var y => if String.eqb y x then dret (Number v) else dret e
  | Number _ => dret e
  end.

(** ** Evaluation — [eval_element_unchecked], xprs.rs:320-361 *)
Fixpoint eval_unchecked_d (w : world) (variables : smap f64) (e : element) : deep f64 :=
  frame
  match e with
  | Number n => dret n
  | Var x =>
      match sget x variables with
      | Some v => dret v
      | None => (Boom UnwrapNone, 0)
      end
  | UnOp op e1 => dbind (eval_unchecked_d w variables e1) (fun v => (apply_unop op v, 0))
  | BinOp op l r =>
      dbind (eval_unchecked_d w variables l) (fun x =>
      dbind (eval_unchecked_d w variables r) (fun y => (apply_binop w op x y, 0)))
  | Call f args => dbind (map_d (eval_unchecked_d w variables) args) (fun vs => (call_function w f vs, 0))
  end.

(** [eval_element] — xprs.rs:272-317.  [?] returns from the call. *)
Definition ebind_d {A} (x : deep eval_result) (f : f64 -> deep A) (g : string -> A) : deep A :=
  dbind x (fun r => match r with Eval_ok v => f v | Eval_err y => dret (g y) end).
Definition map_eval_d (f : element -> deep eval_result) : list element -> deep (list f64 + string) :=
  fix go (l : list element) : deep (list f64 + string) :=
    match l with
    | [] => dret (inl [])
    | a :: l' =>
        ebind_d (f a) (fun v =>
          dbind (go l') (fun t => match t with inl vs => dret (inl (v :: vs)) | inr x => dret (inr x) end)) inr
    end.
Fixpoint eval_d (w : world) (variables : smap f64) (e : element) : deep eval_result :=
  frame
  match e with
  | Number n => dret (Eval_ok n)
  | Var x =>
      match sget x variables with
      | Some v => dret (Eval_ok v)
      | None => dret (Eval_err x)
      end
  | UnOp op e1 => ebind_d (eval_d w variables e1) (fun v => (ok (apply_unop op v), 0)) Eval_err
  | BinOp op l r =>
      ebind_d (eval_d w variables l) (fun x =>
      ebind_d (eval_d w variables r) (fun y => (ok (apply_binop w op x y), 0)) Eval_err) Eval_err
  | Call f args =>
      dbind (map_eval_d (eval_d w variables) args) (fun t =>
        match t with
        | inr x => dret (Eval_err x)
        | inl vs => (ok (call_function w f vs), 0)
        end)
  end.

(** [find_variables] — element/mod.rs:76-93 *)
Fixpoint find_variables_d (e : element) (vars : list string) : list string * nat :=
  match e with
  | Var x => (set_insert x vars, 1)
  | BinOp _ l r =>
      let '(s1, n1) := find_variables_d l vars in
      let '(s2, n2) := find_variables_d r s1 in (s2, 1 + Nat.max n1 n2)
  | UnOp _ a => let '(s, n) := find_variables_d a vars in (s, 1 + n)
  | Call _ args =>
      let '(s, n) := fold_left (fun p a => let '(s, n) := find_variables_d a (fst p) in (s, Nat.max (snd p) n)) args (vars, 0) in
      (s, 1 + n)
  | Number _ => (vars, 1)
  end.

(** ** The parser — parser.rs *)
Definition pdeep (A : Type) : Type := (pres A * nat)%type.
Definition pframe {A} (x : pdeep A) : pdeep A := (fst x, 1 + snd x).
Definition pbind_d {A B} (x : pdeep A) (f : A -> nat -> pdeep B) : pdeep B :=
  match fst x with
  | POk a c => (fst (f a c), Nat.max (snd x) (snd (f a c)))
  | PErr e c => (PErr e c, snd x)
  | PPanic p => (PPanic p, snd x)
  | PFuel => (PFuel, snd x)
  end.
Definition pfree {A} (r : pres A) : pdeep A := (r, 0).

Section ParserDepth.
  Variable cfg : config.
  Variable w : world.
  Variable ctx : context.
  Variable input : string.

  (** [parse_number] — parser.rs:283-311 *)
  Definition parse_number_d (begin : nat) : pdeep element := pframe (pfree (parse_number cfg input begin)).

  (** [simplify] at the end of [element] — parser.rs:180-183 *)
  Definition finish_element_d (el : element) : deep element :=
    if optimize cfg then simplify_d cfg w el else dret el.

  Section OpenRecursion.
    Variable elem : nat -> nat -> pdeep element.

    (** parser.rs:173-178 *)
    Fixpoint binop_loop_d (budget : nat) (precedence : nat) (el : element) (c : nat) : pdeep element :=
      match budget with
      | 0 => pfree PFuel
      | S budget' =>
          match get_operator_infos cfg input el precedence c with
          | (None, c') => pfree (POk el c')
          | (Some (op, op_precedence), c') =>
              pbind_d (elem op_precedence c') (fun rhs c'' =>
                binop_loop_d budget' precedence (BinOp op el rhs) c'')
          end
      end.

    (** [argument] — parser.rs:337-354 *)
    Definition argument_d (c : nat) : pdeep element :=
      let '(r, n) := elem NO_PRECEDENCE c in
      match r with
      | PErr e c' =>
          match pe_kind e with
          | UnexpectedToken _ => (err_missing_argument cfg input c', 1 + n)
          | _ => (PErr e c', 1 + n)
          end
      | r => (r, 1 + n)
      end.

    (** [parse_arguments] — parser.rs:314-334 *)
    Fixpoint parse_arguments_d (budget : nat) (args : list element) (c : nat) : pdeep (list element) :=
      match budget with
      | 0 => pfree PFuel
      | S budget' =>
          pbind_d (argument_d c) (fun arg c1 =>
            let args := (args ++ [arg])%list in
            (let '(o, c2) := next_trim input c1 in
             match o with
             | None => pfree (err_unexpected_end cfg input c2)
             | Some tok =>
                 if Ascii.eqb tok "," then parse_arguments_d budget' args (S c2)
                 else if Ascii.eqb tok ")" then pfree (POk args c2)
                 else pfree (err_unexpected_token input tok c2)
             end))
      end.

    (** [parse_identifier] — parser.rs:228-280; [parse_arguments] is called once and loops *)
    Definition parse_identifier_d (budget : nat) (start : nat) : pdeep element :=
      let stop := skip_while input is_ident_char start in
      let name := slice input start stop in
      pframe
      match resolve ctx name with
      | I_Constant v => pfree (POk (Number v) stop)
      | I_Variable x => pfree (POk (Var x) stop)
      | I_Function func =>
          (let '(b, c1) := consume_if_eq input "(" stop in
           if b then
             pbind_d (pframe (parse_arguments_d budget [] c1)) (fun args c2 =>
             pbind_d (pfree (assert_eq_consume input ")" c2)) (fun _ c3 =>
             pfree (check_arity input func args start c3)))
           else pfree (err_expected_token input "(" c1))
      end.

    (** [atom] — parser.rs:189-225 *)
    Definition atom_d (budget : nat) (c : nat) : pdeep element :=
      pframe
      (let '(o, c0) := next_trim input c in
       match o with
       | None => pfree (err_unexpected_end cfg input c0)
       | Some b =>
           if is_digit b || Ascii.eqb b "." then parse_number_d c0
           else if is_alpha b then parse_identifier_d budget c0
           else if Ascii.eqb b "+" then
             pbind_d (elem UNOP_PRECEDENCE (S c0)) (fun e c1 => pfree (POk (UnOp Plus e) c1))
           else if Ascii.eqb b "-" then
             pbind_d (elem UNOP_PRECEDENCE (S c0)) (fun e c1 => pfree (POk (UnOp Minus e) c1))
           else if Ascii.eqb b "(" then
             pbind_d (elem NO_PRECEDENCE (S c0)) (fun e c1 =>
             pbind_d (pfree (assert_eq_consume input ")" c1)) (fun _ c2 => pfree (POk e c2)))
           else if Ascii.eqb b ")" then pfree (err_unexpected_token input ")" c0)
           else pfree (err_illegal_character input b c0)
       end).
  End OpenRecursion.

  (** [element] — parser.rs:161-186 *)
  Fixpoint element_at_d (budget : nat) (precedence : nat) (c : nat) : pdeep element :=
    match budget with
    | 0 => pfree PFuel
    | S budget' =>
        pframe
        (pbind_d (atom_d (element_at_d budget') budget' c) (fun el c1 =>
          (let '(b, c2) := consume_if_eq input "!" c1 in
           let el := if b then UnOp Factorial el else el in
           pbind_d (binop_loop_d (element_at_d budget') budget' precedence el c2) (fun el c3 =>
             (plift (fst (finish_element_d el)) c3, snd (finish_element_d el))))))
    end.

  (** [ParserImpl::parse] — parser.rs:134-153 *)
  Definition parse_impl_d : pdeep (element * list string) :=
    pframe
    (pbind_d (element_at_d (parse_budget input) NO_PRECEDENCE 0) (fun root c =>
      (let '(o, c') := next_trim input c in
       match o with
       | Some tok => pfree (err_unexpected_token input tok c')
       | None => (POk (root, fst (find_variables_d root [])) c', snd (find_variables_d root []))
       end))).
End ParserDepth.

(** [Parser::parse] — parser.rs:85-106 *)
Definition parse_d (cfg : config) (w : world) (ctx : context) (input : string) : parse_result * nat :=
  match parse_impl_d cfg w ctx input with
  | (PErr e _, n) => (Parse_err e, n)
  | (PPanic p, n) => (Parse_panic p, n)
  | (PFuel, n) => (Parse_diverges, n)
  | (POk (root, vars) _, n) =>
      match get_expected_vars ctx with
      | None => (Parse_ok (mk_xprs root vars), n)
      | Some expected =>
          match set_diff (hash_order w vars) expected with
          | [] => (Parse_ok (mk_xprs root vars), n)
          | unknown_var :: _ =>
              (Parse_err (mk_parse_error
                (VariableNotDeclared unknown_var (hash_order w expected))
                0 (N.of_nat (String.length input)) input), n)
          end
      end
  end.
