(** * The work done: the same code with a step counter

    The functions below are those of [Element.v], [Xprs.v] and [Parser.v] again,
    each returning besides its result the number of steps taken.
    [PropertiesCost.v] proves that the results are the same (erasure), so only
    the counting is new here.  Counted are: every call of [==] on expressions
    (element/mod.rs:20, binop.rs:39-60), every visit of a node by [simplify],
    [simplify_for], [eval] or [find_variables], every call of a parser function
    and every byte the parser looks at or copies into a name or number.  The
    comparisons of a node with a number literal in [BinOp::simplify] belong to
    the visit.  Not counted: allocation, hashing, and copying the text into an
    error value. *)
From Coq Require Import ZArith NArith List String Ascii Bool.
From Verif Require Import F64 Syntax Factorial Builtins Context Element Parser Xprs.
Import ListNotations.
Local Open Scope nat_scope.

(** A result and the steps spent on it. *)
Definition counted (A : Type) : Type := (out A * nat)%type.
Definition cret {A} (a : A) : counted A := (Val a, 0).
Definition cbind {A B} (x : counted A) (f : A -> counted B) : counted B :=
  match fst x with
  | Val a => (fst (f a), snd x + snd (f a))
  | Boom p => (Boom p, snd x)
  end.
Definition steps {A} (n : nat) (x : counted A) : counted A := (fst x, n + snd x).

(** ** Equality — element/mod.rs:20, binop.rs:39-60 *)
(** [&&] and [||]: the second operand costs only if it is evaluated. *)
Definition and_c (a b : counted bool) : counted bool :=
  match fst a with Val true => (fst b, snd a + snd b) | _ => a end.
Definition or_c (a b : counted bool) : counted bool :=
  match fst a with Val false => (fst b, snd a + snd b) | _ => a end.

Fixpoint el_eq_c (a b : element) {struct a} : counted bool :=
  steps 1
  match a, b with
  | Number x, Number y => cret (feq x y)
  | BinOp op l r, BinOp op' l' r' =>
      if operator_eqb op op' then
        match op with
        | Divide | Minus | Modulo | Power => and_c (el_eq_c l l') (el_eq_c r r')
        | Plus | Times =>
            or_c (and_c (el_eq_c l l') (el_eq_c r r'))
                 (and_c (el_eq_c l r') (el_eq_c r l'))
        | Factorial => (Boom Unreachable, 0)
        end
      else cret false
  | UnOp op e, UnOp op' e' => if operator_eqb op op' then el_eq_c e e' else cret false
  | Call f args, Call g args' =>
      if function_eqb f g then
        if Nat.eqb (List.length args) (List.length args') then
          (fix go (l m : list element) : counted bool :=
             match l, m with
             | a :: l', b :: m' => and_c (el_eq_c a b) (go l' m')
             | _, _ => cret true
             end) args args'
        else cret false
      else cret false
  | Var x, Var y => cret (String.eqb x y)
  | _, _ => cret false
  end.

(** ** Simplification — element/simplify.rs *)
Definition if_eq_c (a b : element) (x y : counted element) : counted element :=
  cbind (el_eq_c a b) (fun c => if c then x else y).

(** The match of [BinOp::simplify] — simplify.rs:52-239.  Only the arms that
    compare the two operands with each other are counted anew; for the other
    operators the match takes no step of its own. *)
Definition simplify_binop_c (cfg : config) (w : world) (op : operator) (l r : element) : counted element :=
  match op with
  | Plus =>
      if is_number l fzero then cret r
      else if is_number r fzero then cret l
      else
        let tail := (fold_binop w Plus l r, 0) in
        if nightly cfg then
          let second :=
            match r with
            | UnOp Minus operand => if_eq_c l operand (cret (Number fzero)) tail
            | _ => tail
            end in
          match l with
          | UnOp Minus operand => if_eq_c operand r (cret (Number fzero)) second
          | _ => second
          end
        else tail
  | Minus =>
      if is_number l fzero then cret (UnOp Minus r)
      else if is_number r fzero then cret l
      else if_eq_c l r (cret (Number fzero))
        (match r with
         | UnOp Minus operand =>
             if nightly cfg then cret (BinOp Plus l operand)
             else (fold_binop w Minus l r, 0)
         | _ => (fold_binop w Minus l r, 0)
         end)
  | Divide =>
      if is_number l fzero && is_number r fzero then cret (Number fnan)
      else if is_number l fzero then cret (Number fzero)
      else if is_number r fzero then cret (Number finf)
      else if is_number r fone then cret l
      else if_eq_c l r (cret (Number fone))
        (let tail :=
           if is_number r fzero then cret (Number fone)
           else (fold_binop w Divide l r, 0) in
         match l, r with
         | UnOp Minus a, UnOp Minus b =>
             if nightly cfg then cret (BinOp Divide a b)
             else tail
         | _, _ => tail
         end)
  | Modulo =>
      if is_number l fzero && is_number r fzero then cret (Number fnan)
      else if is_number l fzero then cret (Number fzero)
      else if is_number r fzero then cret (Number fnan)
      else if is_number r fone then cret (Number fzero)
      else if_eq_c l r (cret (Number fzero)) (fold_binop w Modulo l r, 0)
  | Times | Power | Factorial => (simplify_binop cfg w op l r, 0)
  end.

(** [.into_iter().map(f).collect()] *)
Definition map_c {A B} (f : A -> counted B) : list A -> counted (list B) :=
  fix go (l : list A) : counted (list B) :=
    match l with
    | [] => cret []
    | a :: l' => cbind (f a) (fun a' => cbind (go l') (fun l'' => cret (a' :: l'')))
    end.

(** [Simplify::simplify] — simplify.rs:29-36, 47-51, 249-250, 286-308 *)
Fixpoint simplify_c (cfg : config) (w : world) (e : element) : counted element :=
  steps 1
  match e with
  | BinOp op l r =>
      cbind (simplify_c cfg w l) (fun l' =>
      cbind (simplify_c cfg w r) (fun r' =>
      simplify_binop_c cfg w op l' r'))
  | UnOp op e1 => cbind (simplify_c cfg w e1) (fun e' => (simplify_unop op e', 0))
  | Call f args => cbind (map_c (simplify_c cfg w) args) (fun args' => (simplify_call w f args', 0))
  | Number _ | Var _ => cret e
  end.

(** [Simplify::simplify_for] — simplify.rs:19-27, 40-44, 244-247, 277-284 *)
Fixpoint el_simplify_for_c (cfg : config) (w : world) (x : string) (v : f64) (e : element) : counted element :=
  steps 1
  match e with
  | BinOp op l r =>
      cbind (el_simplify_for_c cfg w x v l) (fun l' =>
      cbind (el_simplify_for_c cfg w x v r) (fun r' =>
      simplify_c cfg w (BinOp op l' r')))
  | UnOp op e1 => cbind (el_simplify_for_c cfg w x v e1) (fun e' => simplify_c cfg w (UnOp op e'))
  | Call f args => cbind (map_c (el_simplify_for_c cfg w x v) args) (fun args' => simplify_c cfg w (Call f args'))
  | Var y => if String.eqb y x then cret (Number v) else cret e
  | Number _ => cret e
  end.

(** ** Evaluation — [eval_element_unchecked], xprs.rs:320-361.  ([eval_element],
    xprs.rs:272-317, visits the same nodes and may stop earlier.) *)
Fixpoint eval_unchecked_c (w : world) (variables : smap f64) (e : element) : counted f64 :=
  steps 1
  match e with
  | Number n => cret n
  | Var x =>
      match sget x variables with
      | Some v => cret v
      | None => (Boom UnwrapNone, 0)
      end
  | UnOp op e1 => cbind (eval_unchecked_c w variables e1) (fun v => (apply_unop op v, 0))
  | BinOp op l r =>
      cbind (eval_unchecked_c w variables l) (fun x =>
      cbind (eval_unchecked_c w variables r) (fun y => (apply_binop w op x y, 0)))
  | Call f args => cbind (map_c (eval_unchecked_c w variables) args) (fun vs => (call_function w f vs, 0))
  end.

(** [find_variables] — element/mod.rs:76-93 *)
Fixpoint find_variables_c (e : element) (vars : list string) : list string * nat :=
  match e with
  | Var x => (set_insert x vars, 1)
  | BinOp _ l r =>
      let '(s1, n1) := find_variables_c l vars in
      let '(s2, n2) := find_variables_c r s1 in (s2, 1 + n1 + n2)
  | UnOp _ a => let '(s, n) := find_variables_c a vars in (s, 1 + n)
  | Call _ args =>
      let '(s, n) := fold_left (fun p a => let '(s, n) := find_variables_c a (fst p) in (s, snd p + n)) args (vars, 0) in
      (s, 1 + n)
  | Number _ => (vars, 1)
  end.

(** ** The parser — parser.rs *)
Definition pcounted (A : Type) : Type := (pres A * nat)%type.
Definition psteps {A} (n : nat) (x : pcounted A) : pcounted A := (fst x, n + snd x).
Definition pbind_c {A B} (x : pcounted A) (f : A -> nat -> pcounted B) : pcounted B :=
  match fst x with
  | POk a c => (fst (f a c), snd x + snd (f a c))
  | PErr e c => (PErr e c, snd x)
  | PPanic p => (PPanic p, snd x)
  | PFuel => (PFuel, snd x)
  end.
Definition pfree {A} (r : pres A) : pcounted A := (r, 0).

Section ParserCount.
  Variable cfg : config.
  Variable w : world.
  Variable ctx : context.
  Variable input : string.

  (** The bytes looked at by [skip_while] — parser.rs:371-375: those skipped
      and the one that stops it. *)
  Definition skip_steps (p : ascii -> bool) (c : nat) : nat := S (skip_while input p c - c).
  (** [next_trim] — parser.rs:390-393 *)
  Definition trim_steps (c : nat) : nat := S (skip_steps is_ws c).

  (** [assert_eq_consume], [consume_if_eq] — parser.rs:378-382, 442-447 *)
  Definition assert_eq_consume_c (tok : ascii) (c : nat) : pcounted unit :=
    psteps (1 + trim_steps c) (pfree (assert_eq_consume input tok c)).

  (** [parse_number] — parser.rs:283-311: two runs, three bytes of lookahead,
      and the text is copied without underscores and converted. *)
  Definition parse_number_c (begin : nat) : pcounted element :=
    let c1 := skip_while input is_number_char begin in
    match parse_number cfg input begin with
    | POk e stop => (POk e stop, 1 + skip_steps is_number_char begin + 3 + (S (stop - c1)) + 2 * (stop - begin))
    | PErr e stop => (PErr e stop, 1 + skip_steps is_number_char begin + 3 + (S (stop - c1)) + 2 * (stop - begin))
    | r => (r, 1)
    end.

  (** [simplify] at the end of [element] — parser.rs:180-183 *)
  Definition finish_element_c (el : element) : counted element :=
    if optimize cfg then simplify_c cfg w el else cret el.

  Section OpenRecursion.
    Variable elem : nat -> nat -> pcounted element.

    (** parser.rs:173-178; [get_operator_infos] (406-438) trims and looks at one byte *)
    Fixpoint binop_loop_c (budget : nat) (precedence : nat) (el : element) (c : nat) : pcounted element :=
      match budget with
      | 0 => pfree PFuel
      | S budget' =>
          psteps (1 + trim_steps c)
          match get_operator_infos cfg input el precedence c with
          | (None, c') => pfree (POk el c')
          | (Some (op, op_precedence), c') =>
              pbind_c (elem op_precedence c') (fun rhs c'' =>
                binop_loop_c budget' precedence (BinOp op el rhs) c'')
          end
      end.

    (** [argument] — parser.rs:337-354 *)
    Definition argument_c (c : nat) : pcounted element :=
      let '(r, n) := elem NO_PRECEDENCE c in
      match r with
      | PErr e c' =>
          match pe_kind e with
          | UnexpectedToken _ => (err_missing_argument cfg input c', 2 + n)
          | _ => (PErr e c', 1 + n)
          end
      | r => (r, 1 + n)
      end.

    (** [parse_arguments] — parser.rs:314-334 *)
    Fixpoint parse_arguments_c (budget : nat) (args : list element) (c : nat) : pcounted (list element) :=
      match budget with
      | 0 => pfree PFuel
      | S budget' =>
          pbind_c (argument_c c) (fun arg c1 =>
            let args := (args ++ [arg])%list in
            psteps (2 + trim_steps c1)
            (let '(o, c2) := next_trim input c1 in
             match o with
             | None => pfree (err_unexpected_end cfg input c2)
             | Some tok =>
                 if Ascii.eqb tok "," then parse_arguments_c budget' args (S c2)
                 else if Ascii.eqb tok ")" then pfree (POk args c2)
                 else pfree (err_unexpected_token input tok c2)
             end))
      end.

    (** [parse_identifier] — parser.rs:228-280: the name is scanned and looked up *)
    Definition parse_identifier_c (budget : nat) (start : nat) : pcounted element :=
      let stop := skip_while input is_ident_char start in
      let name := slice input start stop in
      psteps (1 + skip_steps is_ident_char start + 2 * (stop - start))
      match resolve ctx name with
      | I_Constant v => pfree (POk (Number v) stop)
      | I_Variable x => pfree (POk (Var x) stop)
      | I_Function func =>
          psteps (1 + trim_steps stop)
          (let '(b, c1) := consume_if_eq input "(" stop in
           if b then
             pbind_c (parse_arguments_c budget [] c1) (fun args c2 =>
             pbind_c (assert_eq_consume_c ")" c2) (fun _ c3 =>
             psteps 1 (pfree (check_arity input func args start c3))))
           else pfree (err_expected_token input "(" c1))
      end.

    (** [atom] — parser.rs:189-225 *)
    Definition atom_c (budget : nat) (c : nat) : pcounted element :=
      psteps (1 + trim_steps c)
      (let '(o, c0) := next_trim input c in
       match o with
       | None => pfree (err_unexpected_end cfg input c0)
       | Some b =>
           if is_digit b || Ascii.eqb b "." then parse_number_c c0
           else if is_alpha b then parse_identifier_c budget c0
           else if Ascii.eqb b "+" then
             pbind_c (elem UNOP_PRECEDENCE (S c0)) (fun e c1 => pfree (POk (UnOp Plus e) c1))
           else if Ascii.eqb b "-" then
             pbind_c (elem UNOP_PRECEDENCE (S c0)) (fun e c1 => pfree (POk (UnOp Minus e) c1))
           else if Ascii.eqb b "(" then
             pbind_c (elem NO_PRECEDENCE (S c0)) (fun e c1 =>
             pbind_c (assert_eq_consume_c ")" c1) (fun _ c2 => pfree (POk e c2)))
           else if Ascii.eqb b ")" then pfree (err_unexpected_token input ")" c0)
           else pfree (err_illegal_character input b c0)
       end).
  End OpenRecursion.

  (** [element] — parser.rs:161-186 *)
  Fixpoint element_at_c (budget : nat) (precedence : nat) (c : nat) : pcounted element :=
    match budget with
    | 0 => pfree PFuel
    | S budget' =>
        pbind_c (atom_c (element_at_c budget') budget' c) (fun el c1 =>
          psteps (2 + trim_steps c1)
          (let '(b, c2) := consume_if_eq input "!" c1 in
           let el := if b then UnOp Factorial el else el in
           pbind_c (binop_loop_c (element_at_c budget') budget' precedence el c2) (fun el c3 =>
             (plift (fst (finish_element_c el)) c3, snd (finish_element_c el)))))
    end.

  (** [ParserImpl::parse] — parser.rs:134-153 *)
  Definition parse_impl_c : pcounted (element * list string) :=
    pbind_c (element_at_c (parse_budget input) NO_PRECEDENCE 0) (fun root c =>
      psteps (1 + trim_steps c)
      (let '(o, c') := next_trim input c in
       match o with
       | Some tok => pfree (err_unexpected_token input tok c')
       | None => (POk (root, fst (find_variables_c root [])) c', snd (find_variables_c root []))
       end)).
End ParserCount.

(** [Parser::parse] — parser.rs:85-106.  [difference] looks each variable of
    the expression up in the set of declared ones, and a failure copies that
    set. *)
Definition parse_c (cfg : config) (w : world) (ctx : context) (input : string) : parse_result * nat :=
  match parse_impl_c cfg w ctx input with
  | (PErr e _, n) => (Parse_err e, n)
  | (PPanic p, n) => (Parse_panic p, n)
  | (PFuel, n) => (Parse_diverges, n)
  | (POk (root, vars) _, n) =>
      match get_expected_vars ctx with
      | None => (Parse_ok (mk_xprs root vars), n)
      | Some expected =>
          match set_diff (hash_order w vars) expected with
          | [] => (Parse_ok (mk_xprs root vars), n + List.length vars)
          | unknown_var :: _ =>
              (Parse_err (mk_parse_error
                (VariableNotDeclared unknown_var (hash_order w expected))
                0 (N.of_nat (String.length input)) input), n + List.length vars + List.length expected)
          end
      end
  end.
