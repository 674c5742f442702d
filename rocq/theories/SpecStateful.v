(** * Specification: when user functions are called *)
From Coq Require Import ZArith NArith List String Ascii Bool.
From Verif Require Import F64 Syntax Factorial Builtins Context Parser SpecTree SpecTokens SpecGrammar Stateful.
Import ListNotations.
Local Open Scope nat_scope.

(** The user function behind a function, if it is not built in. *)
Definition user_id (f : function) : list nat :=
  match fn_ptr f with
  | Static_builtin _ => []
  | Static_user id | Dyn_user id => [id]
  end.

(** The user functions called by an expression, in the order: left operand before
    right operand, arguments from left to right and before the call itself. *)
Fixpoint calls_of (e : element) : list nat :=
  match e with
  | Number _ | Var _ => []
  | UnOp _ a => calls_of a
  | BinOp _ l r => calls_of l ++ calls_of r
  | Call f args => flat_map calls_of args ++ user_id f
  end.

(** The user functions named in a text, once per occurrence. *)
Definition calls_written (ctx : context) (ts : list token) : list nat :=
  flat_map (fun t => match t with
                     | TId s => match stands_for ctx s with I_Function f => user_id f | _ => [] end
                     | _ => []
                     end) ts.

(** The functions called in a piece of history. *)
Definition who (h : history) : list nat := map fst h.

(** No member occurs more often in [a] than in [b]. *)
Definition part_of (a b : list nat) : Prop :=
  forall id, count_occ Nat.eq_dec a id <= count_occ Nat.eq_dec b id.

(** The functions called before the evaluation reaches the variable that stops
    it; [None] if nothing stops it. *)
Section Until.
  Variable known : string -> bool.

  Fixpoint stops (e : element) : bool :=
    match e with
    | Number _ => false
    | Var x => negb (known x)
    | UnOp _ a => stops a
    | BinOp _ l r => stops l || stops r
    | Call _ args => existsb stops args
    end.

  Fixpoint calls_until_stop (e : element) : list nat :=
    match e with
    | Number _ | Var _ => []
    | UnOp _ a => calls_until_stop a
    | BinOp _ l r => calls_until_stop l ++ (if stops l then [] else calls_until_stop r)
    | Call f args =>
        (fix go (l : list element) : list nat :=
           match l with
           | [] => []
           | a :: l' => calls_until_stop a ++ (if stops a then [] else go l')
           end) args ++ (if existsb stops args then [] else user_id f)
    end.
End Until.

(** ** The value of an expression whose functions have a state

    [runs w b rho e h v h']: starting after the history [h], the expression [e]
    has the value [v], and then the history is [h']. *)
Inductive runs (w : world) (b : behaviour) (rho : string -> option f64)
  : element -> history -> f64 -> history -> Prop :=
| R_num : forall n h, runs w b rho (Number n) h n h
| R_var : forall x v h, rho x = Some v -> runs w b rho (Var x) h v h
| R_plus : forall l r x y h h1 h2, runs w b rho l h x h1 -> runs w b rho r h1 y h2 ->
    runs w b rho (BinOp Plus l r) h (fadd x y) h2
| R_minus : forall l r x y h h1 h2, runs w b rho l h x h1 -> runs w b rho r h1 y h2 ->
    runs w b rho (BinOp Minus l r) h (fsub x y) h2
| R_times : forall l r x y h h1 h2, runs w b rho l h x h1 -> runs w b rho r h1 y h2 ->
    runs w b rho (BinOp Times l r) h (fmul x y) h2
| R_divide : forall l r x y h h1 h2, runs w b rho l h x h1 -> runs w b rho r h1 y h2 ->
    runs w b rho (BinOp Divide l r) h (fdiv x y) h2
| R_power : forall l r x y h h1 h2, runs w b rho l h x h1 -> runs w b rho r h1 y h2 ->
    runs w b rho (BinOp Power l r) h (l_powf w x y) h2
| R_modulo : forall l r x y h h1 h2, runs w b rho l h x h1 -> runs w b rho r h1 y h2 ->
    runs w b rho (BinOp Modulo l r) h (frem x y) h2
| R_unplus : forall e x h h1, runs w b rho e h x h1 -> runs w b rho (UnOp Plus e) h x h1
| R_unminus : forall e x h h1, runs w b rho e h x h1 -> runs w b rho (UnOp Minus e) h (fneg x) h1
| R_factorial : forall e x h h1, runs w b rho e h x h1 -> runs w b rho (UnOp Factorial e) h (factorial x) h1
| R_builtin : forall f bi args vs v h h1,
    runs_all w b rho args h vs h1 -> fn_ptr f = Static_builtin bi -> call_builtin w bi vs = Val v ->
    runs w b rho (Call f args) h v h1
| R_user : forall f id args vs v h h1,
    runs_all w b rho args h vs h1 -> user_id f = [id] -> b h1 id vs = Some v ->
    runs w b rho (Call f args) h v (h1 ++ [(id, vs)])
with runs_all (w : world) (b : behaviour) (rho : string -> option f64)
  : list element -> history -> list f64 -> history -> Prop :=
| RA_nil : forall h, runs_all w b rho [] h [] h
| RA_cons : forall a args v vs h h1 h2, runs w b rho a h v h1 -> runs_all w b rho args h1 vs h2 ->
    runs_all w b rho (a :: args) h (v :: vs) h2.
