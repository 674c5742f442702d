(** * Specification: which expressions rise or fall with their variables

    A small calculus a reader can check by hand, as in school: a sum of rising
    terms rises, a product of rising terms that are not negative rises, the
    reciprocal of a rising positive term falls, and so on.

    [go x] says how the variable [x] moves between two sets of values: up,
    down, or not at all.  [known x] is what is known about its sign: on which
    side of zero it is, and ([true]) whether it is known not to be zero. *)
From Coq Require Import List String Bool.
From Flocq Require Import BinarySingleNaN.
From Verif Require Import F64 Syntax Builtins SpecTree.
Import ListNotations.

Inductive way := Up | Down.
Definition opposite (d : way) : way := match d with Up => Down | Down => Up end.
(** the way a product moves with one factor if the other one is on side [s] *)
Definition turn (s d : way) : way := match s with Up => d | Down => opposite d end.

(** Rust's [<=] and [<] on f64: false if an operand is a NaN *)
Definition at_most (a b : f64) : Prop := Bleb a b = true.
Definition below (a b : f64) : Prop := Bltb a b = true.

(** [v] is on side [s] of zero (zeros of either sign are on both sides, unless
    [strict]) *)
Definition on_side (v : f64) (s : way) (strict : bool) : Prop :=
  match s, strict with
  | Up, false => at_most fzero v
  | Up, true => below fzero v
  | Down, false => at_most v fzero
  | Down, true => below v fzero
  end.

(** from [v] to [v'] is a step in the direction [d] *)
Definition step (d : way) (v v' : f64) : Prop :=
  match d with Up => at_most v v' | Down => at_most v' v end.

Inductive signed (known : string -> option (way * bool)) : element -> way -> bool -> Prop :=
| SG_number : forall v s b, on_side v s b -> signed known (Number v) s b
| SG_var : forall x s b, known x = Some (s, b) -> signed known (Var x) s b
| SG_weaken : forall e s, signed known e s true -> signed known e s false
| SG_plus : forall l r s b c, signed known l s b -> signed known r s c ->
    signed known (BinOp Plus l r) s (b || c)
| SG_minus : forall l r s b c, signed known l s b -> signed known r (opposite s) c ->
    signed known (BinOp Minus l r) s (b || c)
| SG_times : forall l r s t b c, signed known l s b -> signed known r t c ->
    signed known (BinOp Times l r) (turn s t) false
| SG_square : forall e, signed known (BinOp Times e e) Up false
| SG_divide : forall l r s t b, signed known l s b -> signed known r t true ->
    signed known (BinOp Divide l r) (turn s t) false
| SG_plus_sign : forall e s b, signed known e s b -> signed known (UnOp Plus e) s b
| SG_minus_sign : forall e s b, signed known e s b -> signed known (UnOp Minus e) (opposite s) b
| SG_factorial : forall e, signed known (UnOp Factorial e) Up true
| SG_abs : forall e, signed known (Call (builtin_function B_ABS) [e]) Up false
| SG_abs_strict : forall e s, signed known e s true -> signed known (Call (builtin_function B_ABS) [e]) Up true
| SG_sqrt : forall e, signed known (Call (builtin_function B_SQRT) [e]) Up false
| SG_extremum : forall f args s b, f = B_MIN \/ f = B_MAX -> args <> [] ->
    (forall a, In a args -> signed known a s b) -> signed known (Call (builtin_function f) args) s b
| SG_sum : forall args s, (forall a, In a args -> signed known a s false) ->
    signed known (Call (builtin_function B_SUM) args) s false.

(** no variable of the expression moves *)
Definition steady (go : string -> option way) (e : element) : Prop :=
  forall x, occurs x e -> go x = None.

Inductive moving (known : string -> option (way * bool)) (go : string -> option way) : element -> way -> Prop :=
| MV_steady : forall e d, steady go e -> moving known go e d
| MV_var : forall x d, go x = Some d -> moving known go (Var x) d
| MV_plus : forall l r d, moving known go l d -> moving known go r d -> moving known go (BinOp Plus l r) d
| MV_minus : forall l r d, moving known go l d -> moving known go r (opposite d) ->
    moving known go (BinOp Minus l r) d
| MV_times : forall l r s t b c d, signed known l s b -> signed known r t c ->
    moving known go l (turn t d) -> moving known go r (turn s d) ->
    moving known go (BinOp Times l r) d
| MV_scale_left : forall l r s b d, steady go l -> signed known l s b -> moving known go r (turn s d) ->
    moving known go (BinOp Times l r) d
| MV_scale_right : forall l r t c d, steady go r -> signed known r t c -> moving known go l (turn t d) ->
    moving known go (BinOp Times l r) d
| MV_divide : forall l r s t b d, signed known l s b -> signed known r t true ->
    moving known go l (turn t d) -> moving known go r (turn (opposite s) d) ->
    moving known go (BinOp Divide l r) d
| MV_divide_by : forall l r t d, steady go r -> signed known r t true -> moving known go l (turn t d) ->
    moving known go (BinOp Divide l r) d
| MV_plus_sign : forall e d, moving known go e d -> moving known go (UnOp Plus e) d
| MV_minus_sign : forall e d, moving known go e (opposite d) -> moving known go (UnOp Minus e) d
| MV_factorial : forall e d, moving known go e d -> moving known go (UnOp Factorial e) d
| MV_rising_function : forall f a d,
    f = B_SQRT \/ f = B_FLOOR \/ f = B_CEIL \/ f = B_ROUND \/ f = B_TRUNC \/ f = B_FACTORIAL ->
    moving known go a d -> moving known go (Call (builtin_function f) [a]) d
| MV_abs : forall a s b d, signed known a s b -> moving known go a (turn s d) ->
    moving known go (Call (builtin_function B_ABS) [a]) d
| MV_recip : forall a s d, signed known a s true -> moving known go a (opposite d) ->
    moving known go (Call (builtin_function B_RECIP) [a]) d
| MV_list : forall f args d, f = B_MIN \/ f = B_MAX \/ f = B_SUM \/ f = B_MEAN ->
    (forall a, In a args -> moving known go a d) -> moving known go (Call (builtin_function f) args) d.

(** The values [rho] and [rho'] of the variables are as [known] and [go] say. *)
Definition as_known (known : string -> option (way * bool)) (rho : string -> option f64) : Prop :=
  forall x s b v, known x = Some (s, b) -> rho x = Some v -> on_side v s b.
Definition as_moved (go : string -> option way) (rho rho' : string -> option f64) : Prop :=
  forall x, match go x with
            | None => rho x = rho' x
            | Some d => forall v v', rho x = Some v -> rho' x = Some v' -> step d v v'
            end.
(** no part of the expression evaluates to NaN *)
Definition no_nan (w : world) (rho : string -> option f64) (e : element) : Prop :=
  forall a v, sub a e -> means w rho a v -> is_nan v = false.
