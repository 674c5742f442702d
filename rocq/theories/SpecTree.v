(** * Specification vocabulary for expression trees

    Inductive definitions, independent of the functions of the model that they
    are compared with. *)
From Coq Require Import ZArith NArith List String Ascii Bool.
From Verif Require Import F64 Syntax Factorial Builtins.
Import ListNotations.

(** The variable [x] occurs in the tree. *)
Inductive occurs (x : string) : element -> Prop :=
| occ_var : occurs x (Var x)
| occ_binl : forall op l r, occurs x l -> occurs x (BinOp op l r)
| occ_binr : forall op l r, occurs x r -> occurs x (BinOp op l r)
| occ_un : forall op e, occurs x e -> occurs x (UnOp op e)
| occ_arg : forall f args a, In a args -> occurs x a -> occurs x (Call f args).

(** [sub a e]: [a] is [e] or a part of it. *)
Inductive sub (a : element) : element -> Prop :=
| sub_refl : sub a a
| sub_binl : forall op l r, sub a l -> sub a (BinOp op l r)
| sub_binr : forall op l r, sub a r -> sub a (BinOp op l r)
| sub_un : forall op e, sub a e -> sub a (UnOp op e)
| sub_arg : forall f args b, In b args -> sub a b -> sub a (Call f args).

(** Operators are used with an arity they have. *)
Definition proper_operators (e : element) : Prop :=
  (forall op l r, sub (BinOp op l r) e -> op <> Factorial) /\
  (forall op a, sub (UnOp op a) e -> op = Plus \/ op = Minus \/ op = Factorial).

(** Every call has at least one argument, and as many as declared. *)
Definition proper_arities (e : element) : Prop :=
  forall f args, sub (Call f args) e ->
    args <> [] /\ forall n, fn_nb_args f = Some n -> List.length args = n.

(** The functions called in the tree do not panic on argument lists of the
    length they are called with. *)
Definition functions_return (w : world) (e : element) : Prop :=
  forall f args, sub (Call f args) e ->
    forall vs, List.length vs = List.length args -> exists v, call_function w f vs = Val v.

(** ** The meaning of an expression

    [means w rho e v]: with libm and user functions [w] and variable values
    [rho], the expression [e] has the value [v]. *)
Inductive means (w : world) (rho : string -> option f64) : element -> f64 -> Prop :=
| M_number : forall n, means w rho (Number n) n
| M_var : forall x v, rho x = Some v -> means w rho (Var x) v
| M_plus : forall l r a b, means w rho l a -> means w rho r b ->
    means w rho (BinOp Plus l r) (fadd a b)
| M_minus : forall l r a b, means w rho l a -> means w rho r b ->
    means w rho (BinOp Minus l r) (fsub a b)
| M_times : forall l r a b, means w rho l a -> means w rho r b ->
    means w rho (BinOp Times l r) (fmul a b)
| M_divide : forall l r a b, means w rho l a -> means w rho r b ->
    means w rho (BinOp Divide l r) (fdiv a b)
| M_power : forall l r a b, means w rho l a -> means w rho r b ->
    means w rho (BinOp Power l r) (l_powf w a b)
| M_modulo : forall l r a b, means w rho l a -> means w rho r b ->
    means w rho (BinOp Modulo l r) (frem a b)
| M_unplus : forall e a, means w rho e a -> means w rho (UnOp Plus e) a
| M_unminus : forall e a, means w rho e a -> means w rho (UnOp Minus e) (fneg a)
| M_factorial : forall e a, means w rho e a -> means w rho (UnOp Factorial e) (factorial a)
| M_call : forall f args vs v, means_all w rho args vs -> call_function w f vs = Val v ->
    means w rho (Call f args) v
with means_all (w : world) (rho : string -> option f64) : list element -> list f64 -> Prop :=
| M_nil : means_all w rho [] []
| M_cons : forall a args v vs, means w rho a v -> means_all w rho args vs ->
    means_all w rho (a :: args) (v :: vs).

(** [first_missing rho e x]: reading the variables of [e] from left to right,
    [x] is the first one without a value. *)
Inductive first_missing (rho : string -> option f64) : element -> string -> Prop :=
| FM_var : forall x, rho x = None -> first_missing rho (Var x) x
| FM_un : forall op e x, first_missing rho e x -> first_missing rho (UnOp op e) x
| FM_left : forall op l r x, first_missing rho l x -> first_missing rho (BinOp op l r) x
| FM_right : forall op l r x,
    (forall y, occurs y l -> rho y <> None) -> first_missing rho r x ->
    first_missing rho (BinOp op l r) x
| FM_arg : forall f before a after x,
    (forall b y, In b before -> occurs y b -> rho y <> None) -> first_missing rho a x ->
    first_missing rho (Call f (before ++ a :: after)) x.
