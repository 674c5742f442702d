(** * Data types of the library: operators, functions, expression trees *)
From Coq Require Import ZArith NArith List String Ascii Bool Permutation.
From Verif Require Import F64.
Import ListNotations.

(** ** Build configuration

    Feature flags of /repo/Cargo.toml:37-41 and the [NIGHTLY] cfg set by
    /repo/build.rs:20-22; [overflow_checks] is rustc's flag of that name (on in
    debug builds, off in release builds).  [pejmdas = false] stands for the
    [pemdas] feature (enabling both does not compile: precedence.rs:11-16). *)
Record config := mk_config {
  pejmdas : bool;
  optimize : bool;          (* feature "compile-time-optimizations" *)
  nightly : bool;
  overflow_checks : bool
}.

(** The default features, stable compiler, release build. *)
Definition default_config : config :=
  {| pejmdas := false; optimize := true; nightly := false; overflow_checks := false |}.

(** The same without compile-time optimisation. *)
Definition plain_config : config :=
  {| pejmdas := false; optimize := false; nightly := false; overflow_checks := false |}.

(** ** Panics

    The reasons for which the modelled Rust code can panic. *)
Inductive panic :=
| Unreachable        (* unreachable!() *)
| IndexOutOfBounds   (* slice index *)
| UnwrapNone         (* Option::unwrap on None *)
| ArithOverflow      (* arithmetic overflow with overflow checks *)
| UserPanic.         (* a user-supplied function panicked *)

(** The result of running Rust code that may panic. *)
Inductive out (A : Type) :=
| Val (a : A)
| Boom (p : panic).
Arguments Val {A} a.
Arguments Boom {A} p.

Definition bind_out {A B} (x : out A) (f : A -> out B) : out B :=
  match x with Val a => f a | Boom p => Boom p end.
Notation "'do' x <- a ; b" := (bind_out a (fun x => b))
  (at level 200, x name, a at level 100, b at level 200, right associativity).

(** Map a panicking function over a list, left to right
    ([iter().map(..).collect()]). *)
Definition map_out {A B} (f : A -> out B) : list A -> out (list B) :=
  fix go (l : list A) : out (list B) :=
    match l with
    | [] => Val []
    | a :: l' => do b <- f a; do bs <- go l'; Val (b :: bs)
    end.

(** ** Operators — /repo/src/token/operator.rs:6-21 *)
Inductive operator := Plus | Minus | Times | Divide | Power | Modulo | Factorial.

(** derived [PartialEq] — operator.rs:5 *)
Definition operator_eqb (a b : operator) : bool :=
  match a, b with
  | Plus, Plus | Minus, Minus | Times, Times | Divide, Divide
  | Power, Power | Modulo, Modulo | Factorial, Factorial => true
  | _, _ => false
  end.

(** [TryFrom<u8>] — operator.rs:29-40 *)
Definition operator_of_byte (c : ascii) : option operator :=
  if Ascii.eqb c "!" then Some Factorial
  else if Ascii.eqb c "+" then Some Plus
  else if Ascii.eqb c "-" then Some Minus
  else if Ascii.eqb c "*" then Some Times
  else if Ascii.eqb c "/" then Some Divide
  else if Ascii.eqb c "^" then Some Power
  else if Ascii.eqb c "%" then Some Modulo
  else None.

(** ** Functions — /repo/src/token/function.rs *)

(** The built-in functions of /repo/src/utils/built_in_functions.rs:5-109, one
    constructor per constant. *)
Inductive builtin :=
| B_SIN | B_SINH | B_ASIN | B_ASINH | B_COS | B_COSH | B_ACOS | B_ACOSH
| B_TAN | B_TANH | B_ATAN | B_ATAN2 | B_ATANH | B_LN | B_LOG | B_LOGN
| B_SQRT | B_CBRT | B_EXP | B_ABS | B_FLOOR | B_CEIL | B_ROUND | B_TRUNC
| B_SUM | B_MEAN | B_RECIP | B_MIN | B_MAX | B_HYPOT | B_FRACT
| B_FACTORIAL | B_GAMMA.

Definition builtin_eq_dec (a b : builtin) : {a = b} + {a <> b}.
Proof. decide equality. Defined.

(** [FnPointer] — function.rs:71-76.  A pointer is identified by what it points
    to: a built-in, or a user function (a static one or an [Arc]'d closure)
    with an identity number whose behaviour is given by [user_fn] below. *)
Inductive fn_pointer :=
| Static_builtin (b : builtin)
| Static_user (id : nat)
| Dyn_user (id : nat).

(** [PartialEq for FnPointer] — function.rs:98-112 *)
Definition fn_pointer_eqb (a b : fn_pointer) : bool :=
  match a, b with
  | Static_builtin x, Static_builtin y => if builtin_eq_dec x y then true else false
  | Static_user x, Static_user y => Nat.eqb x y
  | Dyn_user x, Dyn_user y => Nat.eqb x y
  | _, _ => false
  end.

(** [Function] — function.rs:9-17.  [nb_args] is a [u8] in Rust; a [nat] here
    (a superset). *)
Record function := mk_function {
  fn_name : string;
  fn_ptr : fn_pointer;
  fn_nb_args : option nat
}.

Definition option_nat_eqb (a b : option nat) : bool :=
  match a, b with
  | None, None => true
  | Some x, Some y => Nat.eqb x y
  | _, _ => false
  end.

(** derived [PartialEq for Function] — function.rs:7 *)
Definition function_eqb (f g : function) : bool :=
  String.eqb (fn_name f) (fn_name g)
  && fn_pointer_eqb (fn_ptr f) (fn_ptr g)
  && option_nat_eqb (fn_nb_args f) (fn_nb_args g).

(** ** Expression trees — /repo/src/element/mod.rs:22-33, binop.rs:8-15,
    unop.rs:8-13, function_call.rs:8-13.  Boxes are transparent; [Call] is the
    Rust variant [Function] and [Var] the variant [Variable]. *)
Inductive element :=
| Number (n : f64)
| BinOp (op : operator) (lhs rhs : element)
| UnOp (op : operator) (operand : element)
| Call (desc : function) (args : list element)
| Var (name : string).

(** Induction over trees, argument lists included. *)
Section element_ind.
  Variable P : element -> Prop.
  Hypothesis HN : forall n, P (Number n).
  Hypothesis HB : forall op l r, P l -> P r -> P (BinOp op l r).
  Hypothesis HU : forall op e, P e -> P (UnOp op e).
  Hypothesis HC : forall f args, Forall P args -> P (Call f args).
  Hypothesis HV : forall x, P (Var x).
  Fixpoint element_ind' (e : element) : P e :=
    match e with
    | Number n => HN n
    | BinOp op l r => HB op l r (element_ind' l) (element_ind' r)
    | UnOp op e => HU op e (element_ind' e)
    | Call f args =>
        HC f args ((fix go (l : list element) : Forall P l :=
                      match l with
                      | [] => Forall_nil P
                      | a :: l' => Forall_cons a (element_ind' a) (go l')
                      end) args)
    | Var x => HV x
    end.
End element_ind.

(** ** Oracles

    What the library calls but does not define: the platform's libm, and the
    functions supplied by the user through a [Context].  [user_fn id args] is
    [None] when the function panics.  [sum_neg_zero]: whether std's
    [Iterator::sum::<f64>] starts at [-0.0] (recent toolchains) or [0.0].
    [minmax_second]: which operand [f64::min]/[max] return when both are equal
    (std leaves this open; visible only for [0.0] against [-0.0]).
    [hash_order]: the order in which a [HashSet] is iterated; see
    [fair_order]. *)
Record world := mk_world {
  l_sin : f64 -> f64; l_sinh : f64 -> f64; l_asin : f64 -> f64; l_asinh : f64 -> f64;
  l_cos : f64 -> f64; l_cosh : f64 -> f64; l_acos : f64 -> f64; l_acosh : f64 -> f64;
  l_tan : f64 -> f64; l_tanh : f64 -> f64; l_atan : f64 -> f64; l_atanh : f64 -> f64;
  l_atan2 : f64 -> f64 -> f64;
  l_ln : f64 -> f64; l_log10 : f64 -> f64;
  l_cbrt : f64 -> f64; l_exp : f64 -> f64;
  l_hypot : f64 -> f64 -> f64;
  l_powf : f64 -> f64 -> f64;
  l_tgamma : f64 -> f64;
  sum_neg_zero : bool;
  minmax_second : bool;
  hash_order : list string -> list string;
  user_fn : nat -> list f64 -> option f64
}.

(** Iterating a set visits each of its members exactly once. *)
Definition fair_order (w : world) : Prop :=
  forall s : list string, Permutation s (hash_order w s).

(** ** Maps and sets keyed by strings

    std's [HashMap<&str, _>] and [HashSet<&str>]: the fields of context.rs:56-58
    and xprs.rs:24, the variables given to eval.  Lists here; the order in which
    Rust iterates over them is [hash_order]. *)
Definition smap (A : Type) := list (string * A).

(** [HashMap::get] — context.rs:126, xprs.rs:275, 324 *)
Fixpoint sget {A} (k : string) (m : smap A) : option A :=
  match m with
  | [] => None
  | (k', v) :: m' => if String.eqb k k' then Some v else sget k m'
  end.

(** [HashMap::insert] — context.rs:65-90 *)
Definition sinsert {A} (k : string) (v : A) (m : smap A) : smap A :=
  (k, v) :: filter (fun kv => negb (String.eqb k (fst kv))) m.

(** [HashMap::from([(k, v); N])] and [collect()]: insert in order. *)
Definition smap_of_list {A} (l : list (string * A)) : smap A :=
  fold_left (fun m kv => sinsert (fst kv) (snd kv) m) l [].

(** [HashSet] as a list without duplicates. *)
Definition mem (x : string) (s : list string) : bool := existsb (String.eqb x) s.
(** [HashSet::insert] *)
Definition set_insert (x : string) (s : list string) : list string :=
  if mem x s then s else x :: s.
(** [HashSet::remove] — xprs.rs:147, 224 *)
Definition set_remove (x : string) (s : list string) : list string :=
  filter (fun y => negb (String.eqb x y)) s.
(** [HashSet::difference] — parser.rs:93, xprs.rs:401; in the list's order *)
Definition set_diff (a b : list string) : list string :=
  filter (fun x => negb (mem x b)) a.
