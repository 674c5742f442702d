(** * f64: the IEEE-754 binary64 type of Rust

    Everything in xprs computes on [f64] (e.g. /repo/src/element/mod.rs:22
    [Number(f64)], /repo/src/xprs.rs:75-79 [eval -> f64]).  The model uses
    Flocq's [BinarySingleNaN.binary_float 53 1024]: the four classes zero,
    infinity, NaN and finite, with exactly one object per datum.

    Simplifications, recorded in DESIGN.md:
    - there is one NaN (Rust's sign and payload bits of a NaN are not modelled);
    - [+ - * /], [%] and unary [-] follow IEEE-754 round-to-nearest-even, as the
      Rust reference prescribes. *)
From Coq Require Import ZArith NArith List String Ascii Bool.
From Flocq Require Import Core BinarySingleNaN.
Import ListNotations.
Local Open Scope Z_scope.

Definition prec64 : Z := 53.
Definition emax64 : Z := 1024.

Global Instance Hprec64 : Prec_gt_0 prec64. Proof. reflexivity. Qed.
Global Instance Hmax64 : Prec_lt_emax prec64 emax64. Proof. reflexivity. Qed.

(** Rust's [f64]. *)
Definition f64 : Type := binary_float prec64 emax64.

Definition fzero : f64 := B754_zero false.                 (* 0.0 *)
Definition fnzero : f64 := B754_zero true.                 (* -0.0 *)
Definition finf : f64 := B754_infinity false.              (* f64::INFINITY *)
Definition fninf : f64 := B754_infinity true.              (* f64::NEG_INFINITY *)
Definition fnan : f64 := B754_nan.                         (* f64::NAN *)
Definition fone : f64 := @Bone prec64 emax64 Hprec64 Hmax64.  (* 1.0 *)

(** The operators [+ - * /] and unary [-] of f64. *)
Definition fadd (x y : f64) : f64 := Bplus mode_NE x y.
Definition fsub (x y : f64) : f64 := Bminus mode_NE x y.
Definition fmul (x y : f64) : f64 := Bmult mode_NE x y.
Definition fdiv (x y : f64) : f64 := Bdiv mode_NE x y.
Definition fneg (x : f64) : f64 := Bopp x.

(** [==] and [<] of f64 (PartialEq / PartialOrd): NaN is unequal to everything,
    0.0 == -0.0. *)
Definition feq (x y : f64) : bool := Beqb x y.
Definition flt (x y : f64) : bool := Bltb x y.

(** The integer [n] as an f64 (used by [args.len() as f64] and by the literals
    [0.0], [170.0], ...). *)
Definition f64_of_Z (n : Z) : f64 := binary_normalize prec64 emax64 Hprec64 Hmax64 mode_NE n 0 false.

(** [f64 % f64] (C's [fmod], always exact): the sign of the dividend, magnitude
    smaller than the divisor. *)
Definition frem (x y : f64) : f64 :=
  match x, y with
  | B754_nan, _ | _, B754_nan => fnan
  | B754_infinity _, _ => fnan
  | _, B754_zero _ => fnan
  | B754_zero s, _ => B754_zero s
  | B754_finite _ _ _ _, B754_infinity _ => x
  | B754_finite sx mx ex _, B754_finite _ my ey _ =>
      let e := Z.min ex ey in
      let r := (Zpos mx * 2 ^ (ex - e)) mod (Zpos my * 2 ^ (ey - e)) in
      binary_normalize prec64 emax64 Hprec64 Hmax64 mode_NE (cond_Zopp sx r) e sx
  end.

Definition ftrunc (x : f64) : f64 := Bnearbyint mode_ZR x.   (* f64::trunc *)
Definition ffloor (x : f64) : f64 := Bnearbyint mode_DN x.   (* f64::floor *)
Definition fceil (x : f64) : f64 := Bnearbyint mode_UP x.    (* f64::ceil *)
Definition fround (x : f64) : f64 := Bnearbyint mode_NA x.   (* f64::round *)
Definition ffract (x : f64) : f64 := fsub x (ftrunc x).      (* f64::fract *)
Definition fabs (x : f64) : f64 := Babs x.                   (* f64::abs *)
Definition fsqrt (x : f64) : f64 := Bsqrt mode_NE x.         (* f64::sqrt *)
Definition frecip (x : f64) : f64 := fdiv fone x.            (* f64::recip *)

Definition fis_nan (x : f64) : bool := is_nan x.
Definition fis_infinite (x : f64) : bool :=                  (* f64::is_infinite *)
  match x with B754_infinity _ => true | _ => false end.
Definition fis_finite (x : f64) : bool := is_finite x.

(** ** Decimal to binary: Rust float literals and [str::parse::<f64>] *)

(** The correctly rounded (nearest, ties to even) value of [m * 10^e]. *)
Definition f64_of_dec (m : N) (e : Z) : f64 :=
  match m with
  | N0 => fzero
  | Npos p =>
      if 0 <=? e then f64_of_Z (Zpos p * 10 ^ e)
      else SF2B _ (proj1 (Bdiv_correct_aux prec64 emax64 Hprec64 Hmax64 mode_NE
                            false p 0 false (Z.to_pos (10 ^ (- e))) 0))
  end.

Definition digit_of (c : ascii) : option N :=
  let n := N_of_ascii c in
  if ((48 <=? n) && (n <=? 57))%N then Some (n - 48)%N else None.

(** The longest prefix of decimal digits, as numbers, and what follows. *)
Fixpoint take_digits (s : list ascii) : list N * list ascii :=
  match s with
  | [] => ([], [])
  | c :: s' =>
      match digit_of c with
      | Some d => let '(ds, r) := take_digits s' in (d :: ds, r)
      | None => ([], s)
      end
  end.

Definition dec_value (ds : list N) : N := fold_left (fun a d => 10 * a + d)%N ds 0%N.

Definition is_nil {A} (l : list A) : bool := match l with [] => true | _ => false end.

(** The optional exponent part of a Rust float: [e]/[E], optional sign, at least
    one digit, then the end of the text. *)
Definition parse_exponent (s : list ascii) : option Z :=
  match s with
  | [] => Some 0
  | c :: s1 =>
      if (Ascii.eqb c "e" || Ascii.eqb c "E")%char then
        let '(neg, s2) :=
          match s1 with
          | d :: s' => if Ascii.eqb d "-" then (true, s')
                       else if Ascii.eqb d "+" then (false, s')
                       else (false, s1)
          | [] => (false, s1)
          end in
        let '(ds, s3) := take_digits s2 in
        if is_nil ds || negb (is_nil s3) then None
        else Some (cond_Zopp neg (Z.of_N (dec_value ds)))
      else None
  end.

(** [str::parse::<f64>()] restricted to texts without a sign and other than
    "inf"/"infinity"/"nan": digits, optional point, digits (at least one digit
    in all), optional exponent.  The only caller in the library
    (/repo/src/parser.rs:305) passes texts that begin with a digit or a point,
    so the left-out forms cannot occur. *)
Definition parse_f64 (s : list ascii) : option f64 :=
  let '(ip, s1) := take_digits s in
  let '(fp, s2) :=
    match s1 with
    | c :: s' => if Ascii.eqb c "." then take_digits s' else ([], s1)
    | [] => ([], s1)
    end in
  if is_nil ip && is_nil fp then None
  else match parse_exponent s2 with
       | Some e => Some (f64_of_dec (dec_value (ip ++ fp)) (e - Z.of_nat (List.length fp)))
       | None => None
       end.

(** Rust's [s.replace('_', "")] — parser.rs:305. *)
Definition strip_underscores (s : list ascii) : list ascii :=
  filter (fun c => negb (Ascii.eqb c "_")) s.

(** A Rust float literal written in the source, underscores included. *)
Definition lit (s : string) : f64 :=
  match parse_f64 (strip_underscores (list_ascii_of_string s)) with
  | Some x => x
  | None => fnan
  end.

Definition f64_PI : f64 := lit "3.14159265358979323846264338327950288".  (* core::f64::consts::PI *)
Definition f64_E : f64 := lit "2.71828182845904523536028747135266250".   (* core::f64::consts::E *)
