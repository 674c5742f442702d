(** * Specification: the value of a decimal text *)
From Coq Require Import ZArith NArith List String Ascii Bool Reals.
From Flocq Require Import Core BinarySingleNaN.
From Verif Require Import F64.
Import ListNotations.
Local Open Scope R_scope.

Definition decimal_digit (c : ascii) : Prop := (48 <= N_of_ascii c <= 57)%N.
Definition all_digits (l : list ascii) : Prop := Forall decimal_digit l.

(** The integer written by a list of digits, most significant first. *)
Fixpoint digits_value (l : list ascii) : Z :=
  match l with
  | [] => 0
  | c :: l' => (Z.of_N (N_of_ascii c) - 48) * 10 ^ Z.of_nat (List.length l') + digits_value l'
  end.

(** [mantissa text m k]: [text] writes [m] / 10^[k].  "12", "12.", "1.5", ".5". *)
Inductive mantissa : list ascii -> Z -> nat -> Prop :=
| M_integer : forall i, all_digits i -> i <> [] -> mantissa i (digits_value i) 0
| M_point : forall i f, all_digits i -> all_digits f -> i ++ f <> [] ->
    mantissa (i ++ "."%char :: f) (digits_value (i ++ f)) (List.length f).

(** [exponent text x]: nothing, or e/E, an optional sign and digits. *)
Inductive exponent : list ascii -> Z -> Prop :=
| X_none : exponent [] 0
| X_bare : forall c ds, (c = "e" \/ c = "E")%char -> all_digits ds -> ds <> [] -> exponent (c :: ds) (digits_value ds)
| X_plus : forall c ds, (c = "e" \/ c = "E")%char -> all_digits ds -> ds <> [] ->
    exponent (c :: "+"%char :: ds) (digits_value ds)
| X_minus : forall c ds, (c = "e" \/ c = "E")%char -> all_digits ds -> ds <> [] ->
    exponent (c :: "-"%char :: ds) (- digits_value ds).

(** [decimal text d]: the text, its underscores removed, writes the real [d]. *)
Definition decimal (text : string) (d : R) : Prop :=
  exists a b m k x,
    filter (fun c => negb (Ascii.eqb c "_")) (list_ascii_of_string text) = a ++ b /\
    mantissa a m k /\ exponent b x /\
    d = IZR m * powerRZ 10 (x - Z.of_nat k).

Definition even_significand (v : f64) : Prop :=
  match v with
  | B754_zero _ => True
  | B754_finite _ m _ _ => Z.even (Zpos m) = true
  | _ => False
  end.

(** Halfway between the largest f64 and 2^1024. *)
Definition overflow_threshold : R := powerRZ 2 1024 - powerRZ 2 970.

(** [v] is the f64 nearest to the non-negative real [d]; of two equally near
    ones it is the one with an even significand; from the threshold on it is
    infinity. *)
Definition correctly_rounded (d : R) (v : f64) : Prop :=
  (d < overflow_threshold /\ fis_finite v = true /\ Bsign v = false /\
   (forall y : f64, fis_finite y = true -> Rabs (B2R v - d) <= Rabs (B2R y - d)) /\
   (forall y : f64, fis_finite y = true -> Rabs (B2R y - d) = Rabs (B2R v - d) -> B2R y <> B2R v ->
      even_significand v)) \/
  (overflow_threshold <= d /\ v = finf).
