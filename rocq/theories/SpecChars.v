(** * Specification: classes of bytes

    Independent of the parser's own tests. *)
From Coq Require Import NArith Ascii Bool.

Definition between (c lo hi : ascii) : bool :=
  ((N_of_ascii lo <=? N_of_ascii c) && (N_of_ascii c <=? N_of_ascii hi))%N.
Definition a_digit (c : ascii) : bool := between c "0" "9".
Definition a_capital (c : ascii) : bool := between c "A" "Z".
Definition a_small (c : ascii) : bool := between c "a" "z".
Definition a_letter (c : ascii) : bool := a_capital c || a_small c.
(** space, tab, line feed, form feed, carriage return *)
Definition a_blank (c : ascii) : bool :=
  let n := N_of_ascii c in
  ((n =? 32) || (n =? 9) || (n =? 10) || (n =? 12) || (n =? 13))%N.
(** inside a name: underscore, quote, letters, digits *)
Definition in_name (c : ascii) : bool :=
  Ascii.eqb c "_" || Ascii.eqb c "'" || a_capital c || a_small c || a_digit c.
(** inside the mantissa of a number: digits, points, underscores *)
Definition in_mantissa (c : ascii) : bool :=
  a_digit c || Ascii.eqb c "." || Ascii.eqb c "_".
Definition exponent_mark (c : ascii) : bool := Ascii.eqb c "e" || Ascii.eqb c "E".
Definition a_sign (c : ascii) : bool := Ascii.eqb c "+" || Ascii.eqb c "-".
