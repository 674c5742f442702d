(** * The parser's byte tests are the classes of the specification *)
From Coq Require Import NArith Ascii Bool.
From Verif Require Import Parser SpecChars.

Ltac chars :=
  try change is_digit with a_digit in *; try change is_upper with a_capital in *; try change is_lower with a_small in *;
  try change is_alpha with a_letter in *; try change is_ws with a_blank in *; try change is_ident_char with in_name in *;
  try change is_number_char with in_mantissa in *; try change is_exp_char with exponent_mark in *;
  try change is_sign_char with a_sign in *.
