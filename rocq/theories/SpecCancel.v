(** * Specification: expressions that settle *)
From Coq Require Import List String Bool.
From Flocq Require Import BinarySingleNaN.
From Verif Require Import F64 Syntax Builtins SpecTree SpecSimplifier.

(** Simplifying [e] gives [t], and simplifying [t] changes nothing. *)
Definition settles_to (nightly : bool) (w : world) (e t : element) : Prop :=
  simplest nightly w e t /\ simplest nightly w t t.

(** No number in [e] is a NaN. *)
Definition without_nan (e : element) : Prop := forall n, sub (Number n) e -> is_nan n = false.
