(** * Specification: what the dependents of the crate ask for *)
From Coq Require Import List.
From Verif Require Import Features.
Import ListNotations.

(** A dependent asks for pemdas by naming it or by taking the default features,
    for the optimisation likewise, and for pejmdas by naming it. *)
Definition asks (d : dependency) (f : feature) : Prop :=
  In f (extra_features d) \/ (takes_defaults d = true /\ f <> F_pejmdas).
Definition someone_asks (deps : list dependency) (f : feature) : Prop := exists d, In d deps /\ asks d f.
