(** * Feature flags: which configuration a build gets *)
From Coq Require Import List Bool.
From Verif Require Import Syntax.
Import ListNotations.

(** [features] — /repo/Cargo.toml:37-41 *)
Inductive feature := F_pemdas | F_pejmdas | F_optimizations.
Definition default_features : list feature := [F_pemdas; F_optimizations].

Definition feature_eqb (a b : feature) : bool :=
  match a, b with
  | F_pemdas, F_pemdas | F_pejmdas, F_pejmdas | F_optimizations, F_optimizations => true
  | _, _ => false
  end.

(** outside /repo: one line of a dependent's Cargo.toml, [default-features] and [features] *)
Record dependency := mk_dependency { takes_defaults : bool; extra_features : list feature }.

(** Cargo compiles the crate once for all dependents, with every feature that
    one of them asks for (feature unification). *)
Definition features_of (d : dependency) : list feature :=
  (if takes_defaults d then default_features else []) ++ extra_features d.
Definition unified (deps : list dependency) : list feature := flat_map features_of deps.
Definition enabled (deps : list dependency) (f : feature) : bool := existsb (feature_eqb f) (unified deps).

(** [rustc_version::Channel]; the [NIGHTLY] cfg — /repo/build.rs:20-22 *)
Inductive channel := Dev | Nightly | Beta | Stable.
Definition is_nightly (c : channel) : bool := match c with Nightly => true | _ => false end.

(** The two [compile_error!]s — /repo/src/lib.rs:334-339 — or the configuration:
    precedence.rs:11-16, parser.rs:180.  [debug]: overflow checks. *)
Definition build (c : channel) (debug : bool) (deps : list dependency) : option config :=
  if enabled deps F_pemdas && enabled deps F_pejmdas then None
  else if negb (enabled deps F_pemdas || enabled deps F_pejmdas) then None
  else Some {| pejmdas := enabled deps F_pejmdas; optimize := enabled deps F_optimizations;
               nightly := is_nightly c; overflow_checks := debug |}.
