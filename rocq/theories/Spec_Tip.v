(** Specification for the behaviour of the regular part at the tip (C88). *)
From Coq Require Import Reals.
From Coquelicot Require Import Coquelicot.
Open Scope R_scope.

(** The functions T 0, T 1, ... are f and its derivatives between 0 and R0. *)
Definition radial (R0 : R) (f : R -> R) (T : nat -> R -> R) : Prop :=
  (forall r, 0 < r < R0 -> T 0%nat r = f r) /\
  forall j r, 0 < r < R0 -> is_derive (T j) r (T (S j) r).
