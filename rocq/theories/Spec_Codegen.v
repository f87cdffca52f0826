(** Vocabulary of property C95. *)
From Coq Require Import Reals.
From Coquelicot Require Import Coquelicot.
Open Scope R_scope.

(** [U i j] is the derivative of order (i, j) of [U 0 0], as total derivatives,
    up to total order [n]. *)
Definition regular (n : nat) (U : nat -> nat -> R -> R -> R) : Prop :=
  forall i j x y, (i + j < n)%nat -> differentiable_pt_lim (U i j) x y (U (S i) j x y) (U i (S j) x y).
