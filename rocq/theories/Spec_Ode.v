(** Specification for the ODE step (C41). *)
From Coq Require Import ZArith List Bool Reals.
From Coquelicot Require Import Coquelicot.
From Verif Require Import Model_Py Lib_Csum.
Open Scope R_scope.

(** What odeint(deriv, ic, [R0, R1]) computes: the end value of a trajectory of
    the first-order system. *)
Definition trajectory (deriv : (nat -> R) -> R -> result (nat -> R)) (dim : nat)
    (ic : nat -> R) (R0 R1 : R) (sol : nat -> R) : Prop :=
  exists Y : R -> nat -> R,
    (forall i, (i < dim)%nat -> Y R0 i = ic i /\ Y R1 i = sol i) /\
    (forall i r, (i < dim)%nat -> R0 <= r <= R1 -> continuous (fun r => Y r i) r) /\
    (forall r, R0 < r < R1 -> exists D, deriv (Y r) r = Ok D /\
       forall i, (i < dim)%nat -> is_derive (fun r => Y r i) r (D i)).

(** A sine series on the arc: modes m+1 = 1..M with coefficients [c m]. *)
Definition sine_series (a nu : R) (M : nat) (c : nat -> R) (th : R) : R :=
  rsum M (fun m => c m * sin ((INR m + 1) * nu * (th - a))).
