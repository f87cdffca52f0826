(** Specification vocabulary for the Fourier-Bessel modes (C59-C62). *)
From Coq Require Import Reals.
From Coquelicot Require Import Coquelicot.
Open Scope R_scope.

(** What is used of scipy.special.jv at order [p]: on the positive axis it
    solves Bessel's equation x^2 y'' + x y' + (x^2 - p^2) y = 0. *)
Definition bessel_like (jv : R -> R -> R) (p : R) : Prop :=
  exists J1 J2 : R -> R, forall x, 0 < x ->
    is_derive (jv p) x (J1 x) /\ is_derive J1 x (J2 x) /\
    x ^ 2 * J2 x + x * J1 x + (x ^ 2 - p ^ 2) * jv p x = 0.
