(** Specification for the accuracy of the ODE step (C76). *)
From Coq Require Import ZArith Reals.
From Coquelicot Require Import Coquelicot.
From Verif Require Import Model_Py Model_Program Model_ZProgram Spec_Ode.
Open Scope R_scope.

(** Frequency of mode m (counted from 0) on the arc from a to 2 pi. *)
Definition mode_freq (a : R) (m : nat) : R := (INR m + 1) * (PI / (2 * PI - a)).

(** The sine coefficient of phi on the arc. *)
Definition sine_coef (a : R) (phi : R -> R) (m : nat) : R :=
  2 / (2 * PI - a) * RInt (fun th => phi th * sin (mode_freq a m * (th - a))) a (2 * PI).

(** The functions T 0 r, T 1 r, ... are the derivatives of T 0 r in the angle. *)
Definition angular (n : nat) (D : R -> Prop) (u : R -> R -> R) (T : nat -> R -> R -> R) : Prop :=
  (forall r th, T 0%nat r th = u r th) /\
  forall i r th, (i < n)%nat -> D r -> is_derive (T i r) th (T (S i) r th).

(** Bound of the fourth derivative of (the j-th derivative) * (a sine of
    frequency beta) when the i-th derivative is bounded by K i. *)
Definition product4 (beta : R) (K : nat -> R) (j : nat) : R :=
  K (4 + j)%nat + 4 * beta * K (3 + j)%nat + 6 * beta ^ 2 * K (2 + j)%nat
  + 4 * beta ^ 3 * K (1 + j)%nat + beta ^ 4 * K j.

(** Fourth-order step of the transform with N nodes on the arc. *)
Definition step4 (a : R) (N : nat) : R := ((2 * PI - a) / (INR N + 1)) ^ 4 / 360.

(** Growth of mode m of the equation between R0 and R1. *)
Definition growth (a k : R) (m : nat) (R0 R1 : R) : R :=
  Rpower (R1 / R0) (2 * mode_freq a m) * exp (R1 - R0) / (k ^ 2 + (mode_freq a m / R1) ^ 2).

(** Error of mode m at R1 for data wrong by d0 (values), d1 (r-derivatives) and
    rho (source). *)
Definition mode_error (a k : R) (m : nat) (R0 R1 d0 d1 rho : R) : R :=
  sqrt (growth a k m R0 R1 * (d1 ^ 2 + (k ^ 2 + (mode_freq a m / R0) ^ 2) * d0 ^ 2 + rho ^ 2 * (R1 - R0))).

(** Bound of the i-th derivative of the remainder in the angle, on an arc of
    length one, for a wedge mode of frequency w: the sine, the ramp and the
    correction w^2/2 (1-s)^2 (10 s^3 - 15 s^4 + 6 s^5) with the sum of its
    coefficients. *)
Definition ramp_bound (w : R) (i : nat) : R :=
  w ^ i + (if Nat.leb i 1 then 1 else 0)
  + w ^ 2 / 2 * match i with
    | 0%nat => 124 | 1%nat => 604 | 2%nat => 2462 | 3%nat => 8160 | 4%nat => 21120 | 5%nat => 40080 | _ => 49680 end.

(** The Bessel function of order p by its series, with the Gamma function. *)
Definition bessel_series (jv : R -> R -> R) (gamma : R -> R) (p : R) : Prop :=
  forall x, 0 < x ->
    is_series (fun l => (-1) ^ l / (INR (fact l) * gamma (p + INR l + 1)) * (x / 2) ^ (2 * l)) (jv p x / Rpower (x / 2) p).

(** What the theorems ask of odeint: where the system has exactly one
    trajectory, its end values are returned. *)
Definition odeint_contract (odeint : ((nat -> R) -> R -> result (nat -> R)) -> nat -> (nat -> R) -> R -> R -> nat -> R) : Prop :=
  forall deriv dim ic R0 R1 sol, R0 < R1 -> trajectory deriv dim ic R0 R1 sol ->
    (forall sol', trajectory deriv dim ic R0 R1 sol' -> forall i, (i < dim)%nat -> sol' i = sol i) ->
    forall i, (i < dim)%nat -> odeint deriv dim ic R0 R1 i = sol i.

(** The problems with one wedge mode and the one with two; g1 and g3 weigh
    them. *)
Definition wedge_sum (s : sing_name) (g1 g3 : R) : R := match s with IhzQuadratic => g1 + g3 | _ => g1 end.

(** Bound of the i-th derivative of the remainder in the angle on the arc from
    pi/4 to 2 pi, whose length is 7 pi/4. *)
Definition wedge_bound (s : sing_name) (g1 g3 : R) (i : nat) : R :=
  7 * wedge_sum s (g1 * ramp_bound (PI / 2) i) (g3 * ramp_bound (3 * PI / 2) i) / (7 * PI / 4) ^ i.

(** The radius of the arc on which the coefficients are sought. *)
Definition outer_radius (b : bname) : R :=
  23 / 10 + match b with Arc => 0 | OuterSine => 15 / 100 | InnerSine => 1 / 2 | Sine7 => 25 / 1000 | Cubic => 75 / 1000 end.
