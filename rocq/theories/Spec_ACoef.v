(** Specification for the accuracy of the Fourier-Bessel coefficients (C87). *)
From Coq Require Import ZArith List Reals.
From Verif Require Import Spec_ZRun.
Open Scope R_scope.

Definition within (x : list R) (u : R) : Prop := exists lo hi, In lo x /\ In hi x /\ lo <= u <= hi.

(** [x] lists, in increasing order, the radii of a polar grid with N cells
    between 1/10 and R1 that are at least [rmin]; [y] the N+1 angles from [a]
    to 2 pi. *)
Definition radii (N : Z) (R1 rmin : R) (x : list R) : Prop :=
  increasing x /\ forall r, In r x <-> exists m, (0 <= m <= N)%Z /\ r = / 10 + IZR m * ((R1 - / 10) / IZR N) /\ rmin <= r.
Definition angles (N : Z) (a : R) (y : list R) : Prop :=
  increasing y /\ forall t, In t y <-> exists l, (0 <= l <= N)%Z /\ t = a + IZR l * ((2 * PI - a) / IZR N).

(** What is asked of interp2d for a given pair of knot lists and a function
    [f]: a table within D of the values of [f] (second coordinate running
    fastest) gives an interpolant within Lam * D + eta of [f] between the
    knots. Lam is the norm of the interpolation, eta its error for [f]. *)
Definition interp2d_close (interp2d : list R -> list R -> list R -> R -> R -> R) (x y : list R) (f : R -> R -> R) (Lam eta : R) : Prop :=
  forall z D, length z = (length x * length y)%nat -> 0 <= D ->
    (forall i j xi yj zij, nth_error x i = Some xi -> nth_error y j = Some yj ->
       nth_error z (i * length y + j) = Some zij -> Rabs (zij - f xi yj) <= D) ->
    forall u v, within x u -> within y v -> Rabs (interp2d x y z u v - f u v) <= Lam * D + eta.

(** A table of zeros is interpolated by zero. *)
Definition interp2d_zero (interp2d : list R -> list R -> list R -> R -> R -> R) : Prop :=
  forall x y z u v, (forall t, In t z -> t = 0) -> interp2d x y z u v = 0.
