(** Specification for the accuracy of the polar solver (C86). *)
From Coq Require Import ZArith Reals.
From Verif Require Import Model_PolarFD Model_Problems Model_ZProgram Spec_PolarFD Spec_Ode Spec_OdeAcc.
Open Scope R_scope.

(** The radius of circle m and the two steps of a polar grid. *)
Definition circle (N : Z) (R0 R1 : R) (m : Z) : R := R0 + IZR m * ((R1 - R0) / IZR N).
Definition polar_op (N : Z) (R0 R1 a k : R) (w : Z -> Z -> R) (m l : Z) : R :=
  compact_scheme (circle N R0 R1) ((R1 - R0) / IZR N) ((2 * PI - a) / IZR N) k w m l.

(** Nodes on the edge of the grid and inside it. *)
Definition on_edge (N m l : Z) : Prop := (0 <= m <= N)%Z /\ (0 <= l <= N)%Z /\ (m = 0 \/ m = N \/ l = 0 \/ l = N)%Z.
Definition inside (N m l : Z) : Prop := (1 <= m <= N - 1)%Z /\ (1 <= l <= N - 1)%Z.

(** [sigma] bounds what the solution of the difference equations is amplified
    to from its boundary values and the right-hand side. *)
Definition polar_stable (N : Z) (R0 R1 a k sigma : R) : Prop :=
  forall (w : Z -> Z -> R) (B E : R), 0 <= B -> 0 <= E ->
    (forall m l, on_edge N m l -> Rabs (w m l) <= B) ->
    (forall m l, inside N m l -> Rabs (polar_op N R0 R1 a k w m l) <= E) ->
    forall m l, in_polar_grid N (m, l) -> Rabs (w m l) <= sigma * (B + E).

(** Without data only the zero table solves the difference equations. *)
Definition polar_trivial (N : Z) (R0 R1 a k : R) : Prop :=
  forall w : Z -> Z -> R, (forall m l, on_edge N m l -> w m l = 0) ->
    (forall m l, inside N m l -> polar_op N R0 R1 a k w m l = 0) ->
    forall m l, in_polar_grid N (m, l) -> w m l = 0.

(** What the theorems ask of spsolve: a system with exactly one solution is
    solved. *)
Definition spsolve_contract (spsolve : pf_system -> Z -> R) : Prop :=
  forall y u, Model_PolarFD.solves y u ->
    (forall u', Model_PolarFD.solves y u' -> forall i, (0 <= i < sy_row y)%Z -> u' i = u i) ->
    forall i, (0 <= i < sy_row y)%Z -> spsolve y i = u i.

(** The bounds of C76 for the coefficients z1_fourier of a run with
    and without z1cheat; g1 and g3 weigh the Bessel functions. *)
Definition coef_error (s : sing_name) (k R1 g1 g3 : R) (z1cheat : bool) (m : nat) : R :=
  let K := wedge_bound s g1 g3 in let beta := mode_freq (PI / 4) m in
  if z1cheat then step4 (PI / 4) (Z.to_nat 2048) * product4 beta K 0
  else let h4 := step4 (PI / 4) (Z.to_nat 1024) in
    mode_error (PI / 4) k m (/ 10) R1 (2 * (/ 10 ^ 18 * wedge_sum s g1 g3)) (2 * (/ 10 ^ 15 * wedge_sum s g1 g3))
      (h4 * (product4 beta K 2 + beta ^ 2 * product4 beta K 0) / (/ 10) ^ 2)
    + h4 * product4 beta K 0.
