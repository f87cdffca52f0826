(** Properties C41-C44: the ODE step, the edge correction, the cutoff and the
    truncated series. *)
From Coq Require Import ZArith List Bool Reals Lia Lra.
From Coquelicot Require Import Coquelicot.
From Verif Require Import Model_Py Model_Grid Model_Fourier Model_Domain Model_Ode Model_ZMethod
  Model_Problems Spec_Fd Spec_PolarFD Spec_Ode Spec_Problems Proof_Ode Proof_ZMethod Proof_ZEx
  Proof_Taper Proof_Bessel Proof_ZSing Proof_Series.
Import ListNotations.
Open Scope R_scope.

(** C41. If odeint returns the end value of a trajectory, the returned
    coefficients are those, at R1, of a function that solves the polar
    Helmholtz equation with the transformed source and starts from the
    transformed initial data. *)
Theorem C41_solves : forall odeint init d_init f1 a nu k R0 R1 M N,
  0 < R0 < R1 ->
  (let deriv := ode_eval_deriv a nu k N f1 M in let ic := ode_ic a R0 N init d_init in
   trajectory deriv (2 * M) ic R0 R1 (odeint deriv (2 * M)%nat ic R0 R1)) ->
  exists (u : R -> R -> R) (U : nat -> nat -> R -> R -> R),
    partials 2 (fun r th => R0 < r < R1) u U /\
    (forall r th, R0 < r < R1 -> polar_helmholtz k U r th =
       sine_series a nu M (ode_dst a N (fun th => f1 r th)) th) /\
    (forall r th, R0 <= r <= R1 -> continuous (fun r => u r th) r /\ continuous (fun r => U 1%nat 0%nat r th) r) /\
    (forall th, u R0 th = sine_series a nu M (ode_dst a N (fun th => init R0 th)) th) /\
    (forall th, U 1%nat 0%nat R0 th = sine_series a nu M (ode_dst a N (fun th => d_init R0 th)) th) /\
    (forall th, u R1 th = sine_series a nu M
       (fun m => nth m (ode_calc_z1_fourier odeint init d_init f1 a nu k R0 R1 M N) 0) th).
Proof. exact ode_solves. Qed.
Print Assumptions C41_solves.

(** C41. The transform and the series are inverse to each other on data with at
    most M modes, so for such a source the equation has the source itself. *)
Theorem C41_source : forall a M N (c : nat -> R) func th, 2 * PI - a <> 0 -> (M <= N)%nat ->
  (forall th, func th = sine_series a (PI / (2 * PI - a)) M c th) ->
  sine_series a (PI / (2 * PI - a)) M (ode_dst a N func) th = func th.
Proof. exact dst_series_id. Qed.
Print Assumptions C41_source.

(** k = 2, one mode, u = r sin(th - pi) from r = 0.1 to r = 2. *)
Example C41_nonvacuous :
  0 < / 10 < 2 /\
  (let deriv := ode_eval_deriv PI 1 2 ode_fourier_N zx_f1 1 in
   let ic := ode_ic PI (/ 10) ode_fourier_N zx_init zx_d_init in
   trajectory deriv (2 * 1) ic (/ 10) 2 zx_sol) /\
  (1 <= ode_fourier_N)%nat /\
  (forall th, zx_f1 2 th = sine_series PI (PI / (2 * PI - PI)) 1 (fun _ => 8) th).
Proof.
  pose proof PI_RGT_0. split; [lra|]. split; [exact zx_trajectory|].
  split; [unfold ode_fourier_N; lia|].
  intros th. unfold zx_f1, sine_series. cbn [Lib_Csum.rsum]. simpl INR.
  replace ((0 + 1) * (PI / (2 * PI - PI)) * (th - PI)) with (th - PI) by (field; lra). ring.
Qed.

(** C42. The correction vanishes with its slope on both edges, and the
    corrected source vanishes there, for every g. *)
Theorem C42_correction : forall k a g r, 2 * PI - a <> 0 ->
  zm_q k a g r a = 0 /\ zm_q k a g r (2 * PI) = 0 /\
  is_derive (fun th => zm_q k a g r th) a 0 /\
  is_derive (fun th => zm_q k a g r th) (2 * PI) 0.
Proof. exact zm_q_edges. Qed.
Print Assumptions C42_correction.

Theorem C42_source : forall k a g r e, 2 * PI - a <> 0 -> r <> 0 -> e = a \/ e = 2 * PI ->
  zm_f1 k a g r e = 0.
Proof. exact f1_edge. Qed.
Print Assumptions C42_source.

(** C42. That source is the right one: for a solution v of the homogeneous
    equation, the remainder v - (g + q) has it as right-hand side. [A] and [B]
    list f0 and its r-derivatives on the two edges. *)
Theorem C42_remainder : forall k a g v V G A B, 2 * PI - a <> 0 ->
  partials 2 off_tip v V -> partials 2 off_tip g G ->
  (forall r th, 0 < r -> polar_helmholtz k V r th = 0) ->
  (forall r, 0 < r -> A 0%nat r = zm_f0 k g r a) -> (forall r, 0 < r -> B 0%nat r = zm_f0 k g r (2 * PI)) ->
  (forall i r, (i < 2)%nat -> 0 < r -> is_derive (A i) r (A (S i) r)) ->
  (forall i r, (i < 2)%nat -> 0 < r -> is_derive (B i) r (B (S i) r)) ->
  exists W, partials 2 off_tip (zm_initial k a v g) W /\
    forall r th, 0 < r -> polar_helmholtz k W r th = zm_f1 k a g r th.
Proof. exact z1_full. Qed.
Print Assumptions C42_remainder.

(** k = 2, a = pi/4, v = sin(2 x), g = r^2: f0 = -(4 + 4 r^2) on both edges. *)
Example C42_nonvacuous :
  2 * PI - PI / 4 <> 0 /\
  partials 2 off_tip zx_v zx_V /\ partials 2 off_tip zx_g zx_G /\
  (forall r th, 0 < r -> polar_helmholtz 2 zx_V r th = 0) /\
  (forall r, 0 < r -> zx_A 0 r = zm_f0 2 zx_g r (PI / 4)) /\
  (forall r, 0 < r -> zx_A 0 r = zm_f0 2 zx_g r (2 * PI)) /\
  (forall i r, (i < 2)%nat -> 0 < r -> is_derive (zx_A i) r (zx_A (S i) r)) /\
  zx_A 0 1 <> 0.
Proof.
  pose proof PI_RGT_0. split; [lra|]. split; [exact zx_v_partials|]. split; [exact zx_g_partials|].
  split; [exact zx_v_solves|]. split; [intros; apply zx_f0; assumption|].
  split; [intros; apply zx_f0; assumption|]. split; [exact zx_A_derive|].
  unfold zx_A. lra.
Qed.

(** C43. The tapering function. *)
Theorem C43_taper : forall R1, zm_R0 < R1 ->
  (forall r, r <= zm_R0 -> tapering zm_R0 R1 r = 1) /\
  (forall r, R1 <= r -> tapering zm_R0 R1 r = 0) /\
  (forall r r', zm_R0 <= r < r' -> r' <= R1 -> tapering zm_R0 R1 r' < tapering zm_R0 R1 r) /\
  (forall r, 0 <= tapering zm_R0 R1 r <= 1) /\
  exists T : nat -> R -> R,
    (forall r, T 0%nat r = tapering zm_R0 R1 r) /\
    (forall n r, (n < 6)%nat -> is_derive (T n) r (T (S n) r)) /\
    (forall r, continuous (T 6%nat) r) /\
    (forall n, (1 <= n <= 6)%nat -> T n zm_R0 = 0 /\ T n R1 = 0).
Proof. exact (taper_spec zm_R0). Qed.
Print Assumptions C43_taper.

(** The program's radius. *)
Example C43_nonvacuous : zm_R0 < 23 / 10.
Proof. unfold zm_R0. lra. Qed.

(** C44. With n + 1 terms the residual is k^2 times the last term, for the
    angle measured from either edge. *)
Theorem C44_residual : forall gamma K k nu b n, gamma_like gamma -> 0 < k -> 0 < (K + 1 / 2) * nu ->
  exists U, partials 2 off_tip
      (fun r th => v_asympt0 gamma K k nu (S n) r * sin ((K + 1 / 2) * nu * (th - b))) U /\
    forall r th, 0 < r -> polar_helmholtz k U r th =
      k ^ 2 * ((v_asympt0 gamma K k nu (S n) r - v_asympt0 gamma K k nu n r)
               * sin ((K + 1 / 2) * nu * (th - b))).
Proof. exact mode_series. Qed.
Print Assumptions C44_residual.

(** C44. The ten-term series of both problems: the operator leaves -k^2 times
    the size of the tenth term, of order r^(18 + alpha). *)
Theorem C44_ih_series : forall gamma K k nu a, gamma_like gamma -> 0 < k -> 0 < (K + 1 / 2) * nu ->
  exists U, partials 2 off_tip (ih_v_series gamma K k nu a) U /\
    forall r th, 0 < r -> polar_helmholtz k U r th =
      - k ^ 2 * (Rpower (k * r / 2) (18 + (K + 1 / 2) * nu) / (362880 * gamma ((K + 1 / 2) * nu + 10))
                 * sin ((K + 1 / 2) * nu * (th - a))).
Proof. exact ih_series_eq. Qed.
Print Assumptions C44_ih_series.

Theorem C44_quad_series : forall gamma k nu a, gamma_like gamma -> 0 < k -> 0 < nu ->
  exists U, partials 2 off_tip (quad_v_series gamma k nu a) U /\
    forall r th, 0 < r -> polar_helmholtz k U r th =
      - k ^ 2 * (Rpower (k * r / 2) (18 + nu / 2) / (362880 * gamma (nu / 2 + 10)) * sin (nu / 2 * (th - a))
                 + Rpower (k * r / 2) (18 + 3 * nu / 2) / (362880 * gamma (3 * nu / 2 + 10)) * sin (3 * nu / 2 * (th - 2 * PI))).
Proof. exact quad_series_eq. Qed.
Print Assumptions C44_quad_series.

(** C44. The source handed to the solver, minus the Helmholtz operator of the
    tapered two-term part, in closed form near the tip, where it is of order
    r^(2 + alpha); it vanishes outside the radius R1. *)
Theorem C44_source : forall gamma K k nu a R1,
  gamma_like gamma -> 0 < k -> 0 < (K + 1 / 2) * nu -> zm_R0 < R1 ->
  (forall r th, 0 < r < zm_R0 -> zm_f k (ih_v_asympt gamma K k nu a R1) r th =
     k ^ 2 * (Rpower (k * r / 2) ((K + 1 / 2) * nu + 2) / gamma ((K + 1 / 2) * nu + 2) * sin ((K + 1 / 2) * nu * (th - a)))) /\
  (forall r th, R1 < r -> zm_f k (ih_v_asympt gamma K k nu a R1) r th = 0).
Proof. exact ih_source_eq. Qed.
Print Assumptions C44_source.

Theorem C44_quad_source : forall gamma k nu a R1,
  gamma_like gamma -> 0 < k -> 0 < nu -> zm_R0 < R1 ->
  (forall r th, 0 < r < zm_R0 -> zm_f k (quad_v_asympt gamma k nu a R1) r th =
     k ^ 2 * (Rpower (k * r / 2) (nu / 2 + 2) / gamma (nu / 2 + 2) * sin (nu / 2 * (th - a))
              + Rpower (k * r / 2) (3 * nu / 2 + 2) / gamma (3 * nu / 2 + 2) * sin (3 * nu / 2 * (th - 2 * PI)))) /\
  (forall r th, R1 < r -> zm_f k (quad_v_asympt gamma k nu a R1) r th = 0).
Proof. exact quad_source_eq. Qed.
Print Assumptions C44_quad_source.

(** A function with the Gamma recurrence, and the program's k, nu and R. *)
Example C44_nonvacuous : gamma_like gamma_ex /\ 0 < 27 / 4 /\
  0 < (0 + 1 / 2) * (PI / (2 * PI - PI / 4)) /\ zm_R0 < 23 / 10.
Proof.
  pose proof PI_RGT_0. split; [exact gamma_ex_like|]. split; [lra|]. split; [|unfold zm_R0; lra].
  apply Rmult_lt_0_compat; [lra|]. apply Rdiv_lt_0_compat; lra.
Qed.
