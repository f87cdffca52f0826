(** Property C69: stability and exactness of the ODE step. *)
From Coq Require Import ZArith List Bool Reals Lia Lra.
From Coquelicot Require Import Coquelicot.
From Verif Require Import Model_Py Model_Grid Model_Fourier Model_Domain Model_Ode Model_ZMethod
  Model_Problems Spec_Fd Spec_PolarFD Spec_Ode Spec_Problems Proof_OdeExact Proof_OdeProgram Proof_ZEx Proof_OdeEx.
Import ListNotations.
Open Scope R_scope.

(** C69. Let z1 have at most N sine modes on every circle and solve the polar
    Helmholtz equation with source f. If the data passed to calc_z1_fourier are
    within d0 (values), d1 (r-derivatives) and d2 (source) of those of z1, each
    returned coefficient is within the bound of the one of z1 at R1. *)
Theorem C69_stable : forall odeint init d_init f1 a k R0 R1 M N z1 Z f d0 d1 d2,
  a < 2 * PI -> 0 < R0 < R1 -> (M <= N)%nat -> 0 <= d0 -> 0 <= d1 -> 0 <= d2 ->
  (let deriv := ode_eval_deriv a (PI / (2 * PI - a)) k N f1 M in let ic := ode_ic a R0 N init d_init in
   trajectory deriv (2 * M) ic R0 R1 (odeint deriv (2 * M)%nat ic R0 R1)) ->
  partials 2 (fun r th => R0 < r < R1 /\ a < th < 2 * PI) z1 Z ->
  (forall r th, R0 <= r <= R1 -> a < th < 2 * PI ->
     continuous (fun r => z1 r th) r /\ continuous (fun r => Z 1%nat 0%nat r th) r) ->
  (forall r th, R0 < r < R1 -> a < th < 2 * PI -> polar_helmholtz k Z r th = f r th) ->
  (forall r, R0 < r < R1 -> exists c, forall th, a < th < 2 * PI ->
     z1 r th = sine_series a (PI / (2 * PI - a)) N c th) ->
  (forall th, a < th < 2 * PI -> Rabs (init R0 th - z1 R0 th) <= d0) ->
  (forall th, a < th < 2 * PI -> Rabs (d_init R0 th - Z 1%nat 0%nat R0 th) <= d1) ->
  (forall r th, R0 < r < R1 -> a < th < 2 * PI -> Rabs (f1 r th - f r th) <= d2) ->
  forall c, (forall th, a < th < 2 * PI -> z1 R1 th = sine_series a (PI / (2 * PI - a)) N c th) ->
  forall m, (m < M)%nat ->
  (nth m (ode_calc_z1_fourier odeint init d_init f1 a (PI / (2 * PI - a)) k R0 R1 M N) 0 - c m) ^ 2 <=
  4 * (d0 ^ 2 + d1 ^ 2 + d2 ^ 2 * (R1 - R0))
    * exp ((2 + k ^ 2 + (INR (m + 1) * (PI / (2 * PI - a)) / R0) ^ 2) * (R1 - R0)).
Proof. exact ode_stable. Qed.
Print Assumptions C69_stable.

(** C69. With the data of z1 itself the coefficients are exact. *)
Theorem C69_exact : forall odeint init d_init f1 a k R0 R1 M N z1 Z,
  a < 2 * PI -> 0 < R0 < R1 -> (M <= N)%nat ->
  (let deriv := ode_eval_deriv a (PI / (2 * PI - a)) k N f1 M in let ic := ode_ic a R0 N init d_init in
   trajectory deriv (2 * M) ic R0 R1 (odeint deriv (2 * M)%nat ic R0 R1)) ->
  partials 2 (fun r th => R0 < r < R1 /\ a < th < 2 * PI) z1 Z ->
  (forall r th, R0 <= r <= R1 -> a < th < 2 * PI ->
     continuous (fun r => z1 r th) r /\ continuous (fun r => Z 1%nat 0%nat r th) r) ->
  (forall r th, R0 < r < R1 -> a < th < 2 * PI -> polar_helmholtz k Z r th = f1 r th) ->
  (forall r, R0 < r < R1 -> exists c, forall th, a < th < 2 * PI ->
     z1 r th = sine_series a (PI / (2 * PI - a)) N c th) ->
  (forall th, a < th < 2 * PI -> init R0 th = z1 R0 th) ->
  (forall th, a < th < 2 * PI -> d_init R0 th = Z 1%nat 0%nat R0 th) ->
  forall c, (forall th, a < th < 2 * PI -> z1 R1 th = sine_series a (PI / (2 * PI - a)) N c th) ->
  forall m, (m < M)%nat ->
  nth m (ode_calc_z1_fourier odeint init d_init f1 a (PI / (2 * PI - a)) k R0 R1 M N) 0 = c m.
Proof. exact ode_exact. Qed.
Print Assumptions C69_exact.

(** C69. On the program's data: v solves the homogeneous equation, its
    remainder v - (g + q) has at most N modes, and the truncated series vs is
    close to v on the circle of radius R0. Then the two vectors whose difference
    is printed as the ODE error differ by at most the bound. [A] and [B] list f0
    and its r-derivatives on the two edges. *)
Theorem C69_program : forall odeint k a g v V G A B vs vs1 R0 R1 M N n d0 d1,
  a < 2 * PI -> 0 < R0 < R1 -> (M <= N)%nat -> (N <= n)%nat -> 0 <= d0 -> 0 <= d1 ->
  partials 2 off_tip v V -> partials 2 off_tip g G ->
  (forall r th, 0 < r -> polar_helmholtz k V r th = 0) ->
  (forall r, 0 < r -> A 0%nat r = zm_f0 k g r a) -> (forall r, 0 < r -> B 0%nat r = zm_f0 k g r (2 * PI)) ->
  (forall i r, (i < 2)%nat -> 0 < r -> is_derive (A i) r (A (S i) r)) ->
  (forall i r, (i < 2)%nat -> 0 < r -> is_derive (B i) r (B (S i) r)) ->
  (forall r, R0 < r <= R1 -> exists c, forall th, a < th < 2 * PI ->
     zm_initial k a v g r th = sine_series a (PI / (2 * PI - a)) N c th) ->
  (forall th, a < th < 2 * PI -> Rabs (vs R0 th - v R0 th) <= d0) ->
  (forall th, a < th < 2 * PI -> is_derive (fun r => vs r th) R0 (vs1 th) /\ Rabs (vs1 th - V 1%nat 0%nat R0 th) <= d1) ->
  let init := zm_lambdify (zm_initial k a vs g) in
  let d_init := zm_lambdify (zm_d_initial k a vs g) in
  let f1 := zm_lambdify (zm_f1 k a g) in
  let gq := zm_lambdify (fun r th => g r th + zm_q k a g r th) in
  let nu := PI / (2 * PI - a) in
  (let deriv := ode_eval_deriv a nu k N f1 M in let ic := ode_ic a R0 N init d_init in
   trajectory deriv (2 * M) ic R0 R1 (odeint deriv (2 * M)%nat ic R0 R1)) ->
  forall m, (m < M)%nat ->
  (nth m (ode_calc_z1_fourier odeint init d_init f1 a nu k R0 R1 M N) 0
   - nth m (map fst (zm_expected_z1 v gq a R1 n M)) 0) ^ 2 <=
  4 * (d0 ^ 2 + d1 ^ 2) * exp ((2 + k ^ 2 + (INR (m + 1) * nu / R0) ^ 2) * (R1 - R0)).
Proof. exact ode_program. Qed.
Print Assumptions C69_program.

(** The slit disc with k = 2, g = sin(2 x), v = g + sin(2 r) / sqrt r * sin(th / 2)
    and vs = v, from R0 = 0.1 to 2.3. *)
Example C69_nonvacuous :
  (let init := zm_lambdify (zm_initial 2 0 oe_v zx_v) in
   let d_init := zm_lambdify (zm_d_initial 2 0 oe_v zx_v) in
   let f1 := zm_lambdify (zm_f1 2 0 zx_v) in
   let deriv := ode_eval_deriv 0 (PI / (2 * PI - 0)) 2 ode_fourier_N f1 1 in
   let ic := ode_ic 0 zm_R0 ode_fourier_N init d_init in
   trajectory deriv (2 * 1) ic zm_R0 (23 / 10) (oe_odeint deriv (2 * 1)%nat ic zm_R0 (23 / 10))) /\
  (1 <= ode_fourier_N)%nat /\ 0 < zm_R0 < 23 / 10 /\
  partials 2 off_tip oe_v oe_V /\ partials 2 off_tip zx_v zx_V /\
  (forall r th, 0 < r -> polar_helmholtz 2 oe_V r th = 0) /\
  (forall r th, 0 < r -> 0 = zm_f0 2 zx_v r th) /\
  (forall r, zm_R0 < r <= 23 / 10 -> exists c, forall th, 0 < th < 2 * PI ->
     zm_initial 2 0 oe_v zx_v r th = sine_series 0 (PI / (2 * PI - 0)) ode_fourier_N c th) /\
  (forall th, 0 < th < 2 * PI -> is_derive (fun r => oe_v r th) zm_R0 (oe_V 1 0 zm_R0 th)) /\
  oe_u 0 1 <> 0.
Proof. exact (conj oe_trajectory oe_hyps). Qed.
