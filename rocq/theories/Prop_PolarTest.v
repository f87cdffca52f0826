(** Property C92: the convergence test of the polar finite differences. *)
From Coq Require Import ZArith List Reals Lra Lia.
From Coquelicot Require Import Coquelicot.
From Verif Require Import Model_Py Model_PolarFD Model_PolarTest Spec_Fd Spec_PolarFD Spec_Problems Spec_Bessel Spec_OdeAcc Spec_Tip
  Spec_PolarAcc Spec_PolarTest Proof_Bessel Proof_BesselJ Proof_OdeAccEx Proof_PolarTest.
Import ListNotations.
Open Scope R_scope.

(** C92. The source that sym.py derives from the three terms, in closed form,
    and the three derivatives of it that are handed to the scheme. *)
Theorem C92_source : forall gamma r th, gamma_like gamma -> 0 < r ->
  sym_f gamma r th = -9 * (Rpower (3 * r / 2) (4 + 3 / 11) / (2 * gamma (3 + 3 / 11)) * sin (3 / 11 * (th - PI / 6))).
Proof. exact sym_source. Qed.
Print Assumptions C92_source.

Theorem C92_derivatives : forall gamma r th, gamma_like gamma -> 0 < r ->
  sym_d_f_r gamma r th =
    -9 * (3 / 2 * (47 / 11) * Rpower (3 * r / 2) (36 / 11) / (2 * gamma (3 + 3 / 11)) * sin (3 / 11 * (th - PI / 6))) /\
  sym_d2_f_r gamma r th =
    -9 * (9 / 4 * (47 / 11) * (36 / 11) * Rpower (3 * r / 2) (25 / 11) / (2 * gamma (3 + 3 / 11)) * sin (3 / 11 * (th - PI / 6))) /\
  sym_d2_f_th gamma r th = - (3 / 11) ^ 2 * sym_f gamma r th.
Proof. exact sym_derivs. Qed.
Print Assumptions C92_derivatives.

Example C92_source_example : gamma_like gamma_ex /\ 0 < / 2.
Proof. split; [exact gamma_ex_like|lra]. Qed.

(** C92. The function the test takes as exact solution does solve the equation
    with that source away from the tip; it vanishes on the edge a, and its
    values on the other edge. *)
Theorem C92_solution : forall jv gamma, gamma_like gamma -> bessel_like jv (3 / 11) ->
  (exists U, partials 2 off_tip (test_eval_u jv gamma) U /\
     forall r th, 0 < r -> polar_helmholtz 3 U r th = sym_f gamma r th) /\
  (forall r, test_phi2 jv gamma r = 0) /\
  (forall r, test_phi1 jv gamma r = jv (3 / 11) (3 * r) - sym_v_asympt0 gamma 3 r).
Proof. exact test_solution. Qed.
Print Assumptions C92_solution.

Example C92_solution_example : gamma_like gamma_ex /\ bessel_like jv_series (3 / 11).
Proof. split; [exact gamma_ex_like|apply jv_series_bessel; lra]. Qed.

(** C92. Its derivative in r of order j is O(r^(6 + 3/11 - j)) on the whole
    domain: with three terms, unlike the two of the solver (C88), the six
    derivatives that a fourth-order scheme needs are bounded at the tip. *)
Theorem C92_tip : forall jv gamma n, gamma_like gamma -> bessel_series jv gamma (3 / 11) ->
  exists (T : nat -> R -> R -> R) (K : R), forall th,
    radial (23 / 10) (fun r => test_eval_u jv gamma r th) (fun j r => T j r th) /\
    forall j r, (j <= n)%nat -> 0 < r < 23 / 10 -> Rabs (T j r th) <= K * Rpower r (6 + 3 / 11 - INR j).
Proof. exact test_tip. Qed.
Print Assumptions C92_tip.

Example C92_tip_example : gamma_like gamma_ex /\ bessel_series (jv_gamma gamma_ex) gamma_ex (3 / 11).
Proof. destruct acc_example as (Hg & Hj & _). split; [exact Hg|apply Hj; lra]. Qed.

(** C92. What the test would find with the present PolarFD, started at any
    radius R0: a solution of the assembled system is within a multiple of
    hr^4 + hth^4 of the exact solution, the multiple depending on R0 and the
    stability of the equations only. *)
Theorem C92_error : forall jv gamma, gamma_like gamma -> bessel_series jv gamma (3 / 11) ->
  forall R0, 0 < R0 < 23 / 10 -> exists K, 0 <= K /\ forall N z sigma, (1 <= N)%Z ->
  let s := test_fd jv gamma R0 N in
  let hr := (23 / 10 - R0) / IZR N in let hth := (2 * PI - PI / 6) / IZR N in
  Model_PolarFD.solves (assemble s) z -> polar_stable N R0 (23 / 10) (PI / 6) 3 sigma ->
  forall m l, (0 <= m <= N)%Z -> (0 <= l <= N)%Z ->
    Rabs (pf_at s z m l - test_eval_u jv gamma (R0 + IZR m * hr) (PI / 6 + IZR l * hth)) <= sigma * (K * (hr ^ 4 + hth ^ 4)).
Proof. exact test_error. Qed.
Print Assumptions C92_error.

(** The grid of two cells from 13/10 on: the system has a solution, and the
    equations a stability constant. *)
Example C92_error_example : forall jv gamma, 0 < 13 / 10 < 23 / 10 /\ exists z sigma,
  Model_PolarFD.solves (assemble (test_fd jv gamma (13 / 10) 2)) z /\ polar_stable 2 (13 / 10) (23 / 10) (PI / 6) 3 sigma.
Proof. intros jv gamma. split; [lra|exact (test_case jv gamma)]. Qed.

(** C92. As shipped, neither test script gets past its first grid: PolarFD is
    called with the wrong number of arguments. One prints the header of N = 16,
    the other nothing. *)
Theorem C92_scripts_fail :
  (forall body fuel, (5 <= fuel)%nat -> polar_test polarfd_init body fuel = ([16%Z], Err TypeError)) /\
  (forall body, interp_test polarfd_init body = ([], Err TypeError)).
Proof. exact (conj polar_test_fails interp_test_fails). Qed.
Print Assumptions C92_scripts_fail.

Example C92_scripts_fail_example : (5 <= 5)%nat.
Proof. lia. Qed.

(** C92. The constructor takes five positional arguments and no other number.
    With one that took those of the scripts, both would go through the grids
    16, 32, 64 and 128, and end well exactly when the rest does on each, the
    second having passed N, a = pi / 6, nu = 6 / 11 and R1 = 2.3. *)
Theorem C92_scripts_repaired :
  (forall (A : Type) (args : list A), length args = 5%nat <-> polarfd_init args = Ok args) /\
  (forall body fuel, (5 <= fuel)%nat ->
    (forall N, In N [16; 32; 64; 128]%Z -> body N [] = Ok tt) <->
    polar_test (fun args => Ok args) body fuel = ([16; 32; 64; 128]%Z, Ok tt)) /\
  (forall body,
    (forall N, In N [16; 32; 64; 128]%Z -> body N [IZR N; PI / 6; 6 / 11; 23 / 10] = Ok tt) <->
    interp_test (fun args => Ok args) body = ([16; 32; 64; 128]%Z, Ok tt)).
Proof. exact scripts_repaired. Qed.
Print Assumptions C92_scripts_repaired.

(** A body that fails on the grid of 64 ends the first script there. *)
Example C92_scripts_repaired_example :
  polar_test (fun args => Ok args) (fun N _ => if Z.eqb N 64 then Err ValueError else Ok tt) 5 = ([16; 32; 64]%Z, Err ValueError).
Proof. reflexivity. Qed.
