(** Properties C59 and C60: the regularised problem and the original one. *)
From Coq Require Import String ZArith List Bool Reals Lia Lra.
From Coquelicot Require Import Coquelicot.
From Verif Require Import Model_Py Model_Fourier Model_Domain Model_ZMethod Model_Problems Model_ZRun
  Spec_Fd Spec_PolarFD Spec_Problems Spec_Bessel Spec_ZRun
  Proof_Bessel Proof_BesselJ Proof_Corners Proof_Regular Proof_ZSing Proof_IzExpected.
Import ListNotations.
Open Scope R_scope.

(** C59. u solves the regularised equation iff u + v_asympt + the
    Fourier-Bessel part solves the homogeneous Helmholtz equation, whatever
    complex coefficients were computed. *)
Theorem C59_equation : forall jv k nu a M (c : nat -> C) (w : R -> R -> R) W (D : R -> R -> Prop),
  0 < k -> (forall m, (m < M)%nat -> bessel_like jv ((INR m + 1) * nu)) ->
  partials 2 off_tip w W -> (forall r th, D r th -> 0 < r) ->
  forall u, csolves k D (fun r th => RtoC (zm_f k w r th)) u <->
    csolves k D (fun _ _ => RtoC 0)
      (fun r th => Cplus (u r th) (Cplus (RtoC (w r th)) (fourier_bessel jv k nu a M c r th))).
Proof. exact regular_equation. Qed.
Print Assumptions C59_equation.

(** C59. u has the data of the regularised problem iff that sum has the data
    phi0, phi1, phi2 of the original problem. *)
Theorem C59_boundary : forall jv phi0 phi1 phi2 w a_coef eval_r a nu k M (u : R -> R -> C),
  nu * (2 * PI - a) = PI ->
  let full := fun r th => Cplus (u r th) (Cplus (RtoC (w r th))
                (fourier_bessel jv k nu a M (fun m => nth m a_coef (RtoC 0)) r th)) in
  let bc := zm_u_bc jv phi0 phi1 phi2 w a_coef eval_r a nu k M in
  (forall th, bc th 0%nat = Ok (u (eval_r th) th) <-> full (eval_r th) th = RtoC (phi0 th)) /\
  (forall r, 0 <= r -> (bc r 1%nat = Ok (u r (2 * PI)) <-> full r (2 * PI) = RtoC (phi1 r))) /\
  (forall r, 0 <= r -> (bc r 2%nat = Ok (u r a) <-> full r a = RtoC (phi2 r))).
Proof. exact regular_boundary. Qed.
Print Assumptions C59_boundary.

(** C59. The tapered singular parts of both problems are twice differentiable
    away from the tip, as C59_equation asks. *)
Theorem C59_asympt : forall gamma k nu a R1, gamma_like gamma -> 0 < k -> 0 < nu -> zm_R0 < R1 ->
  (forall K, 0 <= K -> exists W, partials 2 off_tip (ih_v_asympt gamma K k nu a R1) W) /\
  (exists W, partials 2 off_tip (quad_v_asympt gamma k nu a R1) W).
Proof.
  exact (fun gamma k nu a R1 Hg Hk Hnu HR =>
    conj (fun K HK => ih_asympt_partials gamma K k nu a R1 Hg Hk
            (Rmult_lt_0_compat (K + 1 / 2) nu (Rplus_le_lt_0_compat K (1 / 2) HK (Rdiv_lt_0_compat 1 2 Rlt_0_1 Rlt_0_2)) Hnu) HR)
         (quad_asympt_partials gamma k nu a R1 Hg Hk Hnu HR)).
Qed.
Print Assumptions C59_asympt.

(** The Bessel series at the program's k and nu, seven modes, the line problem
    with the inscribed angle, inside the wedge. *)
Example C59_nonvacuous :
  let a := PI / 4 in let nu := PI / (2 * PI - a) in
  nu * (2 * PI - a) = PI /\ 0 < 27 / 4 /\
  (forall m, (m < 7)%nat -> bessel_like jv_series ((INR m + 1) * nu)) /\
  (exists W, partials 2 off_tip (ih_v_asympt gamma_ex 0 (27 / 4) nu a (23 / 10)) W) /\
  (forall r th : R, 0 < r < 2 /\ a < th < 2 * PI -> 0 < r) /\
  exists r th, (0 < r < 2 /\ a < th < 2 * PI).
Proof.
  intros a nu. pose proof PI_RGT_0 as Hpi.
  assert (Hnu : 0 < nu) by (unfold nu, a; apply Rdiv_lt_0_compat; lra).
  split; [unfold nu, a; field; lra|]. split; [lra|].
  split; [intros m _; apply jv_series_bessel; pose proof (pos_INR m); apply Rmult_lt_0_compat; lra|].
  split; [apply (C59_asympt gamma_ex (27 / 4) nu a (23 / 10)); try lra; [apply gamma_ex_like|unfold zm_R0; lra]|].
  split; [intros r th H; lra|]. exists 1, PI. unfold a. lra.
Qed.

(** C60. The exact singular parts solve the homogeneous equation away from the
    tip. With C45_v_data they carry the wedge data of the problem. *)
Theorem C60_line : forall J K k nu a, 0 < k -> bessel_like J ((K + 1 / 2) * nu) ->
  exists V, partials 2 off_tip (ih_eval_v J K k nu a) V /\
    forall r th, 0 < r -> polar_helmholtz k V r th = 0.
Proof. exact ih_v_solves. Qed.
Print Assumptions C60_line.

Theorem C60_quadratic : forall J k nu a, 0 < k -> bessel_like J (nu / 2) -> bessel_like J (3 * nu / 2) ->
  exists V, partials 2 off_tip (quad_eval_v J k nu a) V /\
    forall r th, 0 < r -> polar_helmholtz k V r th = 0.
Proof. exact quad_v_solves. Qed.
Print Assumptions C60_quadratic.

(** C60. For both problems the remainder v - (g + q), whose sine coefficients
    the ODE step computes, is twice differentiable away from the tip, solves the
    equation with the source f1 of that step, and vanishes on the two edges. *)
Theorem C60_line_remainder : forall J k nu a, nu * (2 * PI - a) = PI -> 0 < a < 2 * PI -> 0 < k ->
  bessel_like J (nu / 2) ->
  let z1 := zm_initial k a (ih_eval_v J 0 k nu a) (ih_g J 0 k nu a) in
  (exists W, partials 2 off_tip z1 W /\
     forall r th, 0 < r -> polar_helmholtz k W r th = zm_f1 k a (ih_g J 0 k nu a) r th) /\
  forall r, z1 r a = 0 /\ z1 r (2 * PI) = 0.
Proof. exact line_remainder. Qed.
Print Assumptions C60_line_remainder.

Theorem C60_quadratic_remainder : forall J k nu a, nu * (2 * PI - a) = PI -> 0 < a < 2 * PI -> 0 < k ->
  bessel_like J (nu / 2) -> bessel_like J (3 * nu / 2) ->
  let z1 := zm_initial k a (quad_eval_v J k nu a) (quad_g J k nu a) in
  (exists W, partials 2 off_tip z1 W /\
     forall r th, 0 < r -> polar_helmholtz k W r th = zm_f1 k a (quad_g J k nu a) r th) /\
  forall r, z1 r a = 0 /\ z1 r (2 * PI) = 0.
Proof. exact quad_remainder. Qed.
Print Assumptions C60_quadratic_remainder.

(** The Bessel series itself, at the program's angle. *)
Example C60_nonvacuous :
  let a := PI / 4 in let nu := PI / (2 * PI - a) in
  nu * (2 * PI - a) = PI /\ 0 < a < 2 * PI /\
  bessel_like jv_series ((0 + 1 / 2) * nu) /\ bessel_like jv_series (nu / 2) /\
  bessel_like jv_series (3 * nu / 2).
Proof.
  intros a nu. pose proof PI_RGT_0 as Hpi.
  assert (Hnu : 0 < nu) by (unfold nu, a; apply Rdiv_lt_0_compat; lra).
  split; [unfold nu, a; field; lra|]. split; [unfold a; lra|].
  split; [|split]; apply jv_series_bessel; lra.
Qed.

(** C59. For the test problem iz-bessel the expected solution that u is compared
    with is the exact v minus the tapered part, and with the expected zero
    coefficients it solves the regularised equation and has its data on all
    three segments. *)
Theorem C59_iz_expected : forall J k nu a w W eval_r n M, nu * (2 * PI - a) = PI -> 0 < a < 2 * PI -> 0 < k ->
  bessel_like J (nu / 2) -> partials 2 off_tip w W ->
  exists A, zm_expected_a_coef J "iz-bessel" (iz_phi0 J 0 k nu a eval_r) (ih_eval_v J 0 k nu a) a k (eval_r a) nu n M = Ok A /\
  let u := zm_u_expected (iz_expected J 0 k nu a) w in
  let bc := zm_u_bc J (iz_phi0 J 0 k nu a eval_r) (iz_phi1 J 0 k nu a) iz_phi2 w A eval_r a nu k M in
  csolves k off_tip (fun r th => RtoC (zm_f k w r th)) (fun r th => RtoC (u r th)) /\
  (forall th, bc th 0%nat = Ok (RtoC (u (eval_r th) th))) /\
  (forall r, 0 < r -> bc r 1%nat = Ok (RtoC (u r (2 * PI))) /\ bc r 2%nat = Ok (RtoC (u r a))).
Proof. exact iz_expected_solves. Qed.
Print Assumptions C59_iz_expected.

(** The Bessel series and the tapered part of the program. *)
Example C59_iz_nonvacuous :
  let a := PI / 4 in let nu := PI / (2 * PI - a) in
  nu * (2 * PI - a) = PI /\ 0 < a < 2 * PI /\ bessel_like jv_series (nu / 2) /\
  exists W, partials 2 off_tip (ih_v_asympt gamma_ex 0 (27 / 4) nu a (23 / 10)) W.
Proof.
  intros a nu. destruct C60_nonvacuous as [H1 [H2 [_ [H3 _]]]]. destruct C59_nonvacuous as [_ [_ [_ [H4 _]]]].
  auto.
Qed.
