(** Accuracy of the Fourier-Bessel coefficients a_coef (C87). *)
From Coq Require Import String ZArith List Bool Reals Lia.
From Coquelicot Require Import Coquelicot.
From Verif Require Import Lib_Csum Model_Py Model_Abcoef Model_PolarFD Model_ZMethod Model_Problems Model_ZRun Model_Driver
  Model_PS Model_Run Model_Program Model_ZProgram
  Spec_Abcoef Spec_PolarFD Spec_ZRun Spec_Problems Spec_Ode Spec_OdeAcc Spec_PolarAcc Spec_ACoef
  Proof_TightEx Proof_OdeAccEx Proof_PolarAccEx Proof_ACoef1 Proof_ACoef2 Proof_ACoefEx.
Import ListNotations.
Open Scope R_scope.

(** C87. The Bessel factors by which abcoef.py divides: none of the first 200
    is zero, for either wavenumber. *)
Theorem C87_factors : forall jv gamma s m, gamma_like gamma -> (forall p, 0 < p -> bessel_series jv gamma p) -> (m < 200)%nat ->
  jv ((INR m + 1) * pizza_nu) (zp_k (sing_problem jv gamma s) * problem_R) <> 0.
Proof. exact factors_nonzero. Qed.
Print Assumptions C87_factors.

Example C87_factors_example : gamma_like (zl_gamma polar_zlib) /\ (forall p, 0 < p -> bessel_series (zl_jv polar_zlib) (zl_gamma polar_zlib) p) /\ (199 < 200)%nat.
Proof. exact (conj (proj1 polar_example) (conj (proj1 (proj2 polar_example)) (le_n 200))). Qed.

(** C87. A table of v within D of f and an interpolation with norm Lam and
    error eta give an interpolant within Lam D + eta of f all along each of the
    five curves. *)
Theorem C87_interp : forall fuel L p b z1cheat attr N order z f Lam eta D, (1 <= N)%Z ->
  zm_run fuel L p b false z1cheat attr N order = Ok z ->
  interp2d_zero (zl_interp2d L) ->
  (forall x y, radii N (outer_radius b) (if (128 <=? N)%Z then (23 / 10 - bet0 b) * (2 / 3) else 0) x -> angles N (PI / 4) y ->
     interp2d_close (zl_interp2d L) x y f Lam eta) ->
  (forall m l, (0 <= m <= N)%Z -> (0 <= l <= N)%Z ->
     Cmod (Cminus (zr_v z m l) (RtoC (f (/ 10 + IZR m * ((outer_radius b - / 10) / IZR N)) (PI / 4 + IZR l * (7 * PI / 4 / IZR N))))) <= D) ->
  forall th, PI / 4 <= th <= 2 * PI ->
  let r := boundary_r b (23 / 10) None (PI / 4) th in
  Cmod (Cminus (zm_v_interp (zl_interp2d L) (zr_fd z) (23 / 10) (bet0 b) (zr_v z) r th) (RtoC (f r th))) <= Lam * D + eta.
Proof. exact run_interp. Qed.
Print Assumptions C87_interp.

Example C87_interp_example : forall s z1cheat, let L := polar_zlib in let p := sing_problem (zl_jv L) (zl_gamma L) s in
  interp2d_zero (zl_interp2d L) /\ exists z Lam eta D, zm_run 1 L p Arc false z1cheat (Some None) 16 4 = Ok z /\
  (forall x y, radii 16 (outer_radius Arc) (if (128 <=? 16)%Z then (23 / 10 - bet0 Arc) * (2 / 3) else 0) x -> angles 16 (PI / 4) y ->
     interp2d_close (zl_interp2d L) x y (zp_eval_v p) Lam eta) /\
  (forall m l, (0 <= m <= 16)%Z -> (0 <= l <= 16)%Z ->
     Cmod (Cminus (zr_v z m l) (RtoC (zp_eval_v p (/ 10 + IZR m * ((outer_radius Arc - / 10) / IZR 16)) (PI / 4 + IZR l * (7 * PI / 4 / IZR 16))))) <= D).
Proof. exact interp_example. Qed.

(** C87. On the arc the fitted coefficients are as good as the
    interpolant: an error delta of v on the arc moves coefficient m by at most
    2 delta / |J|. B are the coefficients the code compares with. *)
Theorem C87_arc : forall fuel L s z1cheat attr N order z B delta,
  gamma_like (zl_gamma L) -> (forall p, 0 < p -> bessel_series (zl_jv L) (zl_gamma L) p) ->
  (forall n m W x, least_squares n m W x (lib_lstsq (zl_ps L) n m W x)) ->
  let p := sing_problem (zl_jv L) (zl_gamma L) s in
  zm_run fuel L p Arc false z1cheat attr N order = Ok z ->
  zm_expected_a_coef (zl_jv L) (zp_name p) (zp_phi0 p (fun _ => 23 / 10)) (zp_eval_v p) (PI / 4) (zp_k p) (23 / 10) (4 / 7) (Z.to_nat 2048) 7 = Ok B ->
  (forall th, PI / 4 <= th <= 2 * PI ->
     Cmod (Cminus (zm_v_interp (zl_interp2d L) (zr_fd z) (23 / 10) 0 (zr_v z) (23 / 10) th) (RtoC (zp_eval_v p (23 / 10) th))) <= delta) ->
  length (zr_a z) = 7%nat /\ length B = 7%nat /\ forall m, (m < 7)%nat ->
    Cmod (Cminus (nth m (zr_a z) (RtoC 0)) (nth m B (RtoC 0))) <= 2 * delta / Rabs (zl_jv L (4 / 7 * (INR m + 1)) (zp_k p * (23 / 10))).
Proof. exact arc_accurate. Qed.
Print Assumptions C87_arc.

Example C87_arc_example : forall s z1cheat, let L := polar_zlib in let p := sing_problem (zl_jv L) (zl_gamma L) s in
  gamma_like (zl_gamma L) /\ (forall p, 0 < p -> bessel_series (zl_jv L) (zl_gamma L) p) /\
  (forall n m W x, least_squares n m W x (lib_lstsq (zl_ps L) n m W x)) /\
  exists z B delta, zm_run 1 L p Arc false z1cheat (Some None) 16 4 = Ok z /\
    zm_expected_a_coef (zl_jv L) (zp_name p) (zp_phi0 p (fun _ => 23 / 10)) (zp_eval_v p) (PI / 4) (zp_k p) (23 / 10) (4 / 7) (Z.to_nat 2048) 7 = Ok B /\
    forall th, PI / 4 <= th <= 2 * PI ->
      Cmod (Cminus (zm_v_interp (zl_interp2d L) (zr_fd z) (23 / 10) 0 (zr_v z) (23 / 10) th) (RtoC (zp_eval_v p (23 / 10) th))) <= delta.
Proof. exact arc_example. Qed.

(** C87. The boundary values u_BVP is solved with then differ on the arc by at
    most 14 delta from those of the exact coefficients. *)
Theorem C87_data : forall fuel L s z1cheat attr N order z B delta,
  gamma_like (zl_gamma L) -> (forall p, 0 < p -> bessel_series (zl_jv L) (zl_gamma L) p) ->
  (forall n m W x, least_squares n m W x (lib_lstsq (zl_ps L) n m W x)) ->
  let p := sing_problem (zl_jv L) (zl_gamma L) s in
  zm_run fuel L p Arc false z1cheat attr N order = Ok z ->
  zm_expected_a_coef (zl_jv L) (zp_name p) (zp_phi0 p (fun _ => 23 / 10)) (zp_eval_v p) (PI / 4) (zp_k p) (23 / 10) (4 / 7) (Z.to_nat 2048) 7 = Ok B ->
  (forall th, PI / 4 <= th <= 2 * PI ->
     Cmod (Cminus (zm_v_interp (zl_interp2d L) (zr_fd z) (23 / 10) 0 (zr_v z) (23 / 10) th) (RtoC (zp_eval_v p (23 / 10) th))) <= delta) ->
  forall th,
  Cmod (Cminus (o_bc (zr_opt z) th 0%nat)
    (Cminus (RtoC (zp_phi0 p (fun _ => 23 / 10) th - zp_v_asympt p (23 / 10) th))
      (fourier_bessel (zl_jv L) (zp_k p) (4 / 7) (PI / 4) 7 (fun m => nth m B (RtoC 0)) (23 / 10) th))) <= 14 * delta.
Proof. exact arc_data. Qed.
Print Assumptions C87_data.

(** The hypotheses are those of C87_arc. *)
Example C87_data_example : forall s z1cheat, let L := polar_zlib in let p := sing_problem (zl_jv L) (zl_gamma L) s in
  gamma_like (zl_gamma L) /\ (forall p, 0 < p -> bessel_series (zl_jv L) (zl_gamma L) p) /\
  (forall n m W x, least_squares n m W x (lib_lstsq (zl_ps L) n m W x)) /\
  exists z B delta, zm_run 1 L p Arc false z1cheat (Some None) 16 4 = Ok z /\
    zm_expected_a_coef (zl_jv L) (zp_name p) (zp_phi0 p (fun _ => 23 / 10)) (zp_eval_v p) (PI / 4) (zp_k p) (23 / 10) (4 / 7) (Z.to_nat 2048) 7 = Ok B /\
    forall th, PI / 4 <= th <= 2 * PI ->
      Cmod (Cminus (zm_v_interp (zl_interp2d L) (zr_fd z) (23 / 10) 0 (zr_v z) (23 / 10) th) (RtoC (zp_eval_v p (23 / 10) th))) <= delta.
Proof. exact arc_example. Qed.

(** C87. With the accuracy of the polar solver (C86), for 16 and 32 cells,
    the error of the fitted coefficients is bounded from the contracts of the library alone. *)
Theorem C87_grid : forall jv gamma s, gamma_like gamma -> (forall p, 0 < p -> bessel_series jv gamma p) ->
  let p := sing_problem jv gamma s in
  let z1 := fun th => zp_eval_v p (23 / 10) th - (zp_g p (23 / 10) th + zm_q (zp_k p) (PI / 4) (zp_g p) (23 / 10) th) in
  let g1 := / Rabs (gamma (9 / 7)) in let g3 := / Rabs (gamma (13 / 7)) in
  exists K, 0 <= K /\ forall fuel L z1cheat N order z sigma d Lam eta B, zl_jv L = jv -> zl_gamma L = gamma ->
    odeint_contract (zl_odeint L) -> spsolve_contract (zl_spsolve L) -> (N = 16 \/ N = 32)%Z ->
    (forall n m W x, least_squares n m W x (lib_lstsq (zl_ps L) n m W x)) ->
    interp2d_zero (zl_interp2d L) ->
    (forall x y, radii N (23 / 10) 0 x -> angles N (PI / 4) y -> interp2d_close (zl_interp2d L) x y (zp_eval_v p) Lam eta) ->
    zm_run fuel L p Arc false z1cheat (Some None) N order = Ok z ->
    zm_expected_a_coef jv (zp_name p) (zp_phi0 p (fun _ => 23 / 10)) (zp_eval_v p) (PI / 4) (zp_k p) (23 / 10) (4 / 7) (Z.to_nat 2048) 7 = Ok B ->
    polar_stable N (/ 10) (23 / 10) (PI / 4) (zp_k p) sigma ->
    (forall th, PI / 4 <= th <= 2 * PI ->
       Rabs (z1 th - rsum 7 (fun m => sine_coef (PI / 4) z1 m * sin (mode_freq (PI / 4) m * (th - PI / 4)))) <= d) ->
    let hr := (23 / 10 - / 10) / IZR N in let hth := 7 * PI / 4 / IZR N in
    let D := sigma * (K * (hr ^ 4 + hth ^ 4) + d + rsum 7 (coef_error s (zp_k p) (23 / 10) g1 g3 z1cheat) + / 10 ^ 18 * wedge_sum s g1 g3) in
    length (zr_a z) = 7%nat /\ forall m, (m < 7)%nat ->
      Cmod (Cminus (nth m (zr_a z) (RtoC 0)) (nth m B (RtoC 0))) <= 2 * (Lam * D + eta) / Rabs (jv (4 / 7 * (INR m + 1)) (zp_k p * (23 / 10))).
Proof. exact grid_coefficients. Qed.
Print Assumptions C87_grid.

Example C87_grid_example : forall s z1cheat, let L := polar_zlib in let p := sing_problem (zl_jv L) (zl_gamma L) s in
  gamma_like (zl_gamma L) /\ (forall p, 0 < p -> bessel_series (zl_jv L) (zl_gamma L) p) /\
  odeint_contract (zl_odeint L) /\ spsolve_contract (zl_spsolve L) /\
  (forall n m W x, least_squares n m W x (lib_lstsq (zl_ps L) n m W x)) /\ interp2d_zero (zl_interp2d L) /\
  exists z sigma d Lam eta B,
    (forall x y, radii 16 (23 / 10) 0 x -> angles 16 (PI / 4) y -> interp2d_close (zl_interp2d L) x y (zp_eval_v p) Lam eta) /\
    zm_run 1 L p Arc false z1cheat (Some None) 16 4 = Ok z /\
    zm_expected_a_coef (zl_jv L) (zp_name p) (zp_phi0 p (fun _ => 23 / 10)) (zp_eval_v p) (PI / 4) (zp_k p) (23 / 10) (4 / 7) (Z.to_nat 2048) 7 = Ok B /\
    polar_stable 16 (/ 10) (23 / 10) (PI / 4) (zp_k p) sigma /\
    let z1 := fun th => zp_eval_v p (23 / 10) th - (zp_g p (23 / 10) th + zm_q (zp_k p) (PI / 4) (zp_g p) (23 / 10) th) in
    forall th, PI / 4 <= th <= 2 * PI ->
      Rabs (z1 th - rsum 7 (fun m => sine_coef (PI / 4) z1 m * sin (mode_freq (PI / 4) m * (th - PI / 4)))) <= d.
Proof. exact coef_example. Qed.

(** C87. On the other four curves the fit is stable: data within eps of a
    Fourier-Bessel sum give its first seven coefficients up to kappa eps, with
    kappa depending only on the problem and the curve. *)
Theorem C87_curve : forall jv gamma s b, b <> Arc -> let p := sing_problem jv gamma s in let r := boundary_r b (23 / 10) None (PI / 4) in
  (forall m, (m < 200)%nat -> jv (4 / 7 * (INR m + 1)) (zp_k p * (23 / 10)) <> 0) ->
  full_rank ab_n_nodes 200 (fun i m => RtoC (jv (4 / 7 * (INR m + 1)) (zp_k p * r (ab_th ab_n_nodes i)) *
                                   sin (4 / 7 * (INR m + 1) * (ab_th ab_n_nodes i - PI / 4)))) ->
  exists kappa, 0 <= kappa /\ forall fuel L z1cheat attr N order z (c : nat -> C) eps, zl_jv L = jv -> zl_gamma L = gamma ->
    (forall n m W x, least_squares n m W x (lib_lstsq (zl_ps L) n m W x)) ->
    zm_run fuel L p b false z1cheat attr N order = Ok z ->
    (forall i, (i < ab_n_nodes)%nat -> let th := ab_th ab_n_nodes i in
       Cmod (Cminus (Cminus (RtoC (zp_phi0 p r th)) (zm_v_interp (zl_interp2d L) (zr_fd z) (23 / 10) (bet0 b) (zr_v z) (r th) th))
         (fourier_bessel jv (zp_k p) (4 / 7) (PI / 4) 200 c (r th) th)) <= eps) ->
    length (zr_a z) = 7%nat /\ forall m, (m < 7)%nat -> Cmod (Cminus (nth m (zr_a z) (RtoC 0)) (c m)) <= kappa * eps.
Proof. exact curve_accurate. Qed.
Print Assumptions C87_curve.

Example C87_curve_example : let L := curve_zlib in let p := sing_problem (zl_jv L) (zl_gamma L) IhzLine in
  let r := boundary_r OuterSine (23 / 10) None (PI / 4) in
  (forall m, (m < 200)%nat -> zl_jv L (4 / 7 * (INR m + 1)) (zp_k p * (23 / 10)) <> 0) /\
  full_rank ab_n_nodes 200 (fun i m => RtoC (zl_jv L (4 / 7 * (INR m + 1)) (zp_k p * r (ab_th ab_n_nodes i)) *
                                   sin (4 / 7 * (INR m + 1) * (ab_th ab_n_nodes i - PI / 4)))) /\
  (forall n m W x, least_squares n m W x (lib_lstsq (zl_ps L) n m W x)) /\
  exists z, zm_run 1 L p OuterSine false false (Some None) 16 4 = Ok z /\
    forall i, (i < ab_n_nodes)%nat -> let th := ab_th ab_n_nodes i in
      Cmod (Cminus (Cminus (RtoC (zp_phi0 p r th)) (zm_v_interp (zl_interp2d L) (zr_fd z) (23 / 10) (bet0 OuterSine) (zr_v z) (r th) th))
        (fourier_bessel (zl_jv L) (zp_k p) (4 / 7) (PI / 4) 200 (fun m => RtoC (if Nat.eqb m 3 then 5 else INR m + 1)) (r th) th)) <= 1.
Proof. exact curve_coef_example. Qed.
