(** Property C86: accuracy of the table v computed on the polar grid. *)
From Coq Require Import String ZArith List Bool Reals Lia Lra.
From Coquelicot Require Import Coquelicot.
From Verif Require Import Model_Py Model_Grid Model_Fourier Model_Domain Model_PolarFD Model_ZMethod Model_Problems
  Model_ZRun Model_Run Model_Program Model_ZProgram Lib_Csum Spec_PolarFD Spec_Ode Spec_Problems Spec_Bessel Spec_OdeAcc Spec_PolarAcc
  Proof_PolarAcc2 Proof_PolarSolve Proof_PolarAccEx.
Import ListNotations.
Open Scope R_scope.

(** C86. Every entry of the table v differs from the function v of the problem
    by at most sigma times: a fourth-order term in the two steps, the part d of
    v - (g + q) on the arc outside the seven sine modes, the errors e of the
    seven coefficients, and the error of v_series on the inner arc. Here sigma
    is a stability constant of the difference equations, spsolve solves the
    system, and K depends neither on the grid nor on sigma. *)
Theorem C86_table : forall jv gamma s b, gamma_like gamma -> (forall p, 0 < p -> bessel_series jv gamma p) ->
  let p := sing_problem jv gamma s in
  let R1 := outer_radius b in
  let z1 := fun th => zp_eval_v p R1 th - (zp_g p R1 th + zm_q (zp_k p) (PI / 4) (zp_g p) R1 th) in
  exists K, 0 <= K /\ forall fuel L z1cheat attr N order z sigma d (e : nat -> R), zl_jv L = jv -> zl_gamma L = gamma ->
    zm_run fuel L p b false z1cheat attr N order = Ok z -> (1 <= N)%Z ->
    Model_PolarFD.solves (assemble (zr_fd z)) (zl_spsolve L (assemble (zr_fd z))) ->
    polar_stable N (/ 10) R1 (PI / 4) (zp_k p) sigma ->
    (forall th, PI / 4 <= th <= 2 * PI ->
       Rabs (z1 th - rsum 7 (fun m => sine_coef (PI / 4) z1 m * sin (mode_freq (PI / 4) m * (th - PI / 4)))) <= d) ->
    (forall m, (m < 7)%nat -> Rabs (nth m (zr_z1 z) 0 - sine_coef (PI / 4) z1 m) <= e m) ->
    let hr := (R1 - / 10) / IZR N in let hth := 7 * PI / 4 / IZR N in
    let D := sigma * (K * (hr ^ 4 + hth ^ 4) + d + rsum 7 e + / 10 ^ 18 * wedge_sum s (/ Rabs (gamma (9 / 7))) (/ Rabs (gamma (13 / 7)))) in
    (forall m l, (0 <= m <= N)%Z -> (0 <= l <= N)%Z ->
      Cmod (Cminus (zr_v z m l) (RtoC (zp_eval_v p (/ 10 + IZR m * hr) (PI / 4 + IZR l * hth)))) <= D).
Proof. exact table_bound. Qed.
Print Assumptions C86_table.

Example C86_table_example : gamma_like (zl_gamma polar_zlib) /\ (forall p, 0 < p -> bessel_series (zl_jv polar_zlib) (zl_gamma polar_zlib) p) /\
  odeint_contract (zl_odeint polar_zlib) /\ spsolve_contract (zl_spsolve polar_zlib) /\
  forall s z1cheat, exists z sigma, zm_run 1 polar_zlib (sing_problem (zl_jv polar_zlib) (zl_gamma polar_zlib) s) Arc false z1cheat (Some None) 16 4 = Ok z /\
    Model_PolarFD.solves (assemble (zr_fd z)) (zl_spsolve polar_zlib (assemble (zr_fd z))) /\
    polar_stable 16 (/ 10) (outer_radius Arc) (PI / 4) (zp_k (sing_problem (zl_jv polar_zlib) (zl_gamma polar_zlib) s)) sigma /\
    exists d, forall th, PI / 4 <= th <= 2 * PI ->
      let p := sing_problem (zl_jv polar_zlib) (zl_gamma polar_zlib) s in let R1 := outer_radius Arc in
      let z1 := fun th => zp_eval_v p R1 th - (zp_g p R1 th + zm_q (zp_k p) (PI / 4) (zp_g p) R1 th) in
      Rabs (z1 th - rsum 7 (fun m => sine_coef (PI / 4) z1 m * sin (mode_freq (PI / 4) m * (th - PI / 4)))) <= d.
Proof. exact polar_example. Qed.

(** C86. The error the program prints for v is at most twice such a bound. *)
Theorem C86_v_error : forall fuel L p b z1cheat attr N order z D, zm_run fuel L p b false z1cheat attr N order = Ok z -> (1 <= N)%Z ->
  let hr := (outer_radius b - / 10) / IZR N in let hth := 7 * PI / 4 / IZR N in
  (forall m l, (0 <= m <= N)%Z -> (0 <= l <= N)%Z ->
    Cmod (Cminus (zr_v z m l) (RtoC (zp_eval_v p (/ 10 + IZR m * hr) (PI / 4 + IZR l * hth)))) <= D) -> zr_v_error z <= 2 * D.
Proof. exact table_error. Qed.
Print Assumptions C86_v_error.

Example C86_v_error_example : forall s z1cheat, let p := sing_problem (zl_jv polar_zlib) (zl_gamma polar_zlib) s in
  exists z D, zm_run 1 polar_zlib p Arc false z1cheat (Some None) 16 4 = Ok z /\
    forall m l, (0 <= m <= 16)%Z -> (0 <= l <= 16)%Z ->
      Cmod (Cminus (zr_v z m l) (RtoC (zp_eval_v p (/ 10 + IZR m * ((outer_radius Arc - / 10) / 16)) (PI / 4 + IZR l * (7 * PI / 4 / 16))))) <= D.
Proof. exact v_error_example. Qed.

(** C86. On the grids N = 16 and N = 32, for each problem and boundary, the
    difference equations have a stability constant. *)
Theorem C86_stable : forall jv gamma s b N, (N = 16 \/ N = 32)%Z ->
  exists sigma, 0 <= sigma /\ polar_stable N (/ 10) (outer_radius b) (PI / 4) (zp_k (sing_problem jv gamma s)) sigma.
Proof. exact grid_stable. Qed.
Print Assumptions C86_stable.

Example C86_stable_example : (32 = 16 \/ 32 = 32)%Z.
Proof. right. reflexivity. Qed.

(** C86. On these grids the assembled system of a run has exactly one solution,
    whatever the options and the library. *)
Theorem C86_one_solution : forall fuel L s b acheat z1cheat attr N order z, (N = 16 \/ N = 32)%Z ->
  zm_run fuel L (sing_problem (zl_jv L) (zl_gamma L) s) b acheat z1cheat attr N order = Ok z ->
  exists u, Model_PolarFD.solves (assemble (zr_fd z)) u /\
    forall u', Model_PolarFD.solves (assemble (zr_fd z)) u' -> forall i, (0 <= i < (N + 1) * (N + 1))%Z -> u' i = u i.
Proof. exact run_one_solution. Qed.
Print Assumptions C86_one_solution.

Example C86_one_solution_example : (16 = 16 \/ 16 = 32)%Z /\ forall s z1cheat, exists z,
  zm_run 1 polar_zlib (sing_problem (zl_jv polar_zlib) (zl_gamma polar_zlib) s) Arc false z1cheat (Some None) 16 4 = Ok z.
Proof. split; [left; reflexivity|]. intros s z1cheat. destruct polar_example as (_ & _ & _ & _ & H). destruct (H s z1cheat) as (z & _ & Hz & _). exists z. exact Hz. Qed.

(** C86. Runs on these grids without acheat and without cached coefficients,
    with the coefficient errors of C76: the only facts asked of the library are
    the contracts of jv, gamma, odeint and spsolve. *)
Theorem C86_run : forall jv gamma s b, gamma_like gamma -> (forall p, 0 < p -> bessel_series jv gamma p) ->
  let p := sing_problem jv gamma s in
  let R1 := outer_radius b in
  let z1 := fun th => zp_eval_v p R1 th - (zp_g p R1 th + zm_q (zp_k p) (PI / 4) (zp_g p) R1 th) in
  let g1 := / Rabs (gamma (9 / 7)) in let g3 := / Rabs (gamma (13 / 7)) in
  exists K, 0 <= K /\ forall fuel L z1cheat N order z sigma d, zl_jv L = jv -> zl_gamma L = gamma ->
    odeint_contract (zl_odeint L) -> spsolve_contract (zl_spsolve L) -> (N = 16 \/ N = 32)%Z ->
    zm_run fuel L p b false z1cheat (Some None) N order = Ok z ->
    polar_stable N (/ 10) R1 (PI / 4) (zp_k p) sigma ->
    (forall th, PI / 4 <= th <= 2 * PI ->
       Rabs (z1 th - rsum 7 (fun m => sine_coef (PI / 4) z1 m * sin (mode_freq (PI / 4) m * (th - PI / 4)))) <= d) ->
    let hr := (R1 - / 10) / IZR N in let hth := 7 * PI / 4 / IZR N in
    let D := sigma * (K * (hr ^ 4 + hth ^ 4) + d + rsum 7 (coef_error s (zp_k p) R1 g1 g3 z1cheat) + / 10 ^ 18 * wedge_sum s g1 g3) in
    (forall m l, (0 <= m <= N)%Z -> (0 <= l <= N)%Z ->
      Cmod (Cminus (zr_v z m l) (RtoC (zp_eval_v p (/ 10 + IZR m * hr) (PI / 4 + IZR l * hth)))) <= D) /\
    zr_v_error z <= 2 * D.
Proof. exact grid_run. Qed.
Print Assumptions C86_run.

Example C86_run_example : gamma_like (zl_gamma polar_zlib) /\ (forall p, 0 < p -> bessel_series (zl_jv polar_zlib) (zl_gamma polar_zlib) p) /\
  odeint_contract (zl_odeint polar_zlib) /\ spsolve_contract (zl_spsolve polar_zlib) /\
  forall s z1cheat, exists z sigma, zm_run 1 polar_zlib (sing_problem (zl_jv polar_zlib) (zl_gamma polar_zlib) s) Arc false z1cheat (Some None) 16 4 = Ok z /\
    Model_PolarFD.solves (assemble (zr_fd z)) (zl_spsolve polar_zlib (assemble (zr_fd z))) /\
    polar_stable 16 (/ 10) (outer_radius Arc) (PI / 4) (zp_k (sing_problem (zl_jv polar_zlib) (zl_gamma polar_zlib) s)) sigma /\
    exists d, forall th, PI / 4 <= th <= 2 * PI ->
      let p := sing_problem (zl_jv polar_zlib) (zl_gamma polar_zlib) s in let R1 := outer_radius Arc in
      let z1 := fun th => zp_eval_v p R1 th - (zp_g p R1 th + zm_q (zp_k p) (PI / 4) (zp_g p) R1 th) in
      Rabs (z1 th - rsum 7 (fun m => sine_coef (PI / 4) z1 m * sin (mode_freq (PI / 4) m * (th - PI / 4)))) <= d.
Proof. exact polar_example. Qed.
