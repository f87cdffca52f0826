(** Property C76: accuracy of the coefficients z1_fourier. *)
From Coq Require Import String ZArith List Bool Reals Lia Lra.
From Coquelicot Require Import Coquelicot.
From Verif Require Import Model_Py Model_Grid Model_Fourier Model_Domain Model_Ode Model_ZMethod Model_Problems
  Model_ZRun Model_Run Model_Program Model_ZProgram Spec_Fd Spec_PolarFD Spec_Ode Spec_Problems Spec_Bessel Spec_OdeAcc
  Proof_Bessel Proof_OdeAcc Proof_OdeSing Proof_OdeAccEx.
Import ListNotations.
Open Scope R_scope.

(** C76. The coefficients computed by the ODE step differ from the sine
    coefficients of the function z1 on the arc by at most a multiple of the
    fourth power of the step of the nodes, plus what the errors d0, d1 of the
    initial data and d2 of the source are amplified to, when z1 and its second
    derivative in the angle vanish on the edges. *)
Theorem C76_accurate : forall odeint init d_init f1 a k R0 R1 M N z1 Z T f (K : nat -> R) d0 d1 d2 m,
  a < 2 * PI -> 0 < R0 < R1 -> (M <= N)%nat -> 0 <= d0 -> 0 <= d1 -> 0 <= d2 -> (m < M)%nat ->
  (let deriv := ode_eval_deriv a (PI / (2 * PI - a)) k N f1 M in let ic := ode_ic a R0 N init d_init in
   trajectory deriv (2 * M) ic R0 R1 (odeint deriv (2 * M)%nat ic R0 R1)) ->
  partials 2 (fun r th => R0 < r < R1 /\ a < th < 2 * PI) z1 Z ->
  (forall r th, R0 <= r <= R1 -> a < th < 2 * PI ->
     continuous (fun r => z1 r th) r /\ continuous (fun r => Z 1%nat 0%nat r th) r) ->
  (forall r th, R0 < r < R1 -> a < th < 2 * PI -> polar_helmholtz k Z r th = f r th) ->
  angular 6 (fun r => R0 <= r <= R1) z1 T ->
  (forall r th, R0 <= r <= R1 -> th = a \/ th = 2 * PI -> T 0%nat r th = 0 /\ T 2%nat r th = 0) ->
  (forall i r th, (i <= 6)%nat -> R0 <= r <= R1 -> a <= th <= 2 * PI -> Rabs (T i r th) <= K i) ->
  (forall th, a < th < 2 * PI -> Rabs (init R0 th - z1 R0 th) <= d0) ->
  (forall th, a < th < 2 * PI -> Rabs (d_init R0 th - Z 1%nat 0%nat R0 th) <= d1) ->
  (forall r th, R0 < r < R1 -> a < th < 2 * PI -> Rabs (f1 r th - f r th) <= d2) ->
  let beta := mode_freq a m in
  Rabs (nth m (ode_calc_z1_fourier odeint init d_init f1 a (PI / (2 * PI - a)) k R0 R1 M N) 0 - sine_coef a (z1 R1) m) <=
  mode_error a k m R0 R1 (2 * d0) (2 * d1) (2 * d2 + step4 a N * (product4 beta K 2 + beta ^ 2 * product4 beta K 0) / R0 ^ 2)
  + step4 a N * product4 beta K 0.
Proof. exact ode_accurate. Qed.
Print Assumptions C76_accurate.

(** The remainder of ihz-bessel-quadratic, with init, d_init and f1 exact. *)
Example C76_accurate_example : let p := sing_problem (jv_gamma gamma_ex) gamma_ex IhzQuadratic in let k := 43 / 4 in let a := PI / 4 in let R0 := / 10 in let R1 := 23 / 10 in
  let z1 := zm_initial k a (zp_eval_v p) (zp_g p) in let f1 := zm_lambdify (zm_f1 k a (zp_g p)) in
  let K := wedge_bound IhzQuadratic (/ Rabs (gamma_ex (9 / 7))) (/ Rabs (gamma_ex (13 / 7))) in
  exists Z T,
    (let deriv := ode_eval_deriv a (PI / (2 * PI - a)) k (Z.to_nat 1024) f1 7 in let ic := ode_ic a R0 (Z.to_nat 1024) z1 (Z 1%nat 0%nat) in
     trajectory deriv (2 * 7) ic R0 R1 (odeint_ex deriv (2 * 7)%nat ic R0 R1)) /\
    partials 2 (fun r th => R0 < r < R1 /\ a < th < 2 * PI) z1 Z /\
    (forall r th, R0 <= r <= R1 -> a < th < 2 * PI ->
       continuous (fun r => z1 r th) r /\ continuous (fun r => Z 1%nat 0%nat r th) r) /\
    (forall r th, R0 < r < R1 -> a < th < 2 * PI -> polar_helmholtz k Z r th = f1 r th) /\
    angular 6 (fun r => R0 <= r <= R1) z1 T /\
    (forall r th, R0 <= r <= R1 -> th = a \/ th = 2 * PI -> T 0%nat r th = 0 /\ T 2%nat r th = 0) /\
    (forall i r th, (i <= 6)%nat -> R0 <= r <= R1 -> a <= th <= 2 * PI -> Rabs (T i r th) <= K i).
Proof. exact accurate_example. Qed.

(** C76. The system of the ODE step of each problem has exactly one trajectory
    from any initial vector, for every number of nodes and modes. *)
Theorem C76_trajectory : forall jv gamma s N M ic R0 R1, gamma_like gamma -> (forall p, 0 < p -> bessel_series jv gamma p) -> 0 < R0 < R1 ->
  let p := sing_problem jv gamma s in
  let deriv := ode_eval_deriv (PI / 4) (4 / 7) (zp_k p) N (zm_lambdify (zm_f1 (zp_k p) (PI / 4) (zp_g p))) M in
  exists sol, trajectory deriv (2 * M) ic R0 R1 sol /\ forall sol', trajectory deriv (2 * M) ic R0 R1 sol' -> forall i, (i < 2 * M)%nat -> sol' i = sol i.
Proof. exact one_trajectory. Qed.
Print Assumptions C76_trajectory.

Example C76_trajectory_example : gamma_like gamma_ex /\ (forall p, 0 < p -> bessel_series (jv_gamma gamma_ex) gamma_ex p) /\ 0 < / 10 < 23 / 10.
Proof. destruct acc_example as (Hg & Hj & _). split; [exact Hg|]. split; [exact Hj|lra]. Qed.

(** C76. The ten terms of v_series at r = 1/10 reproduce v to 10^-18 and its
    derivative in r to 10^-15, relative to the factor 1/Gamma of the Bessel
    functions. *)
Theorem C76_start : forall jv gamma s, gamma_like gamma -> (forall p, 0 < p -> bessel_series jv gamma p) -> forall th,
  let p := sing_problem jv gamma s in
  let e := wedge_sum s (/ Rabs (gamma (9 / 7))) (/ Rabs (gamma (13 / 7))) in
  Rabs (zp_v_series p (/ 10) th - zp_eval_v p (/ 10) th) <= / 10 ^ 18 * e /\
  exists y : R, is_derive (fun r => zp_v_series p r th - zp_eval_v p r th) (/ 10) y /\ Rabs y <= / 10 ^ 15 * e.
Proof. exact sing_data. Qed.
Print Assumptions C76_start.

Example C76_start_example : gamma_like gamma_ex /\ forall p, 0 < p -> bessel_series (jv_gamma gamma_ex) gamma_ex p.
Proof. destruct acc_example as (Hg & Hj & _). split; [exact Hg|exact Hj]. Qed.

(** C76. Every run without z1cheat that starts without cached coefficients, for
    each problem and boundary: the seven coefficients are those of v - (g + q)
    on the arc within an explicit bound. *)
Theorem C76_run : forall fuel L s b acheat N order z m,
  gamma_like (zl_gamma L) -> (forall p, 0 < p -> bessel_series (zl_jv L) (zl_gamma L) p) -> odeint_contract (zl_odeint L) ->
  let p := sing_problem (zl_jv L) (zl_gamma L) s in
  zm_run fuel L p b acheat false (Some None) N order = Ok z -> (m < 7)%nat ->
  let R1 := outer_radius b in
  let g1 := / Rabs (zl_gamma L (9 / 7)) in let g3 := / Rabs (zl_gamma L (13 / 7)) in
  let K := wedge_bound s g1 g3 in let h4 := step4 (PI / 4) (Z.to_nat 1024) in let beta := mode_freq (PI / 4) m in
  let z1 := fun th => zp_eval_v p R1 th - (zp_g p R1 th + zm_q (zp_k p) (PI / 4) (zp_g p) R1 th) in
  Rabs (nth m (zr_z1 z) 0 - sine_coef (PI / 4) z1 m) <=
  mode_error (PI / 4) (zp_k p) m (/ 10) R1 (2 * (/ 10 ^ 18 * wedge_sum s g1 g3)) (2 * (/ 10 ^ 15 * wedge_sum s g1 g3))
    (h4 * (product4 beta K 2 + beta ^ 2 * product4 beta K 0) / (/ 10) ^ 2)
  + h4 * product4 beta K 0.
Proof. exact run_accurate. Qed.
Print Assumptions C76_run.

Example C76_run_example : gamma_like (zl_gamma acc_zlib) /\ (forall p, 0 < p -> bessel_series (zl_jv acc_zlib) (zl_gamma acc_zlib) p) /\
  odeint_contract (zl_odeint acc_zlib) /\
  forall s z1cheat, exists z, zm_run 1 acc_zlib (sing_problem (zl_jv acc_zlib) (zl_gamma acc_zlib) s) Arc false z1cheat (Some None) 16 4 = Ok z.
Proof. exact acc_example. Qed.

(** C76. With z1cheat the same coefficients come from 2048 samples of v - (g + q)
    itself. *)
Theorem C76_cheat : forall fuel L s b acheat attr N order z m,
  gamma_like (zl_gamma L) -> (forall p, 0 < p -> bessel_series (zl_jv L) (zl_gamma L) p) ->
  let p := sing_problem (zl_jv L) (zl_gamma L) s in
  zm_run fuel L p b acheat true attr N order = Ok z -> (m < 7)%nat ->
  let R1 := outer_radius b in
  let K := wedge_bound s (/ Rabs (zl_gamma L (9 / 7))) (/ Rabs (zl_gamma L (13 / 7))) in
  let z1 := fun th => zp_eval_v p R1 th - (zp_g p R1 th + zm_q (zp_k p) (PI / 4) (zp_g p) R1 th) in
  Rabs (nth m (zr_z1 z) 0 - sine_coef (PI / 4) z1 m) <= step4 (PI / 4) (Z.to_nat 2048) * product4 (mode_freq (PI / 4) m) K 0.
Proof. exact cheat_accurate. Qed.
Print Assumptions C76_cheat.

Example C76_cheat_example : exists z, zm_run 1 acc_zlib (sing_problem (zl_jv acc_zlib) (zl_gamma acc_zlib) IhzQuadratic) Arc false true (Some None) 16 4 = Ok z.
Proof. apply acc_example. Qed.

(** C76. In numbers: for iz-bessel and ihz-bessel-line the first coefficient is
    right to 10^-4, relative to 1/Gamma(9/7), on every boundary. *)
Theorem C76_first : forall fuel L s b acheat N order z,
  gamma_like (zl_gamma L) -> (forall p, 0 < p -> bessel_series (zl_jv L) (zl_gamma L) p) -> odeint_contract (zl_odeint L) -> s <> IhzQuadratic ->
  let p := sing_problem (zl_jv L) (zl_gamma L) s in
  zm_run fuel L p b acheat false (Some None) N order = Ok z ->
  let R1 := outer_radius b in
  let z1 := fun th => zp_eval_v p R1 th - (zp_g p R1 th + zm_q (zp_k p) (PI / 4) (zp_g p) R1 th) in
  Rabs (nth 0 (zr_z1 z) 0 - sine_coef (PI / 4) z1 0) <= / 10 ^ 4 / Rabs (zl_gamma L (9 / 7)).
Proof. exact first_coef. Qed.
Print Assumptions C76_first.

Example C76_first_example : IzBessel <> IhzQuadratic /\
  exists z, zm_run 1 acc_zlib (sing_problem (zl_jv acc_zlib) (zl_gamma acc_zlib) IzBessel) Arc false false (Some None) 16 4 = Ok z.
Proof. split; [discriminate|apply acc_example]. Qed.
