(** Properties C64-C66: problems with a known singular solution, the functions
    of problems/functions.py, and the default evaluators. *)
From Coq Require Import String ZArith List Bool Reals Lia Lra.
From Coquelicot Require Import Coquelicot.
From Verif Require Import Model_Py Model_Grid Model_Fourier Model_Domain Model_Abcoef Model_ZMethod
  Model_Problems Model_Singular Lib_Csum Proof_Domain Proof_Abcoef Proof_Fourier Proof_BesselJ Proof_Regular
  Proof_ZSing Proof_IzExpected Proof_Singular Spec_Fd Spec_Problems Spec_Bessel Spec_ZRun.
Import ListNotations.
Open Scope R_scope.

(** C64. The coefficients are always computed, m_max of them. *)
Theorem C64_total : forall jv to_dst a k R0 nu n M, exists A,
  sk_a_coef jv to_dst a k R0 nu n M = Ok A /\ length A = M.
Proof. exact sk_total. Qed.
Print Assumptions C64_total.

(** C64. The expected solution solves the equation that eval_expected__no_w
    solves, whatever the coefficients. *)
Theorem C64_equation : forall jv no_w A k a nu M f, 0 < k ->
  (forall m, (m < M)%nat -> bessel_like jv ((INR m + 1) * nu)) ->
  csolves k off_tip f no_w -> csolves k off_tip f (sk_expected jv no_w A k a nu M).
Proof. exact sk_solves. Qed.
Print Assumptions C64_equation.

(** C64. The Fourier-Bessel part leaves the data on both edges alone. *)
Theorem C64_edges : forall jv no_w A k a nu M r, nu * (2 * PI - a) = PI ->
  sk_expected jv no_w A k a nu M r a = no_w r a /\
  sk_expected jv no_w A k a nu M r (2 * PI) = no_w r (2 * PI).
Proof. exact sk_edges. Qed.
Print Assumptions C64_edges.

(** C64. On the circle it adds to_dst, when to_dst has at most m_max modes. *)
Theorem C64_arc : forall jv no_w to_dst k R0 a n M (b : nat -> C) A, 2 * PI - a <> 0 -> (M <= n)%nat ->
  let nu := PI / (2 * PI - a) in
  (forall m, (m < M)%nat -> jv ((INR m + 1) * nu) (k * R0) <> 0) ->
  (forall th, to_dst th = csum M (fun m => Cmult (b m) (RtoC (sin ((INR m + 1) * nu * (th - a)))))) ->
  sk_a_coef jv (Some to_dst) a k R0 nu n M = Ok A ->
  forall th, sk_expected jv no_w A k a nu M R0 th = Cplus (no_w R0 th) (to_dst th).
Proof. exact sk_arc. Qed.
Print Assumptions C64_arc.

(** C64. Without to_dst it adds nothing anywhere. *)
Theorem C64_none : forall jv no_w a k R0 nu n M A, (M <= n)%nat ->
  2 * PI - a <> 0 -> sk_a_coef jv None a k R0 nu n M = Ok A ->
  forall r th, sk_expected jv no_w A k a nu M r th = no_w r th.
Proof. exact sk_none. Qed.
Print Assumptions C64_none.

(** 300 modes with the Bessel series, on top of a singular solution; complex
    data with 300 modes for a factor without zeros. *)
Example C64_nonvacuous :
  let a := PI / 4 in let nu := PI / (2 * PI - a) in
  nu * (2 * PI - a) = PI /\ 2 * PI - a <> 0 /\ (sk_m_max <= 2048)%nat /\
  (forall m, (m < sk_m_max)%nat -> bessel_like jv_series ((INR m + 1) * nu)) /\
  csolves (27 / 4) off_tip (fun _ _ => RtoC 0) (fun r th => RtoC (ih_eval_v jv_series 0 (27 / 4) nu a r th)) /\
  (forall m, (m < sk_m_max)%nat -> sample_jv ((INR m + 1) * nu) (2 * 3) <> 0).
Proof.
  intros a nu. pose proof PI_RGT_0 as Hp.
  assert (Hnu : 0 < nu) by (unfold nu, a; apply Rdiv_lt_0_compat; lra).
  split; [unfold nu, a; field; lra|]. split; [unfold a; lra|]. split; [unfold sk_m_max; lia|].
  split; [intros m _; apply jv_series_bessel; pose proof (pos_INR m); apply Rmult_lt_0_compat; lra|].
  split; [|intros; apply sample_jv_nz].
  destruct (ih_v_solves jv_series 0 (27 / 4) nu a ltac:(lra) ltac:(apply jv_series_bessel; lra)) as [V [H1 H2]].
  apply (csolves_real _ _ _ V _ H1); [intros r th H; exact H|exact H2].
Qed.

(** C65. The hat lies between 0 and 1/e, is even, vanishes outside (-1, 1) and
    is exp(-1/(1-x^2)) inside, up to the guard of 1e-15 at the ends. *)
Theorem C65_hat : forall x, 0 <= hat_x x <= exp (-1) /\ hat_x (- x) = hat_x x /\
  (1 <= Rabs x -> hat_x x = 0) /\
  (Rabs x <= 1 - / 10 ^ 15 -> hat_x x = exp (-1 / (1 - x ^ 2))).
Proof. exact (fun x => conj (hat_range x) (conj (hat_even x) (conj (hat_outside x) (hat_inside x)))). Qed.
Print Assumptions C65_hat.

(** C65. In the angle it vanishes on both edges, peaks in the middle and is
    symmetric. *)
Theorem C65_hat_angle : forall a, a < 2 * PI ->
  (hat_th a a = 0 /\ hat_th a (2 * PI) = 0 /\ hat_th a ((a + 2 * PI) / 2) = exp (-1)) /\
  forall th, hat_th a (a + 2 * PI - th) = hat_th a th.
Proof. exact (fun a H => conj (hat_ends a H) (fun th => hat_mirror a th H)). Qed.
Print Assumptions C65_hat_angle.

(** C65. The parabola vanishes exactly on the edges and is positive exactly
    between them. *)
Theorem C65_parabola : forall a th, a < 2 * PI ->
  (parabola th a = 0 <-> th = a \/ th = 2 * PI) /\ (0 < parabola th a <-> a < th < 2 * PI).
Proof. exact parabola_sign. Qed.
Print Assumptions C65_parabola.

(** C65. linesine vanishes on the edges, and on a circle it is the datum of the
    line problem minus its singular part. *)
Theorem C65_linesine : forall jv k R0 a nu, nu * (2 * PI - a) = PI -> a < 2 * PI ->
  linesine jv a k R0 a nu = 0 /\ linesine jv (2 * PI) k R0 a nu = 0.
Proof. exact linesine_ends. Qed.
Print Assumptions C65_linesine.

Theorem C65_linesine_data : forall jv k R0 a nu th, 2 * PI - a <> 0 ->
  linesine jv th k R0 a nu = line_phi0 jv 0 k nu a (fun _ => R0) th - ih_eval_v jv 0 k nu a R0 th.
Proof. exact linesine_data. Qed.
Print Assumptions C65_linesine_data.

Example C65_nonvacuous : PI / 4 < 2 * PI /\ 4 / 7 * (2 * PI - PI / 4) = PI /\
  Rabs (1 / 2) <= 1 - / 10 ^ 15 /\ 1 <= Rabs (-2).
Proof.
  pose proof PI_RGT_0. split; [lra|]. split; [lra|].
  split; [rewrite Rabs_pos_eq; lra|rewrite Rabs_left; lra].
Qed.

(** C66. A problem that overrides only the polar evaluator is evaluated at the
    polar coordinates of the point, with the angle in [a/2, 2 pi + a/2). *)
Theorem C66_expected : forall fuel p f x y, ev_expected p = None -> ev_expected_polar p = Some f ->
  exists r th, pb_expected (S fuel) p x y = Ok (f r th) /\ 0 <= r /\
    (0 < ev_a p <= 4 * PI -> ev_a p / 2 <= th < 2 * PI + ev_a p / 2) /\
    r * cos th = x /\ r * sin th = y.
Proof. exact expected_value. Qed.
Print Assumptions C66_expected.

(** C66. So at a point given by polar coordinates in that range it is evaluated
    at these very coordinates. *)
Theorem C66_roundtrip : forall fuel p f r th, ev_expected p = None -> ev_expected_polar p = Some f ->
  0 < r -> 0 <= ev_a p <= 4 * PI -> ev_a p / 2 <= th < 2 * PI + ev_a p / 2 -> 0 < th ->
  pb_expected (S fuel) p (r * cos th) (r * sin th) = Ok (f r th).
Proof. exact expected_roundtrip. Qed.
Print Assumptions C66_roundtrip.

(** C66. One that overrides only the Cartesian evaluator is evaluated at the
    point. *)
Theorem C66_expected_polar : forall fuel p f r th, ev_expected_polar p = None -> ev_expected p = Some f ->
  pb_expected_polar (S fuel) p r th = Ok (f (r * cos th) (r * sin th)).
Proof. exact expected_polar_value. Qed.
Print Assumptions C66_expected_polar.

(** C66. The same for the source. *)
Theorem C66_source : forall fuel p f x y, ev_f p = None -> ev_homogeneous p = false -> ev_f_polar p = Some f ->
  exists r th, pb_f (S fuel) p x y = Ok (f r th) /\ 0 <= r /\ 0 < th <= 2 * PI /\
    r * cos th = x /\ r * sin th = y.
Proof. exact f_value. Qed.
Print Assumptions C66_source.

Theorem C66_source_polar : forall fuel p f r th, ev_f_polar p = None -> ev_homogeneous p = false -> ev_f p = Some f ->
  pb_f_polar (S fuel) p r th = Ok (f (r * cos th) (r * sin th)).
Proof. exact f_polar_value. Qed.
Print Assumptions C66_source_polar.

Theorem C66_homogeneous : forall fuel p x y, ev_homogeneous p = true ->
  (ev_f p = None -> pb_f (S fuel) p x y = Ok (RtoC 0)) /\
  (ev_f_polar p = None -> pb_f_polar fuel p x y = Ok (RtoC 0)).
Proof. exact f_homogeneous. Qed.
Print Assumptions C66_homogeneous.

(** C66. A problem that overrides neither never returns. *)
Theorem C66_neither_loops : forall p fuel x y,
  (ev_expected p = None -> ev_expected_polar p = None ->
   pb_expected fuel p x y = Err OutOfFuel /\ pb_expected_polar fuel p x y = Err OutOfFuel) /\
  (ev_f p = None -> ev_f_polar p = None -> ev_homogeneous p = false ->
   pb_f fuel p x y = Err OutOfFuel /\ pb_f_polar fuel p x y = Err OutOfFuel).
Proof. exact (fun p fuel x y => conj (expected_loops p fuel x y) (f_loops p fuel x y)). Qed.
Print Assumptions C66_neither_loops.

(** A polar problem at the program's angle, an inhomogeneous one, and a point on
    the lower edge, whose angle is 2 pi. *)
Example C66_nonvacuous :
  let p := {| ev_homogeneous := false; ev_a := PI / 4; ev_expected := None;
              ev_expected_polar := Some (fun r th => RtoC (r * th));
              ev_f := Some (fun x y => RtoC (x - y)); ev_f_polar := None |} in
  ev_expected p = None /\ 0 < ev_a p <= 4 * PI /\ ev_a p / 2 <= 2 * PI < 2 * PI + ev_a p / 2 /\
  pb_expected 1 p (2 * cos (2 * PI)) (2 * sin (2 * PI)) = Ok (RtoC (2 * (2 * PI))).
Proof.
  intros p. pose proof PI_RGT_0 as Hp. split; [reflexivity|]. split; [cbn; lra|]. split; [cbn; lra|].
  apply (C66_roundtrip 0 p (fun r th => RtoC (r * th))); try reflexivity; cbn; lra.
Qed.
