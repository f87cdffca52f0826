(** Properties C45-C48 and C53: the test problems. *)
From Coq Require Import String ZArith List Bool Reals Lia Lra.
From Coquelicot Require Import Coquelicot.
From Verif Require Import Model_Py Model_Grid Model_Multivalue Model_Fourier Model_Domain Model_Extend
  Model_ZMethod Model_Problems Spec_Fd Spec_Extend Spec_Problems Proof_Boundary Proof_Problems
  Proof_Hessian Proof_Corners.
Import ListNotations.
Open Scope R_scope.

(** C45. Every curve starts and ends at distance R0 from the tip. *)
Theorem C45_curves : forall R0 bet nu a, nu * (2 * PI - a) = PI ->
  (r_arc R0 a = R0 /\ r_arc R0 (2 * PI) = R0) /\
  (r_outer_sine R0 bet nu a a = R0 /\ r_outer_sine R0 bet nu a (2 * PI) = R0) /\
  (r_inner_sine R0 bet nu a a = R0 /\ r_inner_sine R0 bet nu a (2 * PI) = R0) /\
  (r_sine7 R0 bet nu a a = R0 /\ r_sine7 R0 bet nu a (2 * PI) = R0) /\
  (r_cubic R0 bet a a = R0 /\ r_cubic R0 bet a (2 * PI) = R0).
Proof. exact curves_corners. Qed.
Print Assumptions C45_curves.

(** C45. The data on the curve and on the radii agree at both outer corners,
    for each problem and every function J in place of the Bessel function. *)
Theorem C45_corners : forall nu a, nu * (2 * PI - a) = PI -> 0 < a < 2 * PI ->
  forall J k eval_r R0, 0 < R0 -> eval_r a = R0 -> eval_r (2 * PI) = R0 ->
  (iz_phi0 J 0 k nu a eval_r (2 * PI) = iz_phi1 J 0 k nu a R0 /\ iz_phi0 J 0 k nu a eval_r a = iz_phi2 R0) /\
  (line_phi0 J 0 k nu a eval_r (2 * PI) = line_phi1 J 0 k nu R0 /\ line_phi0 J 0 k nu a eval_r a = line_phi2 R0) /\
  (quad_phi0 J k nu a eval_r (2 * PI) = quad_phi1 J k nu R0 /\ quad_phi0 J k nu a eval_r a = quad_phi2 J k nu R0).
Proof. exact phi_corners. Qed.
Print Assumptions C45_corners.

(** C45. On the edges v has the values phi1 and phi2. *)
Theorem C45_v_data : forall nu a, nu * (2 * PI - a) = PI -> 0 < a < 2 * PI ->
  forall J k r, 0 < r ->
  (iz_phi1 J 0 k nu a r = ih_eval_v J 0 k nu a r (2 * PI) /\ iz_phi2 r = ih_eval_v J 0 k nu a r a) /\
  (line_phi1 J 0 k nu r = ih_eval_v J 0 k nu a r (2 * PI) /\ line_phi2 r = ih_eval_v J 0 k nu a r a) /\
  (quad_phi1 J k nu r = quad_eval_v J k nu a r (2 * PI) /\ quad_phi2 J k nu r = quad_eval_v J k nu a r a).
Proof. exact phi_v. Qed.
Print Assumptions C45_v_data.

(** C45. There g agrees with v, so v - g vanishes on both edges. *)
Theorem C45_g_line : forall nu a, nu * (2 * PI - a) = PI -> 0 < a < 2 * PI ->
  forall J k r,
  ih_eval_v J 0 k nu a r (2 * PI) = J (nu / 2) (k * r) /\ ih_eval_v J 0 k nu a r a = 0 /\
  ih_g J 0 k nu a r (2 * PI) = J (nu / 2) (k * r) /\ ih_g J 0 k nu a r a = 0.
Proof. exact ih_v_g. Qed.
Print Assumptions C45_g_line.

Theorem C45_g_quadratic : forall nu a, nu * (2 * PI - a) = PI -> 0 < a < 2 * PI ->
  forall J k r,
  quad_eval_v J k nu a r (2 * PI) = J (nu / 2) (k * r) /\
  quad_eval_v J k nu a r a = J (3 * nu / 2) (k * r) /\
  quad_g J k nu a r (2 * PI) = J (nu / 2) (k * r) /\
  quad_g J k nu a r a = J (3 * nu / 2) (k * r).
Proof. exact quad_v_g. Qed.
Print Assumptions C45_g_quadratic.

(** C45. For the mode number K = n the value of v on the first edge carries the
    sign (-1)^n: the class attribute K = 0 cannot be replaced by 1 without
    breaking the agreement with phi1. *)
Theorem C45_mode_sign : forall nu a, nu * (2 * PI - a) = PI ->
  forall J n k r,
  ih_eval_v J (INR n) k nu a r (2 * PI) = (-1) ^ n * J ((INR n + 1 / 2) * nu) (k * r) /\
  ih_eval_v J (INR n) k nu a r a = 0.
Proof. exact ih_edges. Qed.
Print Assumptions C45_mode_sign.

(** C45. The data of the regularised problem agree at the outer corners and at
    the tip, whatever coefficients were computed. *)
Theorem C45_u_bvp : forall nu a, nu * (2 * PI - a) = PI ->
  forall jv phi0 phi1 phi2 v a_coef eval_r k M R0,
  0 < R0 -> eval_r a = R0 -> eval_r (2 * PI) = R0 -> phi0 (2 * PI) = phi1 R0 -> phi0 a = phi2 R0 ->
  zm_u_bc jv phi0 phi1 phi2 v a_coef eval_r a nu k M (2 * PI) 0 =
    zm_u_bc jv phi0 phi1 phi2 v a_coef eval_r a nu k M R0 1 /\
  zm_u_bc jv phi0 phi1 phi2 v a_coef eval_r a nu k M a 0 =
    zm_u_bc jv phi0 phi1 phi2 v a_coef eval_r a nu k M R0 2.
Proof. exact u_bc_corners. Qed.
Print Assumptions C45_u_bvp.

Theorem C45_u_bvp_tip : forall nu a jv phi0 phi1 phi2 e a_coef eval_r k M, phi1 0 = 0 -> phi2 0 = 0 ->
  zm_u_bc jv phi0 phi1 phi2 (zm_lambdify e) a_coef eval_r a nu k M 0 1 = Ok (RtoC 0) /\
  zm_u_bc jv phi0 phi1 phi2 (zm_lambdify e) a_coef eval_r a nu k M 0 2 = Ok (RtoC 0).
Proof. exact u_bc_tip. Qed.
Print Assumptions C45_u_bvp_tip.

(** C45. The arc data of the z problem end at the values of g. *)
Theorem C45_z_bvp : forall nu a, nu * (2 * PI - a) = PI -> 0 < a < 2 * PI ->
  forall z1 k g arc_R M, arc_R <> 0 ->
  let gq := zm_lambdify (fun r th => g r th + zm_q k a g r th) in
  zm_z_phi0 z1 gq a nu arc_R M (2 * PI) = g arc_R (2 * PI) /\
  zm_z_phi0 z1 gq a nu arc_R M a = g arc_R a.
Proof. exact z_phi0_ends. Qed.
Print Assumptions C45_z_bvp.

(** The program's angle, the curve outer-sine with bet = 0.15 and the line
    problem's data. *)
Example C45_nonvacuous :
  let a := PI / 4 in let nu := PI / (2 * PI - a) in let r := r_outer_sine (23 / 10) (15 / 100) nu a in
  let J := fun v x : R => v + x in
  nu * (2 * PI - a) = PI /\ 0 < a < 2 * PI /\ 0 < 23 / 10 /\ r a = 23 / 10 /\ r (2 * PI) = 23 / 10 /\
  line_phi0 J 0 2 nu a r (2 * PI) = line_phi1 J 0 2 nu (23 / 10) /\ line_phi1 J 0 2 nu 0 = 0 /\
  line_phi0 J 0 2 nu a r a = line_phi2 (23 / 10).
Proof.
  intros a nu r J. pose proof PI_RGT_0.
  assert (E : nu * (2 * PI - a) = PI) by (unfold nu, a; field; lra).
  assert (Ha : 0 < a < 2 * PI) by (unfold a; lra).
  destruct (curves_corners (23 / 10) (15 / 100) nu a E) as [_ [[E1 E2] _]].
  assert (HR : 0 < 23 / 10) by lra.
  destruct (phi_corners nu a E Ha J 2 r (23 / 10) HR E1 E2) as [_ [[L1 L2] _]].
  repeat split; try assumption; try lra; try (apply Ha).
  unfold line_phi1. cbv zeta. unfold Rltb. destruct (Rlt_dec 0 0); [lra|reflexivity].
Qed.

(** C46. The reference solutions satisfy their equations, with the source that
    the program evaluates (including its value at the origin). *)
Theorem C46_sine : forall k, solves k (fun _ _ => 0) (sine_expected k) /\
  forall x y, is_grad (sine_expected k) x y (sine_grad k x y).
Proof. exact (fun k => conj (sine_solves k) (sine_is_grad k)). Qed.
Print Assumptions C46_sine.

Theorem C46_e : forall k st, solves k (fun _ _ => 0) (fun x y => fst (snd (e_expected k x y st))) /\
  solves k (fun _ _ => 0) (fun x y => snd (snd (e_expected k x y st))).
Proof. exact e_solves. Qed.
Print Assumptions C46_e.

Theorem C46_ycos : forall k, solves k (fun x y => (k ^ 2 - 1) * y * cos x) ycos_expected /\
  (forall x y, is_grad ycos_expected x y (ycos_grad x y)) /\
  forall fuel AD x y, 0 < AD -> sp_eval_f (S (S fuel)) AD (ycos_f k) x y = Ok ((k ^ 2 - 1) * y * cos x).
Proof.
  exact (fun k => conj (ycos_solves k) (conj ycos_is_grad (fun fuel AD x y => ycos_source fuel AD k x y))).
Qed.
Print Assumptions C46_ycos.

(** C46. eval_d_u_outwards is the derivative of u along the outward unit normal
    at the point of the boundary with the given parameter, also for negative
    parameters on the radii. *)
Theorem C46_outwards : forall eval_r a u get_grad arg sid, (sid < 3)%nat ->
  (sid = 0%nat -> (forall t, ex_derive eval_r t) /\ 0 < eval_r arg) ->
  (forall x y, exists g, get_grad x y = Ok g /\ is_cgrad u x y g) ->
  exists d n px py, d_u_outwards eval_r a get_grad arg sid = Ok d /\
    is_normal eval_r a sid arg n /\ seg_point eval_r a sid arg = (px, py) /\
    is_derive (fun t => fst (u (px + t * fst n) (py + t * snd n))) 0 (fst d) /\
    is_derive (fun t => snd (u (px + t * fst n) (py + t * snd n))) 0 (snd d).
Proof. exact outwards. Qed.
Print Assumptions C46_outwards.

(** C46. The Dirichlet data are the values of the reference solution at the
    point of the boundary with the given parameter. *)
Theorem C46_dirichlet : forall eval_r a expected arg sid,
  ((sid < 3)%nat -> exists px py, seg_point eval_r a sid arg = (px, py) /\
     smooth_bc eval_r a expected arg sid = Ok (expected px py)) /\
  ((3 <= sid)%nat -> smooth_bc eval_r a expected arg sid = Err TypeError).
Proof. exact smooth_bc_value. Qed.
Print Assumptions C46_dirichlet.

(** smooth-e on the curve sine7 (bet = 0.025), after one call of eval_expected. *)
Example C46_nonvacuous :
  let r := r_sine7 (23 / 10) (25 / 1000) (4 / 7) (PI / 4) in
  (forall t, ex_derive r t) /\ 0 < r 3 /\
  (forall x y, exists g, e_grad x y (e_run 2 [CallExpected 0 0]) = Ok g /\
     is_cgrad (fun x y => snd (e_expected 2 x y None)) x y g).
Proof.
  intros r. split; [|split].
  - intros t. unfold r, r_sine7. auto_derive. exact I.
  - unfold r, r_sine7. pose proof (SIN_bound (7 * (4 / 7) * (3 - PI / 4))). lra.
  - intros x y. apply (e_history 2 [CallExpected 0 0] x y). exists 0, 0. left. reflexivity.
Qed.

(** C47. Gradient and Hessian of a source given in polar form. [th] is the
    angle that cart_to_polar returns, which lies in (0, 2 pi]. *)
Theorem C47_gradient : forall f F x y r th g, cart_to_polar x y = (r, th) -> (x <> 0 \/ y <> 0) ->
  polar_form f F r th -> is_grad F x y g -> sp_grad f x y = g.
Proof. exact sp_grad_correct. Qed.
Print Assumptions C47_gradient.

Theorem C47_hessian : forall f F x y r th hxx hxy hyy, cart_to_polar x y = (r, th) -> (x <> 0 \/ y <> 0) ->
  polar_form f F r th -> is_hessian F x y ((hxx, hxy), (hxy, hyy)) ->
  sp_hessian f x y = ((hxx, hxy), (hxy, hyy)).
Proof. exact sp_hessian_correct. Qed.
Print Assumptions C47_hessian.

(** The source of smooth-ycos at every point. *)
Example C47_nonvacuous : forall k x y r th,
  polar_form (ycos_f k) (fun x y => (k ^ 2 - 1) * y * cos x) r th /\
  is_grad (fun x y => (k ^ 2 - 1) * y * cos x) x y (- (k ^ 2 - 1) * y * sin x, (k ^ 2 - 1) * cos x) /\
  is_hessian (fun x y => (k ^ 2 - 1) * y * cos x) x y
    ((- (k ^ 2 - 1) * y * cos x, - (k ^ 2 - 1) * sin x), (- (k ^ 2 - 1) * sin x, 0)).
Proof.
  exact (fun k x y r th => conj (ycos_polar k r th) (conj (ycos_F_grad k x y) (ycos_F_hessian k x y))).
Qed.

(** C48. What eval_f returns at the origin: the gradient term already carries
    one second-order contribution, so the second derivative enters with 3/2
    instead of 1/2. *)
Theorem C48_value : forall fuel AD f F gx gy hxx hxy hyy, 0 < AD ->
  let h := AD / 10000 in
  polar_form f F h PI -> is_grad F (- h) 0 (gx, gy) -> is_hessian F (- h) 0 ((hxx, hxy), (hxy, hyy)) ->
  sp_eval_f (S (S fuel)) AD f 0 0 = Ok (F (- h) 0 + h * gx + 3 / 2 * h ^ 2 * hxx).
Proof. exact sp_eval_origin. Qed.
Print Assumptions C48_value.

(** C48. On a quadratic source the error is h^2 f_xx; it vanishes for affine f. *)
Theorem C48_quadratic : forall fuel AD f c0 cx cy cxx cxy cyy, 0 < AD ->
  (forall r th, let x := r * cos th in let y := r * sin th in
     f r th = c0 + cx * x + cy * y + cxx * (x * x) + cxy * (x * y) + cyy * (y * y)) ->
  sp_eval_f (S (S fuel)) AD f 0 0 =
  Ok (c0 + cx * 0 + cy * 0 + cxx * (0 * 0) + cxy * (0 * 0) + cyy * (0 * 0) + (AD / 10000) ^ 2 * (2 * cxx)).
Proof. exact origin_quadratic. Qed.
Print Assumptions C48_quadratic.

(** C48. The claim that the value at the origin is exact to second order is
    false: f = x^2 = r^2 cos^2 th gives 2 h^2 instead of 0. *)
Theorem C48_taylor_refuted : exists f : R -> R -> R, (forall r th, f r th = (r * cos th) * (r * cos th)) /\
  forall fuel AD, 0 < AD -> exists v, sp_eval_f (S (S fuel)) AD f 0 0 = Ok v /\ v <> 0.
Proof.
  exact (ex_intro _ (fun r th => (r * cos th) * (r * cos th)) (conj (fun r th => eq_refl) origin_wrong)).
Qed.
Print Assumptions C48_taylor_refuted.

(** An affine and a quadratic source. *)
Example C48_nonvacuous : 0 < 2 * PI /\
  sp_eval_f 2 (2 * PI) (fun r th => 1 + 2 * (r * cos th) + 3 * (r * sin th)) 0 0 = Ok 1.
Proof.
  pose proof PI_RGT_0. assert (H2 : 0 < 2 * PI) by lra. split; [exact H2|].
  rewrite (C48_quadratic 0 (2 * PI) _ 1 2 3 0 0 0 H2); [f_equal; ring|]. intros r th. cbv zeta. ring.
Qed.

(** C53. After any history of calls, get_grad raises AttributeError unless some
    eval_expected call was among them; then it returns the gradient. *)
Theorem C53_history : forall k calls x y,
  ((exists x0 y0, In (CallExpected x0 y0) calls) ->
   exists g, e_grad x y (e_run k calls) = Ok g /\
     is_cgrad (fun x y => snd (e_expected k x y None)) x y g) /\
  ((forall x0 y0, ~ In (CallExpected x0 y0) calls) ->
   e_grad x y (e_run k calls) = Err AttributeError).
Proof. exact e_history. Qed.
Print Assumptions C53_history.

(** The first call on a fresh object. *)
Theorem C53_first_call_refuted : exists k x y, e_grad x y (e_run k []) = Err AttributeError.
Proof. exact (ex_intro _ 1 (ex_intro _ 0 (ex_intro _ 0 eq_refl))). Qed.
Print Assumptions C53_first_call_refuted.

(** A history of each kind. *)
Example C53_nonvacuous : In (CallExpected 1 2) [CallGrad 0 0; CallExpected 1 2] /\
  (forall x0 y0, ~ In (CallExpected x0 y0) [CallGrad 0 0]).
Proof. split; [right; left; reflexivity|]. intros x0 y0 [H|[]]. discriminate. Qed.
