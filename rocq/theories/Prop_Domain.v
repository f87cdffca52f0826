(** Properties C09, C10, C24, C25, C26, C27, C49, C50: geometry and the
    attribution of the discrete boundary to segments. *)
From Coq Require Import ZArith List Bool Reals Lia Lra.
From Coquelicot Require Import Coquelicot.
From Verif Require Import Model_Py Model_Multivalue Model_Grid Model_Domain
  Spec_Grid Spec_Domain Proof_Domain Proof_Sid Proof_Boundary Proof_Place.
Import ListNotations.
Open Scope R_scope.

(** C24. cart_to_polar returns polar coordinates of the point, with the angle
    in (0, 2 pi]. *)
Theorem C24_cart_to_polar : forall x y r th, cart_to_polar x y = (r, th) ->
  0 <= r /\ 0 < th <= 2 * PI /\ r * cos th = x /\ r * sin th = y.
Proof. exact cart_to_polar_spec. Qed.
Print Assumptions C24_cart_to_polar.

(** C24. get_polar of the solver shifts the range to [a/2, 2 pi + a/2). *)
Theorem C24_get_polar : forall a x y r th, 0 < a < 2 * PI -> ps_polar_xy a x y = (r, th) ->
  0 <= r /\ a / 2 <= th < 2 * PI + a / 2 /\ r * cos th = x /\ r * sin th = y.
Proof. exact ps_polar_spec. Qed.
Print Assumptions C24_get_polar.

(** C24. Away from the origin it is also a left inverse. *)
Theorem C24_left_inverse : forall a r th, 0 < a < 2 * PI -> 0 < r -> a / 2 <= th < 2 * PI + a / 2 ->
  ps_polar_xy a (r * cos th) (r * sin th) = (r, th).
Proof. exact ps_polar_of_polar. Qed.
Print Assumptions C24_left_inverse.

(** The point (-2, 0) has polar coordinates (2, pi). *)
Example C24_nonvacuous : cart_to_polar (-2) 0 = (2, PI).
Proof.
  pose proof PI_RGT_0. replace (-2) with (2 * cos PI) by (rewrite cos_PI; ring).
  replace 0 with (2 * sin PI) at 1 by (rewrite sin_PI; ring). apply cart_to_polar_of_polar; lra.
Qed.

(** C25. Both parametrisations name the same point, on every segment and for
    every signed argument. *)
Theorem C25_same_point : forall eval_r a arg,
  option_map polar_point (arg_to_polar eval_r a arg 0) = Some (eval_r arg * cos arg, eval_r arg * sin arg) /\
  option_map polar_point (arg_to_polar eval_r a arg 1) = Some (arg, 0) /\
  option_map polar_point (arg_to_polar eval_r a arg 2) = Some (arg * cos a, arg * sin a).
Proof. exact arg_to_polar_point. Qed.
Print Assumptions C25_same_point.

Theorem C25_abs_same : forall eval_r a arg sid,
  option_map polar_point (arg_to_polar_abs eval_r a arg sid) =
  option_map polar_point (arg_to_polar eval_r a arg sid).
Proof. exact arg_to_polar_same. Qed.
Print Assumptions C25_abs_same.

(** C25. The absolute variant has radius |arg| on the two radii. *)
Theorem C25_abs_nonneg : forall eval_r a arg sid r th, (1 <= sid)%nat ->
  arg_to_polar_abs eval_r a arg sid = Some (r, th) -> 0 <= r /\ r = Rabs arg.
Proof. exact arg_to_polar_abs_nonneg. Qed.
Print Assumptions C25_abs_nonneg.

(** C25. wrap_func: non-negative argument on the radii, and the other radius
    exactly when the argument was negative; on the arc the angle is shifted by
    0 or 2 pi into [a/2, 2 pi + a/2). *)
Theorem C25_wrap_func : forall a arg sid arg' sid', wrap_func a arg sid = (arg', sid') ->
  ((sid = 1 \/ sid = 2)%nat -> 0 <= arg' /\ arg' = Rabs arg /\
     sid' = (if Rltb arg 0 then 3 - sid else sid)%nat) /\
  (sid = 0%nat -> sid' = 0%nat /\ (arg' = arg \/ arg' = arg + 2 * PI) /\
     (a / 2 - 2 * PI <= arg < 2 * PI + a / 2 -> a / 2 <= arg' < 2 * PI + a / 2)).
Proof. exact wrap_func_spec. Qed.
Print Assumptions C25_wrap_func.

Example C25_nonvacuous :
  arg_to_polar_abs (r_arc 1) (PI / 4) (-2) 1 = Some (2, PI) /\
  arg_to_polar (r_arc 1) (PI / 4) (-2) 1 = Some (-2, 2 * PI) /\
  wrap_func (PI / 4) (-2) 1 = (2, 2%nat).
Proof.
  unfold arg_to_polar_abs, arg_to_polar, wrap_func. cbn [Nat.eqb andb].
  destruct (Rleb_spec 0 (-2)); [lra|]. destruct (Rltb_spec (-2) 0); [|lra].
  repeat split; repeat f_equal; lra.
Qed.

(** C26. The polar angle of a point sampled on a segment, corners excluded, is
    classified as that segment. *)
Theorem C26_classifies : forall eval_r a sid arg x y, 0 < a < 2 * PI ->
  (sid = 0%nat -> a < arg < 2 * PI /\ 0 < eval_r arg) -> (sid <> 0%nat -> 0 < arg) ->
  option_map polar_point (arg_to_polar eval_r a arg sid) = Some (x, y) ->
  get_sid a (snd (cart_to_polar x y)) = Some sid.
Proof. exact get_sid_of_point. Qed.
Print Assumptions C26_classifies.

(** C26. get_sid is not total: it returns nothing for every angle in
    (0, a - 1e-12]. *)
Theorem C26_total_refuted : exists a th, 0 < a < 2 * PI /\ 0 < th <= 2 * PI /\ get_sid a th = None.
Proof. exact get_sid_total_refuted. Qed.
Print Assumptions C26_total_refuted.

(** C26. The complete table of get_sid, with the tolerance 1e-12 on one side
    of the angle a only. *)
Theorem C26_table : forall a th, a < 2 * PI ->
  (get_sid a th = Some 1%nat <-> 2 * PI <= th) /\
  (get_sid a th = Some 0%nat <-> a < th < 2 * PI) /\
  (get_sid a th = Some 2%nat <-> a - 1 / 1000000000000 < th <= a) /\
  (get_sid a th = None <-> th <= a - 1 / 1000000000000).
Proof. exact get_sid_table. Qed.
Print Assumptions C26_table.

(** Half the tolerance below the angle is segment 2, the whole tolerance below
    it is nothing. *)
Example C26_table_nonvacuous : get_sid (PI / 6) (PI / 6 - 1 / 2000000000000) = Some 2%nat /\
  get_sid (PI / 6) (PI / 6 - 1 / 1000000000000) = None.
Proof.
  pose proof PI_RGT_0. split; apply C26_table; lra.
Qed.

(** C26. On arguments past the inner corner of segment 1 the classification
    says segment 0. *)
Theorem C26_overshoot : forall eval_r a arg r th, 0 < a < PI -> arg < 0 ->
  arg_to_polar_abs eval_r a arg 1 = Some (r, th) -> get_sid a th = Some 0%nat.
Proof. exact get_sid_overshoot. Qed.
Print Assumptions C26_overshoot.

(** The point at distance 1 on the radius at angle pi/4. *)
Example C26_nonvacuous : get_sid (PI / 4) (snd (cart_to_polar (1 * cos (PI / 4)) (1 * sin (PI / 4)))) = Some 2%nat.
Proof.
  pose proof PI_RGT_0. apply (C26_classifies (r_arc 2) (PI / 4) 2 1); [lra|discriminate|lra|reflexivity].
Qed.

(** C27. get_radius_point is the closest point of the line at angle a. *)
Theorem C27_projection : forall a x y x1 y1, 0 < a < PI -> get_radius_point a x y = (x1, y1) ->
  (exists t, x1 = t * cos a /\ y1 = t * sin a) /\
  (forall t, (x1 - x) ^ 2 + (y1 - y) ^ 2 <= (t * cos a - x) ^ 2 + (t * sin a - y) ^ 2) /\
  (x1 - x) * cos a + (y1 - y) * sin a = 0.
Proof. exact radius_point_closest. Qed.
Print Assumptions C27_projection.

Theorem C27_dist : forall a x y, 0 < a < PI ->
  dist_to_radius a x y = Rabs (x * sin a - y * cos a).
Proof. exact dist_to_radius_eq. Qed.
Print Assumptions C27_dist.

Theorem C27_signed_dist : forall a x y, 0 < a < PI ->
  signed_dist_to_radius a x y = x * sin a - y * cos a.
Proof. exact signed_dist_eq. Qed.
Print Assumptions C27_signed_dist.

(** a = pi/2, where the code takes a separate branch. *)
Example C27_nonvacuous : 0 < PI / 2 < PI /\ get_radius_point (PI / 2) 3 4 = (0, 4) /\
  signed_dist_to_radius (PI / 2) 3 4 = 3.
Proof.
  pose proof PI_RGT_0. split; [lra|]. rewrite get_radius_point_eq, signed_dist_eq by lra.
  rewrite cos_PI2, sin_PI2. split; [f_equal; ring|ring].
Qed.

(** C49. eval_dist_deriv is the derivative of half the squared distance. *)
Theorem C49_dist_deriv : forall r, (forall th, ex_derive r th) -> forall x1 y1 th,
  is_derive (fun t => ((x1 - r t * cos t) ^ 2 + (y1 - r t * sin t) ^ 2) / 2) th
    (eval_dist_deriv r x1 y1 th).
Proof. exact dist_deriv_correct. Qed.
Print Assumptions C49_dist_deriv.

(** C49. Whatever root is returned, the node is curve(th0) + n normal(th0). *)
Theorem C49_reconstruct : forall brentq r a r1 th1 n th0,
  brentq_contract brentq -> (forall th, ex_derive r th) -> (forall th, ex_derive (b_d_r r) th) ->
  (forall th, 0 < r th ^ 2 + b_d_r r th ^ 2) ->
  0 < a -> a / 2 <= th1 <= 2 * PI + a / 2 ->
  get_boundary_coord brentq r a r1 th1 = Some (n, th0) ->
  r1 * cos th1 = r th0 * cos th0 + n * fst (eval_normal r th0) /\
  r1 * sin th1 = r th0 * sin th0 + n * snd (eval_normal r th0) /\
  search_lo a th1 <= th0 <= search_hi a th1 /\
  eval_dist_deriv r (r1 * cos th1) (r1 * sin th1) th0 = 0.
Proof. exact boundary_coord_contract. Qed.
Print Assumptions C49_reconstruct.

(** C49. On the arc the coordinates are (r - R, th). *)
Theorem C49_arc : forall brentq R0 a r1 th1, brentq_contract brentq ->
  0 < R0 -> 0 < a -> 0 < r1 -> a / 2 <= th1 <= 2 * PI + a / 2 ->
  get_boundary_coord brentq (r_arc R0) a r1 th1 = Some (r1 - R0, th1).
Proof. exact arc_coord_positive. Qed.
Print Assumptions C49_arc.

(** A root finder meeting the contract exists; the node at radius 2 and angle
    pi has coordinates (-0.3, pi) with respect to the arc of radius 2.3. *)
Example C49_nonvacuous : brentq_contract min_zero /\
  get_boundary_coord min_zero (r_arc (23 / 10)) (PI / 4) 2 PI = Some (- (3 / 10), PI).
Proof.
  pose proof PI_RGT_0. split; [exact min_zero_contract|].
  rewrite (arc_coord_positive _ _ _ _ _ min_zero_contract) by lra. do 2 f_equal. lra.
Qed.

(** C50. Tangent and normal form an orthonormal frame; the tangent points
    along the curve and the normal points outwards. *)
Theorem C50_frame : forall r th tx ty nx ny, (forall t, ex_derive r t) ->
  0 < r th ^ 2 + Derive r th ^ 2 ->
  eval_tangent r th = (tx, ty) -> eval_normal r th = (nx, ny) ->
  (tx ^ 2 + ty ^ 2 = 1 /\ nx ^ 2 + ny ^ 2 = 1 /\ tx * nx + ty * ny = 0 /\ nx * ty - ny * tx = 1) /\
  (exists v, 0 < v /\ is_derive (fun t => r t * cos t) th (v * tx) /\
             is_derive (fun t => r t * sin t) th (v * ty)) /\
  (0 < r th -> 0 < nx * cos th + ny * sin th).
Proof. exact frame_spec. Qed.
Print Assumptions C50_frame.

(** C50. With v the speed ds/dth of the curve, dT/dth = v curv N: the derivative
    of the unit tangent along arclength is eval_curv times the outward normal. *)
Theorem C50_curvature : forall r th tx ty nx ny,
  (forall t, ex_derive r t) -> (forall t, ex_derive (Derive r) t) ->
  (forall t, 0 < r t ^ 2 + Derive r t ^ 2) ->
  eval_tangent r th = (tx, ty) -> eval_normal r th = (nx, ny) ->
  let v := sqrt (r th ^ 2 + Derive r th ^ 2) in
  is_derive (fun t => r t * cos t) th (v * tx) /\ is_derive (fun t => r t * sin t) th (v * ty) /\
  is_derive (fun t => fst (eval_tangent r t)) th (v * (b_curv r th * nx)) /\
  is_derive (fun t => snd (eval_tangent r t)) th (v * (b_curv r th * ny)).
Proof. exact curvature_spec. Qed.
Print Assumptions C50_curvature.

Theorem C50_arc_curv : forall R0 th, 0 < R0 -> b_curv (r_arc R0) th = - 1 / R0.
Proof. exact arc_curv. Qed.
Print Assumptions C50_arc_curv.

Theorem C50_arc_normal : forall R0 th, 0 < R0 -> eval_normal (r_arc R0) th = (cos th, sin th).
Proof. exact arc_normal. Qed.
Print Assumptions C50_arc_normal.

(** The non-circular curve r = 2 + sin meets the hypotheses. *)
Example C50_nonvacuous : let r := fun th => 2 + sin th in
  (forall t, ex_derive r t) /\ (forall t, ex_derive (Derive r) t) /\
  (forall t, 0 < r t ^ 2 + Derive r t ^ 2).
Proof.
  intros r.
  assert (E : forall t, is_derive r t (cos t)) by (intros t; unfold r; auto_derive; [auto|ring]).
  assert (E' : forall t, Derive r t = cos t) by (intros t; apply is_derive_unique, E).
  split; [intros t; eexists; apply E|]. split.
  - intros t. apply ex_derive_ext with cos; [intros; symmetry; apply E'|].
    auto_derive; auto.
  - intros t. unfold r. pose proof (SIN_bound t). pose proof (pow2_ge_0 (Derive (fun th => 2 + sin th) t)).
    assert (0 < (2 + sin t) ^ 2) by (apply pow_lt; lra). lra.
Qed.

(** C09. A node is listed under a segment exactly when that segment of the
    arc domain comes within sqrt(2) h of it. *)
Theorem C09_claim_iff : forall brentq R0 a AD_len N, brentq_contract brentq ->
  0 < R0 -> 0 < a < PI -> forall sid p x y, (sid < 3)%nat ->
  get_coord AD_len N (fst p) (snd p) = (x, y) ->
  (seg_claims R0 a AD_len N (node_bcoord brentq (r_arc R0) a AD_len N) sid p = Ok true <->
   exists b, on_seg R0 a sid b /\ dist2 b (x, y) <= AD_len / IZR N * sqrt 2).
Proof. exact claims_iff. Qed.
Print Assumptions C09_claim_iff.

(** C09. Every node of the discrete boundary is attributed to a segment: the
    assertion never fires, and the three lists cover the discrete boundary. *)
Theorem C09_placed : forall brentq R0 a AD_len N, brentq_contract brentq ->
  0 < R0 -> 0 < a < PI -> 0 < AD_len -> (1 <= N)%Z ->
  forall order union_gamma, (order = 2 \/ order = 4)%Z ->
  enumerates union_gamma (gamma_set order N (ps_is_interior (r_arc R0) a AD_len N)) ->
  exists g0 g1 g2,
    all_gamma R0 a AD_len N (node_bcoord brentq (r_arc R0) a AD_len N) union_gamma = Ok (g0, g1, g2) /\
    (forall p, In p union_gamma <-> In p g0 \/ In p g1 \/ In p g2) /\
    NoDup g0 /\ NoDup g1 /\ NoDup g2.
Proof. exact gamma_placed_spec. Qed.
Print Assumptions C09_placed.

(** C09. The point test is membership in the disc minus the open wedge. *)
Theorem C09_interior : forall R0 a x y, 0 < a < PI -> 0 <= R0 ->
  (interior_xy (r_arc R0) a x y = true <-> in_domain R0 a (x, y)).
Proof. exact interior_arc_iff. Qed.
Print Assumptions C09_interior.

(** A root finder exists, and the grid N = 4 over a square of side 4 with the
    arc of radius 1 has the origin in its discrete boundary. *)
Example C09_nonvacuous : brentq_contract min_zero /\
  In (2, 2)%Z (gamma_set 4 4 (ps_is_interior (r_arc 1) (PI / 4) 4 4)).
Proof. split; [exact min_zero_contract|apply (coarse_origin min_zero min_zero_contract)]. Qed.

(** C10. Under the bound, every node of the discrete boundary is in one or two
    of the three lists, never in all three. *)
Theorem C10_at_most_two : forall brentq R0 a AD_len N, brentq_contract brentq ->
  0 < R0 -> 0 < a < PI -> 0 < AD_len -> (1 <= N)%Z ->
  R0 > AD_len / IZR N * sqrt 2 * (1 + sqrt (2 / (1 - Rabs (cos a)))) ->
  forall order union_gamma g0 g1 g2, (order = 2 \/ order = 4)%Z ->
  enumerates union_gamma (gamma_set order N (ps_is_interior (r_arc R0) a AD_len N)) ->
  all_gamma R0 a AD_len N (node_bcoord brentq (r_arc R0) a AD_len N) union_gamma = Ok (g0, g1, g2) ->
  forall p, ~ (In p g0 /\ In p g1 /\ In p g2).
Proof. exact at_most_two. Qed.
Print Assumptions C10_at_most_two.

(** C10. On a coarse grid the origin is claimed by all three segments, so its
    multivalue list would have three entries and reduce() would assert. *)
Theorem C10_coarse_refuted : forall brentq, brentq_contract brentq ->
  exists R0 a AD_len N p, 0 < R0 /\ 0 < a < PI /\ 0 < AD_len /\ (1 <= N)%Z /\
  In p (gamma_set 4 N (ps_is_interior (r_arc R0) a AD_len N)) /\
  forall sid, (sid < 3)%nat ->
    seg_claims R0 a AD_len N (node_bcoord brentq (r_arc R0) a AD_len N) sid p = Ok true.
Proof. exact coarse_three. Qed.
Print Assumptions C10_coarse_refuted.

(** The project's parameters (R = 2.3, side 2 pi, a = pi/4) with N = 64. *)
Example C10_nonvacuous :
  23 / 10 > 2 * PI / IZR 64 * sqrt 2 * (1 + sqrt (2 / (1 - Rabs (cos (PI / 4))))).
Proof. exact project_bound. Qed.
