(** The boundary data of the singular problems at the corners. *)
From Coq Require Import String ZArith List Bool Reals Lia Lra.
From Coquelicot Require Import Coquelicot.
From Verif Require Import Model_Py Model_Grid Model_Multivalue Model_Fourier Model_Domain
  Model_ZMethod Model_Problems Proof_Domain Proof_Boundary Proof_ZMethod.
Import ListNotations.
Open Scope R_scope.

Lemma sin_natPI : forall m, sin (INR m * PI) = 0.
Proof.
  induction m as [|m IH]; [simpl; rewrite Rmult_0_l; apply sin_0|].
  rewrite S_INR. replace ((INR m + 1) * PI) with (INR m * PI + PI) by ring. rewrite neg_sin, IH. ring.
Qed.

Lemma sin_half : forall n, sin ((INR n + 1 / 2) * PI) = (-1) ^ n.
Proof.
  induction n as [|n IH].
  - simpl. replace ((0 + 1 / 2) * PI) with (PI / 2) by field. apply sin_PI2.
  - rewrite S_INR. replace ((INR n + 1 + 1 / 2) * PI) with ((INR n + 1 / 2) * PI + PI) by ring.
    rewrite neg_sin, IH. simpl. ring.
Qed.

Section Corner.
Variables (nu a : R).
Hypothesis (Hnu : nu * (2 * PI - a) = PI) (Ha : 0 < a < 2 * PI).

Lemma edge1 : sin (nu / 2 * (2 * PI - a)) = 1.
Proof. replace (nu / 2 * (2 * PI - a)) with (PI / 2) by (rewrite <- Hnu at 1; field). apply sin_PI2. Qed.

Lemma edge3 : sin (3 * nu / 2 * (a - 2 * PI)) = 1.
Proof.
  replace (3 * nu / 2 * (a - 2 * PI)) with (- ((1 + 1 / 2) * PI)) by (rewrite <- Hnu at 1; field).
  rewrite sin_neg. pose proof (sin_half 1) as E. simpl in E. rewrite E. ring.
Qed.

Lemma ih_edges : forall J n k r,
  ih_eval_v J (INR n) k nu a r (2 * PI) = (-1) ^ n * J ((INR n + 1 / 2) * nu) (k * r) /\
  ih_eval_v J (INR n) k nu a r a = 0.
Proof.
  intros J n k r. unfold ih_eval_v. split.
  - rewrite Rmult_assoc, Hnu, sin_half. ring.
  - replace ((INR n + 1 / 2) * nu * (a - a)) with 0 by ring. rewrite sin_0. ring.
Qed.

Lemma ih_v_g : forall J k r,
  ih_eval_v J 0 k nu a r (2 * PI) = J (nu / 2) (k * r) /\ ih_eval_v J 0 k nu a r a = 0 /\
  ih_g J 0 k nu a r (2 * PI) = J (nu / 2) (k * r) /\ ih_g J 0 k nu a r a = 0.
Proof.
  intros J k r. destruct (ih_edges J 0 k r) as [E1 E2]. simpl in E1, E2.
  assert (E : (0 + 1 / 2) * nu = nu / 2) by field. rewrite E in E1. rewrite E1.
  split; [ring|]. split; [exact E2|]. unfold ih_g. rewrite E. split; field; lra.
Qed.

Lemma quad_v_g : forall J k r,
  quad_eval_v J k nu a r (2 * PI) = J (nu / 2) (k * r) /\
  quad_eval_v J k nu a r a = J (3 * nu / 2) (k * r) /\
  quad_g J k nu a r (2 * PI) = J (nu / 2) (k * r) /\
  quad_g J k nu a r a = J (3 * nu / 2) (k * r).
Proof.
  intros J k r. unfold quad_eval_v, quad_g. rewrite edge1, edge3.
  replace (3 * nu / 2 * (2 * PI - 2 * PI)) with 0 by ring.
  replace (nu / 2 * (a - a)) with 0 by ring. rewrite sin_0. repeat split; try ring; field; lra.
Qed.

Lemma phi_corners : forall J k eval_r R0, 0 < R0 -> eval_r a = R0 -> eval_r (2 * PI) = R0 ->
  (iz_phi0 J 0 k nu a eval_r (2 * PI) = iz_phi1 J 0 k nu a R0 /\ iz_phi0 J 0 k nu a eval_r a = iz_phi2 R0) /\
  (line_phi0 J 0 k nu a eval_r (2 * PI) = line_phi1 J 0 k nu R0 /\ line_phi0 J 0 k nu a eval_r a = line_phi2 R0) /\
  (quad_phi0 J k nu a eval_r (2 * PI) = quad_phi1 J k nu R0 /\ quad_phi0 J k nu a eval_r a = quad_phi2 J k nu R0).
Proof.
  intros J k eval_r R0 HR E1 E2.
  unfold iz_phi0, iz_phi1, iz_phi2, line_phi0, line_phi1, line_phi2, quad_phi0, quad_phi1, quad_phi2.
  rewrite E1, E2. destruct (Rltb_spec 0 R0); [|lra]. cbv zeta.
  split; [split; [reflexivity|apply ih_v_g]|]. split; split; field; lra.
Qed.

(** The radius data are the values of v on the edges. *)
Lemma phi_v : forall J k r, 0 < r ->
  (iz_phi1 J 0 k nu a r = ih_eval_v J 0 k nu a r (2 * PI) /\ iz_phi2 r = ih_eval_v J 0 k nu a r a) /\
  (line_phi1 J 0 k nu r = ih_eval_v J 0 k nu a r (2 * PI) /\ line_phi2 r = ih_eval_v J 0 k nu a r a) /\
  (quad_phi1 J k nu r = quad_eval_v J k nu a r (2 * PI) /\ quad_phi2 J k nu r = quad_eval_v J k nu a r a).
Proof.
  intros J k r Hr. destruct (ih_v_g J k r) as [E1 [E2 _]]. destruct (quad_v_g J k r) as [E3 [E4 _]].
  rewrite E1, E2, E3, E4. unfold iz_phi1, iz_phi2, line_phi1, line_phi2, quad_phi1, quad_phi2.
  destruct (Rltb_spec 0 r); [|lra]. rewrite E1.
  replace ((0 + 1 / 2) * nu) with (nu / 2) by field. repeat split.
Qed.

(** The modes vanish on both edges. *)
Lemma mode_edge : forall m, sin (INR m * nu * (2 * PI - a)) = 0 /\ sin (INR m * nu * (a - a)) = 0.
Proof.
  intros m. split.
  - rewrite Rmult_assoc, Hnu. apply sin_natPI.
  - replace (INR m * nu * (a - a)) with 0 by ring. apply sin_0.
Qed.

Lemma fold_modes : forall (c : nat -> C) (s : nat -> R) l z, (forall m, s m = 0) ->
  fold_left (fun bc m => Cminus bc (Cmult (c m) (RtoC (s m)))) l z = z.
Proof.
  intros c s l z Hs. revert z. induction l as [|m l IH]; intros z; [reflexivity|].
  cbn [fold_left]. rewrite IH, Hs. unfold Cminus, Cplus, Copp, Cmult, RtoC. destruct z, (c m). cbn [fst snd].
  f_equal; ring.
Qed.

Lemma u_bc_corners : forall jv phi0 phi1 phi2 v a_coef eval_r k M R0,
  0 < R0 -> eval_r a = R0 -> eval_r (2 * PI) = R0 -> phi0 (2 * PI) = phi1 R0 -> phi0 a = phi2 R0 ->
  zm_u_bc jv phi0 phi1 phi2 v a_coef eval_r a nu k M (2 * PI) 0 =
    zm_u_bc jv phi0 phi1 phi2 v a_coef eval_r a nu k M R0 1 /\
  zm_u_bc jv phi0 phi1 phi2 v a_coef eval_r a nu k M a 0 =
    zm_u_bc jv phi0 phi1 phi2 v a_coef eval_r a nu k M R0 2.
Proof.
  intros jv phi0 phi1 phi2 v a_coef eval_r k M R0 HR E1 E2 P1 P2.
  unfold zm_u_bc. cbn [arg_to_polar Nat.eqb andb]. rewrite E1, E2, <- P1, <- P2.
  destruct (Rleb_spec 0 R0); [|lra]. split; f_equal.
  - apply (fold_modes (fun m => nth (m - 1) a_coef (RtoC 0))
      (fun m => jv (INR m * nu) (k * R0) * sin (INR m * nu * (2 * PI - a)))).
    intros m. destruct (mode_edge m) as [-> _]. ring.
  - apply (fold_modes (fun m => nth (m - 1) a_coef (RtoC 0))
      (fun m => jv (INR m * nu) (k * R0) * sin (INR m * nu * (a - a)))).
    intros m. destruct (mode_edge m) as [_ ->]. ring.
Qed.

(** At the tip, with v_asympt evaluated through my_lambdify. *)
Lemma u_bc_tip : forall jv phi0 phi1 phi2 e a_coef eval_r k M, phi1 0 = 0 -> phi2 0 = 0 ->
  zm_u_bc jv phi0 phi1 phi2 (zm_lambdify e) a_coef eval_r a nu k M 0 1 = Ok (RtoC 0) /\
  zm_u_bc jv phi0 phi1 phi2 (zm_lambdify e) a_coef eval_r a nu k M 0 2 = Ok (RtoC 0).
Proof.
  intros jv phi0 phi1 phi2 e a_coef eval_r k M P1 P2. unfold zm_u_bc, zm_lambdify.
  cbn [arg_to_polar Nat.eqb andb]. destruct (Rleb_spec 0 0); [|lra]. destruct (Reqb_spec 0 0); [|lra].
  rewrite P1, P2. split; f_equal; f_equal; ring.
Qed.

(** The arc data of the z problem take the values of g at the ends. *)
Lemma z_phi0_ends : forall z1 k g arc_R M, arc_R <> 0 ->
  let gq := zm_lambdify (fun r th => g r th + zm_q k a g r th) in
  zm_z_phi0 z1 gq a nu arc_R M (2 * PI) = g arc_R (2 * PI) /\
  zm_z_phi0 z1 gq a nu arc_R M a = g arc_R a.
Proof.
  intros z1 k g arc_R M HR gq.
  assert (F : forall s, (forall m, s m = 0) -> forall l (x : R),
    fold_left (fun acc m => acc + z1 (m - 1)%nat * s m) l x = x).
  { intros s Hs. induction l as [|m l IH]; intros x; [reflexivity|]. cbn [fold_left]. rewrite IH, Hs. ring. }
  destruct (zm_q_edges k a g arc_R ltac:(lra)) as [Q1 [Q2 _]].
  unfold zm_z_phi0, gq, zm_lambdify. destruct (Reqb_spec arc_R 0) as [|_]; [lra|].
  rewrite (F (fun m => sin (INR m * nu * (2 * PI - a)))) by (intros m; apply mode_edge).
  rewrite (F (fun m => sin (INR m * nu * (a - a)))) by (intros m; apply mode_edge).
  rewrite Q1, Q2. split; ring.
Qed.
End Corner.
