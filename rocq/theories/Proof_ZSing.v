(** The singular parts used by the regularisation: smoothness of the tapered
    series, and the exact v (C59, C60). *)
From Coq Require Import ZArith List Bool Reals Lia Lra.
From Coquelicot Require Import Coquelicot.
From Verif Require Import Model_Py Model_Fourier Model_Domain Model_ZMethod Model_Problems Lib_Csum
  Proof_Domain Proof_ZMethod Proof_Bessel Proof_BesselJ Proof_Taper Proof_Corners Proof_Regular
  Spec_Fd Spec_PolarFD Spec_Problems Spec_Bessel Spec_ZRun.
Import ListNotations.
Open Scope R_scope.

(** Multiplying by a twice differentiable function of r. *)
Definition times_r (T : nat -> R -> R) (U : nat -> nat -> R -> R -> R) (i j : nat) (r th : R) : R :=
  match i with
  | O => T 0%nat r * U 0%nat j r th
  | S O => T 1%nat r * U 0%nat j r th + T 0%nat r * U 1%nat j r th
  | _ => T 2%nat r * U 0%nat j r th + 2 * (T 1%nat r * U 1%nat j r th) + T 0%nat r * U 2%nat j r th
  end.

Lemma is_derive_val : forall (f : R -> R) (x l l' : R), is_derive f x l -> l = l' -> is_derive f x l'.
Proof. intros f x l l' H <-. exact H. Qed.

Lemma is_derive_mult_R : forall (f g : R -> R) (x df dg : R), is_derive f x df -> is_derive g x dg ->
  is_derive (fun t => f t * g t) x (df * g x + f x * dg).
Proof. intros f g x df dg Hf Hg. apply (is_derive_mult f g x df dg Hf Hg). intros. apply Rmult_comm. Qed.

Lemma is_derive_plus_R : forall (f g : R -> R) (x df dg : R), is_derive f x df -> is_derive g x dg ->
  is_derive (fun t => f t + g t) x (df + dg).
Proof. intros f g x df dg Hf Hg. exact (is_derive_plus f g x df dg Hf Hg). Qed.

Lemma is_derive_scal_R : forall (f : R -> R) (x c df : R), is_derive f x df -> is_derive (fun t => c * f t) x (c * df).
Proof. intros f x c df Hf. exact (is_derive_scal f x c df Hf). Qed.

Lemma is_derive_const_R : forall (c x : R), is_derive (fun _ : R => c) x 0.
Proof. intros c x. exact (is_derive_const c x). Qed.

Lemma times_r_partials : forall T u U (D : R -> R -> Prop), partials 2 D u U ->
  (forall n r, (n < 2)%nat -> is_derive (T n) r (T (S n) r)) ->
  partials 2 D (fun r th => u r th * T 0%nat r) (times_r T U).
Proof.
  intros T u U D [U0 HU] HT. split; [intros x y; unfold times_r; rewrite U0; ring|].
  intros i j Hij x y HD. destruct i as [|[|i]]; [| |lia].
  - destruct (HU 0%nat j Hij x y HD) as [Dx Dy]. split; unfold times_r.
    + eapply is_derive_val; [apply is_derive_mult_R; [apply HT; lia|exact Dx]|]. cbv beta. ring.
    + apply is_derive_scal_R. exact Dy.
  - destruct j as [|j]; [|lia]. destruct (HU 0%nat 0%nat ltac:(lia) x y HD) as [Dx Dy].
    destruct (HU 1%nat 0%nat ltac:(lia) x y HD) as [Dxx Dxy]. split; unfold times_r.
    + eapply is_derive_val; [apply is_derive_plus_R; apply is_derive_mult_R;
        [apply (HT 1%nat); lia|exact Dx|apply (HT 0%nat); lia|exact Dxx]|]. cbv beta. ring.
    + apply is_derive_plus_R; apply is_derive_scal_R; assumption.
Qed.

Lemma tapered_partials : forall u U R1, zm_R0 < R1 -> partials 2 off_tip u U ->
  exists W, partials 2 off_tip (fun r th => u r th * tapering zm_R0 R1 r) W.
Proof.
  intros u U R1 HR HU. destruct (taper_spec zm_R0 R1 HR) as [_ [_ [_ [_ [T [T0 [HT _]]]]]]].
  exists (times_r T U). eapply partials_ext; [|apply (times_r_partials T u U off_tip HU)].
  - intros x y. cbv beta. rewrite T0. reflexivity.
  - intros n r Hn. apply HT. lia.
Qed.

Lemma ih_asympt_partials : forall gamma K k nu a R1, gamma_like gamma -> 0 < k -> 0 < (K + 1 / 2) * nu ->
  zm_R0 < R1 -> exists W, partials 2 off_tip (ih_v_asympt gamma K k nu a R1) W.
Proof.
  intros gamma K k nu a R1 Hg Hk Hnu HR.
  destruct (mode_series gamma K k nu a 1 Hg Hk Hnu) as [U [HU _]].
  destruct (tapered_partials _ U R1 HR HU) as [W HW]. exists W. exact HW.
Qed.

Lemma quad_asympt_partials : forall gamma k nu a R1, gamma_like gamma -> 0 < k -> 0 < nu ->
  zm_R0 < R1 -> exists W, partials 2 off_tip (quad_v_asympt gamma k nu a R1) W.
Proof.
  intros gamma k nu a R1 Hg Hk Hnu HR.
  destruct (mode_series gamma 0 k nu a 1 Hg Hk ltac:(lra)) as [U [HU _]].
  destruct (mode_series gamma 1 k nu (2 * PI) 1 Hg Hk ltac:(lra)) as [V [HV _]].
  destruct (tapered_partials _ _ R1 HR (partials_comb 2 off_tip _ _ U V 1 1 HU HV)) as [W HW].
  exists W. eapply partials_ext; [|exact HW]. intros x y. cbv beta. unfold quad_v_asympt, ih_nterms.
  replace ((0 + 1 / 2) * nu * (y - a)) with (nu / 2 * (y - a)) by field.
  replace ((1 + 1 / 2) * nu * (y - 2 * PI)) with (3 * nu / 2 * (y - 2 * PI)) by field. ring.
Qed.

(** The exact singular parts. *)
Lemma ih_v_solves : forall J K k nu a, 0 < k -> bessel_like J ((K + 1 / 2) * nu) ->
  exists V, partials 2 off_tip (ih_eval_v J K k nu a) V /\
    forall r th, 0 < r -> polar_helmholtz k V r th = 0.
Proof. intros J K k nu a Hk HJ. exact (mode_bessel J ((K + 1 / 2) * nu) k a Hk HJ). Qed.

Lemma quad_v_solves : forall J k nu a, 0 < k -> bessel_like J (nu / 2) -> bessel_like J (3 * nu / 2) ->
  exists V, partials 2 off_tip (quad_eval_v J k nu a) V /\
    forall r th, 0 < r -> polar_helmholtz k V r th = 0.
Proof.
  intros J k nu a Hk H1 H3.
  destruct (mode_bessel J (nu / 2) k a Hk H1) as [U [PU HU]].
  destruct (mode_bessel J (3 * nu / 2) k (2 * PI) Hk H3) as [V [PV HV]].
  exists (fun i j x y => 1 * U i j x y + 1 * V i j x y). split.
  - eapply partials_ext; [|exact (partials_comb 2 off_tip _ _ U V 1 1 PU PV)].
    intros x y. cbv beta. unfold quad_eval_v. ring.
  - intros r th Hr. rewrite helm_lin by exact Hr. rewrite HU, HV by exact Hr. ring.
Qed.

(** The remainder v - (g + q) vanishes on both edges. *)
Lemma z1_edges : forall k a (v g : R -> R -> R) r, 2 * PI - a <> 0 ->
  v r a = g r a -> v r (2 * PI) = g r (2 * PI) ->
  zm_initial k a v g r a = 0 /\ zm_initial k a v g r (2 * PI) = 0.
Proof.
  intros k a v g r Ha E1 E2. destruct (zm_q_edges k a g r Ha) as [Q1 [Q2 _]].
  unfold zm_initial. rewrite Q1, Q2, E1, E2. split; ring.
Qed.

(** ** The remainder for the concrete problems *)

(** Radial derivatives of J(p, k r), and of J(p, k r) / r^2. *)
Definition jr (J : R -> R -> R) (J1 J2 : R -> R) (p k : R) (i : nat) (r : R) : R :=
  match i with O => J p (k * r) | S O => k * J1 (k * r) | _ => k ^ 2 * J2 (k * r) end.
Definition jq (J : R -> R -> R) (J1 J2 : R -> R) (p k : R) (i : nat) (r : R) : R :=
  match i with
  | O => jr J J1 J2 p k 0 r / r ^ 2
  | S O => jr J J1 J2 p k 1 r / r ^ 2 - 2 * jr J J1 J2 p k 0 r / r ^ 3
  | _ => jr J J1 J2 p k 2 r / r ^ 2 - 4 * jr J J1 J2 p k 1 r / r ^ 3 + 6 * jr J J1 J2 p k 0 r / r ^ 4
  end.

Section Ramp.
Variables (J : R -> R -> R) (J1 J2 : R -> R) (p k : R).
Hypotheses (Hk : 0 < k) (HJ : forall x, 0 < x -> is_derive (J p) x (J1 x) /\ is_derive J1 x (J2 x) /\
  x ^ 2 * J2 x + x * J1 x + (x ^ 2 - p ^ 2) * J p x = 0).

Lemma jr_derive : forall i r, (i < 2)%nat -> 0 < r -> is_derive (jr J J1 J2 p k i) r (jr J J1 J2 p k (S i) r).
Proof using HJ Hk.
  intros i r Hi Hr. assert (Hkr : 0 < k * r) by nra. destruct (HJ (k * r) Hkr) as [D0 [D1 _]].
  assert (DI : is_derive (fun r => k * r) r k).
  { eapply is_derive_val; [apply is_derive_scal_R, (is_derive_id (K := R_AbsRing))|].
    change (k * 1 = k). ring. }
  destruct i as [|[|i]]; [| |lia]; cbn [jr].
  - eapply is_derive_val; [apply (is_derive_comp (J p) (fun r => k * r)); [exact D0|exact DI]|]. reflexivity.
  - eapply is_derive_val; [apply is_derive_scal_R; apply (is_derive_comp J1 (fun r => k * r)); [exact D1|exact DI]|].
    change (k * (k * J2 (k * r)) = k ^ 2 * J2 (k * r)). ring.
Qed.

Lemma jq_derive : forall i r, (i < 2)%nat -> 0 < r -> is_derive (jq J J1 J2 p k i) r (jq J J1 J2 p k (S i) r).
Proof using HJ Hk.
  intros i r Hi Hr.
  pose proof (jr_derive 0 r ltac:(lia) Hr) as D0. pose proof (jr_derive 1 r ltac:(lia) Hr) as D1.
  assert (I2 : is_derive (fun r => / r ^ 2) r (- 2 / r ^ 3)) by (auto_derive; [apply Rgt_not_eq; nra|field; lra]).
  assert (I3 : is_derive (fun r => / r ^ 3) r (- 3 / r ^ 4)).
  { pose proof (pow_lt r 3 Hr) as H3. auto_derive; [apply Rgt_not_eq; exact H3|field; lra]. }
  destruct i as [|[|i]]; [| |lia]; unfold jq.
  - eapply is_derive_val; [apply is_derive_mult_R; [exact D0|exact I2]|]. cbv beta. field. lra.
  - eapply is_derive_val.
    + apply (is_derive_minus (fun r => jr J J1 J2 p k 1 r / r ^ 2) (fun r => 2 * jr J J1 J2 p k 0 r / r ^ 3)).
      * apply is_derive_mult_R; [exact D1|exact I2].
      * apply is_derive_mult_R; [apply is_derive_scal_R; exact D0|exact I3].
    + unfold minus, plus, opp. cbn -[jr pow]. field. lra.
Qed.

(** A linear ramp in the angle times the Bessel function. *)
Definition ramp (al be : R) (i j : nat) (r th : R) : R :=
  jr J J1 J2 p k i r * match j with O => al * th + be | S O => al | _ => 0 end.

Lemma ramp_partials : forall al be, partials 2 off_tip (fun r th => J p (k * r) * (al * th + be)) (ramp al be).
Proof using HJ Hk.
  intros al be. split; [reflexivity|]. intros i j Hij r th Hr. unfold ramp. split.
  - eapply is_derive_val; [apply is_derive_mult_R; [apply jr_derive; [lia|exact Hr]|apply is_derive_const_R]|].
    cbv beta. ring.
  - apply is_derive_scal_R. destruct j as [|[|j]]; [| |lia]; auto_derive; try exact I; ring.
Qed.

Lemma ramp_image : forall al be r th, 0 < r ->
  polar_helmholtz k (ramp al be) r th = p ^ 2 * (al * th + be) * jq J J1 J2 p k 0 r.
Proof using HJ Hk.
  intros al be r th Hr. assert (Hkr : 0 < k * r) by nra. destruct (HJ (k * r) Hkr) as [_ [_ E]].
  unfold polar_helmholtz, ramp, jq, jr. 
  transitivity ((al * th + be) / r ^ 2 *
    ((k * r) ^ 2 * J2 (k * r) + k * r * J1 (k * r) + ((k * r) ^ 2 - p ^ 2) * J p (k * r))
    + p ^ 2 * (al * th + be) * (J p (k * r) / r ^ 2)); [field; lra|]. rewrite E. ring.
Qed.
End Ramp.

(** IH_Bessel (K = 0): the remainder v - (g + q) is twice differentiable off
    the tip, solves the equation with the source f1 and vanishes on the edges. *)
Lemma line_remainder : forall J k nu a, nu * (2 * PI - a) = PI -> 0 < a < 2 * PI -> 0 < k ->
  bessel_like J (nu / 2) ->
  let z1 := zm_initial k a (ih_eval_v J 0 k nu a) (ih_g J 0 k nu a) in
  (exists W, partials 2 off_tip z1 W /\
     forall r th, 0 < r -> polar_helmholtz k W r th = zm_f1 k a (ih_g J 0 k nu a) r th) /\
  forall r, z1 r a = 0 /\ z1 r (2 * PI) = 0.
Proof.
  intros J k nu a Hnu Ha Hk HB. cbv zeta.
  assert (E0 : (0 + 1 / 2) * nu = nu / 2) by field.
  assert (HB' : bessel_like J ((0 + 1 / 2) * nu)) by (rewrite E0; exact HB).
  split.
  - destruct (ih_v_solves J 0 k nu a Hk HB') as [V [PV HV]].
    destruct HB as [J1 [J2 HJ]].
    pose proof (ramp_partials J J1 J2 (nu / 2) k Hk HJ (/ (2 * PI - a)) (- a / (2 * PI - a))) as PG.
    assert (PG' : partials 2 off_tip (ih_g J 0 k nu a)
      (ramp J J1 J2 (nu / 2) k (/ (2 * PI - a)) (- a / (2 * PI - a)))).
    { eapply partials_ext; [|exact PG]. intros x y. cbv beta. unfold ih_g. rewrite E0. field. lra. }
    assert (F0 : forall r th, 0 < r -> zm_f0 k (ih_g J 0 k nu a) r th =
      - ((nu / 2) ^ 2 * ((th - a) / (2 * PI - a))) * jq J J1 J2 (nu / 2) k 0 r).
    { intros r th Hr. unfold zm_f0. rewrite (helm_partials k _ _ r th PG' Hr).
      rewrite (ramp_image J J1 J2 (nu / 2) k Hk HJ) by exact Hr.
      set (j := jq J J1 J2 (nu / 2) k 0 r). field. lra. }
    apply (z1_full k a (ih_g J 0 k nu a) (ih_eval_v J 0 k nu a) V
      (ramp J J1 J2 (nu / 2) k (/ (2 * PI - a)) (- a / (2 * PI - a))) (fun i r => 0)
      (fun i r => - (nu / 2) ^ 2 * jq J J1 J2 (nu / 2) k i r)); try assumption.
    + lra.
    + intros r Hr. rewrite F0 by exact Hr. set (j := jq J J1 J2 (nu / 2) k 0 r). field. lra.
    + intros r Hr. rewrite F0 by exact Hr. set (j := jq J J1 J2 (nu / 2) k 0 r). field. lra.
    + intros i r Hi Hr. apply is_derive_const_R.
    + intros i r Hi Hr. apply is_derive_scal_R. apply jq_derive; assumption.
  - intros r. destruct (ih_v_g nu a Hnu Ha J k r) as [A1 [A2 [A3 A4]]].
    apply z1_edges; [lra|congruence|congruence].
Qed.

(** The same for IHZ_Bessel_Quadratic. *)
Lemma quad_remainder : forall J k nu a, nu * (2 * PI - a) = PI -> 0 < a < 2 * PI -> 0 < k ->
  bessel_like J (nu / 2) -> bessel_like J (3 * nu / 2) ->
  let z1 := zm_initial k a (quad_eval_v J k nu a) (quad_g J k nu a) in
  (exists W, partials 2 off_tip z1 W /\
     forall r th, 0 < r -> polar_helmholtz k W r th = zm_f1 k a (quad_g J k nu a) r th) /\
  forall r, z1 r a = 0 /\ z1 r (2 * PI) = 0.
Proof.
  intros J k nu a Hnu Ha Hk HB HB3. cbv zeta. split.
  - destruct (quad_v_solves J k nu a Hk HB HB3) as [V [PV HV]].
    destruct HB as [J1 [J2 HJ]]. destruct HB3 as [L1 [L2 HL]].
    pose proof (ramp_partials J J1 J2 (nu / 2) k Hk HJ (/ (2 * PI - a)) (- a / (2 * PI - a))) as PG.
    pose proof (ramp_partials J L1 L2 (3 * nu / 2) k Hk HL (/ (a - 2 * PI)) (- (2 * PI) / (a - 2 * PI))) as PH.
    pose proof (partials_comb 2 off_tip _ _ _ _ 1 1 PG PH) as PC.
    match type of PC with partials _ _ _ ?U => set (GG := U) in PC end.
    assert (PG' : partials 2 off_tip (quad_g J k nu a) GG).
    { eapply partials_ext; [|exact PC]. intros x y. cbv beta. unfold quad_g. field. lra. }
    assert (F0 : forall r th, 0 < r -> zm_f0 k (quad_g J k nu a) r th =
      - ((nu / 2) ^ 2 * ((th - a) / (2 * PI - a))) * jq J J1 J2 (nu / 2) k 0 r
      - ((3 * nu / 2) ^ 2 * ((th - 2 * PI) / (a - 2 * PI))) * jq J L1 L2 (3 * nu / 2) k 0 r).
    { intros r th Hr. unfold zm_f0. rewrite (helm_partials k _ _ r th PG' Hr). unfold GG.
      rewrite helm_lin by exact Hr.
      rewrite (ramp_image J J1 J2 (nu / 2) k Hk HJ), (ramp_image J L1 L2 (3 * nu / 2) k Hk HL) by exact Hr.
      set (j1 := jq J J1 J2 (nu / 2) k 0 r). set (j3 := jq J L1 L2 (3 * nu / 2) k 0 r). field. lra. }
    apply (z1_full k a (quad_g J k nu a) (quad_eval_v J k nu a) V GG
      (fun i r => - (3 * nu / 2) ^ 2 * jq J L1 L2 (3 * nu / 2) k i r)
      (fun i r => - (nu / 2) ^ 2 * jq J J1 J2 (nu / 2) k i r)); try assumption.
    + lra.
    + intros r Hr. rewrite F0 by exact Hr.
      set (j1 := jq J J1 J2 (nu / 2) k 0 r). set (j3 := jq J L1 L2 (3 * nu / 2) k 0 r). field. lra.
    + intros r Hr. rewrite F0 by exact Hr.
      set (j1 := jq J J1 J2 (nu / 2) k 0 r). set (j3 := jq J L1 L2 (3 * nu / 2) k 0 r). field. lra.
    + intros i r Hi Hr. apply is_derive_scal_R. apply jq_derive; assumption.
    + intros i r Hi Hr. apply is_derive_scal_R. apply jq_derive; assumption.
  - intros r. destruct (quad_v_g nu a Hnu Ha J k r) as [A1 [A2 [A3 A4]]].
    apply z1_edges; [lra|congruence|congruence].
Qed.

(** ** The source of the quadratic problem *)

Lemma quad_source : forall gamma k nu a R1, gamma_like gamma -> 0 < k -> 0 < nu -> zm_R0 < R1 ->
  (exists c1 c3, forall r th, 0 < r < zm_R0 -> zm_f k (quad_v_asympt gamma k nu a R1) r th =
     c1 * Rpower r (2 + nu / 2) * sin (nu / 2 * (th - a))
     + c3 * Rpower r (2 + 3 * nu / 2) * sin (3 * nu / 2 * (th - 2 * PI))) /\
  (forall r th, R1 < r -> zm_f k (quad_v_asympt gamma k nu a R1) r th = 0).
Proof.
  intros gamma k nu a R1 Hg Hk Hnu HR.
  destruct (taper_spec zm_R0 R1 HR) as [T1 [T0 _]]. split.
  - destruct (mode_series gamma 0 k nu a 1 Hg Hk ltac:(lra)) as [U [HU HL]].
    destruct (mode_series gamma 1 k nu (2 * PI) 1 Hg Hk ltac:(lra)) as [V [HV HM]].
    destruct (bterm_power gamma ((0 + 1 / 2) * nu) k 1 Hk) as [c Hc].
    destruct (bterm_power gamma ((1 + 1 / 2) * nu) k 1 Hk) as [d Hd].
    exists (- (k ^ 2 * c)), (- (k ^ 2 * d)). intros r th Hr. unfold zm_f.
    pose proof (partials_comb 2 off_tip _ _ U V 1 1 HU HV) as PC.
    rewrite (helm_loc k _ (fun r th => 1 * (v_asympt0 gamma 0 k nu 2 r * sin ((0 + 1 / 2) * nu * (th - a)))
        + 1 * (v_asympt0 gamma 1 k nu 2 r * sin ((1 + 1 / 2) * nu * (th - 2 * PI))))
      r th (fun x => 0 < x < zm_R0) Hr (locally_between 0 zm_R0)).
    + rewrite (helm_partials k _ _ r th PC) by lra. rewrite helm_lin by lra.
      rewrite HL, HM, !last_term, Hc, Hd by lra.
      replace (2 * INR 1 + (0 + 1 / 2) * nu) with (2 + nu / 2) by (simpl; lra).
      replace (2 * INR 1 + (1 + 1 / 2) * nu) with (2 + 3 * nu / 2) by (simpl; lra).
      replace ((0 + 1 / 2) * nu) with (nu / 2) by field.
      replace ((1 + 1 / 2) * nu) with (3 * nu / 2) by field. ring.
    + intros x t Hx. unfold quad_v_asympt, ih_nterms. rewrite T1 by lra.
      replace ((0 + 1 / 2) * nu) with (nu / 2) by field.
      replace ((1 + 1 / 2) * nu) with (3 * nu / 2) by field. ring.
  - intros r th Hr. unfold zm_f.
    rewrite (helm_loc k _ (fun r th => 0) r th (fun x => R1 < x) Hr (locally_above R1)).
    + unfold apply_helmholtz_op, diff_r, diff_th.
      rewrite !(Derive_ext (fun x => Derive (fun _ => 0) x) (fun _ => 0)) by (intros; apply Derive_const).
      rewrite !Derive_const. unfold Rdiv. ring.
    + intros x t Hx. unfold quad_v_asympt. rewrite T0 by lra. ring.
Qed.
