(** Concrete data for the examples of C41 and C42. *)
From Coq Require Import ZArith List Bool Reals Lia Lra.
From Coquelicot Require Import Coquelicot.
From Verif Require Import Model_Py Model_Grid Model_Fourier Model_Domain Model_Ode Model_ZMethod Lib_Csum
  Proof_Domain Proof_Consist Proof_Ode Proof_ZMethod Spec_Fd Spec_PolarFD Spec_Ode.
Import ListNotations.
Open Scope R_scope.

(** C41: u = r sin(th - pi) with k = 2, so that L u = 4 r sin(th - pi). *)
Definition zx_init (r th : R) : R := r * sin (th - PI).
Definition zx_d_init (r th : R) : R := sin (th - PI).
Definition zx_f1 (r th : R) : R := 4 * r * sin (th - PI).
Definition zx_sol (i : nat) : R := match i with 0%nat => 2 | _ => 1 end.

Lemma zx_dst : forall N c func, (1 <= N)%nat -> (forall th, func th = c * sin (th - PI)) ->
  ode_dst PI N func 0 = c.
Proof.
  intros N c func HN H. pose proof PI_RGT_0.
  apply (ode_dst_series PI 1 N (fun _ => c) func 0); [lra|assumption|lia|].
  intros th. rewrite H. unfold sine_series. cbn [rsum]. simpl INR.
  replace ((0 + 1) * (PI / (2 * PI - PI)) * (th - PI)) with (th - PI) by (field; lra). ring.
Qed.

Lemma zx_trajectory : trajectory (ode_eval_deriv PI 1 2 ode_fourier_N zx_f1 1) 2
  (ode_ic PI (/ 10) ode_fourier_N zx_init zx_d_init) (/ 10) 2 zx_sol.
Proof.
  assert (HN : (1 <= ode_fourier_N)%nat) by (unfold ode_fourier_N; lia).
  exists (fun r i => match i with 0%nat => r | _ => 1 end). split; [|split].
  - intros i Hi. destruct i as [|[|i]]; [| |lia]; unfold ode_ic; simpl.
    + rewrite (zx_dst _ (/ 10)) by (try assumption; intros; reflexivity). split; reflexivity.
    + rewrite (zx_dst _ 1) by (try assumption; intros; unfold zx_d_init; ring). split; reflexivity.
  - intros i r Hi _. destruct i as [|i]; [apply continuous_id|apply continuous_const].
  - intros r Hr. unfold ode_eval_deriv. destruct (Reqb_spec r 0) as [E|E]; [lra|].
    eexists. split; [reflexivity|]. intros i Hi. destruct i as [|[|i]]; [| |lia].
    + simpl. apply (is_derive_id (K := R_AbsRing)).
    + cbn -[ode_dst ode_fourier_N]. rewrite (zx_dst _ (4 * r)) by (try assumption; intros; reflexivity).
      replace (- (1) / r - (2 * (2 * 1) - 1 * 1 / r * (1 * 1 / r * 1)) * r + 4 * r) with 0 by (field; lra).
      apply (is_derive_const (K := R_AbsRing) (V := R_NormedModule)).
Qed.

(** C42: v = sin(2 x) solves L v = 0 for k = 2, and g = r^2 has the source
    -(4 + 4 r^2) on both edges. *)
Definition zx_v (r th : R) : R := sin (2 * (r * cos th)).
Definition zx_V (i j : nat) (r th : R) : R :=
  let X := 2 * (r * cos th) in
  match i, j with
  | 0%nat, 0%nat => sin X
  | 1%nat, 0%nat => 2 * cos th * cos X
  | 0%nat, 1%nat => - 2 * r * sin th * cos X
  | 2%nat, 0%nat => - 4 * cos th ^ 2 * sin X
  | 1%nat, 1%nat => - 2 * sin th * cos X + 4 * r * sin th * cos th * sin X
  | 0%nat, 2%nat => - 2 * r * cos th * cos X - 4 * r ^ 2 * sin th ^ 2 * sin X
  | _, _ => 0
  end.
Definition zx_g (r th : R) : R := r ^ 2.
Definition zx_G (i j : nat) (r th : R) : R :=
  match i, j with 0%nat, 0%nat => r ^ 2 | 1%nat, 0%nat => 2 * r | 2%nat, 0%nat => 2 | _, _ => 0 end.
Definition zx_A (i : nat) (r : R) : R :=
  match i with 0%nat => - (4 + 4 * r ^ 2) | 1%nat => - (8 * r) | _ => - 8 end.

Lemma zx_v_partials : partials 2 right_half zx_v zx_V.
Proof.
  split; [reflexivity|]. intros i j Hij r th Hr.
  destruct i as [|[|i]]; destruct j as [|[|j]]; try lia; unfold zx_V; split;
    auto_derive; try exact I; ring.
Qed.

Lemma zx_v_solves : forall r th, 0 < r -> polar_helmholtz 2 zx_V r th = 0.
Proof.
  intros r th Hr. unfold polar_helmholtz, zx_V.
  pose proof (sin2_cos2 th) as E. unfold Rsqr in E.
  transitivity (4 * sin (2 * (r * cos th)) * (1 - (sin th * sin th + cos th * cos th))).
  - field. lra.
  - rewrite E. ring.
Qed.

Lemma zx_g_partials : partials 2 right_half zx_g zx_G.
Proof.
  split; [reflexivity|]. intros i j Hij r th Hr.
  destruct i as [|[|i]]; destruct j as [|[|j]]; try lia; unfold zx_G; split;
    auto_derive; try exact I; ring.
Qed.

Lemma zx_f0 : forall r th, 0 < r -> zx_A 0 r = zm_f0 2 zx_g r th.
Proof.
  intros r th Hr. unfold zm_f0. rewrite (helm_partials 2 _ _ r th zx_g_partials Hr).
  unfold polar_helmholtz, zx_G, zx_A. field. lra.
Qed.

Lemma zx_A_derive : forall i r, (i < 2)%nat -> 0 < r -> is_derive (zx_A i) r (zx_A (S i) r).
Proof.
  intros i r Hi Hr. destruct i as [|[|i]]; [| |lia]; unfold zx_A; auto_derive; try exact I; ring.
Qed.
