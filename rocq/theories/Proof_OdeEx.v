(** Data for the example of C69: on the slit disc (a = 0, nu = 1/2) with k = 2,
    g = sin(2 x) and v = g + sin(2 r) / sqrt r * sin(th / 2). *)
From Coq Require Import ZArith List Bool Reals Lia Lra.
From Coquelicot Require Import Coquelicot.
From Verif Require Import Model_Py Model_Grid Model_Fourier Model_Domain Model_Ode Model_ZMethod Lib_Csum
  Proof_Domain Proof_Fourier Proof_ArcDst Proof_Consist Proof_Ode Proof_OdeExact Proof_ZMethod Proof_ZEx
  Proof_OdeProgram Spec_Fd Spec_PolarFD Spec_Ode.
Import ListNotations.
Open Scope R_scope.

Definition oe_u (i : nat) (r : R) : R :=
  match i with
  | 0%nat => sin (2 * r) / sqrt r
  | 1%nat => 2 * cos (2 * r) / sqrt r - sin (2 * r) / (2 * r * sqrt r)
  | _ => - 4 * sin (2 * r) / sqrt r - 2 * cos (2 * r) / (r * sqrt r) + 3 / 4 * sin (2 * r) / (r ^ 2 * sqrt r)
  end.
Definition oe_v (r th : R) : R := zx_v r th + oe_u 0 r * sin (1 / 2 * (th - 0)).
Definition oe_V (i j : nat) (r th : R) : R := zx_V i j r th + oe_u i r * sin_d (1 / 2) 0 j th.

Lemma oe_u_derive : forall i r, (i < 2)%nat -> 0 < r -> is_derive (oe_u i) r (oe_u (S i) r).
Proof.
  intros i r Hi Hr. pose proof (sqrt_lt_R0 r Hr) as Hs. pose proof (sqrt_sqrt r (Rlt_le _ _ Hr)) as E.
  destruct i as [|[|i]]; [| |lia].
  - change (is_derive (fun r => sin (2 * r) / sqrt r) r (2 * cos (2 * r) / sqrt r - sin (2 * r) / (2 * r * sqrt r))).
    auto_derive; [repeat split; try assumption; lra|].
    set (C0 := cos (2 * r)). set (S0 := sin (2 * r)). clearbody C0 S0.
    set (s := sqrt r) in *. clearbody s. subst r. field. lra.
  - change (is_derive (fun r => 2 * cos (2 * r) / sqrt r - sin (2 * r) / (2 * r * sqrt r)) r
      (- 4 * sin (2 * r) / sqrt r - 2 * cos (2 * r) / (r * sqrt r) + 3 / 4 * sin (2 * r) / (r ^ 2 * sqrt r))).
    auto_derive; [repeat split; try assumption; try nra; apply Rgt_not_eq; nra|].
    set (C0 := cos (2 * r)). set (S0 := sin (2 * r)). clearbody C0 S0.
    set (s := sqrt r) in *. clearbody s. subst r. field. lra.
Qed.

Lemma oe_u_eq : forall r, 0 < r -> oe_u 2 r = - oe_u 1 r / r - (2 ^ 2 - (INR (0 + 1) * (1 / 2) / r) ^ 2) * oe_u 0 r.
Proof. intros r Hr. pose proof (sqrt_lt_R0 r Hr). unfold oe_u. simpl INR. field. lra. Qed.

Lemma oe_nu : PI / (2 * PI - 0) = 1 / 2.
Proof. pose proof PI_RGT_0. field. lra. Qed.

Lemma oe_v_partials : partials 2 right_half oe_v oe_V.
Proof.
  destruct zx_v_partials as [H0 H]. split.
  - intros x y. unfold oe_V, oe_v. rewrite H0. reflexivity.
  - intros i j Hij r th Hr. destruct (H i j Hij r th Hr) as [A1 A2]. unfold oe_V. split.
    + apply (is_derive_plus (V := R_NormedModule)); [exact A1|].
      apply (is_derive_ext (fun t => sin_d (1 / 2) 0 j th * oe_u i t)); [intros t; apply Rmult_comm|].
      rewrite (Rmult_comm (oe_u (S i) r)). apply is_derive_scal. apply oe_u_derive; [lia|exact Hr].
    + apply (is_derive_plus (V := R_NormedModule)); [exact A2|].
      apply is_derive_scal. apply sin_d_derive. lia.
Qed.

Lemma oe_v_solves : forall r th, 0 < r -> polar_helmholtz 2 oe_V r th = 0.
Proof.
  intros r th Hr. pose proof (zx_v_solves r th Hr) as H. unfold polar_helmholtz in *. unfold oe_V.
  rewrite (oe_u_eq r Hr). simpl INR. unfold sin_d.
  replace (zx_V 2 0 r th) with (- (zx_V 1 0 r th / r + zx_V 0 2 r th / r ^ 2 + 2 ^ 2 * zx_V 0 0 r th)) by lra.
  field. lra.
Qed.

Lemma oe_f0 : forall r th, 0 < r -> zm_f0 2 zx_v r th = 0.
Proof.
  intros r th Hr. unfold zm_f0. rewrite (helm_partials 2 _ _ r th zx_v_partials Hr), zx_v_solves by assumption. ring.
Qed.

Lemma oe_q : forall r th, 0 < r -> zm_q 2 0 zx_v r th = 0.
Proof. intros r th Hr. unfold zm_q, zm_q1, zm_q2. rewrite !oe_f0 by assumption. ring. Qed.

Lemma near_pos : forall r (P : R -> Prop), 0 < r -> (forall t, 0 < t -> P t) -> locally r P.
Proof.
  intros r P Hr H. exists (mkposreal r Hr). intros t Ht. apply H.
  change (Rabs (t - r) < r) in Ht. apply Rabs_def2 in Ht. lra.
Qed.

Lemma oe_f1 : forall r th, 0 < r -> zm_f1 2 0 zx_v r th = 0.
Proof.
  intros r th Hr. unfold zm_f1. rewrite oe_f0 by assumption.
  assert (HQ : partials 2 right_half (zm_q 2 0 zx_v)
    (fun i j r th => match i, j with 0%nat, 0%nat => zm_q 2 0 zx_v r th | _, _ => 0 end)).
  { split; [reflexivity|]. intros i j Hij x y Hx.
    assert (Z0 : is_derive (fun _ : R => 0) x 0) by exact (is_derive_const (K := R_AbsRing) (V := R_NormedModule) 0 _).
    assert (Z1 : is_derive (fun _ : R => 0) y 0) by exact (is_derive_const (K := R_AbsRing) (V := R_NormedModule) 0 _).
    destruct i as [|i]; destruct j as [|j]; try (split; assumption). split.
    - apply (is_derive_ext_loc (fun _ => 0)); [|exact Z0].
      apply near_pos; [exact Hx|]. intros t Ht. symmetry. apply oe_q. exact Ht.
    - apply (is_derive_ext (fun _ => 0)); [|exact Z1]. intros t. symmetry. apply oe_q. exact Hx. }
  rewrite (helm_partials 2 _ _ r th HQ Hr). unfold polar_helmholtz. rewrite oe_q by assumption. field. lra.
Qed.

Lemma oe_initial : forall r th, 0 < r -> zm_initial 2 0 oe_v zx_v r th = oe_u 0 r * sin (1 / 2 * (th - 0)).
Proof. intros r th Hr. unfold zm_initial, oe_v. rewrite oe_q by assumption. ring. Qed.

Lemma oe_d_initial : forall r th, 0 < r -> zm_d_initial 2 0 oe_v zx_v r th = oe_u 1 r * sin (1 / 2 * (th - 0)).
Proof.
  intros r th Hr. unfold zm_d_initial, diff_r. apply is_derive_unique.
  apply (is_derive_ext_loc (fun t => sin (1 / 2 * (th - 0)) * oe_u 0 t)).
  - apply near_pos; [exact Hr|]. intros t Ht. rewrite oe_initial by exact Ht. apply Rmult_comm.
  - rewrite (Rmult_comm (oe_u 1 r)). apply is_derive_scal. apply oe_u_derive; [lia|exact Hr].
Qed.

Lemma oe_series : forall N c th, (1 <= N)%nat ->
  c * sin (1 / 2 * (th - 0)) = sine_series 0 (PI / (2 * PI - 0)) N (fun m => if Nat.ltb m 1 then c else 0) th.
Proof.
  intros N c th HN. rewrite oe_nu.
  rewrite <- (sine_series_pad 0 (1 / 2) 1 N (fun _ => c)) by assumption.
  unfold sine_series. cbn [rsum]. simpl INR.
  replace ((0 + 1) * (1 / 2) * (th - 0)) with (1 / 2 * (th - 0)) by ring. ring.
Qed.

Lemma oe_dst : forall N c func, (1 <= N)%nat ->
  (forall th, 0 < th < 2 * PI -> func th = c * sin (1 / 2 * (th - 0))) -> ode_dst 0 N func 0 = c.
Proof.
  intros N c func HN H. pose proof PI_RGT_0.
  apply (ode_dst_modes 0 N (fun m => if Nat.ltb m 1 then c else 0)); [lra|lia|].
  intros th Hth. rewrite H by assumption. apply oe_series. assumption.
Qed.

Definition oe_odeint (deriv : (nat -> R) -> R -> result (nat -> R)) (dim : nat) (ic : nat -> R) (R0 R1 : R) (i : nat) : R :=
  oe_u i R1.

Lemma oe_trajectory :
  let init := zm_lambdify (zm_initial 2 0 oe_v zx_v) in
  let d_init := zm_lambdify (zm_d_initial 2 0 oe_v zx_v) in
  let f1 := zm_lambdify (zm_f1 2 0 zx_v) in
  let deriv := ode_eval_deriv 0 (PI / (2 * PI - 0)) 2 ode_fourier_N f1 1 in
  let ic := ode_ic 0 zm_R0 ode_fourier_N init d_init in
  trajectory deriv (2 * 1) ic zm_R0 (23 / 10) (oe_odeint deriv (2 * 1)%nat ic zm_R0 (23 / 10)).
Proof.
  intros init d_init f1 deriv ic. assert (HN : (1 <= ode_fourier_N)%nat) by (unfold ode_fourier_N; lia).
  assert (HR : 0 < zm_R0) by (unfold zm_R0; lra).
  assert (HC : forall i r, (i < 2)%nat -> 0 < r -> continuous (oe_u i) r).
  { intros i r Hi Hr. apply (ex_derive_continuous (K := R_AbsRing) (V := R_NormedModule)).
    exists (oe_u (S i) r). apply oe_u_derive; assumption. }
  exists (fun r i => oe_u i r). split; [|split].
  - intros i Hi. split; [|reflexivity]. unfold ic, ode_ic. destruct i as [|[|i]]; [| |lia].
    + cbn -[ode_dst ode_fourier_N oe_u]. symmetry. apply oe_dst; [assumption|]. intros th _.
      unfold init. rewrite lambdify_pos, oe_initial by assumption. reflexivity.
    + cbn -[ode_dst ode_fourier_N oe_u]. symmetry. apply oe_dst; [assumption|]. intros th _.
      unfold d_init. rewrite lambdify_pos, oe_d_initial by assumption. reflexivity.
  - intros i r Hi Hr. apply HC; [lia|lra].
  - intros r Hr. unfold deriv, ode_eval_deriv. destruct (Reqb_spec r 0) as [E|E]; [lra|].
    eexists. split; [reflexivity|]. intros i Hi. destruct i as [|[|i]]; [| |lia].
    + cbn -[ode_dst ode_fourier_N oe_u]. apply oe_u_derive; [lia|lra].
    + cbn -[ode_dst ode_fourier_N oe_u pow INR].
      rewrite (oe_dst ode_fourier_N 0) by
        (try assumption; intros th _; unfold f1; rewrite lambdify_pos, oe_f1 by lra; ring).
      rewrite Rplus_0_r, oe_nu. change 1%nat with (0 + 1)%nat at 2. rewrite <- oe_u_eq by lra.
      apply oe_u_derive; [lia|lra].
Qed.

Lemma oe_hyps :
  (1 <= ode_fourier_N)%nat /\ 0 < zm_R0 < 23 / 10 /\
  partials 2 right_half oe_v oe_V /\ partials 2 right_half zx_v zx_V /\
  (forall r th, 0 < r -> polar_helmholtz 2 oe_V r th = 0) /\
  (forall r th, 0 < r -> 0 = zm_f0 2 zx_v r th) /\
  (forall r, zm_R0 < r <= 23 / 10 -> exists c, forall th, 0 < th < 2 * PI ->
     zm_initial 2 0 oe_v zx_v r th = sine_series 0 (PI / (2 * PI - 0)) ode_fourier_N c th) /\
  (forall th, 0 < th < 2 * PI -> is_derive (fun r => oe_v r th) zm_R0 (oe_V 1 0 zm_R0 th)) /\
  oe_u 0 1 <> 0.
Proof.
  assert (HR : 0 < zm_R0) by (unfold zm_R0; lra).
  assert (HN : (1 <= ode_fourier_N)%nat) by (unfold ode_fourier_N; lia).
  repeat match goal with |- _ /\ _ => split end.
  - exact HN.
  - exact HR.
  - unfold zm_R0; lra.
  - exact oe_v_partials.
  - exact zx_v_partials.
  - exact oe_v_solves.
  - intros r th Hr. symmetry. apply oe_f0. assumption.
  - intros r Hr. eexists. intros th _. rewrite oe_initial by lra. apply oe_series. exact HN.
  - intros th _. destruct oe_v_partials as [H0 H].
    apply (is_derive_ext (fun r => oe_V 0 0 r th)); [intros; apply H0|].
    apply (H 0%nat 0%nat ltac:(lia) zm_R0 th). exact HR.
  - unfold oe_u. rewrite Rmult_1_r, sqrt_1. pose proof PI2_1.
    assert (0 < sin 2) by (apply sin_gt_0; pose proof PI2_3_2; lra). lra.
Qed.
