(** A library whose spsolve and odeint keep their contracts (C86). *)
From Coq Require Import String ZArith List Reals Lia Lra Psatz.
From Coquelicot Require Import Coquelicot.
From Verif Require Import Model_Py Model_Grid Model_Fourier Model_Domain Model_Abcoef Model_Ode Model_PolarFD Model_ZMethod Model_Problems Model_ZRun Model_Run Model_Program Model_ZProgram
  Lib_Csum Spec_PolarFD Spec_Ode Spec_Problems Spec_Bessel Spec_Program Spec_OdeAcc Spec_PolarAcc
  Proof_TightEx Proof_Bessel Proof_ZProgram Proof_Program Proof_RunEx Proof_ZRunEx Proof_OdeSing Proof_OdeAccEx Proof_PolarAcc2 Proof_PolarSolve.
Import ListNotations.
Open Scope R_scope.

(** The solution of a system, when it is the only one. *)
Definition spsolve_ex (y : pf_system) (i : Z) : R := real (Lub_Rbar (fun v => exists u, Model_PolarFD.solves y u /\ u i = v)).

Lemma spsolve_ex_contract : spsolve_contract spsolve_ex.
Proof.
  intros y u Hs Hu i Hi. unfold spsolve_ex.
  assert (E : Lub_Rbar (fun v => exists u, Model_PolarFD.solves y u /\ u i = v) = Finite (u i)).
  { apply is_lub_Rbar_unique. split.
    - intros v (u' & Hs' & <-). right. rewrite (Hu u' Hs' i Hi). reflexivity.
    - intros b Hb. apply Hb. exists u. split; [exact Hs|reflexivity]. }
  rewrite E. reflexivity.
Qed.

Definition polar_zlib : zlibrary := mk_zlib fit_lib (jv_gamma gamma_ex) gamma_ex odeint_ex spsolve_ex lookup2d.

(** Some bound for what the seven modes leave out. *)
Lemma truncation_bounded : forall jv gamma s b, gamma_like gamma -> (forall p, 0 < p -> bessel_series jv gamma p) ->
  let p := sing_problem jv gamma s in let R1 := outer_radius b in
  let z1 := fun th => zp_eval_v p R1 th - (zp_g p R1 th + zm_q (zp_k p) (PI / 4) (zp_g p) R1 th) in
  exists d, forall th, PI / 4 <= th <= 2 * PI ->
    Rabs (z1 th - rsum 7 (fun m => sine_coef (PI / 4) z1 m * sin (mode_freq (PI / 4) m * (th - PI / 4)))) <= d.
Proof.
  intros jv gamma s b Hg Hj p R1 z1. destruct (outer_arc b) as [_ HR1]. fold R1 in HR1.
  exists (wedge_bound s (/ Rabs (gamma (9 / 7))) (/ Rabs (gamma (13 / 7))) 0 + rsum 7 (fun m => Rabs (sine_coef (PI / 4) z1 m))).
  intros th Hth. eapply Rle_trans; [apply Rabs_triang|]. rewrite Rabs_Ropp. apply Rplus_le_compat.
  - change (z1 th) with (sing_T jv gamma s 0 R1 th). apply (sing_K jv gamma s Hg Hj); [lia|lra|exact Hth].
  - apply Proof_PolarAcc2.rsum_abs. intros m _. rewrite Rabs_mult. rewrite <- (Rmult_1_r (Rabs (sine_coef _ _ _))) at 2.
    apply Rmult_le_compat_l; [apply Rabs_pos|]. apply Rabs_le. apply SIN_bound.
Qed.

Lemma polar_example : gamma_like (zl_gamma polar_zlib) /\ (forall p, 0 < p -> bessel_series (zl_jv polar_zlib) (zl_gamma polar_zlib) p) /\
  odeint_contract (zl_odeint polar_zlib) /\ spsolve_contract (zl_spsolve polar_zlib) /\
  forall s z1cheat, exists z sigma, zm_run 1 polar_zlib (sing_problem (zl_jv polar_zlib) (zl_gamma polar_zlib) s) Arc false z1cheat (Some None) 16 4 = Ok z /\
    Model_PolarFD.solves (assemble (zr_fd z)) (zl_spsolve polar_zlib (assemble (zr_fd z))) /\
    polar_stable 16 (/ 10) (outer_radius Arc) (PI / 4) (zp_k (sing_problem (zl_jv polar_zlib) (zl_gamma polar_zlib) s)) sigma /\
    exists d, forall th, PI / 4 <= th <= 2 * PI ->
      let p := sing_problem (zl_jv polar_zlib) (zl_gamma polar_zlib) s in let R1 := outer_radius Arc in
      let z1 := fun th => zp_eval_v p R1 th - (zp_g p R1 th + zm_q (zp_k p) (PI / 4) (zp_g p) R1 th) in
      Rabs (z1 th - rsum 7 (fun m => sine_coef (PI / 4) z1 m * sin (mode_freq (PI / 4) m * (th - PI / 4)))) <= d.
Proof.
  destruct acc_example as (Hg & Hj & Ho & _). cbn [acc_zlib zl_gamma zl_jv zl_odeint] in Hg, Hj, Ho.
  split; [exact Hg|]. split; [exact Hj|]. split; [exact Ho|]. split; [exact spsolve_ex_contract|].
  intros s z1cheat. destruct program_example as (H1 & H2 & H3 & H4 & _).
  destruct (z_run polar_zlib s false z1cheat None 16 4 H1 H2 H3 H4 ltac:(right; reflexivity)) as (z & Hz & _). specialize (Hz 0%nat).
  destruct (grid_stable (zl_jv polar_zlib) (zl_gamma polar_zlib) s Arc 16 ltac:(left; reflexivity)) as (sigma & _ & Hs).
  exists z, sigma. split; [exact Hz|]. split; [|split; [exact Hs|exact (truncation_bounded _ _ s Arc Hg Hj)]].
  destruct (run_fd_ok _ _ _ _ _ _ _ _ _ _ Hz ltac:(lia)) as (Hok & E1 & E2 & E3 & E4 & E5).
  apply contract_solves; [exact spsolve_ex_contract|exact Hok|]. rewrite E1, E2, E3, E4, E5. apply Proof_PolarCheck.grids_trivial. left. reflexivity.
Qed.

Lemma v_error_example : forall s z1cheat, let p := sing_problem (zl_jv polar_zlib) (zl_gamma polar_zlib) s in
  exists z D, zm_run 1 polar_zlib p Arc false z1cheat (Some None) 16 4 = Ok z /\
    forall m l, (0 <= m <= 16)%Z -> (0 <= l <= 16)%Z ->
      Cmod (Cminus (zr_v z m l) (RtoC (zp_eval_v p (/ 10 + IZR m * ((outer_radius Arc - / 10) / 16)) (PI / 4 + IZR l * (7 * PI / 4 / 16))))) <= D.
Proof.
  intros s z1cheat p. destruct polar_example as (Hg & Hj & Ho & Hc & H). destruct (H s z1cheat) as (z & sigma & Hz & _ & Hs & d & Hd).
  destruct (grid_run _ _ s Arc Hg Hj) as (K & _ & HK).
  destruct (HK 1%nat polar_zlib z1cheat 16%Z 4%Z z sigma d eq_refl eq_refl Ho Hc ltac:(left; reflexivity) Hz Hs Hd) as [B _].
  eexists z, _. split; [exact Hz|]. exact B.
Qed.
