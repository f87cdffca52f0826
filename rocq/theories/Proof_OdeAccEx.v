(** Numbers and examples for the accuracy of the ODE step. *)
From Coq Require Import String ZArith List Bool Reals Lia Lra Psatz.
From Coquelicot Require Import Coquelicot.
From Verif Require Import Model_Py Model_Grid Model_Fourier Model_Domain Model_Abcoef Model_Ode Model_ZMethod Model_Problems
  Model_ZRun Model_Run Model_Program Model_ZProgram Lib_Csum
  Proof_Domain Proof_Bessel Proof_BesselJ Proof_Gentle Proof_OdeProgram Proof_OdeAcc Proof_OdeSeries Proof_OdeExist Proof_OdeSing
  Proof_ZProgram Proof_Program Proof_RunEx Proof_ZRunEx Proof_TightEx Spec_Fd Spec_PolarFD Spec_Ode Spec_Problems Spec_Bessel Spec_OdeAcc.
Import ListNotations.
Open Scope R_scope.

(** ** The first coefficient *)

Lemma first_K : forall s g1 g3, s <> IhzQuadratic -> 0 < g1 -> forall i, (i <= 6)%nat ->
  0 <= wedge_bound s g1 g3 i <= g1 * nth i [1120; 1000; 750; 450; 220; 80; 20] 0.
Proof.
  intros s g1 g3 Hs Hg i Hi. pose proof PI_num as HP. unfold wedge_bound.
  assert (E : wedge_sum s (g1 * ramp_bound (PI / 2) i) (g3 * ramp_bound (3 * PI / 2) i) = g1 * ramp_bound (PI / 2) i)
    by (unfold wedge_sum; destruct s; [reflexivity|reflexivity|contradiction]).
  rewrite E. clear E. set (D := 7 * PI / 4). set (w := PI / 2).
  assert (Hw : 0 <= w <= 315 / 200) by (unfold w; lra). assert (HD : 549 / 100 <= D) by (unfold D; lra).
  assert (Pw : forall n, 0 <= w ^ n <= (315 / 200) ^ n) by (intros n; split; [apply pow_le; lra|apply pow_incr; exact Hw]).
  assert (PD : forall n, (549 / 100) ^ n <= D ^ n) by (intros n; apply pow_incr; lra).
  assert (HDi : 0 < D ^ i) by (apply pow_lt; lra).
  assert (Q : 0 <= ramp_bound w i /\ 7 * ramp_bound w i <= nth i [1120; 1000; 750; 450; 220; 80; 20] 0 * D ^ i).
  { pose proof (PD i) as PDi. pose proof (Pw 2%nat) as P2. pose proof (Pw i) as Pi.
    unfold ramp_bound. destruct i as [|[|[|[|[|[|[|i]]]]]]]; [| | | | | | |lia]; cbn [Nat.leb nth] in *; split; lra. }
  destruct Q as [Q0 Q1]. split.
  - apply Rmult_le_pos; [nra|left; apply Rinv_0_lt_compat; exact HDi].
  - apply Rle_div_l; [exact HDi|]. nra.
Qed.

Lemma first_coef : forall fuel L s b acheat N order z,
  gamma_like (zl_gamma L) -> (forall p, 0 < p -> bessel_series (zl_jv L) (zl_gamma L) p) -> odeint_contract (zl_odeint L) -> s <> IhzQuadratic ->
  let p := sing_problem (zl_jv L) (zl_gamma L) s in
  zm_run fuel L p b acheat false (Some None) N order = Ok z ->
  let R1 := outer_radius b in
  let z1 := fun th => zp_eval_v p R1 th - (zp_g p R1 th + zm_q (zp_k p) (PI / 4) (zp_g p) R1 th) in
  Rabs (nth 0 (zr_z1 z) 0 - sine_coef (PI / 4) z1 0) <= / 10 ^ 4 / Rabs (zl_gamma L (9 / 7)).
Proof.
  intros fuel L s b acheat N order z Hg Hj Ho Hs p Hz R1 z1.
  pose proof (run_accurate fuel L s b acheat N order z 0 Hg Hj Ho Hz ltac:(lia)) as A. cbv zeta in A. fold p R1 z1 in A.
  eapply Rle_trans; [exact A|]. clear A. destruct (g_pos (zl_gamma L) Hg) as [G1 _].
  set (g1 := / Rabs (zl_gamma L (9 / 7))) in *. set (g3 := / Rabs (zl_gamma L (13 / 7))). change (/ 10 ^ 4 / Rabs (zl_gamma L (9 / 7))) with (/ 10 ^ 4 * g1).
  clearbody g1 g3. pose proof (first_K s g1 g3 Hs G1) as HK. set (K := wedge_bound s g1 g3) in *. clearbody K.
  pose proof PI_num as HP.
  assert (Eb : mode_freq (PI / 4) 0 = 4 / 7) by (unfold mode_freq; change (INR 0) with 0; field; lra). rewrite Eb.
  assert (Ew : wedge_sum s g1 g3 = g1) by (unfold wedge_sum; destruct s; [reflexivity|reflexivity|contradiction]). rewrite Ew.
  assert (Ek : zp_k p = 27 / 4) by (unfold p; destruct s; [reflexivity|reflexivity|contradiction]).
  assert (HR1 : 23 / 10 <= R1 <= 28 / 10) by (unfold R1, outer_radius; destruct b; lra).
  assert (EN : INR (Z.to_nat 1024) = 1024) by (rewrite INR_IZR_INZ, Z2Nat.id by lia; reflexivity).
  assert (Hh : 0 <= step4 (PI / 4) (Z.to_nat 1024) <= 24 / 10 ^ 13).
  { unfold step4. rewrite EN. assert (X : 0 <= (2 * PI - PI / 4) / (1024 + 1) <= 552 / 100 / 1025) by lra.
    set (x := _ / (1024 + 1)) in *. assert (Y : 0 <= x ^ 4 <= (552 / 100 / 1025) ^ 4) by (split; [apply pow_le; lra|apply pow_incr; exact X]). lra. }
  set (h4 := step4 _ _) in *. clearbody h4.
  pose proof (HK 0%nat ltac:(lia)) as K0. pose proof (HK 1%nat ltac:(lia)) as K1. pose proof (HK 2%nat ltac:(lia)) as K2. pose proof (HK 3%nat ltac:(lia)) as K3.
  pose proof (HK 4%nat ltac:(lia)) as K4. pose proof (HK 5%nat ltac:(lia)) as K5. pose proof (HK 6%nat ltac:(lia)) as K6. cbn [nth] in K0, K1, K2, K3, K4, K5, K6.
  assert (P0 : 0 <= product4 (4 / 7) K 0 <= 3700 * g1) by (unfold product4; cbn [Nat.add]; lra).
  assert (P2 : 0 <= product4 (4 / 7) K 2 <= 1100 * g1) by (unfold product4; cbn [Nat.add]; lra).
  set (A0 := product4 (4 / 7) K 0) in *. set (A2 := product4 (4 / 7) K 2) in *. clearbody A0 A2. clear HK K0 K1 K2 K3 K4 K5 K6.
  assert (Hr : 0 <= h4 * (A2 + (4 / 7) ^ 2 * A0) / (/ 10) ^ 2 <= / 10 ^ 6 * g1).
  { replace (h4 * (A2 + (4 / 7) ^ 2 * A0) / (/ 10) ^ 2) with (100 * h4 * (A2 + 16 / 49 * A0)) by field. split.
    - apply Rmult_le_pos; lra.
    - apply Rle_trans with (100 * (24 / 10 ^ 13) * (2400 * g1)); [apply Rmult_le_compat; lra|lra]. }
  set (rho := h4 * _ / _) in *. clearbody rho.
  assert (Hl : h4 * A0 <= / 10 ^ 7 * g1) by (apply Rle_trans with (24 / 10 ^ 13 * (3700 * g1)); [apply Rmult_le_compat; lra|lra]).
  assert (He : mode_error (PI / 4) (zp_k p) 0 (/ 10) R1 (2 * (/ 10 ^ 18 * g1)) (2 * (/ 10 ^ 15 * g1)) rho <= 9 / 10 ^ 5 * g1).
  { unfold mode_error. rewrite Eb, Ek. rewrite <- (sqrt_pow2 (9 / 10 ^ 5 * g1)) by lra. apply sqrt_le_1_alt.
    assert (Gr : 0 <= growth (PI / 4) (27 / 4) 0 (/ 10) R1 <= 784 * 27 / 45).
    { unfold growth. rewrite Eb. replace (R1 / / 10) with (10 * R1) by field.
      assert (X1 : 0 < Rpower (10 * R1) (2 * (4 / 7)) <= 784).
      { split; [unfold Rpower; apply exp_pos|]. apply Rle_trans with (Rpower (10 * R1) 2); [apply Rle_Rpower; lra|].
        replace 2 with (INR 2) by (cbn; lra). rewrite Rpower_pow by lra. simpl. nra. }
      assert (X2 : 0 < exp (R1 - / 10) <= 27).
      { split; [apply exp_pos|]. apply Rle_trans with (exp 3); [left; apply exp_increasing; lra|].
        replace 3 with (1 + (1 + 1)) by lra. rewrite !exp_plus. pose proof exp_le_3. pose proof (exp_pos 1). nra. }
      assert (X3 : 45 <= (27 / 4) ^ 2 + (4 / 7 / R1) ^ 2) by (pose proof (pow2_ge_0 (4 / 7 / R1)); lra).
      split.
      - apply Rmult_le_pos; [apply Rmult_le_pos; lra|left; apply Rinv_0_lt_compat; lra].
      - unfold Rdiv. apply Rmult_le_compat; [apply Rmult_le_pos; lra|left; apply Rinv_0_lt_compat; lra|apply Rmult_le_compat; lra|apply Rinv_le_contravar; lra]. }
    assert (Sq : rho ^ 2 <= (/ 10 ^ 6 * g1) ^ 2) by (apply pow_incr; exact Hr).
    assert (In : 0 <= (2 * (/ 10 ^ 15 * g1)) ^ 2 + ((27 / 4) ^ 2 + (4 / 7 / / 10) ^ 2) * (2 * (/ 10 ^ 18 * g1)) ^ 2 + rho ^ 2 * (R1 - / 10) <= 3 / 10 ^ 12 * g1 ^ 2).
    { pose proof (pow2_ge_0 rho) as S0. pose proof (pow2_ge_0 g1) as S1. split.
      - apply Rplus_le_le_0_compat; [apply Rplus_le_le_0_compat; [apply pow2_ge_0|apply Rmult_le_pos; [|apply pow2_ge_0]]|apply Rmult_le_pos; lra].
        apply Rplus_le_le_0_compat; apply pow2_ge_0.
      - assert (rho ^ 2 * (R1 - / 10) <= (/ 10 ^ 6 * g1) ^ 2 * (27 / 10)) by (apply Rmult_le_compat; lra).
        replace ((4 / 7 / / 10) ^ 2) with (1600 / 49) by field. lra. }
    apply Rle_trans with (784 * 27 / 45 * (3 / 10 ^ 12 * g1 ^ 2)); [apply Rmult_le_compat; [apply Gr|apply In|apply Gr|apply In]|].
    pose proof (pow2_ge_0 g1). lra. }
  lra.
Qed.

(** ** Examples *)

(** Bessel functions for a given Gamma function. *)
Definition jv_gamma (gamma : R -> R) (p x : R) : R := Rpower (x / 2) p / gamma (p + 1) * bser p 0 ((x / 2) ^ 2).

Lemma jv_gamma_series : forall gamma p, gamma_like gamma -> 0 < p -> bessel_series (jv_gamma gamma) gamma p.
Proof.
  intros gamma p Hg Hp x Hx. assert (Hr : 0 < Rpower (x / 2) p) by (unfold Rpower; apply exp_pos).
  pose proof (c_nz p Hp gamma Hg) as Hc.
  replace (jv_gamma gamma p x / Rpower (x / 2) p) with (/ gamma (p + 1) * bser p 0 ((x / 2) ^ 2)) by (unfold jv_gamma; field; split; [exact Hc|lra]).
  apply (is_series_ext (fun l => / gamma (p + 1) * (scal (pow_n ((x / 2) ^ 2) l) (bcoef p l)))).
  - intros l. rewrite (gcoef p Hp gamma Hg), pow_mult, pow_n_pow. unfold scal, mult. cbn. unfold mult. cbn. unfold Rdiv. ring.
  - apply (is_series_scal_l (K := R_AbsRing) (V := R_NormedModule) (/ gamma (p + 1))). apply PSeries_correct. apply inf_ex, bcoef_radius, Hp.
Qed.

(** The end values of the trajectory, when it is the only one. *)
Definition odeint_ex (deriv : (nat -> R) -> R -> result (nat -> R)) (dim : nat) (ic : nat -> R) (R0 R1 : R) (i : nat) : R :=
  real (Lub_Rbar (fun y => exists sol, trajectory deriv dim ic R0 R1 sol /\ sol i = y)).

Lemma odeint_ex_contract : odeint_contract odeint_ex.
Proof.
  intros deriv dim ic R0 R1 sol HR Hs Hu i Hi. unfold odeint_ex.
  assert (E : Lub_Rbar (fun y => exists sol, trajectory deriv dim ic R0 R1 sol /\ sol i = y) = Finite (sol i)).
  { apply is_lub_Rbar_unique. split.
    - intros y (sol' & Hs' & <-). right. rewrite (Hu sol' Hs' i Hi). reflexivity.
    - intros b Hb. apply Hb. exists sol. split; [exact Hs|reflexivity]. }
  rewrite E. reflexivity.
Qed.

Definition acc_zlib : zlibrary := mk_zlib fit_lib (jv_gamma gamma_ex) gamma_ex odeint_ex (fun _ _ => 0) lookup2d.

Lemma acc_example : gamma_like (zl_gamma acc_zlib) /\ (forall p, 0 < p -> bessel_series (zl_jv acc_zlib) (zl_gamma acc_zlib) p) /\
  odeint_contract (zl_odeint acc_zlib) /\
  forall s z1cheat, exists z, zm_run 1 acc_zlib (sing_problem (zl_jv acc_zlib) (zl_gamma acc_zlib) s) Arc false z1cheat (Some None) 16 4 = Ok z.
Proof.
  split; [exact gamma_ex_like|]. split; [intros p Hp; apply jv_gamma_series; [exact gamma_ex_like|exact Hp]|]. split; [exact odeint_ex_contract|].
  intros s z1cheat. destruct program_example as (H1 & H2 & H3 & H4 & _).
  destruct (z_run acc_zlib s false z1cheat None 16 4 H1 H2 H3 H4 ltac:(right; reflexivity)) as (z & Hz & _). exists z. apply Hz.
Qed.

Lemma accurate_example : let p := sing_problem (jv_gamma gamma_ex) gamma_ex IhzQuadratic in let k := 43 / 4 in let a := PI / 4 in let R0 := / 10 in let R1 := 23 / 10 in
  let z1 := zm_initial k a (zp_eval_v p) (zp_g p) in let f1 := zm_lambdify (zm_f1 k a (zp_g p)) in
  let K := wedge_bound IhzQuadratic (/ Rabs (gamma_ex (9 / 7))) (/ Rabs (gamma_ex (13 / 7))) in
  exists Z T, 
    (let deriv := ode_eval_deriv a (PI / (2 * PI - a)) k (Z.to_nat 1024) f1 7 in let ic := ode_ic a R0 (Z.to_nat 1024) z1 (Z 1%nat 0%nat) in
     trajectory deriv (2 * 7) ic R0 R1 (odeint_ex deriv (2 * 7)%nat ic R0 R1)) /\
    partials 2 (fun r th => R0 < r < R1 /\ a < th < 2 * PI) z1 Z /\
    (forall r th, R0 <= r <= R1 -> a < th < 2 * PI ->
       continuous (fun r => z1 r th) r /\ continuous (fun r => Z 1%nat 0%nat r th) r) /\
    (forall r th, R0 < r < R1 -> a < th < 2 * PI -> polar_helmholtz k Z r th = f1 r th) /\
    angular 6 (fun r => R0 <= r <= R1) z1 T /\
    (forall r th, R0 <= r <= R1 -> th = a \/ th = 2 * PI -> T 0%nat r th = 0 /\ T 2%nat r th = 0) /\
    (forall i r th, (i <= 6)%nat -> R0 <= r <= R1 -> a <= th <= 2 * PI -> Rabs (T i r th) <= K i).
Proof.
  intros p k a R0 R1 z1 f1 K. destruct acc_example as (Hg & Hj & Ho & _). cbn [acc_zlib zl_gamma zl_jv zl_odeint] in Hg, Hj, Ho.
  destruct (sing_W (jv_gamma gamma_ex) gamma_ex IhzQuadratic Hg Hj) as [W [HW HWeq]].
  exists W, (sing_T (jv_gamma gamma_ex) gamma_ex IhzQuadratic).
  split; [|split; [|split; [|split; [|split; [|split]]]]].
  - cbv zeta. apply contract_call; [exact Ho|unfold R0, R1; lra|exact pizza_nu_pos|].
    apply (sing_exists (jv_gamma gamma_ex) gamma_ex IhzQuadratic Hg Hj). unfold R0, R1; lra.
  - destruct HW as [HW0 HW]. split; [exact HW0|]. intros i j Hij r th [Hr _]. apply HW; [assumption|]. unfold off_tip, R0 in *. lra.
  - intros r th Hr Hth. unfold R0 in Hr. destruct HW as [HW0 HW]. split.
    + apply (ex_derive_continuous (K := R_AbsRing) (V := R_NormedModule)). exists (W 1%nat 0%nat r th).
      apply (is_derive_ext (fun r => W 0%nat 0%nat r th)); [intros; apply HW0|].
      apply (HW 0%nat 0%nat ltac:(lia) r th). unfold off_tip. lra.
    + apply (ex_derive_continuous (K := R_AbsRing) (V := R_NormedModule)). exists (W 2%nat 0%nat r th).
      apply (HW 1%nat 0%nat ltac:(lia) r th). unfold off_tip. lra.
  - intros r th Hr Hth. unfold R0 in Hr. unfold f1. rewrite lambdify_pos by lra. apply HWeq. lra.
  - apply (sing_angular (jv_gamma gamma_ex) gamma_ex IhzQuadratic Hg Hj). unfold R0. lra.
  - intros r th Hr Hth. apply (sing_edges (jv_gamma gamma_ex) gamma_ex IhzQuadratic Hg Hj); [unfold R0 in Hr; lra|exact Hth].
  - intros i r th Hi Hr Hth. apply (sing_K (jv_gamma gamma_ex) gamma_ex IhzQuadratic Hg Hj); [exact Hi|unfold R0 in Hr; lra|exact Hth].
Qed.

Lemma one_trajectory : forall jv gamma s N M ic R0 R1, gamma_like gamma -> (forall p, 0 < p -> bessel_series jv gamma p) -> 0 < R0 < R1 ->
  let p := sing_problem jv gamma s in
  let deriv := ode_eval_deriv (PI / 4) (4 / 7) (zp_k p) N (zm_lambdify (zm_f1 (zp_k p) (PI / 4) (zp_g p))) M in
  exists sol, trajectory deriv (2 * M) ic R0 R1 sol /\ forall sol', trajectory deriv (2 * M) ic R0 R1 sol' -> forall i, (i < 2 * M)%nat -> sol' i = sol i.
Proof.
  intros jv gamma s N M ic R0 R1 Hg Hj HR p deriv.
  destruct (sing_exists jv gamma s Hg Hj N M ic R0 R1 HR) as [sol Hs]. rewrite nu_val in Hs. exists sol. split; [exact Hs|].
  intros sol' Hs' i Hi. assert (Hn : 0 < 4 / 7) by lra. exact (ode_unique _ _ _ _ _ _ _ _ _ sol sol' HR Hn Hs Hs' i Hi).
Qed.
