(** Property C93: the auxiliary problem is stable uniformly in the grid. *)
From Coq Require Import ZArith List Bool Reals Lia Lra.
From Coquelicot Require Import Coquelicot.
From Verif Require Import Model_Py Model_Multivalue Model_Grid Model_Fourier Model_Linop Model_Abcoef Model_PS Model_Domain Model_Chebyshev
  Model_Ext Model_Extend Model_Problems Model_Driver Model_Run Model_Program
  Spec_Domain Spec_Chebyshev Spec_PS Spec_Ext Spec_Extend Spec_Inhomo Spec_Run Spec_Program Spec_Curve Spec_Bound Spec_Accuracy Spec_ExtTest
  Lib_Csum Spec_Ode Proof_TightEx Proof_AccI8 Proof_Gap Proof_Gap2 Proof_Gap3 Proof_Gap4
  Model_ZMethod Model_ZRun Model_ZProgram Spec_Abcoef Spec_Fd Spec_ZProgram Proof_Place Proof_Boundary Proof_RunEx Proof_Bessel Proof_BesselJ Proof_ZSing Proof_ZRunEx Proof_Program Proof_ZProgram Proof_Tight.
Import ListNotations.
Open Scope R_scope.
Local Notation table_size := Spec_Program.table_size.
Local Notation curve b := (boundary_r b (23 / 10) None (PI / 4)).

(** C93. For the wave number 27/4 of the smooth problems and the square of side
    2 pi, the eigenvalues of the fourth-order scheme keep a distance from zero
    that does not depend on the grid. *)
Theorem C93_gap : forall N, (32 <= N)%Z -> forall j l, (1 <= j <= N - 1)%Z -> (1 <= l <= N - 1)%Z ->
  9 / 50 <= Rabs (eigenval N 4 (2 * PI) (27 / 4) j l).
Proof. exact smooth_gap. Qed.
Print Assumptions C93_gap.

(** C93. The same for the wave number 43/4 of ihz-bessel-quadratic. *)
Theorem C93_gap_quadratic : forall N, (64 <= N)%Z -> forall j l, (1 <= j <= N - 1)%Z -> (1 <= l <= N - 1)%Z ->
  13 / 100 <= Rabs (eigenval N 4 (2 * PI) (43 / 4) j l).
Proof. exact quadratic_gap. Qed.
Print Assumptions C93_gap_quadratic.

(** C93. The coarser grids of the table of basis sizes. *)
Theorem C93_coarse : forall j l,
  ((1 <= j <= 15)%Z -> (1 <= l <= 15)%Z ->
     12 / 125 <= Rabs (eigenval 16 4 (2 * PI) (27 / 4) j l) /\ 4 <= Rabs (eigenval 16 4 (2 * PI) (43 / 4) j l)) /\
  ((1 <= j <= 31)%Z -> (1 <= l <= 31)%Z -> 63 / 1000 <= Rabs (eigenval 32 4 (2 * PI) (43 / 4) j l)).
Proof. exact coarse_gap. Qed.
Print Assumptions C93_coarse.

(** C93. No distance above 5/16 would do: the mode (9, 10) is that close on every
    grid, the squares of the neighbouring resonances being 181/4 and 185/4. *)
Theorem C93_sharp : forall N, (32 <= N)%Z -> 0 < eigenval N 4 (2 * PI) (27 / 4) 9 10 <= 5 / 16.
Proof. exact gap_sharp. Qed.
Print Assumptions C93_sharp.

(** Eigenvalues of both signs occur, so the problem is indefinite. *)
Example C93_gap_nonvacuous : (32 <= 100)%Z /\ (1 <= 9 <= 100 - 1)%Z /\ (1 <= 10 <= 100 - 1)%Z /\
  9 / 50 <= eigenval 100 4 (2 * PI) (27 / 4) 9 10 /\ eigenval 100 4 (2 * PI) (27 / 4) 10 10 <= - (9 / 50).
Proof.
  repeat (split; [lia|]). split; [destruct (gap_sharp 100 ltac:(lia)) as [H _]; rewrite <- (Rabs_pos_eq (eigenval _ _ _ _ _ _)) by lra; apply smooth_gap; lia|].
  rewrite eig_lam by lia. replace ((27 / 4) ^ 2) with (729 / 16) by field.
  pose proof (smooth_out_10_10 100 ltac:(lia) 10 10 ltac:(lia) ltac:(lia)). lra.
Qed.

(** C93. The second-order scheme is almost resonant on the grid of 32 cells:
    its smallest eigenvalue is eighty times smaller. *)
Theorem C93_order2 : Rabs (eigenval 32 2 (2 * PI) (27 / 4) 6 13) <= 9 / 4000.
Proof. exact order2_close. Qed.
Print Assumptions C93_order2.

(** C93. The solution of the auxiliary problem depends on its right-hand side
    with a constant that is the same on all grids. *)
Theorem C93_stable : forall N, (16 = N \/ 32 <= N)%Z -> forall f,
  let n := Z.to_nat (N - 1) in
  rsum n (fun i => rsum n (fun j => Cmod (ap_solve N 4 (2 * PI) (27 / 4) f (Z.of_nat i) (Z.of_nat j)) ^ 2)) <=
  (125 / 12) ^ 2 * rsum n (fun i => rsum n (fun j => Cmod (f (Z.of_nat i) (Z.of_nat j)) ^ 2)).
Proof. exact solve_stable. Qed.
Print Assumptions C93_stable.

(** C93. So the hypothesis of C77, C82 and C85 holds for the runs of the smooth
    problems on every boundary curve. *)
Theorem C93_runs : forall fuel p b N o, table_size N -> smooth_options (S fuel) p b N 4 = Ok o ->
  eig_gap o (if (N =? 16)%Z then 12 / 125 else 9 / 50).
Proof. exact smooth_run_gap. Qed.
Print Assumptions C93_runs.

(** C93. The same for the runs of runz.py, on every boundary curve and with any
    coefficients: the distance depends on the wave number only. *)
Theorem C93_zruns : forall fuel L s b acheat z1cheat attr N z, table_size N ->
  zm_run fuel L (sing_problem (zl_jv L) (zl_gamma L) s) b acheat z1cheat attr N 4 = Ok z ->
  eig_gap (zr_opt z) (match s with IhzQuadratic => 63 / 1000 | _ => 12 / 125 end).
Proof. exact z_gap. Qed.
Print Assumptions C93_zruns.

Theorem C93_stable_quadratic : forall N, (16 = N \/ 32 = N \/ 64 <= N)%Z -> forall f,
  let n := Z.to_nat (N - 1) in
  rsum n (fun i => rsum n (fun j => Cmod (ap_solve N 4 (2 * PI) (43 / 4) f (Z.of_nat i) (Z.of_nat j)) ^ 2)) <=
  (1000 / 63) ^ 2 * rsum n (fun i => rsum n (fun j => Cmod (f (Z.of_nat i) (Z.of_nat j)) ^ 2)).
Proof. exact quad_stable. Qed.
Print Assumptions C93_stable_quadratic.

(** The run for ihz-bessel-quadratic on the arc and 16 cells. *)
Example C93_zruns_example : let L := mk_zlib (ex_lib min_zero) jv_series gamma_ex (fun _ _ _ _ _ _ => 0) (fun _ _ => 0) lookup2d in
  table_size 16 /\ exists z, zm_run 1 L (sing_problem (zl_jv L) (zl_gamma L) IhzQuadratic) Arc true false (Some None) 16 4 = Ok z.
Proof.
  intros L. destruct program_example as (H1 & H2 & H3 & H4 & _). split; [exact H4|].
  destruct (z_run L IhzQuadratic true false None 16 4 H1 H2 H3 H4 ltac:(right; reflexivity)) as (z & Hz & _).
  exists z. apply Hz.
Qed.

(** C93. The error such a run reports, if its coefficients fit the boundary data
    and the normal derivative within [eps]: the constant depends on the curve only. *)
Theorem C93_error : forall b, exists K, 0 <= K /\ forall fuel lib p N, enumerating lib -> fit_sizes lib -> brentq_contract (lib_brentq lib) -> table_size N ->
  (p = SmoothYCos -> Spec_Curve.off_curve (curve b) N) ->
  exists o st res err, smooth_options (S fuel) p b N 4 = Ok o /\ ps_init lib o = Ok st /\ ps_run lib o st = Ok res /\ res_error res = Some err /\
  forall D un eps, solution_family p D -> normal_trace (curve b) (PI / 4) D un -> 0 <= eps ->
  let h := 2 * PI / IZR N in
  fits (23 / 10) (PI / 4) (ec_B (st_ctx st)) (res_c0 res) (value_trace (curve b) (PI / 4) D) eps ->
  fits (23 / 10) (PI / 4) (ec_B (st_ctx st)) (res_c1 res) un eps ->
  err <= K * (eps / h ^ 3 + h ^ 2).
Proof. exact gap_error. Qed.
Print Assumptions C93_error.

(** The hypotheses hold together for smooth-ycos on the outer sine and a grid
    with 16 cells, with the coefficients of its run. *)
Example C93_error_example : exists o st res eps D un, let b := OuterSine in let lib := fit_lib in
  (forall x y, D 0%nat 0%nat x y = RtoC (y * cos x)) /\
  enumerating lib /\ fit_sizes lib /\ brentq_contract (lib_brentq lib) /\ table_size 16 /\ Spec_Curve.off_curve (curve b) 16 /\
  smooth_options 1 SmoothYCos b 16 4 = Ok o /\ ps_init lib o = Ok st /\ ps_run lib o st = Ok res /\
  solution_family SmoothYCos D /\ normal_trace (curve b) (PI / 4) D un /\ 0 <= eps /\
  fits (23 / 10) (PI / 4) (ec_B (st_ctx st)) (res_c0 res) (value_trace (curve b) (PI / 4) D) eps /\
  fits (23 / 10) (PI / 4) (ec_B (st_ctx st)) (res_c1 res) un eps.
Proof.
  destruct source_example as (o & st & res & delta & eps & D & F & Q & un & H1 & _ & (H2 & H3 & H4 & _) & H5 & H6 & H7 & H8 & _ & _ & _ & H9 & H10 & H11 & _ & _ & _ & _ & _ & _ & _ & H12 & H13 & H14).
  exists o, st, res, eps, D, un. cbv zeta. repeat (split; [assumption|]). assumption.
Qed.
