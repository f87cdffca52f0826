(** Property C77: bounds of the error of a run. *)
From Coq Require Import ZArith List Bool Reals Lia Lra.
From Coquelicot Require Import Coquelicot.
From Verif Require Import Model_Py Model_Multivalue Model_Grid Model_Fourier Model_Linop Model_Abcoef Model_PS Model_Domain Model_Extend
  Model_Problems Model_Driver Model_Run Model_Program
  Spec_Domain Spec_Abcoef Spec_Grid Spec_PS Spec_Extend Spec_ZRun Spec_Run Spec_Program Spec_Curve Spec_Bound
  Lib_Csum Proof_Place Proof_RunEx Proof_Bound Proof_BoundEx.
Import ListNotations.
Open Scope R_scope.

(** C77. Let [v] be any grid function with residual at most [eta] at the inside
    nodes, and let the solver form [u] from boundary data whose distance from
    [v] on the discrete boundary is [eps] in the l2 norm. Then [u] differs from
    [v] by at most [amplification * eps + residual_part]. *)
Theorem C77_error : forall lib o st delta v eta c0 c1 e u eps, enumerating lib -> options_ok o -> ps_init lib o = Ok st -> eig_gap o delta ->
  0 <= eta -> (forall i j, o_inside o i j -> Cmod (Cminus (o_L o v i j) (lin_apply_B (st_f st) i j)) <= eta) ->
  0 <= eps -> candidate st c0 c1 e u -> boundary_gap st v e <= eps ^ 2 ->
  forall i j, reached (st_ps st) (i, j) ->
  Cmod (Cminus (node_value (ps_N (st_ps st)) u i j) (node_value (ps_N (st_ps st)) v i j)) <=
  amplification o delta * eps + residual_part o delta eta.
Proof. exact error_bound. Qed.
Print Assumptions C77_error.

(** C77. If some Neumann coefficients give boundary data within [eps] of such a
    [v], the run's data and solution agree on the discrete boundary up to
    [(amplification + 1) * eps + residual_part]. *)
Theorem C77_gap : forall lib o st delta v eta res c1' e' eps e, enumerating lib -> options_ok o -> ps_init lib o = Ok st -> eig_gap o delta ->
  0 <= eta -> (forall i j, o_inside o i j -> Cmod (Cminus (o_L o v i j) (lin_apply_B (st_f st) i j)) <= eta) ->
  fit_sizes lib -> ctx_wf (st_ctx st) -> ps_run lib o st = Ok res -> lstsq_contract lib st (res_c0 res) ->
  length c1' = length (ec_B (st_ctx st)) ->
  extend_boundary (with_basis (st_ctx st) (ec_B (st_ctx st)) (res_c0 res) c1') SrcCoef false = Ok e' ->
  0 <= eps -> boundary_gap st v e' <= eps ^ 2 -> candidate st (res_c0 res) (res_c1 res) e (res_u res) ->
  sqrt (boundary_gap st (res_u res) e) <= (amplification o delta + 1) * eps + residual_part o delta eta.
Proof. exact gap_bound. Qed.
Print Assumptions C77_gap.

(** C77. If moreover the Neumann data are stably determined with constant
    [kappa], the computed solution itself is close to [v]. *)
Theorem C77_run : forall lib o st delta v eta res c1' e' eps kappa, enumerating lib -> options_ok o -> ps_init lib o = Ok st -> eig_gap o delta ->
  0 <= eta -> (forall i j, o_inside o i j -> Cmod (Cminus (o_L o v i j) (lin_apply_B (st_f st) i j)) <= eta) ->
  fit_sizes lib -> ctx_wf (st_ctx st) -> ps_run lib o st = Ok res -> lstsq_contract lib st (res_c0 res) ->
  length c1' = length (ec_B (st_ctx st)) ->
  extend_boundary (with_basis (st_ctx st) (ec_B (st_ctx st)) (res_c0 res) c1') SrcCoef false = Ok e' ->
  0 <= eps -> boundary_gap st v e' <= eps ^ 2 -> 0 <= kappa -> neumann_stable st kappa ->
  forall i j, reached (st_ps st) (i, j) ->
  Cmod (Cminus (node_value (ps_N (st_ps st)) (res_u res) i j) (node_value (ps_N (st_ps st)) v i j)) <=
  amplification o delta * (eps + 2 * kappa * ((amplification o delta + 1) * eps + residual_part o delta eta)) + residual_part o delta eta.
Proof. exact solution_bound. Qed.
Print Assumptions C77_run.

(** C77. The constants exist: [delta] whenever the auxiliary problem is
    solvable, [kappa] whenever the Neumann coefficients are determined. *)
Theorem C77_delta : forall o, (2 <= o_N o)%Z -> eig_nonzero (o_N o) (o_order o) (o_AD o) (o_k o) -> exists delta, eig_gap o delta.
Proof. exact gap_exists. Qed.
Print Assumptions C77_delta.

Theorem C77_kappa : forall lib o st, enumerating lib -> options_ok o -> ps_init lib o = Ok st -> ctx_wf (st_ctx st) ->
  (0 < length (ec_B (st_ctx st)))%nat -> neumann_determined st -> exists kappa, 0 <= kappa /\ neumann_stable st kappa.
Proof. exact stable_exists. Qed.
Print Assumptions C77_kappa.

(** All hypotheses hold for the run of C72_example and the constant 2, which
    is not the solution: the run returns 1, and [eps] is the root of the number of
    nodes of the discrete boundary. *)
Example C77_example : let lib := ex_lib min_zero in exists st res delta kappa c1' e' eps,
  enumerating lib /\ fit_sizes lib /\ options_ok ex_opt /\ ps_init lib ex_opt = Ok st /\ ctx_wf (st_ctx st) /\ ps_run lib ex_opt st = Ok res /\
  lstsq_contract lib st (res_c0 res) /\ neumann_determined st /\ (0 < length (ec_B (st_ctx st)))%nat /\
  eig_gap ex_opt delta /\ 0 <= kappa /\ neumann_stable st kappa /\
  (forall i j, o_inside ex_opt i j -> Cmod (Cminus (o_L ex_opt two_arr i j) (lin_apply_B (st_f st) i j)) <= 0) /\
  length c1' = length (ec_B (st_ctx st)) /\
  extend_boundary (with_basis (st_ctx st) (ec_B (st_ctx st)) (res_c0 res) c1') SrcCoef false = Ok e' /\
  0 < eps /\ boundary_gap st two_arr e' = eps ^ 2 /\
  exists i j, reached (st_ps st) (i, j) /\ Cmod (Cminus (node_value 16 (res_u res) i j) (node_value 16 two_arr i j)) = 1.
Proof. exact bound_example. Qed.

(** C77. The error the fourth-order run of a smooth problem reports is bounded
    by the l2 distance on the discrete boundary between the run's boundary data
    and the exact solution, and a term of the order of the scheme. *)
Theorem C77_smooth : forall fuel lib p b N o st res e err delta, enumerating lib -> brentq_contract (lib_brentq lib) -> table_size N ->
  smooth_options (S fuel) p b N 4 = Ok o -> ps_init lib o = Ok st -> ps_run lib o st = Ok res -> res_error res = Some err ->
  candidate st (res_c0 res) (res_c1 res) e (res_u res) -> eig_gap o delta ->
  let h := 2 * PI / IZR N in
  err <= amplification o delta * sqrt (sample_gap st N (smooth_expected p) e) +
         residual_part o delta (match p with SmoothYCos => 4 / 15 * h ^ 4 + ((27 / 4) ^ 2 - 1) / 3 * (h * sqrt 2) ^ 3 | _ => (27 / 4) ^ 6 / 15 * h ^ 4 end).
Proof. exact smooth_bound. Qed.
Print Assumptions C77_smooth.

(** On every curve the run of smooth-sine on the grid of 16 cells meets them. *)
Example C77_smooth_example : let lib := ex_lib min_zero in forall b, exists o st res e err delta,
  enumerating lib /\ brentq_contract (lib_brentq lib) /\ table_size 16 /\ smooth_options 1 SmoothSine b 16 4 = Ok o /\ ps_init lib o = Ok st /\
  ps_run lib o st = Ok res /\ res_error res = Some err /\ candidate st (res_c0 res) (res_c1 res) e (res_u res) /\ eig_gap o delta.
Proof. exact smooth_bound_example. Qed.
