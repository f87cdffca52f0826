(** Property C82: accuracy of the extension of fitted boundary data, and of the
    solution formed from it, on the five curves. *)
From Coq Require Import ZArith List Bool Reals Lia Lra.
From Coquelicot Require Import Coquelicot.
From Verif Require Import Model_Py Model_Multivalue Model_Grid Model_Fourier Model_PS Model_Domain Model_Chebyshev Model_Extend
  Model_Problems Model_Driver Model_Run Model_Program
  Spec_Domain Spec_Grid Spec_PS Spec_Ext Spec_Extend Spec_Run Spec_Program Spec_Curve Spec_Bound Spec_Accuracy
  Proof_Place Proof_RunEx Proof_CurveRun Proof_Acc7 Proof_Acc8 Proof_AccEx.
Import ListNotations.
Open Scope R_scope.

Local Notation curve b := (boundary_r b (23 / 10) None (PI / 4)).

(** C82. For each curve and wavenumber there is a constant [K], the same for
    all grids, coefficients and solutions: if the coefficients represent the
    values and normal derivatives of a solution of the homogeneous Helmholtz
    equation up to [eps], with four derivatives, the value extended from any
    segment to any of its nodes differs from the solution there by at most
    [K (eps + M h^5)]. *)
Theorem C82_node : forall b k, exists K, 0 <= K /\ forall brentq order c D un M eps,
  brentq_contract brentq -> (order = 2 \/ order = 4)%Z -> curve_solver brentq order (curve b) c -> ec_k c = k ->
  partials plane 6 D -> helmholtz plane k D (fun _ _ _ _ => RtoC 0) -> square_bound D M -> normal_trace (curve b) (PI / 4) D un -> 0 <= eps ->
  fits (23 / 10) (PI / 4) (ec_B c) (ec_c0 c) (value_trace (curve b) (PI / 4) D) eps -> fits (23 / 10) (PI / 4) (ec_B c) (ec_c1 c) un eps ->
  forall sid e p, (sid < 3)%nat -> In p (ec_gamma c sid) -> node_etype c sid p = Ok e ->
  exists len v, do_extend c SrcCoef sid e p = Ok (len, v) /\
    Cmod (Cminus v (D 0%nat 0%nat (fst (ctx_coord c p)) (snd (ctx_coord c p)))) <= K * (eps + M * (2 * PI / IZR (ec_N c)) ^ 5).
Proof. exact accuracy_node. Qed.
Print Assumptions C82_node.

(** C82. The same for the boundary data the solver works with, the mean over
    the segments of each node. *)
Theorem C82_boundary : forall b k, exists K, 0 <= K /\ forall brentq order c D un M eps hom,
  brentq_contract brentq -> (order = 2 \/ order = 4)%Z -> curve_solver brentq order (curve b) c -> ctx_wf c -> ec_k c = k ->
  partials plane 6 D -> helmholtz plane k D (fun _ _ _ _ => RtoC 0) -> square_bound D M -> normal_trace (curve b) (PI / 4) D un -> 0 <= eps ->
  fits (23 / 10) (PI / 4) (ec_B c) (ec_c0 c) (value_trace (curve b) (PI / 4) D) eps -> fits (23 / 10) (PI / 4) (ec_B c) (ec_c1 c) un eps ->
  ec_homogeneous c = true \/ hom = true ->
  exists e, extend_boundary c SrcCoef hom = Ok e /\ length e = length (ec_union c) /\
    forall l p, nth_error (ec_union c) l = Some p ->
      Cmod (Cminus (as_vec e l) (D 0%nat 0%nat (fst (ctx_coord c p)) (snd (ctx_coord c p)))) <= K * (eps + M * (2 * PI / IZR (ec_N c)) ^ 5).
Proof. exact accuracy_boundary. Qed.
Print Assumptions C82_boundary.

(** C82. The solution the fourth-order solver forms from such coefficients. *)
Theorem C82_error : forall b k, exists K, 0 <= K /\ forall lib o st delta D un M eps c0 c1 e u,
  enumerating lib -> brentq_contract (lib_brentq lib) -> options_ok o ->
  o_r o = curve b -> o_R o = 23 / 10 -> o_a o = PI / 4 -> o_AD o = 2 * PI -> (16 <= o_N o)%Z -> o_order o = 4%Z -> o_k o = k ->
  o_homogeneous o = true -> (forall x y, s_f (o_src o) x y = RtoC 0) ->
  ps_init lib o = Ok st -> eig_gap o delta ->
  partials plane 6 D -> helmholtz plane k D (fun _ _ _ _ => RtoC 0) -> square_bound D M -> normal_trace (curve b) (PI / 4) D un -> 0 <= eps ->
  fits (23 / 10) (PI / 4) (ec_B (st_ctx st)) c0 (value_trace (curve b) (PI / 4) D) eps -> fits (23 / 10) (PI / 4) (ec_B (st_ctx st)) c1 un eps ->
  candidate st c0 c1 e u ->
  let h := 2 * PI / IZR (o_N o) in
  forall i j, reached (st_ps st) (i, j) ->
  Cmod (Cminus (node_value (o_N o) u i j) (D 0%nat 0%nat (fst (square_pt (o_N o) i j)) (snd (square_pt (o_N o) i j)))) <=
  amplification o delta * (sqrt (INR (length (ps_gamma (st_ps st)))) * (K * (eps + M * h ^ 5))) + residual_part o delta (M * h ^ 4 / 15).
Proof. exact run_accuracy. Qed.
Print Assumptions C82_error.

(** The hypotheses hold together for sin (k x) and the coefficients of the run
    of smooth-sine, k = 27/4, on each of the curves, on a grid with 16 cells. *)
Example C82_node_example : forall b, exists o st res e delta eps D un, let lib := ex_lib min_zero in let k := 27 / 4 in
  (forall x y, D 0%nat 0%nat x y = RtoC (sin (k * x))) /\
  enumerating lib /\ brentq_contract (lib_brentq lib) /\ options_ok o /\
  o_r o = curve b /\ o_R o = 23 / 10 /\ o_a o = PI / 4 /\ o_AD o = 2 * PI /\ (16 <= o_N o)%Z /\ o_order o = 4%Z /\ o_k o = k /\
  o_homogeneous o = true /\ (forall x y, s_f (o_src o) x y = RtoC 0) /\
  ps_init lib o = Ok st /\ ps_run lib o st = Ok res /\ ctx_wf (st_ctx st) /\ curve_solver (lib_brentq lib) 4 (curve b) (st_ctx st) /\
  ec_k (st_ctx st) = k /\ ec_homogeneous (st_ctx st) = true /\ eig_gap o delta /\
  partials plane 6 D /\ helmholtz plane k D (fun _ _ _ _ => RtoC 0) /\ square_bound D (k ^ 6) /\
  normal_trace (curve b) (PI / 4) D un /\ 0 <= eps /\
  fits (23 / 10) (PI / 4) (ec_B (st_ctx st)) (res_c0 res) (value_trace (curve b) (PI / 4) D) eps /\
  fits (23 / 10) (PI / 4) (ec_B (st_ctx st)) (res_c1 res) un eps /\
  candidate st (res_c0 res) (res_c1 res) e (res_u res).
Proof.
  intros b. destruct (sine_run b) as (o & st & res & e & delta & eps & H).
  exists o, st, res, e, delta, eps, (sine_D (27 / 4)), (sine_un (curve b) (27 / 4)). exact (conj (sine_value (27 / 4)) H).
Qed.
Print Assumptions C82_node_example.
