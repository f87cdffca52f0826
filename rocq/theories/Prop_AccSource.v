(** Property C85: the accuracy of the extension and of the runs when the equation
    has a source term. *)
From Coq Require Import ZArith List Bool Reals.
From Coquelicot Require Import Coquelicot.
From Verif Require Import Model_Py Model_Multivalue Model_Grid Model_Fourier Model_Linop Model_Abcoef Model_PS Model_Domain Model_Chebyshev
  Model_Ext Model_Extend Model_Problems Model_Driver Model_Run Model_Program
  Spec_Domain Spec_Chebyshev Spec_PS Spec_Ext Spec_Extend Spec_Inhomo Spec_Run Spec_Program Spec_Curve Spec_Bound Spec_Accuracy Spec_ExtTest
  Proof_CurveEx Proof_TightEx Proof_AccEx Proof_ExtTest Proof_AccI6 Proof_AccI7 Proof_AccI8.
Import ListNotations.
Open Scope R_scope.
Local Notation table_size := Spec_Program.table_size.
Local Notation curve b := (boundary_r b (23 / 10) None (PI / 4)).

(** C85. On each of the five curves, if no grid node lies on the curve: the
    extension of fitted boundary data of a solution of the inhomogeneous
    Helmholtz equation, plus the extension of its source, differs from the
    solution at every node of the discrete boundary by at most a constant times
    the error of the fit plus h^5. *)
Theorem C85_node : forall b k, exists K, 0 <= K /\ forall brentq order c D F Q un M eps,
  brentq_contract brentq -> (order = 2 \/ order = 4)%Z -> curve_solver brentq order (curve b) c -> ec_k c = k ->
  ec_homogeneous c = false -> Spec_Curve.off_curve (curve b) (ec_N c) -> source_of (ec_src c) F Q ->
  partials plane 6 D -> partials plane 2 F -> helmholtz plane k D F -> square_bound D M -> normal_trace (curve b) (PI / 4) D un -> 0 <= eps ->
  fits (23 / 10) (PI / 4) (ec_B c) (ec_c0 c) (value_trace (curve b) (PI / 4) D) eps -> fits (23 / 10) (PI / 4) (ec_B c) (ec_c1 c) un eps ->
  forall sid e p, (sid < 3)%nat -> In p (ec_gamma c sid) -> node_etype c sid p = Ok e ->
  exists len v len' w, do_extend c SrcCoef sid e p = Ok (len, v) /\ do_extend_inhomo c sid e p = Ok (len', w) /\
    Cmod (Cminus (Cplus v w) (D 0%nat 0%nat (fst (ctx_coord c p)) (snd (ctx_coord c p)))) <= K * (eps + M * (2 * PI / IZR (ec_N c)) ^ 5).
Proof. exact source_node. Qed.
Print Assumptions C85_node.

(** C85. So do the values on the whole discrete boundary. *)
Theorem C85_boundary : forall b k, exists K, 0 <= K /\ forall brentq order c D F Q un M eps,
  brentq_contract brentq -> (order = 2 \/ order = 4)%Z -> curve_solver brentq order (curve b) c -> ctx_wf c -> ec_k c = k ->
  ec_homogeneous c = false -> Spec_Curve.off_curve (curve b) (ec_N c) -> source_of (ec_src c) F Q ->
  partials plane 6 D -> partials plane 2 F -> helmholtz plane k D F -> square_bound D M -> normal_trace (curve b) (PI / 4) D un -> 0 <= eps ->
  fits (23 / 10) (PI / 4) (ec_B c) (ec_c0 c) (value_trace (curve b) (PI / 4) D) eps -> fits (23 / 10) (PI / 4) (ec_B c) (ec_c1 c) un eps ->
  exists e, extend_boundary c SrcCoef false = Ok e /\ length e = length (ec_union c) /\
    forall l p, nth_error (ec_union c) l = Some p ->
      Cmod (Cminus (as_vec e l) (D 0%nat 0%nat (fst (ctx_coord c p)) (snd (ctx_coord c p)))) <= K * (eps + M * (2 * PI / IZR (ec_N c)) ^ 5).
Proof. exact source_boundary. Qed.
Print Assumptions C85_boundary.

(** C85. The error the fourth-order runs of the smooth problems report, smooth-ycos
    with its source term included. The first bound is in terms of the Neumann
    coefficients the run found. The second one is for any Neumann coefficients
    fitted to the normal derivative, a least-squares solver that does minimise
    and a stability constant [kappa] (which exists by C77_kappa). *)
Theorem C85_error : forall b, exists K, 0 <= K /\ forall fuel lib p N, enumerating lib -> fit_sizes lib -> brentq_contract (lib_brentq lib) -> table_size N ->
  (p = SmoothYCos -> Spec_Curve.off_curve (curve b) N) ->
  exists o st res err, smooth_options (S fuel) p b N 4 = Ok o /\ ps_init lib o = Ok st /\ ps_run lib o st = Ok res /\ res_error res = Some err /\
  forall delta D un eps, eig_gap o delta -> solution_family p D -> normal_trace (curve b) (PI / 4) D un -> 0 <= eps ->
  let h := 2 * PI / IZR N in
  let E := sqrt (INR (length (ps_gamma (st_ps st)))) * (K * (eps + h ^ 5)) in
  let res_part := residual_part o delta (match p with SmoothYCos => 4 / 15 * h ^ 4 + ((27 / 4) ^ 2 - 1) / 3 * (h * sqrt 2) ^ 3 | _ => (27 / 4) ^ 6 / 15 * h ^ 4 end) in
  fits (23 / 10) (PI / 4) (ec_B (st_ctx st)) (res_c0 res) (value_trace (curve b) (PI / 4) D) eps ->
  (fits (23 / 10) (PI / 4) (ec_B (st_ctx st)) (res_c1 res) un eps -> err <= amplification o delta * E + res_part) /\
  (forall c1 kappa, fits (23 / 10) (PI / 4) (ec_B (st_ctx st)) c1 un eps -> lstsq_contract lib st (res_c0 res) -> 0 <= kappa -> neumann_stable st kappa ->
     err <= amplification o delta * (E + 2 * kappa * ((amplification o delta + 1) * E + res_part)) + res_part).
Proof. exact smooth_error. Qed.
Print Assumptions C85_error.

(** The hypotheses hold together for smooth-ycos on the outer sine and a grid
    with 16 cells, with the coefficients of its run. *)
Example C85_example : exists o st res delta eps D F Q un, let b := OuterSine in let lib := fit_lib in
  (forall x y, D 0%nat 0%nat x y = RtoC (y * cos x)) /\ (forall x y, F 0%nat 0%nat x y = RtoC (((27 / 4) ^ 2 - 1) * y * cos x)) /\
  (enumerating lib /\ fit_sizes lib /\ brentq_contract (lib_brentq lib) /\ forall st c0, lstsq_contract lib st c0) /\ table_size 16 /\
  Spec_Curve.off_curve (curve b) 16 /\ solution_family SmoothYCos D /\ normal_trace (curve b) (PI / 4) D un /\
  partials plane 2 F /\ helmholtz plane (27 / 4) D F /\ square_bound D (8 * (27 / 4) ^ 6) /\
  smooth_options 1 SmoothYCos b 16 4 = Ok o /\ ps_init lib o = Ok st /\ ps_run lib o st = Ok res /\ eig_gap o delta /\
  ctx_wf (st_ctx st) /\ curve_solver (lib_brentq lib) 4 (curve b) (st_ctx st) /\ ec_k (st_ctx st) = 27 / 4 /\ ec_N (st_ctx st) = 16%Z /\
  ec_homogeneous (st_ctx st) = false /\ source_of (ec_src (st_ctx st)) F Q /\ 0 <= eps /\
  fits (23 / 10) (PI / 4) (ec_B (st_ctx st)) (res_c0 res) (value_trace (curve b) (PI / 4) D) eps /\
  fits (23 / 10) (PI / 4) (ec_B (st_ctx st)) (res_c1 res) un eps.
Proof. exact source_example. Qed.
Print Assumptions C85_example.
