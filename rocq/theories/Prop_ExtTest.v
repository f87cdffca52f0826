(** Properties C83 and C84: extension_test.py and c0_basis.py. *)
From Coq Require Import ZArith List Bool Reals.
From Coquelicot Require Import Coquelicot.
From Verif Require Import Model_Py Model_Multivalue Model_Grid Model_Abcoef Model_Domain Model_Chebyshev Model_Extend Model_Debug Model_Run Model_Program Model_ExtTest
  Spec_Domain Spec_Grid Spec_Ext Spec_Extend Spec_Run Spec_Program Spec_ZRun Spec_Curve Spec_Scripts Spec_Accuracy Spec_ExtTest
  Proof_Place Proof_RunEx Proof_ExtTest2.
Import ListNotations.
Open Scope R_scope.
Local Notation table_size := Spec_Program.table_size.
Local Notation curve b := (boundary_r b (23 / 10) None (PI / 4)).

(** C83. run_test of extension_test.py fits the values and normal derivatives
    of the solution with 115 and 30 functions, extends the fits and returns the
    largest difference to the solution over the entries of the extension with
    the setypes asked for; with none of them it raises ValueError. Without
    setypes there always are entries. *)
Theorem C83_measured : forall fuel lib p b N setypes D un, enumerating lib -> fit_sizes lib -> brentq_contract (lib_brentq lib) -> table_size N ->
  (p = SmoothYCos -> off_curve (curve b) N) -> solution_family p D -> normal_trace (curve b) (PI / 4) D un ->
  exists o st c0 c1 mv, smooth_options (S fuel) p b N 4 = Ok o /\ ps_init lib (resized o 115 30) = Ok st /\
    fitted lib st (value_trace (curve b) (PI / 4) D) c0 /\ fitted lib st un c1 /\
    mv_extend_boundary (set_coef (st_ctx st) c0 c1) SrcCoef false = Ok mv /\
    ((exists d, looked_at setypes mv d) -> exists e, et_run_test (S fuel) lib p b setypes N = Ok e /\ is_max (looked_at setypes mv) (entry_error p N) e) /\
    ((forall d, ~ looked_at setypes mv d) -> et_run_test (S fuel) lib p b setypes N = Err ValueError) /\
    (setypes = None -> exists d, looked_at setypes mv d).
Proof. exact et_measured. Qed.
Print Assumptions C83_measured.

(** Every smooth problem has such derivatives. *)
Example C83_measured_example : let lib := ex_lib min_zero in enumerating lib /\ fit_sizes lib /\ brentq_contract (lib_brentq lib) /\ table_size 16 /\
  forall p b, exists D un, solution_family p D /\ normal_trace (curve b) (PI / 4) D un.
Proof. exact (conj (ex_enumerating min_zero) (conj (ex_fit min_zero) (conj min_zero_contract (conj et_table family_ex)))). Qed.

(** C83. The error is of fifth order in the grid size, up to the accuracy of the
    fits and whatever setypes are asked for, with one constant for the three
    problems. For smooth-ycos, which has a source term, no grid node may lie on
    the curve. *)
Theorem C83_bound : forall b, exists K, 0 <= K /\ forall p fuel lib N setypes D un o st c0 c1 eps e,
  enumerating lib -> fit_sizes lib -> brentq_contract (lib_brentq lib) -> table_size N -> (p = SmoothYCos -> off_curve (curve b) N) ->
  solution_family p D -> normal_trace (curve b) (PI / 4) D un ->
  smooth_options (S fuel) p b N 4 = Ok o -> ps_init lib (resized o 115 30) = Ok st ->
  fitted lib st (value_trace (curve b) (PI / 4) D) c0 -> fitted lib st un c1 -> 0 <= eps ->
  fits (23 / 10) (PI / 4) (ec_B (st_ctx st)) c0 (value_trace (curve b) (PI / 4) D) eps -> fits (23 / 10) (PI / 4) (ec_B (st_ctx st)) c1 un eps ->
  et_run_test (S fuel) lib p b setypes N = Ok e -> 0 <= e <= K * (eps + (2 * PI / IZR N) ^ 5).
Proof. exact et_bound. Qed.
Print Assumptions C83_bound.

Example C83_bound_example : forall p b, (p = SmoothYCos -> b = OuterSine) -> let lib := ex_lib min_zero in exists D un o st c0 c1 eps e,
  (p = SmoothYCos -> off_curve (curve b) 16) /\ solution_family p D /\ normal_trace (curve b) (PI / 4) D un /\
  smooth_options 1 p b 16 4 = Ok o /\ ps_init lib (resized o 115 30) = Ok st /\
  fitted lib st (value_trace (curve b) (PI / 4) D) c0 /\ fitted lib st un c1 /\ 0 <= eps /\
  fits (23 / 10) (PI / 4) (ec_B (st_ctx st)) c0 (value_trace (curve b) (PI / 4) D) eps /\ fits (23 / 10) (PI / 4) (ec_B (st_ctx st)) c1 un eps /\
  et_run_test 1 lib p b None 16 = Ok e.
Proof. exact et_ex. Qed.
Print Assumptions C83_bound_example.

(** C83. The program visits the grids with 16, 32, 64 and 128 cells and compares
    each error with the one before. *)
Theorem C83_main : forall fuel lib p b, enumerating lib -> fit_sizes lib -> brentq_contract (lib_brentq lib) -> p <> SmoothYCos ->
  exists e0 e1 e2 e3, (forall n e, In (n, e) [(0%nat, e0); (1%nat, e1); (2%nat, e2); (3%nat, e3)] ->
     et_run_test (S fuel) lib p b None (16 * 2 ^ Z.of_nat n) = Ok e) /\
  et_main 4 (S fuel) lib p b None None 16 128 =
    Ok [(16, e0, None); (32, e1, Some e0); (64, e2, Some e1); (128, e3, Some e2)]%Z.
Proof. exact et_main_runs. Qed.
Print Assumptions C83_main.

(** C84. c0_basis.py tries 10, 15, ..., 95 functions on the curve, with three
    quarters of that, rounded down, on each radius. For each it prints the
    largest difference of the real parts of the solution and of its expansion
    over the boundary sample, on the curve and on the whole boundary. *)
Theorem C84_printed : forall fuel lib p N D, enumerating lib -> fit_sizes lib -> brentq_contract (lib_brentq lib) -> table_size N ->
  solution_family p D ->
  exists o l, smooth_options (S fuel) p OuterSine N 4 = Ok o /\ cb_main (S fuel) lib p N = Ok l /\
    map fst l = [10; 15; 20; 25; 30; 35; 40; 45; 50; 55; 60; 65; 70; 75; 80; 85; 90; 95]%Z /\
    forall n eo e, In (n, (eo, e)) l -> eo <= e /\ exists st c0, ps_init lib (resized o (Z.to_nat n) (Z.to_nat (3 * n / 4))) = Ok st /\
      fitted lib st (value_trace (curve OuterSine) (PI / 4) D) c0 /\ length c0 = (Z.to_nat n + 2 * Z.to_nat (3 * n / 4))%nat /\
      let S := get_boundary_sample (curve OuterSine) (23 / 10) (PI / 4) 100 in
      is_max (fun q => In q S /\ bp_sid q = 0%nat) (misfit p (ec_B (st_ctx st)) c0) eo /\ is_max (fun q => In q S) (misfit p (ec_B (st_ctx st)) c0) e.
Proof. exact cb_run. Qed.
Print Assumptions C84_printed.

Example C84_printed_example : let lib := ex_lib min_zero in enumerating lib /\ fit_sizes lib /\ brentq_contract (lib_brentq lib) /\ table_size 16 /\
  forall p, exists D, solution_family p D.
Proof. exact (conj (ex_enumerating min_zero) (conj (ex_fit min_zero) (conj min_zero_contract (conj et_table solution_ex)))). Qed.
