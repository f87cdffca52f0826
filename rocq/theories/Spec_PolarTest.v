(** Specification for the convergence test of the polar scheme (C92). *)
From Coq Require Import ZArith Reals.
From Verif Require Import Model_PolarFD Model_PolarTest.
Open Scope R_scope.

(** The data of the test, for a grid of the present PolarFD starting at the
    radius R0, with the exact solution as data there. *)
Definition test_fd (jv : R -> R -> R) (gamma : R -> R) (R0 : R) (N : Z) : polar_fd := {|
  pf_N := N; pf_a := PI / 6; pf_R0 := R0; pf_R1 := 23 / 10; pf_k := 3;
  pf_phi_initial := test_eval_u jv gamma R0; pf_phi0 := test_phi0 jv gamma;
  pf_phi1 := test_phi1 jv gamma; pf_phi2 := test_phi2 jv gamma;
  pf_f := sym_f gamma; pf_d_f_r := sym_d_f_r gamma; pf_d2_f_r := sym_d2_f_r gamma;
  pf_d2_f_th := sym_d2_f_th gamma |}.
