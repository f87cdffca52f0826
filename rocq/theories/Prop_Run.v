(** Property C72: construction and run of the solver as a whole. *)
From Coq Require Import ZArith List Bool Reals Lia Lra.
From Coquelicot Require Import Coquelicot.
From Verif Require Import Model_Py Model_Multivalue Model_Grid Model_Fourier Model_Linop Model_PS
  Model_Chebyshev Model_Domain Model_Ext Model_Extend Model_Debug Model_Run
  Spec_Domain Spec_Grid Spec_PS Spec_Extend Spec_Abcoef Spec_Inhomo Spec_ZRun Spec_Debug Spec_Run
  Proof_Domain Proof_Boundary Proof_Place Proof_Run Proof_RunEx Proof_Tight.
Import ListNotations.
Open Scope R_scope.

(** C72. The constructed source array holds the problem's source at the inside
    nodes and zero off the nodes reached by the stencil. *)
Theorem C72_source : forall lib o st, enumerating lib -> (o_order o = 2 \/ o_order o = 4)%Z -> ps_init lib o = Ok st ->
  (forall i j, o_inside o i j -> st_f st i j =
     s_f (o_src o) (fst (get_coord (o_AD o) (o_N o) i j)) (snd (get_coord (o_AD o) (o_N o) i j))) /\
  (forall i j, ~ In (i, j) (Kplus (o_order o) (o_N o) (o_interior o)) -> st_f st i j = RtoC 0).
Proof. exact init_source. Qed.
Print Assumptions C72_source.

(** C72. The basis of the run: the sizes are those of the problem's table
    unless both are given as options; every segment has its functions once. *)
Theorem C72_basis : forall lib o st, ps_init lib o = Ok st -> exists nc nr,
  match o_n_circle o with None => o_n_basis o = (nc, nr) | Some c => nc = c /\ o_n_radius o = Some nr end /\
  NoDup (ec_B (st_ctx st)) /\
  forall sid J, In (sid, J) (ec_B (st_ctx st)) <-> (sid = 0 /\ J < nc)%nat \/ ((sid = 1 \/ sid = 2) /\ J < nr)%nat.
Proof. exact init_basis. Qed.
Print Assumptions C72_basis.

(** C72. Only one of the two options is an error if it is n_circle. *)
Theorem C72_one_size : forall lib o nc, o_n_circle o = Some nc -> o_n_radius o = None -> ps_init lib o = Err AssertionError.
Proof. exact init_no_radius. Qed.
Print Assumptions C72_one_size.

Example C72_one_size_example : exists o, o_n_circle o = Some 3%nat /\ o_n_radius o = None /\ o_order o = 4%Z.
Proof.
  exists (mk_opt 0 1 (PI / 2) 4 16 4 (r_arc 1) (1, 1)%nat (Some 3%nat) None true zero_src (fun _ _ => RtoC 0) true (fun _ _ => RtoC 0)).
  repeat split.
Qed.

(** C72. Whatever the root finder, the fit and the least-squares routine
    return, the result of a run satisfies the difference equation at every
    inside node. *)
Theorem C72_equation : forall lib o st res, enumerating lib -> options_ok o -> ps_init lib o = Ok st -> ps_run lib o st = Ok res ->
  forall i j, o_inside o i j -> o_L o (res_u res) i j = lin_apply_B (st_f st) i j.
Proof. exact run_equation. Qed.
Print Assumptions C72_equation.

(** C72. The reported error is the largest difference from the expected
    solution over the inside nodes; there is none exactly when no solution is
    known. *)
Theorem C72_error : forall lib o st res, enumerating lib -> ps_run lib o st = Ok res ->
  match res_error res with
  | None => o_known o = false
  | Some e => o_known o = true /\
      is_max (fun p : node => o_inside o (fst p) (snd p))
        (fun p => Cmod (Cminus (o_expected o (fst (get_coord (o_AD o) (o_N o) (fst p) (snd p))) (snd (get_coord (o_AD o) (o_N o) (fst p) (snd p))))
                               (node_value (o_N o) (res_u res) (fst p) (snd p)))) e
  end.
Proof. exact run_error. Qed.
Print Assumptions C72_error.

(** C72. With a placed boundary, an extendable source, a non-empty basis and
    an inside node to compare at, the run ends without an exception. *)
Theorem C72_total : forall lib o st nc nr extf, enumerating lib -> options_ok o -> fit_sizes lib -> ps_init lib o = Ok st ->
  ctx_wf (st_ctx st) -> extend_inhomo_f (st_ctx st) = Ok extf -> basis_sizes o = Ok (nc, nr) -> (1 <= nc)%nat -> (1 <= nr)%nat ->
  sample_ok (o_r o) (o_R o) (o_a o) -> (o_known o = true -> exists i j, o_inside o i j) ->
  exists res, ps_run lib o st = Ok res.
Proof. exact run_total. Qed.
Print Assumptions C72_total.

(** C72. On the arc domain this is so for the whole program: on a grid fine
    enough construction and run succeed and the source extension reaches every node. *)
Theorem C72_arc : forall lib o nc nr, enumerating lib -> options_ok o -> fit_sizes lib -> arc_options lib o ->
  basis_sizes o = Ok (nc, nr) -> (1 <= nc)%nat -> (1 <= nr)%nat ->
  (o_homogeneous o = true \/ off_circle o /\ ((o_order o = 2)%Z \/ exists F, boundary_source o F)) ->
  (o_known o = true -> exists i j, o_inside o i j) ->
  exists st res, ps_init lib o = Ok st /\ st_gave_up st = false /\ ctx_wf (st_ctx st) /\ ps_run lib o st = Ok res.
Proof. exact arc_total. Qed.
Print Assumptions C72_arc.

(** C72. The result is formed from the extension of its own boundary data. *)
Theorem C72_candidate : forall lib o st res, enumerating lib -> options_ok o -> ps_init lib o = Ok st ->
  fit_sizes lib -> ctx_wf (st_ctx st) -> ps_run lib o st = Ok res ->
  length (res_c0 res) = length (ec_B (st_ctx st)) /\ length (res_c1 res) = length (ec_B (st_ctx st)) /\
  exists e, candidate st (res_c0 res) (res_c1 res) e (res_u res).
Proof. exact ran_candidate. Qed.
Print Assumptions C72_candidate.

(** C72. With a least-squares solution of the system, no other choice of the
    Neumann coefficients brings the result closer to its own boundary data. *)
Theorem C72_best : forall lib o st, enumerating lib -> options_ok o -> ps_init lib o = Ok st ->
  forall res, fit_sizes lib -> ctx_wf (st_ctx st) -> ps_run lib o st = Ok res -> lstsq_contract lib st (res_c0 res) ->
  forall e, candidate st (res_c0 res) (res_c1 res) e (res_u res) ->
  forall c1' e' u', length c1' = length (ec_B (st_ctx st)) -> candidate st (res_c0 res) c1' e' u' ->
  boundary_gap st (res_u res) e <= boundary_gap st u' e'.
Proof. exact ran_best. Qed.
Print Assumptions C72_best.

(** C72. If a discrete solution takes on the discrete boundary the extension of
    the boundary data for some Neumann coefficients, the result satisfies its
    own boundary data; and if the discrete boundary determines the
    coefficients, the run finds them and the result is that solution. *)
Theorem C72_exact : forall lib o st, enumerating lib -> options_ok o -> ps_init lib o = Ok st ->
  forall res, fit_sizes lib -> ctx_wf (st_ctx st) -> ps_run lib o st = Ok res -> lstsq_contract lib st (res_c0 res) ->
  forall v c1' e', (forall i j, o_inside o i j -> o_L o v i j = lin_apply_B (st_f st) i j) ->
  length c1' = length (ec_B (st_ctx st)) ->
  extend_boundary (with_basis (st_ctx st) (ec_B (st_ctx st)) (res_c0 res) c1') SrcCoef false = Ok e' ->
  (forall l, (l < length (ps_gamma (st_ps st)))%nat ->
     nth_value (ps_N (st_ps st)) (ps_gamma (st_ps st)) v l = as_vec e' l) ->
  (forall e, candidate st (res_c0 res) (res_c1 res) e (res_u res) -> boundary_gap st (res_u res) e = 0) /\
  (neumann_determined st -> res_c1 res = c1' /\
     forall i j, reached (st_ps st) (i, j) ->
       node_value (ps_N (st_ps st)) (res_u res) i j = node_value (ps_N (st_ps st)) v i j).
Proof. exact ran_reproduces. Qed.
Print Assumptions C72_exact.

(** C72. For a quadratic source the fourth-order run solves the difference
    equation with the source itself on the right-hand side, although only its
    values inside are used. *)
Theorem C72_quadratic : forall lib o st res F, enumerating lib -> options_ok o -> arc_options lib o -> (o_order o = 4)%Z ->
  ps_init lib o = Ok st -> ps_run lib o st = Ok res -> o_homogeneous o = false -> boundary_source o F -> quadratic F ->
  (forall x y, s_f (o_src o) x y = F 0%nat 0%nat x y) ->
  forall i j, o_inside o i j -> o_L o (res_u res) i j =
    lin_apply_B (fun i j => F 0%nat 0%nat (fst (get_coord (o_AD o) (o_N o) i j)) (snd (get_coord (o_AD o) (o_N o) i j))) i j.
Proof. exact quadratic_equation. Qed.
Print Assumptions C72_quadratic.

(** C72. The residual printed by the debug routine is, node by node, the
    distance between the boundary data and the trace of the result formed from
    the fitted exact data. *)
Theorem C72_residual : forall lib o st nc nr extf du, enumerating lib -> options_ok o -> fit_sizes lib -> ps_init lib o = Ok st ->
  ctx_wf (st_ctx st) -> extend_inhomo_f (st_ctx st) = Ok extf -> basis_sizes o = Ok (nc, nr) -> (1 <= nc)%nat -> (1 <= nr)%nat ->
  (0 < length (ps_gamma (st_ps st)))%nat ->
  exists c0 c1 e u rs m,
    calc_c0 (lib_chebfit lib) (get_chebyshev_roots (Z.to_nat n_chebyshev_nodes)) (o_R o) (o_a o) (st_seg st) (o_bc o) = Ok c0 /\
    calc_c0 (lib_chebfit lib) (get_chebyshev_roots (Z.to_nat n_chebyshev_nodes)) (o_R o) (o_a o) (st_seg st) du = Ok c1 /\
    candidate st c0 c1 e u /\ Q_residual lib o st du = Ok (rs, m) /\
    length rs = length (ps_gamma (st_ps st)) /\
    (forall l, (l < length rs)%nat -> nth l rs 0 = Cmod (Cminus (nth_value (o_N o) (ps_gamma (st_ps st)) u l) (as_vec e l))) /\
    is_max (fun l => (l < length rs)%nat) (fun l => nth l rs 0) m.
Proof. exact Q_residual_spec. Qed.
Print Assumptions C72_residual.

(** The three-quarter disc of radius 41/40 on the grid with 16 cells over
    [-2, 2], Laplace's equation, u = 1 on the boundary, one basis function per
    segment: all hypotheses hold, the Neumann coefficients are determined, and
    the run returns u = 1 and the error 0. *)
Example C72_example : let lib := ex_lib min_zero in exists st res,
  enumerating lib /\ fit_sizes lib /\ options_ok ex_opt /\ arc_options lib ex_opt /\ sample_ok (o_r ex_opt) (o_R ex_opt) (o_a ex_opt) /\
  ps_init lib ex_opt = Ok st /\ ctx_wf (st_ctx st) /\ ps_run lib ex_opt st = Ok res /\
  lstsq_contract lib st (res_c0 res) /\ neumann_determined st /\
  (forall i j, o_inside ex_opt i j -> o_L ex_opt one_arr i j = lin_apply_B (st_f st) i j) /\
  (exists c1' e', length c1' = length (ec_B (st_ctx st)) /\
     extend_boundary (with_basis (st_ctx st) (ec_B (st_ctx st)) (res_c0 res) c1') SrcCoef false = Ok e' /\
     forall l, (l < length (ps_gamma (st_ps st)))%nat ->
       nth_value (ps_N (st_ps st)) (ps_gamma (st_ps st)) one_arr l = as_vec e' l) /\
  (0 < length (ps_gamma (st_ps st)))%nat /\
  (forall i j, o_inside ex_opt i j -> node_value 16 (res_u res) i j = RtoC 1) /\
  res_error res = Some 0.
Proof. exact ex_all. Qed.

(** The same domain and grid with a quadratic source and five more basis
    functions. *)
Example C72_example_source : let lib := ex_lib min_zero in exists st res extf,
  enumerating lib /\ fit_sizes lib /\ options_ok ex_opt2 /\ arc_options lib ex_opt2 /\ off_circle ex_opt2 /\
  (o_homogeneous ex_opt2 = false /\ boundary_source ex_opt2 ex_F /\ quadratic ex_F /\
    forall x y, s_f (o_src ex_opt2) x y = ex_F 0%nat 0%nat x y) /\
  ps_init lib ex_opt2 = Ok st /\ ps_run lib ex_opt2 st = Ok res /\ st_gave_up st = false /\
  ctx_wf (st_ctx st) /\ extend_inhomo_f (st_ctx st) = Ok extf.
Proof. exact ex2_all. Qed.
