(** Basis sizes, default sample, boundary curves, tables and fitted
    coefficients (C71, C72, C73, C74). *)
From Coq Require Import String ZArith List Bool Reals Lia Lra.
From Coquelicot Require Import Coquelicot.
From Verif Require Import Model_Py Model_Multivalue Model_Grid Model_Fourier Model_Linop Model_Abcoef Model_PS Model_Chebyshev Model_Domain Model_Ext Model_Extend
  Model_Debug Model_Ode Model_PolarFD Model_ZMethod Model_Problems Model_ZRun Model_Driver Model_Run Model_Program Model_ZProgram
  Spec_Domain Spec_Grid Spec_PS Spec_Abcoef Spec_Chebyshev Spec_Extend Spec_ZRun Spec_Debug Spec_Run Spec_Program
  Proof_Domain Proof_Abcoef Proof_Basis Proof_Debug Proof_Run Proof_Program Proof_ZProgram.
Import ListNotations.
Open Scope R_scope.

Local Notation table_size := Spec_Program.table_size.

(** ** ps.py: the basis sizes *)

Lemma init_basis : forall lib o st, ps_init lib o = Ok st -> exists nc nr,
  match o_n_circle o with None => o_n_basis o = (nc, nr) | Some c => nc = c /\ o_n_radius o = Some nr end /\
  NoDup (ec_B (st_ctx st)) /\
  forall sid J, In (sid, J) (ec_B (st_ctx st)) <-> (sid = 0 /\ J < nc)%nat \/ ((sid = 1 \/ sid = 2) /\ J < nr)%nat.
Proof.
  intros lib o st H. destruct (ps_init_inv lib o st H) as (nc & nr & c & f & b & A & En & Ec & _ & _ & ->). cbn [st_ctx].
  exists nc, nr. split.
  { unfold basis_sizes in En. destruct (o_n_circle o) as [c'|]; [|injection En as En; exact En].
    destruct (o_n_radius o) as [r'|]; [|discriminate]. injection En as -> ->. auto. }
  destruct (init_ctx_inv _ _ _ _ Ec) as (g0 & g1 & g2 & _ & ->). cbn [ec_B]. split.
  - apply NoDup_nth_error. intros i j Hi E. destruct (nth_error (fst (setup_basis nc nr)) i) as [[sid J]|] eqn:Ei; [|apply nth_error_None in Ei; lia].
    apply B_desc_nth in Ei. symmetry in E. apply B_desc_nth in E. destruct Ei as (_ & _ & ->), E as (_ & _ & ->). reflexivity.
  - intros sid J. split.
    + intros Hin. apply In_nth_error in Hin. destruct Hin as (JJ & E). apply B_desc_nth in E. destruct E as (H1 & H2 & _).
      destruct sid as [|[|[|sid]]]; cbn in H2; lia.
    + intros Hin. apply nth_error_In with (basis_index nc nr sid J). apply B_desc_nth.
      destruct Hin as [[-> HJ]|[[-> | ->] HJ]]; cbn; lia.
Qed.

Lemma init_no_radius : forall lib o nc, o_n_circle o = Some nc -> o_n_radius o = None -> ps_init lib o = Err AssertionError.
Proof. intros lib o nc E1 E2. unfold ps_init, basis_sizes. rewrite E1, E2. reflexivity. Qed.

(** ** debug.py *)

Lemma default_sample : forall eval_r R0 a, length (get_boundary_sample eval_r R0 a sample_n) = 500%nat.
Proof. intros. rewrite sample_length. reflexivity. Qed.

Lemma c1_in_gap : forall ev R0 a B c1 p r th, 0 < a < 2 * PI -> 0 < r -> 0 < th <= a - / 10 ^ 12 ->
  bp_x p = r * cos th -> bp_y p = r * sin th ->
  c1_point ev R0 a B c1 p = Ok (Re (ev (bp_arg p) (bp_sid p)), 0).
Proof.
  intros ev R0 a B c1 p r th Ha Hr Hth Ex Ey. unfold c1_point. rewrite Ex, Ey.
  assert (0 < / 10 ^ 12) by (apply Rinv_0_lt_compat, pow_lt; lra).
  rewrite cart_to_polar_of_polar by lra. unfold get_sid.
  destruct (Rleb_spec (2 * PI) th); [lra|]. destruct (Rltb_spec a th); [lra|].
  destruct (Rltb_spec (Rabs (th - a)) sid_tol) as [L|_]; [|reflexivity].
  exfalso. unfold sid_tol in L. rewrite Rabs_left in L by lra. lra.
Qed.

(** ** boundary.py *)

Lemma boundary_amplitude : forall b R0 v a th, 0 < a < 2 * PI ->
  boundary_r b R0 None a th = boundary_r b R0 (Some (bet0 b)) a th /\
  boundary_r b R0 (Some v) a a = R0 /\ boundary_r b R0 (Some v) a (2 * PI) = R0 /\
  boundary_r b R0 (Some v) a th - R0 = v * (boundary_r b R0 (Some 1) a th - R0) /\
  boundary_r b R0 (Some v) a ((a + 2 * PI) / 2) =
    match b with
    | Arc => R0 | OuterSine => R0 + v | InnerSine => R0 - v | Sine7 => R0 - v
    | Cubic => R0 + v / cubic_C * (2 * PI - a) ^ 2 / 4 * (PI - (a + 2 * PI) / 2)
    end.
Proof.
  intros b R0 v a th Ha. pose proof PI_RGT_0.
  assert (E1 : problem_nu a * (2 * PI - a) = PI) by (unfold problem_nu; field; lra).
  assert (E2 : problem_nu a * ((a + 2 * PI) / 2 - a) = PI / 2) by (unfold problem_nu; field; lra).
  assert (HC : cubic_C <> 0).
  { unfold cubic_C. assert (H9 : 9 <= sqrt 91) by (replace 9 with (sqrt (9 * 9)) by (apply sqrt_square; lra); apply sqrt_le_1_alt; lra).
    assert (0 < PI ^ 3) by (apply pow_lt; lra).
    assert (0 < (91 * sqrt 91 - 136) * PI ^ 3) by (apply Rmult_lt_0_compat; lra). lra. }
  unfold boundary_r, boundary_bet. cbv zeta. split; [reflexivity|]. split; [|split; [|split]].
  - destruct b; unfold r_arc, r_outer_sine, r_inner_sine, r_sine7, r_cubic; [reflexivity| | | |].
    + replace (problem_nu a * (a - a)) with 0 by ring. rewrite sin_0. ring.
    + replace (problem_nu a * (a - a)) with 0 by ring. rewrite sin_0. ring.
    + replace (7 * problem_nu a * (a - a)) with 0 by ring. rewrite sin_0. ring.
    + field. exact HC.
  - destruct b; unfold r_arc, r_outer_sine, r_inner_sine, r_sine7, r_cubic; [reflexivity| | | |].
    + rewrite E1, sin_PI. ring.
    + rewrite E1, sin_PI. ring.
    + replace (7 * problem_nu a * (2 * PI - a)) with (PI + 2 * INR 3 * PI) by (replace (7 * problem_nu a * (2 * PI - a)) with (7 * (problem_nu a * (2 * PI - a))) by ring; rewrite E1; simpl; ring). rewrite sin_period, sin_PI. ring.
    + field. exact HC.
  - destruct b; unfold r_arc, r_outer_sine, r_inner_sine, r_sine7, r_cubic; try ring. field. exact HC.
  - destruct b; unfold r_arc, r_outer_sine, r_inner_sine, r_sine7, r_cubic; [reflexivity| | | |].
    + rewrite E2, sin_PI2. ring.
    + rewrite E2, sin_PI2. ring.
    + replace (7 * problem_nu a * ((a + 2 * PI) / 2 - a)) with (3 * (PI / 2) + 2 * INR 1 * PI) by (replace (7 * problem_nu a * ((a + 2 * PI) / 2 - a)) with (7 * (problem_nu a * ((a + 2 * PI) / 2 - a))) by ring; rewrite E2; simpl; field).
      rewrite sin_period, sin_3PI2. ring.
    + field. exact HC.
Qed.

(** ** The tables of basis sizes *)

Lemma table_basis : forall d N N' fuel, d = smooth_n_basis_dict \/ d = ihz_n_basis_dict -> table_size N -> table_size N' -> (N <= N')%Z ->
  exists nc nr nc' nr', get_n_basis (S fuel) d N = Ok (nc, nr) /\ get_n_basis (S fuel) d N' = Ok (nc', nr') /\
    (1 <= nr <= nc)%Z /\ (nc <= nc')%Z /\ (nr <= nr')%Z /\ (nc' <= n_chebyshev_nodes)%Z.
Proof.
  intros d N N' fuel Hd HN HN' L. destruct (table_size_cases N HN) as (m & Hm & ->). destruct (table_size_cases N' HN') as (m' & Hm' & ->).
  cbn [In] in Hm, Hm'. unfold n_chebyshev_nodes.
  destruct Hd as [-> | ->];
  destruct Hm as [<-|[<-|[<-|[<-|[<-|[<-|[<-|[]]]]]]]]; destruct Hm' as [<-|[<-|[<-|[<-|[<-|[<-|[<-|[]]]]]]]];
  first [exfalso; vm_compute in L; apply L; reflexivity
        |do 4 eexists; split; [cbn [get_n_basis]; vm_compute; reflexivity|split; [cbn [get_n_basis]; vm_compute; reflexivity|]]; lia].
Qed.

(** ** The fitted coefficients of the regularisation *)

Lemma fit_arc : forall fuel L s z1cheat attr N order z,
  let p := sing_problem (zl_jv L) (zl_gamma L) s in
  zm_run fuel L p Arc false z1cheat attr N order = Ok z ->
  let y := fun th => Cminus (RtoC (zp_phi0 p (fun _ => 23 / 10) th))
    (zm_v_interp (zl_interp2d L) (zr_fd z) (23 / 10) 0 (zr_v z) (23 / 10) th) in
  (forall m, (m < 7)%nat -> zl_jv L ((INR m + 1) * pizza_nu) (zp_k p * (23 / 10)) <> 0) ->
  (forall n m W x, least_squares n m W x (lib_lstsq (zl_ps L) n m W x)) ->
  length (zr_a z) = 7%nat /\
  forall m, (m < 7)%nat ->
    Cmult (nth m (zr_a z) (RtoC 0)) (RtoC (zl_jv L ((INR m + 1) * pizza_nu) (zp_k p * (23 / 10)))) =
    arc_dst (PI / 4) y (Z.to_nat 2048) (Z.of_nat m).
Proof.
  intros fuel L s z1cheat attr N order z p H y Hj Hl.
  destruct (zm_run_inv _ _ _ _ _ _ _ _ _ _ H) as (_ & _ & Efd & Ev & Ea & _).
  unfold zac in Ea. rewrite <- Efd, <- Ev in Ea. unfold zm_calc_a_coef in Ea.
  destruct (zm_expected_a_coef _ _ _ _ _ _ _ _ _ _) as [fft|] eqn:Ef; cbn [bind] in Ea; [|discriminate].
  change (get_m1 Arc) with 7%nat in Ea. unfold zm_M in Ea.
  pose proof (calc_on_arc (lib_lstsq (zl_ps L)) (zl_jv L) (zp_k p) (23 / 10) y ab_n_nodes 7 7 (le_n 7)
    ltac:(unfold ab_n_nodes; lia) Hj (Hl _ _ _ _)) as Q.
  assert (Ea' : zr_a z = calc_a_coef (lib_lstsq (zl_ps L)) (zl_jv L) (zp_k p) (23 / 10) pizza_a pizza_nu (fun _ => 23 / 10) y ab_n_nodes 7 7).
  { apply Ok_inj' in Ea. rewrite <- Ea. reflexivity. }
  rewrite <- Ea' in Q. unfold b_to_a in Q. rewrite convert_map in Q by auto. apply Ok_inj' in Q. rewrite <- Q. rewrite map_length, seq_length, map_length, seq_length.
  split; [reflexivity|]. intros m Hm. rewrite nth_map_seq by exact Hm. cbn [String.eqb]. rewrite nth_map_seq by exact Hm.
  cbn [String.eqb Ascii.eqb Bool.eqb]. rewrite <- Cmult_assoc, <- RtoC_mult.
  replace (1 / zl_jv L ((INR m + 1) * pizza_nu) (zp_k p * (23 / 10)) * zl_jv L ((INR m + 1) * pizza_nu) (zp_k p * (23 / 10))) with 1 by (field; apply Hj; exact Hm).
  rewrite Cmult_1_r. reflexivity.
Qed.

Lemma fit_curve : forall fuel L s b z1cheat attr N order z (c : nat -> C), b <> Arc ->
  let p := sing_problem (zl_jv L) (zl_gamma L) s in
  zm_run fuel L p b false z1cheat attr N order = Ok z ->
  let r := boundary_r b (23 / 10) None (PI / 4) in
  let y := fun th => Cminus (RtoC (zp_phi0 p r th)) (zm_v_interp (zl_interp2d L) (zr_fd z) (23 / 10) (bet0 b) (zr_v z) (r th) th) in
  (forall m, (m < 200)%nat -> zl_jv L ((INR m + 1) * pizza_nu) (zp_k p * (23 / 10)) <> 0) ->
  (forall n m W x, least_squares n m W x (lib_lstsq (zl_ps L) n m W x)) ->
  full_rank ab_n_nodes 200 (fun i m => RtoC (zl_jv L ((INR m + 1) * pizza_nu) (zp_k p * r (ab_th ab_n_nodes i)) *
                                   sin ((INR m + 1) * pizza_nu * (ab_th ab_n_nodes i - PI / 4)))) ->
  (forall i, (i < ab_n_nodes)%nat -> y (ab_th ab_n_nodes i) =
     fourier_bessel (zl_jv L) (zp_k p) pizza_nu (PI / 4) 200 c (r (ab_th ab_n_nodes i)) (ab_th ab_n_nodes i)) ->
  zr_a z = map c (seq 0 7).
Proof.
  intros fuel L s b z1cheat attr N order z c Hb p H r y Hj Hl Hr Hy.
  destruct (zm_run_inv _ _ _ _ _ _ _ _ _ _ H) as (_ & _ & Efd & Ev & Ea & _).
  unfold zac in Ea. rewrite <- Efd, <- Ev in Ea. unfold zm_calc_a_coef in Ea.
  destruct (zm_expected_a_coef _ _ _ _ _ _ _ _ _ _) as [fft|] eqn:Ef; cbn [bind] in Ea; [|discriminate].
  assert (Em : get_m1 b = 200%nat) by (destruct b; [congruence| | | |]; reflexivity). rewrite Em in Ea. unfold zm_M in Ea.
  assert (Ea' : zr_a z = calc_a_coef (lib_lstsq (zl_ps L)) (zl_jv L) (zp_k p) (23 / 10) pizza_a pizza_nu r y ab_n_nodes 7 200).
  { apply Ok_inj' in Ea. rewrite <- Ea. reflexivity. }
  rewrite Ea'. apply (calc_recovers (lib_lstsq (zl_ps L)) (zl_jv L) (zp_k p) (23 / 10) pizza_a pizza_nu r y ab_n_nodes 7 200 c); [lia|assumption|apply Hl|assumption|assumption].
Qed.
