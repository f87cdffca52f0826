(** Property C74: the regularisation run as a whole, and runz.py. *)
From Coq Require Import String ZArith List Bool Reals Lia Lra.
From Coquelicot Require Import Coquelicot.
From Verif Require Import Model_Py Model_Multivalue Model_Grid Model_Fourier Model_Linop Model_Abcoef Model_PS Model_Domain Model_Extend
  Model_PolarFD Model_ZMethod Model_Problems Model_ZRun Model_Driver Model_Run Model_Program Model_ZProgram
  Spec_Domain Spec_Grid Spec_Abcoef Spec_Fd Spec_PolarFD Spec_Problems Spec_Bessel Spec_Ode Spec_ZRun Spec_Run Spec_Program Spec_ZProgram
  Proof_Place Proof_Boundary Proof_RunEx Proof_Bessel Proof_BesselJ Proof_ZSing Proof_ZRunEx Proof_Program Proof_ZProgram Proof_Tight Proof_TightEx Proof_Sizes.
Import ListNotations.
Open Scope R_scope.

(** C74. The three problems: the singular part v solves the homogeneous
    equation with the problem's wave number and has its data on the edges; the data on each
    boundary curve meet those of the edges in the corners; v - (g + q) solves the
    equation of the ODE step and vanishes on the edges; and the solution is given
    for iz-bessel only, where it is v and has the data on the curve. *)
Theorem C74_problems : forall J g s b, bessel_like J (pizza_nu / 2) -> bessel_like J (3 * pizza_nu / 2) ->
  let p := sing_problem J g s in
  (exists V, partials 2 off_tip (zp_eval_v p) V /\ forall r th, 0 < r -> polar_helmholtz (zp_k p) V r th = 0) /\
  (forall r, 0 < r -> zp_phi1 p r = zp_eval_v p r (2 * PI) /\ zp_phi2 p r = zp_eval_v p r (PI / 4)) /\
  (zp_phi0 p (boundary_r b (23 / 10) None (PI / 4)) (2 * PI) = zp_phi1 p (23 / 10) /\
   zp_phi0 p (boundary_r b (23 / 10) None (PI / 4)) (PI / 4) = zp_phi2 p (23 / 10)) /\
  (let z1 := fun r th => zp_eval_v p r th - (zp_g p r th + zm_q (zp_k p) (PI / 4) (zp_g p) r th) in
   (exists W, partials 2 off_tip z1 W /\
      forall r th, 0 < r -> polar_helmholtz (zp_k p) W r th = zm_f1 (zp_k p) (PI / 4) (zp_g p) r th) /\
   forall r, z1 r (PI / 4) = 0 /\ z1 r (2 * PI) = 0) /\
  (s = IzBessel <-> exists e, zp_expected p = Some e) /\
  (forall e, zp_expected p = Some e -> (forall th, zp_phi0 p (boundary_r b (23 / 10) None (PI / 4)) th = e (boundary_r b (23 / 10) None (PI / 4) th) th) /\
     forall r th, e r th = zp_eval_v p r th).
Proof. exact sing_problems. Qed.
Print Assumptions C74_problems.

Example C74_problems_example : bessel_like jv_series (pizza_nu / 2) /\ bessel_like jv_series (3 * pizza_nu / 2).
Proof. pose proof pizza_nu_pos. split; apply jv_series_bessel; lra. Qed.

(** C74. On the arc domain the run succeeds for each of the three problems, on
    every tabulated grid, with either scheme, with or without the two cheats and
    with any cached coefficients: the source extension reaches every node, u
    satisfies the difference equation inside with the source of the regularised
    problem, and its error is reported for iz-bessel only, where it is the
    largest difference from v - v_asympt over the inside nodes. *)
Theorem C74_run : forall L s acheat z1cheat cache N order,
  enumerating (zl_ps L) -> fit_sizes (zl_ps L) -> brentq_contract (lib_brentq (zl_ps L)) ->
  Spec_Program.table_size N -> (order = 2 \/ order = 4)%Z ->
  let p := sing_problem (zl_jv L) (zl_gamma L) s in
  exists z, (forall fuel, zm_run (S fuel) L p Arc acheat z1cheat (Some cache) N order = Ok z) /\
    st_gave_up (zr_st z) = false /\
    (forall i j, pizza_node N (i, j) ->
       lin_apply_L N order (2 * PI) (zp_k p) (node_value N (zr_u z)) i j = lin_apply_B (st_f (zr_st z)) i j) /\
    (forall i j r th, pizza_node N (i, j) -> polar_coords (square_pt N i j) r th -> 0 < r ->
       st_f (zr_st z) i j = RtoC (zm_f (zp_k p) (zp_v_asympt p) r th)) /\
    (s <> IzBessel -> zr_u_error z = None) /\
    (s = IzBessel -> exists e, zr_u_error z = Some e /\
       is_max (fun q : node * (R * R) => pizza_node N (fst q) /\
           polar_coords (square_pt N (fst (fst q)) (snd (fst q))) (fst (snd q)) (snd (snd q)))
         (fun q => Cmod (Cminus (RtoC (ih_eval_v (zl_jv L) 0 (27 / 4) pizza_nu (PI / 4) (fst (snd q)) (snd (snd q)) -
                                       zero_at_origin (zp_v_asympt p) (fst (snd q)) (snd (snd q))))
                                (node_value N (zr_u z) (fst (fst q)) (snd (fst q))))) e).
Proof. exact z_run. Qed.
Print Assumptions C74_run.

(** C74. Unless z1cheat is given, the run needs the attribute that only runz.py
    sets: it is false that a freshly constructed ZMethod can be run. *)
Theorem C74_attribute_refuted : exists fuel L s b N order,
  zm_run fuel L (sing_problem (zl_jv L) (zl_gamma L) s) b false false None N order = Err AttributeError.
Proof.
  exact (ex_intro _ 1%nat (ex_intro _ (mk_zlib (ex_lib min_zero) jv_series gamma_ex (fun _ _ _ _ _ _ => 0) (fun _ _ => 0) lookup2d)
    (ex_intro _ IhzLine (ex_intro _ Arc (ex_intro _ 16%Z (ex_intro _ 4%Z (z_attribute _ _ _ _ _ _ _))))))).
Qed.
Print Assumptions C74_attribute_refuted.

(** C74. The numbers of basis functions on the curve and on a radius the
    regularised problem of a singular problem is run with. *)
Theorem C74_sizes : forall fuel L p b A order N nc nr,
  In (N, (nc, nr)) [(16%Z, (25, 5)); (32%Z, (30, 20)); (64%Z, (40, 30)); (128%Z, (55, 40)); (256%Z, (70, 60)); (512%Z, (90, 60)); (1024%Z, (110, 60))]%nat ->
  exists o, zm_u_options (S fuel) L p b A N order = Ok o /\ basis_sizes o = Ok (nc, nr).
Proof. exact singular_sizes. Qed.
Print Assumptions C74_sizes.

Example C74_sizes_example : forall L p, exists o, zm_u_options 1 L p Arc [] 512 4 = Ok o /\ basis_sizes o = Ok (90, 60)%nat.
Proof. intros L p. apply (singular_sizes 0 L p Arc [] 4 512 90 60). do 5 right. left. reflexivity. Qed.

(** C74. On any of the five boundaries a successful run satisfies the difference
    equation at the inside nodes. *)
Theorem C74_equation : forall fuel L s b acheat z1cheat attr N order z,
  enumerating (zl_ps L) -> Spec_Program.table_size N -> (order = 2 \/ order = 4)%Z ->
  zm_run fuel L (sing_problem (zl_jv L) (zl_gamma L) s) b acheat z1cheat attr N order = Ok z ->
  forall i j, o_inside (zr_opt z) i j -> o_L (zr_opt z) (zr_u z) i j = lin_apply_B (st_f (zr_st z)) i j.
Proof. exact z_equation. Qed.
Print Assumptions C74_equation.

(** C74. Whatever coefficients were computed, u solves the boundary value
    problem handed to the solver iff u + v_asympt + the Fourier-Bessel part with
    these coefficients solves the original one: the homogeneous equation with
    the data phi0, phi1, phi2. *)
Theorem C74_equivalence : forall fuel L s b acheat z1cheat attr N order z, gamma_like (zl_gamma L) ->
  (forall m, (m < 7)%nat -> bessel_like (zl_jv L) ((INR m + 1) * pizza_nu)) ->
  let p := sing_problem (zl_jv L) (zl_gamma L) s in
  zm_run fuel L p b acheat z1cheat attr N order = Ok z ->
  forall u, posed (zr_opt z) u <->
    bvp (zp_k p) (o_r (zr_opt z)) (fun _ _ => RtoC 0) (fun th => RtoC (zp_phi0 p (o_r (zr_opt z)) th))
      (fun r => RtoC (zp_phi1 p r)) (fun r => RtoC (zp_phi2 p r))
      (fun r th => Cplus (u r th) (Cplus (RtoC (zp_v_asympt p r th))
         (fourier_bessel (zl_jv L) (zp_k p) pizza_nu (PI / 4) 7 (fun m => nth m (zr_a z) (RtoC 0)) r th))).
Proof. exact z_equivalence. Qed.
Print Assumptions C74_equivalence.

(** C74. With acheat, the solution that u is compared with for iz-bessel solves
    the problem handed to the solver. *)
Theorem C74_iz : forall fuel L b z1cheat attr N order z, gamma_like (zl_gamma L) ->
  (forall m, (m < 7)%nat -> bessel_like (zl_jv L) ((INR m + 1) * pizza_nu)) -> bessel_like (zl_jv L) (pizza_nu / 2) ->
  zm_run fuel L (sing_problem (zl_jv L) (zl_gamma L) IzBessel) b true z1cheat attr N order = Ok z ->
  exists e, posed (zr_opt z) e /\
    forall r th, 0 < r -> PI / 4 <= th <= 2 * PI -> o_expected (zr_opt z) (r * cos th) (r * sin th) = e r th.
Proof. exact z_iz. Qed.
Print Assumptions C74_iz.

(** C74. The sparse solver returns a solution iff the table v of the run has the
    problem's data on the edges, the series on the inner circle, the sine series
    with the coefficients of the run plus g + q on the arc of radius R + bet, and
    no compact residual inside. *)
Theorem C74_table : forall fuel L s b z1cheat attr N order z, (1 <= N)%Z ->
  let p := sing_problem (zl_jv L) (zl_gamma L) s in
  zm_run fuel L p b false z1cheat attr N order = Ok z ->
  let R1 := 23 / 10 + bet0 b in
  let hr := (R1 - / 10) / IZR N in let hth := (2 * PI - PI / 4) / IZR N in
  let r := fun m => / 10 + IZR m * hr in let th := fun l => PI / 4 + IZR l * hth in
  (Model_PolarFD.solves (assemble (zr_fd z)) (zl_spsolve L (assemble (zr_fd z))) <->
   (forall m, (0 <= m <= N)%Z -> zr_v z m 0%Z = RtoC (zp_phi2 p (r m)) /\ zr_v z m N = RtoC (zp_phi1 p (r m))) /\
   (forall l, (1 <= l <= N - 1)%Z -> zr_v z 0%Z l = RtoC (zp_v_series p (/ 10) (th l)) /\
      zr_v z N l = RtoC (sine_series (PI / 4) pizza_nu 7 (fun m => nth m (zr_z1 z) 0) (th l) +
                         (zp_g p R1 (th l) + zm_q (zp_k p) (PI / 4) (zp_g p) R1 (th l)))) /\
   (forall m l, (1 <= m <= N - 1)%Z -> (1 <= l <= N - 1)%Z ->
      compact_scheme r hr hth (zp_k p) (fun m l => fst (zr_v z m l)) m l = 0)).
Proof. exact z_table. Qed.
Print Assumptions C74_table.

(** C74. The coefficients fitted on the arc: seven, those of the discrete sine
    transform, on 2048 nodes, of the difference between the data and the
    interpolated table on the circle of radius R, divided by J. *)
Theorem C74_fit_arc : forall fuel L s z1cheat attr N order z,
  let p := sing_problem (zl_jv L) (zl_gamma L) s in
  zm_run fuel L p Arc false z1cheat attr N order = Ok z ->
  let y := fun th => Cminus (RtoC (zp_phi0 p (fun _ => 23 / 10) th))
    (zm_v_interp (zl_interp2d L) (zr_fd z) (23 / 10) 0 (zr_v z) (23 / 10) th) in
  (forall m, (m < 7)%nat -> zl_jv L ((INR m + 1) * pizza_nu) (zp_k p * (23 / 10)) <> 0) ->
  (forall n m W x, least_squares n m W x (lib_lstsq (zl_ps L) n m W x)) ->
  length (zr_a z) = 7%nat /\
  forall m, (m < 7)%nat ->
    Cmult (nth m (zr_a z) (RtoC 0)) (RtoC (zl_jv L ((INR m + 1) * pizza_nu) (zp_k p * (23 / 10)))) =
    arc_dst (PI / 4) y (Z.to_nat 2048) (Z.of_nat m).
Proof. exact fit_arc. Qed.
Print Assumptions C74_fit_arc.

Example C74_fit_arc_example : let p := sing_problem (zl_jv arc_zlib) (zl_gamma arc_zlib) IhzLine in
  (exists z, zm_run 1 arc_zlib p Arc false false (Some None) 16 4 = Ok z) /\
  (forall m, (m < 7)%nat -> zl_jv arc_zlib ((INR m + 1) * pizza_nu) (zp_k p * (23 / 10)) <> 0) /\
  (forall n m W x, least_squares n m W x (lib_lstsq (zl_ps arc_zlib) n m W x)).
Proof. exact fit_arc_example. Qed.

(** C74. On the other curves, if that difference is a Fourier-Bessel sum of up
    to 200 terms at the 2048 nodes and these terms are independent there, the
    run uses its first seven coefficients. *)
Theorem C74_fit_curve : forall fuel L s b z1cheat attr N order z (c : nat -> C), b <> Arc ->
  let p := sing_problem (zl_jv L) (zl_gamma L) s in
  zm_run fuel L p b false z1cheat attr N order = Ok z ->
  let r := boundary_r b (23 / 10) None (PI / 4) in
  let y := fun th => Cminus (RtoC (zp_phi0 p r th)) (zm_v_interp (zl_interp2d L) (zr_fd z) (23 / 10) (bet0 b) (zr_v z) (r th) th) in
  (forall m, (m < 200)%nat -> zl_jv L ((INR m + 1) * pizza_nu) (zp_k p * (23 / 10)) <> 0) ->
  (forall n m W x, least_squares n m W x (lib_lstsq (zl_ps L) n m W x)) ->
  full_rank ab_n_nodes 200 (fun i m => RtoC (zl_jv L ((INR m + 1) * pizza_nu) (zp_k p * r (ab_th ab_n_nodes i)) *
                                   sin ((INR m + 1) * pizza_nu * (ab_th ab_n_nodes i - PI / 4)))) ->
  (forall i, (i < ab_n_nodes)%nat -> y (ab_th ab_n_nodes i) =
     fourier_bessel (zl_jv L) (zp_k p) pizza_nu (PI / 4) 200 c (r (ab_th ab_n_nodes i)) (ab_th ab_n_nodes i)) ->
  zr_a z = map c (seq 0 7).
Proof. exact fit_curve. Qed.
Print Assumptions C74_fit_curve.

Example C74_fit_curve_example : let L := curve_zlib in let p := sing_problem (zl_jv L) (zl_gamma L) IhzLine in
  let r := boundary_r OuterSine (23 / 10) None (PI / 4) in
  (forall m, (m < 200)%nat -> zl_jv L ((INR m + 1) * pizza_nu) (zp_k p * (23 / 10)) <> 0) /\
  (forall n m W x, least_squares n m W x (lib_lstsq (zl_ps L) n m W x)) /\
  full_rank ab_n_nodes 200 (fun i m => RtoC (zl_jv L ((INR m + 1) * pizza_nu) (zp_k p * r (ab_th ab_n_nodes i)) *
                                   sin ((INR m + 1) * pizza_nu * (ab_th ab_n_nodes i - PI / 4)))) /\
  exists z, zm_run 1 L p OuterSine false false (Some None) 16 4 = Ok z /\
    forall th, Cminus (RtoC (zp_phi0 p r th)) (zm_v_interp (zl_interp2d L) (zr_fd z) (23 / 10) (bet0 OuterSine) (zr_v z) (r th) th) =
      fourier_bessel (zl_jv L) (zp_k p) pizza_nu (PI / 4) 200 (fun m => RtoC (INR m + 1)) (r th) th.
Proof. exact fit_curve_example. Qed.

(** C74. The reported error of v is the largest absolute value among the first
    seven sine coefficients, circle by circle, of the difference from the exact v. *)
Theorem C74_v_error : forall fuel L s b acheat z1cheat attr N order z (c : Z -> nat -> C), (2 <= N)%Z ->
  let p := sing_problem (zl_jv L) (zl_gamma L) s in
  zm_run fuel L p b acheat z1cheat attr N order = Ok z ->
  let R1 := 23 / 10 + bet0 b in
  let hr := (R1 - / 10) / IZR N in let hth := (2 * PI - PI / 4) / IZR N in
  let r := fun m => / 10 + IZR m * hr in let th := fun l => PI / 4 + IZR l * hth in
  (forall m l, (1 <= m < N)%Z -> (1 <= l < N)%Z ->
     Cminus (RtoC (zp_eval_v p (r m) (th l))) (zr_v z m l) =
     csum (Z.to_nat (N - 1)) (fun j => Cmult (c m j) (RtoC (sin ((INR j + 1) * pizza_nu * (th l - PI / 4)))))) ->
  is_max (fun q : Z * nat => (1 <= fst q < N)%Z /\ (snd q < 7)%nat /\ (Z.of_nat (snd q) < N - 1)%Z)
    (fun q => Cmod (c (fst q) (snd q))) (zr_v_error z).
Proof. exact z_v_error. Qed.
Print Assumptions C74_v_error.

(** C74. Handing on the coefficients of an earlier run changes nothing: they do
    not depend on the grid or the scheme. *)
Theorem C74_cache : forall fuel fuel' L p b acheat z1cheat cache N N' order order' z,
  zm_run fuel L p b acheat z1cheat (Some cache) N order = Ok z ->
  zm_run fuel' L p b acheat z1cheat (Some (Some (zr_z1 z))) N' order' = zm_run fuel' L p b acheat z1cheat (Some cache) N' order'.
Proof. exact z_cache. Qed.
Print Assumptions C74_cache.

(** C74. The command runz.py on the arc boundary with -c below 2048 runs the
    grids N0, 2 N0, … up to c and prints the report of these runs, as if each
    had been started with an empty cache. *)
Theorem C74_main : forall L s acheat z1cheat order N0 c,
  enumerating (zl_ps L) -> fit_sizes (zl_ps L) -> brentq_contract (lib_brentq (zl_ps L)) -> (order = 2 \/ order = 4)%Z ->
  Spec_Program.table_size N0 -> (c < 2048)%Z ->
  exists fuel0 Ns zs,
    (forall x, In x Ns <-> exists i : nat, x = (N0 * 2 ^ Z.of_nat i)%Z /\ (x <= c)%Z) /\
    Forall2 (fun N z => zm_run fuel0 L (sing_problem (zl_jv L) (zl_gamma L) s) Arc acheat z1cheat (Some None) N order = Ok z) Ns zs /\
    forall fuel, (fuel0 <= fuel)%nat -> runz_main fuel L s Arc N0 (Some c) order acheat z1cheat = Ok (map (report zs) (seq 0 (length zs))).
Proof. exact z_main. Qed.
Print Assumptions C74_main.

(** The contracts and the Bessel hypotheses hold for the Bessel series, and the
    run for iz-bessel on 16 cells exists, is compared at a node off the origin,
    and its problem has the compared solution. *)
Example C74_example : let L := mk_zlib (ex_lib min_zero) jv_series gamma_ex (fun _ _ _ _ _ _ => 0) (fun _ _ => 0) lookup2d in
  enumerating (zl_ps L) /\ fit_sizes (zl_ps L) /\ brentq_contract (lib_brentq (zl_ps L)) /\ Spec_Program.table_size 16 /\
  gamma_like (zl_gamma L) /\ (forall m, (m < 7)%nat -> bessel_like (zl_jv L) ((INR m + 1) * pizza_nu)) /\
  bessel_like (zl_jv L) (pizza_nu / 2) /\
  (exists z, zm_run 1 L (sing_problem (zl_jv L) (zl_gamma L) IzBessel) Arc true false (Some None) 16 4 = Ok z /\
     exists e, posed (zr_opt z) e) /\
  pizza_node 16 (7, 8)%Z /\ polar_coords (square_pt 16 7 8) (PI / 8) PI.
Proof.
  intros L. destruct program_example as (H1 & H2 & H3 & H4 & _ & _ & H5).
  assert (HJ : forall m, (m < 7)%nat -> bessel_like (zl_jv L) ((INR m + 1) * pizza_nu)).
  { intros m _. apply jv_series_bessel. pose proof (pos_INR m). pose proof pizza_nu_pos. apply Rmult_lt_0_compat; lra. }
  assert (HB : bessel_like (zl_jv L) (pizza_nu / 2)) by (apply jv_series_bessel; pose proof pizza_nu_pos; lra).
  do 4 (split; [assumption|]). split; [exact gamma_ex_like|]. split; [exact HJ|]. split; [exact HB|]. split; [|split; [exact H5|]].
  - destruct (C74_run L IzBessel true false None 16 4 H1 H2 H3 H4 ltac:(right; reflexivity)) as (z & Hz & _).
    exists z. split; [apply Hz|]. destruct (C74_iz 1 L Arc false (Some None) 16 4 z gamma_ex_like HJ HB (Hz 0%nat)) as (e & He & _).
    exists e. exact He.
  - pose proof PI_RGT_0. split; [|split; [lra|split; [lra|lra]]]. unfold square_pt. rewrite cos_PI, sin_PI. f_equal; field.
Qed.

(** C74. For a grid size whose five leading binary digits are not 10000, runz.py does
    not end, on any boundary; so it is false that it ends for every size of at
    least 16. *)
Theorem C74_ends_refuted : (forall fuel L s b acheat z1cheat N order, (16 <= N)%Z -> ~ leads_10000 N ->
    runz_main fuel L s b N None order acheat z1cheat = Err OutOfFuel) /\
  exists N, (16 <= N)%Z /\ forall fuel L s b acheat z1cheat order, runz_main fuel L s b N None order acheat z1cheat = Err OutOfFuel.
Proof. exact z_diverges_ex. Qed.
Print Assumptions C74_ends_refuted.
