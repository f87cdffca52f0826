(** Property C73: the program run on its smooth problems. *)
From Coq Require Import ZArith List Bool Reals Lia Lra.
From Coquelicot Require Import Coquelicot.
From Verif Require Import Model_Py Model_Multivalue Model_Grid Model_Fourier Model_Linop Model_Abcoef Model_PS Model_Domain Model_Extend
  Model_Chebyshev Model_Problems Model_Driver Model_Run Model_Program
  Spec_Domain Spec_Grid Spec_PS Spec_Fd Spec_Problems Spec_Extend Spec_Inhomo Spec_ZRun Spec_Run Spec_Program
  Proof_Hessian Proof_Place Proof_Boundary Proof_Driver Proof_Run Proof_RunEx Proof_Program Proof_Source Proof_Tight Proof_TightEx Proof_Sizes.
Import ListNotations.
Open Scope R_scope.

(** C73. For the wave numbers of the problems, the square of side 2 pi and
    every tabulated grid size the auxiliary problem has a unique solution: no
    eigenvalue of the difference operator vanishes, for either scheme. *)
Theorem C73_solvable : forall N order k, table_size N -> (order = 2 \/ order = 4)%Z -> (k = 27 / 4 \/ k = 43 / 4) ->
  eig_nonzero N order (2 * PI) k.
Proof. exact program_solvable. Qed.
Print Assumptions C73_solvable.

Example C73_solvable_example : table_size 256 /\ eig_nonzero 256 4 (2 * PI) (43 / 4).
Proof.
  assert (H : table_size 256) by (exists 8%Z; split; [lia|reflexivity]).
  split; [exact H|]. apply C73_solvable; auto.
Qed.

(** C73. The source handed to the solver: if the polar expression f is the
    function F, the methods generated from f by sympy return F, its gradient, its
    Hessian and, with the derivatives Q of f, the polar derivatives. [D] lists
    the derivatives of F off the origin. *)
Theorem C73_source : forall AD f F (D Q : nat -> nat -> R -> R -> R),
  (forall r th, 0 < r -> polar_form f F r th) ->
  (forall x y, x <> 0 \/ y <> 0 -> D 0%nat 0%nat x y = F x y /\ is_grad F x y (D 1%nat 0%nat x y, D 0%nat 1%nat x y) /\
     is_hessian F x y ((D 2%nat 0%nat x y, D 1%nat 1%nat x y), (D 1%nat 1%nat x y, D 0%nat 2%nat x y))) ->
  Spec_Fd.partials 2 off_tip f Q ->
  (forall x y, x <> 0 \/ y <> 0 -> cart_source (sympy_source AD f) (fun i j x y => RtoC (D i j x y)) x y) /\
  forall r th, 0 < r -> polar_source (sympy_source AD f) (fun i j x y => RtoC (D i j x y)) (fun i j r th => RtoC (Q i j r th)) r th.
Proof. exact sympy_both. Qed.
Print Assumptions C73_source.

(** The source of smooth-ycos. *)
Example C73_source_example : forall k, exists D Q : nat -> nat -> R -> R -> R,
  (forall r th, 0 < r -> polar_form (ycos_f k) (ycos_F k) r th) /\
  (forall x y, x <> 0 \/ y <> 0 -> D 0%nat 0%nat x y = ycos_F k x y /\ is_grad (ycos_F k) x y (D 1%nat 0%nat x y, D 0%nat 1%nat x y) /\
     is_hessian (ycos_F k) x y ((D 2%nat 0%nat x y, D 1%nat 1%nat x y), (D 1%nat 1%nat x y, D 0%nat 2%nat x y))) /\
  Spec_Fd.partials 2 off_tip (ycos_f k) Q.
Proof. exact sympy_example. Qed.

(** C73. The boundary curves as functions of their amplitude, which is bet0
    where none is given: they start and end on the circle of radius R, deviate
    from it in proportion to the amplitude, and in the middle by the amplitude
    itself, outwards for outer-sine, inwards for inner-sine and sine7. *)
Theorem C73_boundary : forall b R0 v a th, 0 < a < 2 * PI ->
  boundary_r b R0 None a th = boundary_r b R0 (Some (bet0 b)) a th /\
  boundary_r b R0 (Some v) a a = R0 /\ boundary_r b R0 (Some v) a (2 * PI) = R0 /\
  boundary_r b R0 (Some v) a th - R0 = v * (boundary_r b R0 (Some 1) a th - R0) /\
  boundary_r b R0 (Some v) a ((a + 2 * PI) / 2) =
    match b with
    | Arc => R0 | OuterSine => R0 + v | InnerSine => R0 - v | Sine7 => R0 - v
    | Cubic => R0 + v / cubic_C * (2 * PI - a) ^ 2 / 4 * (PI - (a + 2 * PI) / 2)
    end.
Proof. exact boundary_amplitude. Qed.
Print Assumptions C73_boundary.

(** C73. On the tabulated grids the search in the tables ends in the first
    step, and the sizes found grow with the grid; at least as many functions
    on the curve as on a radius, never more than there are fitting nodes. *)
Theorem C73_basis : forall d N N' fuel, d = smooth_n_basis_dict \/ d = ihz_n_basis_dict -> table_size N -> table_size N' -> (N <= N')%Z ->
  exists nc nr nc' nr', get_n_basis (S fuel) d N = Ok (nc, nr) /\ get_n_basis (S fuel) d N' = Ok (nc', nr') /\
    (1 <= nr <= nc)%Z /\ (nc <= nc')%Z /\ (nr <= nr')%Z /\ (nc' <= n_chebyshev_nodes)%Z.
Proof. exact table_basis. Qed.
Print Assumptions C73_basis.

Example C73_basis_example : table_size 64 /\ table_size 128 /\ (64 <= 128)%Z.
Proof. split; [exists 6%Z; split; [lia|reflexivity]|]. split; [exists 7%Z; split; [lia|reflexivity]|lia]. Qed.

(** C73. The numbers of basis functions on the curve and on a radius a smooth
    problem is run with. *)
Theorem C73_sizes : forall fuel p b order N nc nr,
  In (N, (nc, nr)) [(16%Z, (20, 6)); (32%Z, (33, 8)); (64%Z, (42, 12)); (128%Z, (65, 18)); (256%Z, (80, 30)); (512%Z, (80, 45)); (1024%Z, (80, 45))]%nat ->
  exists o, smooth_options (S fuel) p b N order = Ok o /\ basis_sizes o = Ok (nc, nr).
Proof. exact smooth_sizes. Qed.
Print Assumptions C73_sizes.

Example C73_sizes_example : exists o, smooth_options 1 SmoothYCos Cubic 64 4 = Ok o /\ basis_sizes o = Ok (42, 12)%nat.
Proof. apply (smooth_sizes 0 SmoothYCos Cubic 4 64 42 12). right. right. left. reflexivity. Qed.

(** C73. On every boundary curve the options of a smooth problem meet the
    solver's requirements (C72). *)
Theorem C73_options : forall fuel p b N order, table_size N -> (order = 2 \/ order = 4)%Z ->
  exists o, smooth_options (S fuel) p b N order = Ok o /\ options_ok o.
Proof. exact smooth_options_meet. Qed.
Print Assumptions C73_options.

(** C73. On the arc domain the run of a smooth problem succeeds on every
    tabulated grid with either scheme: the source extension reaches every node,
    the reported error is the largest difference from the exact solution over
    the inside nodes, and the result satisfies the difference equation there,
    with zero on the right-hand side for smooth-sine and smooth-e and for
    smooth-ycos with f = (k^2 - 1) y cos x at the inside nodes. *)
Theorem C73_run : forall fuel lib p N order, enumerating lib -> fit_sizes lib -> brentq_contract (lib_brentq lib) ->
  table_size N -> (order = 2 \/ order = 4)%Z ->
  exists o st res e, smooth_options (S fuel) p Arc N order = Ok o /\ ps_init lib o = Ok st /\ ps_run lib o st = Ok res /\
    st_gave_up st = false /\ res_error res = Some e /\
    is_max (pizza_node N) (fun q => Cmod (Cminus (smooth_expected p (fst (square_pt N (fst q) (snd q))) (snd (square_pt N (fst q) (snd q))))
      (node_value N (res_u res) (fst q) (snd q)))) e /\
    (forall i j, pizza_node N (i, j) ->
      lin_apply_L N order (2 * PI) (27 / 4) (node_value N (res_u res)) i j = lin_apply_B (st_f st) i j) /\
    (p <> SmoothYCos -> forall i j, pizza_node N (i, j) ->
      lin_apply_L N order (2 * PI) (27 / 4) (node_value N (res_u res)) i j = RtoC 0) /\
    (p = SmoothYCos -> forall i j, pizza_node N (i, j) ->
      st_f st i j = RtoC (((27 / 4) ^ 2 - 1) * snd (square_pt N i j) * cos (fst (square_pt N i j)))).
Proof. exact smooth_run_full. Qed.
Print Assumptions C73_run.

(** C73. The command run.py smooth-… arc with -c below 2048 runs the grids
    N0, 2 N0, … up to c and prints for each what the loop of C55 prints for the
    errors and solutions of these runs. *)
Theorem C73_main : forall lib p order r N0 c, enumerating lib -> fit_sizes lib -> brentq_contract (lib_brentq lib) ->
  (order = 2 \/ order = 4)%Z -> table_size N0 -> (c < 2048)%Z ->
  exists fuel0 Ns runs outs,
    (forall x, In x Ns <-> exists i : nat, x = (N0 * 2 ^ Z.of_nat i)%Z /\ (x <= c)%Z) /\
    Forall2 (fun N eu => exists o st res, smooth_options fuel0 p Arc N order = Ok o /\ ps_init lib o = Ok st /\
      ps_run lib o st = Ok res /\ res_error res = Some (fst eu) /\ res_u res = snd eu) Ns runs /\
    run_loop r run_init (map (fun eu => (Some (fst eu), snd eu)) runs) = Ok outs /\
    forall fuel, (fuel0 <= fuel)%nat -> smooth_main fuel lib p Arc N0 (Some c) order r = Ok outs.
Proof. exact smooth_main_runs. Qed.
Print Assumptions C73_main.

(** A library meeting the contracts, and the grids of the default limit. *)
Example C73_example : let lib := ex_lib min_zero in
  enumerating lib /\ fit_sizes lib /\ brentq_contract (lib_brentq lib) /\ table_size 16 /\ (128 < 2048)%Z /\
  get_N_list 9 16 (Some 128%Z) = Ok [16; 32; 64; 128]%Z /\ pizza_node 16 (7, 8)%Z.
Proof. exact program_example. Qed.

(** C73. The search in the tables of the smooth problems and of the problems
    with singularity ends exactly for grid sizes whose five leading binary digits are 10000. *)
Theorem C73_tables : forall d N, d = smooth_n_basis_dict \/ d = ihz_n_basis_dict ->
  ((exists fuel v, get_n_basis fuel d N = Ok v) <-> leads_10000 N).
Proof. exact tables_end_iff. Qed.
Print Assumptions C73_tables.

Example C73_tables_example : leads_10000 2048 /\ ~ leads_10000 24.
Proof. split; [exists 11%Z; cbn; lia|exact not_leads_24]. Qed.

(** C73. For any other grid size run.py does not end, on any boundary; so it is
    false that it ends for every size of at least 16. *)
Theorem C73_ends_refuted : (forall lib p b N order r, ~ leads_10000 N ->
    forall fuel, smooth_main fuel lib p b N None order r = Err OutOfFuel) /\
  exists N, (16 <= N)%Z /\ forall lib p b order r fuel, smooth_main fuel lib p b N None order r = Err OutOfFuel.
Proof. exact main_diverges_ex. Qed.
Print Assumptions C73_ends_refuted.
