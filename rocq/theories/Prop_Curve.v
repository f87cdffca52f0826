(** Property C75: the smooth problems on all five boundary curves. *)
From Coq Require Import ZArith List Bool Reals Lia Lra.
From Coquelicot Require Import Coquelicot.
From Verif Require Import Model_Py Model_Multivalue Model_Grid Model_Fourier Model_Linop Model_Abcoef Model_PS Model_Domain Model_Extend
  Model_Problems Model_ZMethod Model_ZRun Model_Driver Model_Run Model_Program Model_ZProgram
  Spec_Domain Spec_Grid Spec_PS Spec_Extend Spec_Inhomo Spec_ZRun Spec_Run Spec_Program Spec_ZProgram Spec_Curve
  Proof_Place Proof_Boundary Proof_Driver Proof_Run Proof_RunEx Proof_Program Proof_CurveRun Proof_CurveEx Proof_CurveZ Proof_Source.
Import ListNotations.
Open Scope R_scope.

(** C75. On each of the five boundary curves and every grid of at least 16
    cells the constructor's placement of the grid boundary succeeds: a node is
    put on a piece exactly if the piece comes within h sqrt 2 of it, every node
    is put on one or two pieces, and a node of the curve carries its signed
    distance to the curve and the parameter of the nearest point. *)
Theorem C75_placed : forall brentq b N order union_gamma, brentq_contract brentq -> (16 <= N)%Z -> (order = 2 \/ order = 4)%Z ->
  let r := boundary_r b (23 / 10) None (PI / 4) in
  let e := 2 * PI / IZR N * sqrt 2 in
  enumerates union_gamma (gamma_set order N (ps_is_interior r (PI / 4) (2 * PI) N)) ->
  exists g0 g1 g2,
    all_gamma (23 / 10) (PI / 4) (2 * PI) N (node_bcoord brentq r (PI / 4) (2 * PI) N) union_gamma = Ok (g0, g1, g2) /\
    (forall p, In p g0 <-> In p union_gamma /\ exists q, on_piece r (23 / 10) (PI / 4) 0 q /\ dist2 q (square_pt N (fst p) (snd p)) <= e) /\
    (forall p, In p g1 <-> In p union_gamma /\ exists q, on_piece r (23 / 10) (PI / 4) 1 q /\ dist2 q (square_pt N (fst p) (snd p)) <= e) /\
    (forall p, In p g2 <-> In p union_gamma /\ exists q, on_piece r (23 / 10) (PI / 4) 2 q /\ dist2 q (square_pt N (fst p) (snd p)) <= e) /\
    (forall p, In p union_gamma -> (In p g0 \/ In p g1 \/ In p g2) /\ ~ (In p g0 /\ In p g1 /\ In p g2)) /\
    (forall p, In p g0 -> exists n th, node_bcoord brentq r (PI / 4) (2 * PI) N p = Some (n, th) /\
       Rabs n = dist2 (r th * cos th, r th * sin th) (square_pt N (fst p) (snd p)) /\
       forall phi, PI / 4 <= phi <= 2 * PI -> PI / 4 <= th <= 2 * PI ->
         Rabs n <= dist2 (r phi * cos phi, r phi * sin phi) (square_pt N (fst p) (snd p))).
Proof. exact curve_placement. Qed.
Print Assumptions C75_placed.

(** C75. With the fourth-order scheme the source extension reaches every node
    of Kplus outside Mplus and stores there the second-order expansion of the
    source from a boundary point within h sqrt 2; other nodes are untouched. *)
Theorem C75_source : forall brentq b c F todo f0, brentq_contract brentq ->
  let r := boundary_r b (23 / 10) None (PI / 4) in
  curve_solver brentq 4 r c -> ec_homogeneous c = false ->
  (forall q, expansion_pt r (PI / 4) q -> cart_source (ec_src c) F (fst q) (snd q)) ->
  let ins := ps_is_interior r (PI / 4) (2 * PI) (ec_N c) in
  enumerates todo (node_diff (Kplus 4 (ec_N c) ins) (global_Mplus (ec_N c) ins)) ->
  exists f', extend_f c todo f0 = Ok (f', false) /\
    (forall p, In p todo -> let '(x, y) := square_pt (ec_N c) (fst p) (snd p) in
       exists q, expansion_pt r (PI / 4) q /\ dist2 q (x, y) <= 2 * PI / IZR (ec_N c) * sqrt 2 /\
         f' (fst p) (snd p) = taylor2 F (fst q) (snd q) x y) /\
    (forall i j, ~ In (i, j) todo -> f' i j = f0 i j).
Proof. exact curve_source. Qed.
Print Assumptions C75_source.

Example C75_source_example : exists c F, let r := boundary_r OuterSine (23 / 10) None (PI / 4) in
  curve_solver min_zero 4 r c /\ ec_homogeneous c = false /\ ec_N c = 16%Z /\
  forall q, expansion_pt r (PI / 4) q -> cart_source (ec_src c) F (fst q) (snd q).
Proof. exact curve_source_example. Qed.

(** C75. On every curve the run of a smooth problem succeeds on every tabulated
    grid with either scheme and has the properties C73 states for the arc; for
    smooth-ycos provided no node lies on the curve, since extend_inhomo_f
    divides by the distance to it. *)
Theorem C75_run : forall fuel lib p b N order, enumerating lib -> fit_sizes lib -> brentq_contract (lib_brentq lib) ->
  table_size N -> (order = 2 \/ order = 4)%Z -> (p = SmoothYCos -> off_curve (boundary_r b (23 / 10) None (PI / 4)) N) ->
  let inside := region_node (boundary_r b (23 / 10) None (PI / 4)) N in
  exists o st res e, smooth_options (S fuel) p b N order = Ok o /\ ps_init lib o = Ok st /\ ps_run lib o st = Ok res /\
    st_gave_up st = false /\ res_error res = Some e /\
    is_max inside (fun q => Cmod (Cminus (smooth_expected p (fst (square_pt N (fst q) (snd q))) (snd (square_pt N (fst q) (snd q))))
      (node_value N (res_u res) (fst q) (snd q)))) e /\
    (forall i j, inside (i, j) ->
      lin_apply_L N order (2 * PI) (27 / 4) (node_value N (res_u res)) i j = lin_apply_B (st_f st) i j) /\
    (p <> SmoothYCos -> forall i j, inside (i, j) ->
      lin_apply_L N order (2 * PI) (27 / 4) (node_value N (res_u res)) i j = RtoC 0) /\
    (p = SmoothYCos -> forall i j, inside (i, j) ->
      st_f st i j = RtoC (((27 / 4) ^ 2 - 1) * snd (square_pt N i j) * cos (fst (square_pt N i j)))).
Proof. exact curve_run_full. Qed.
Print Assumptions C75_run.

(** C75. The command run.py with a smooth problem and any curve. *)
Theorem C75_main : forall lib p b order r N0 c, enumerating lib -> fit_sizes lib -> brentq_contract (lib_brentq lib) ->
  (order = 2 \/ order = 4)%Z -> table_size N0 -> (c < 2048)%Z ->
  (p = SmoothYCos -> forall N, table_size N -> (N <= c)%Z -> off_curve (boundary_r b (23 / 10) None (PI / 4)) N) ->
  exists fuel0 Ns runs outs,
    (forall x, In x Ns <-> exists i : nat, x = (N0 * 2 ^ Z.of_nat i)%Z /\ (x <= c)%Z) /\
    Forall2 (fun N eu => exists o st res, smooth_options fuel0 p b N order = Ok o /\ ps_init lib o = Ok st /\
      ps_run lib o st = Ok res /\ res_error res = Some (fst eu) /\ res_u res = snd eu) Ns runs /\
    run_loop r run_init (map (fun eu => (Some (fst eu), snd eu)) runs) = Ok outs /\
    forall fuel, (fuel0 <= fuel)%nat -> smooth_main fuel lib p b N0 (Some c) order r = Ok outs.
Proof. exact curve_main_runs. Qed.
Print Assumptions C75_main.

(** C75. The source of smooth-ycos used by the fourth-order scheme: at an
    inside node and at its four neighbours it is within 45 (h sqrt 2)^3 of
    (k^2 - 1) y cos x, though only values on the domain enter. *)
Theorem C75_extended : forall fuel lib b N o st, enumerating lib -> brentq_contract (lib_brentq lib) -> table_size N ->
  smooth_options (S fuel) SmoothYCos b N 4 = Ok o -> ps_init lib o = Ok st ->
  forall i j di dj, region_node (boundary_r b (23 / 10) None (PI / 4)) N (i, j) -> (Z.abs di + Z.abs dj <= 1)%Z ->
  Cmod (Cminus (st_f st (i + di)%Z (j + dj)%Z)
    (RtoC (((27 / 4) ^ 2 - 1) * snd (square_pt N (i + di)%Z (j + dj)%Z) * cos (fst (square_pt N (i + di)%Z (j + dj)%Z))))) <=
  ((27 / 4) ^ 2 - 1) * (2 * PI / IZR N * sqrt 2) ^ 3.
Proof. exact ycos_extended. Qed.
Print Assumptions C75_extended.

(** C75. Consistency: the difference between the computed and the exact
    solution satisfies the homogeneous fourth-order difference equation at the
    inside nodes up to O(h^4), and O(h^3) for smooth-ycos, with these constants. *)
Theorem C75_consistent : forall fuel lib p b N o st res, enumerating lib -> brentq_contract (lib_brentq lib) -> table_size N ->
  smooth_options (S fuel) p b N 4 = Ok o -> ps_init lib o = Ok st -> ps_run lib o st = Ok res ->
  let h := 2 * PI / IZR N in
  forall i j, region_node (boundary_r b (23 / 10) None (PI / 4)) N (i, j) ->
  Cmod (lin_apply_L N 4 (2 * PI) (27 / 4) (fun i j => Cminus (node_value N (res_u res) i j)
     (smooth_expected p (fst (square_pt N i j)) (snd (square_pt N i j)))) i j) <=
  match p with SmoothYCos => 4 / 15 * h ^ 4 + ((27 / 4) ^ 2 - 1) / 3 * (h * sqrt 2) ^ 3 | _ => (27 / 4) ^ 6 / 15 * h ^ 4 end.
Proof. exact smooth_consistent. Qed.
Print Assumptions C75_consistent.

(** C75. The regularisation run on every curve without a node on it: as C74
    states for the arc. *)
Theorem C75_z_run : forall L s b acheat z1cheat cache N order,
  enumerating (zl_ps L) -> fit_sizes (zl_ps L) -> brentq_contract (lib_brentq (zl_ps L)) -> table_size N -> (order = 2 \/ order = 4)%Z -> off_curve (boundary_r b (23 / 10) None (PI / 4)) N ->
  let p := sing_problem (zl_jv L) (zl_gamma L) s in
  exists z, (forall fuel, zm_run (S fuel) L p b acheat z1cheat (Some cache) N order = Ok z) /\
    st_gave_up (zr_st z) = false /\
    (forall i j, region_node (boundary_r b (23 / 10) None (PI / 4)) N (i, j) ->
       lin_apply_L N order (2 * PI) (zp_k p) (node_value N (zr_u z)) i j = lin_apply_B (st_f (zr_st z)) i j) /\
    (forall i j r th, region_node (boundary_r b (23 / 10) None (PI / 4)) N (i, j) -> polar_coords (square_pt N i j) r th -> 0 < r ->
       st_f (zr_st z) i j = RtoC (zm_f (zp_k p) (zp_v_asympt p) r th)) /\
    (s <> IzBessel -> zr_u_error z = None) /\
    (s = IzBessel -> exists e, zr_u_error z = Some e /\
       is_max (fun q : node * (R * R) => region_node (boundary_r b (23 / 10) None (PI / 4)) N (fst q) /\
           polar_coords (square_pt N (fst (fst q)) (snd (fst q))) (fst (snd q)) (snd (snd q)))
         (fun q => Cmod (Cminus (RtoC (ih_eval_v (zl_jv L) 0 (27 / 4) pizza_nu (PI / 4) (fst (snd q)) (snd (snd q)) -
                                       zero_at_origin (zp_v_asympt p) (fst (snd q)) (snd (snd q))))
                                (node_value N (zr_u z) (fst (fst q)) (snd (fst q))))) e).
Proof. exact curve_z_run. Qed.
Print Assumptions C75_z_run.

(** C75. The command runz.py on any curve. *)
Theorem C75_z_main : forall L s b acheat z1cheat order N0 c,
  enumerating (zl_ps L) -> fit_sizes (zl_ps L) -> brentq_contract (lib_brentq (zl_ps L)) -> (order = 2 \/ order = 4)%Z ->
  table_size N0 -> (c < 2048)%Z ->
  (forall N, table_size N -> (N <= c)%Z -> off_curve (boundary_r b (23 / 10) None (PI / 4)) N) ->
  exists fuel0 Ns zs,
    (forall x, In x Ns <-> exists i : nat, x = (N0 * 2 ^ Z.of_nat i)%Z /\ (x <= c)%Z) /\
    Forall2 (fun N z => zm_run fuel0 L (sing_problem (zl_jv L) (zl_gamma L) s) b acheat z1cheat (Some None) N order = Ok z) Ns zs /\
    forall fuel, (fuel0 <= fuel)%nat -> runz_main fuel L s b N0 (Some c) order acheat z1cheat = Ok (map (report zs) (seq 0 (length zs))).
Proof. exact curve_z_main. Qed.
Print Assumptions C75_z_main.

(** A library meeting the contracts; on the grid of 16 cells no node lies on
    the outer sine, and the node (2, 8) is inside it but outside the arc domain. *)
Example C75_example : let lib := ex_lib min_zero in let r := boundary_r OuterSine (23 / 10) None (PI / 4) in
  enumerating lib /\ fit_sizes lib /\ brentq_contract (lib_brentq lib) /\ table_size 16 /\ off_curve r 16 /\
  (forall N, table_size N -> (N <= 16)%Z -> off_curve r N) /\
  region_node r 16 (2, 8)%Z /\ ~ pizza_node 16 (2, 8)%Z.
Proof. exact curve_example. Qed.
