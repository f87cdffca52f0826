(** Properties C78 to C81: the scripts. *)
From Coq Require Import ZArith List Bool Reals Sorted.
From Coquelicot Require Import Coquelicot.
From Verif Require Import Model_Py Model_Multivalue Model_Grid Model_Domain Model_Extend Model_Abcoef Model_Run Model_Program Model_Scripts
  Spec_Domain Spec_Grid Spec_PS Spec_Extend Spec_Run Spec_Program Spec_ZRun Spec_Curve Spec_Scripts
  Proof_Place Proof_RunEx Proof_Scripts Proof_Scripts2 Proof_ScriptsEx.
Import ListNotations.
Open Scope R_scope.
Local Notation table_size := Spec_Program.table_size.

(** C78: resonance.py prints, in increasing order, the fifteen numbers
    pi sqrt(a^2 + b^2) / |s| with a, b odd, 1 <= a <= b <= 9. *)
Theorem C78_values : forall s l, s <> 0 -> resonance_main s = Ok l ->
  LocallySorted Rle l /\ length l = 15%nat /\
  forall k, In k l <-> exists a b, (Z.Odd a /\ Z.Odd b /\ 1 <= a <= b /\ b <= 9)%Z /\ k = PI * sqrt (IZR a ^ 2 + IZR b ^ 2) / Rabs s.
Proof. exact resonance_values. Qed.
Print Assumptions C78_values.

(** Only a side of length zero fails. *)
Theorem C78_total : forall s, (exists l, resonance_main s = Ok l) <-> s <> 0.
Proof. exact resonance_total. Qed.
Print Assumptions C78_total.

(** Each of them is a resonance of the square of side [s]. *)
Theorem C78_resonance : forall s l k, s <> 0 -> resonance_main s = Ok l -> In k l -> square_resonance s k.
Proof. exact resonance_true. Qed.
Print Assumptions C78_resonance.

(** There are others among them: the list is not complete up to its largest
    entry. *)
Theorem C78_complete_refuted : exists l k k', resonance_main (2 * PI) = Ok l /\ square_resonance (2 * PI) k /\ ~ In k l /\ In k' l /\ k < k'.
Proof. exact resonance_missed. Qed.
Print Assumptions C78_complete_refuted.

(** Close to each of them the difference scheme has no inverse on the square. *)
Theorem C78_discrete : forall s l N order k, 0 < s -> resonance_main s = Ok l -> In k l ->
  (10 <= N)%Z -> (order = 2 \/ order = 4)%Z ->
  exists k', 0 < k' /\ ~ eig_nonzero N order s k' /\
    Rabs (k ^ 2 - k' ^ 2) <= (if Z.eqb order 2 then k ^ 4 * (s / IZR N) ^ 2 / 12 else k ^ 6 * (s / IZR N) ^ 4 / 10).
Proof. exact discrete_resonance. Qed.
Print Assumptions C78_discrete.

Example C78_example : exists l, resonance_main (2 * PI) = Ok l /\ In (/ sqrt 2) l.
Proof. exact resonance_ex. Qed.

(** C79: extend_basis_test.py prints SUCCESS after finding no difference at all,
    one line for each index and basis function, for every solver whose discrete
    boundary was attributed to segments. *)
Theorem C79_success : forall lib o st, ps_init lib o = Ok st -> ctx_wf (st_ctx st) -> ec_union (st_ctx st) <> [] ->
  exists lines, ebt_main lib o = Ok (lines, true) /\ length lines = (2 * length (ec_B (st_ctx st)))%nat /\
    forall index JJ e, In (index, JJ, e) lines <-> (index < 2 /\ JJ < length (ec_B (st_ctx st)))%nat /\ e = 0.
Proof. exact ebt_main_ok. Qed.
Print Assumptions C79_success.

Example C79_example : let lib := ex_lib min_zero in forall p b, exists o st, smooth_options 1 p b 16 4 = Ok o /\ ps_init lib o = Ok st /\
  ctx_wf (st_ctx st) /\ ec_union (st_ctx st) <> [].
Proof. exact ebt_ex. Qed.

(** In particular for the smooth problems on all five curves. *)
Theorem C79_smooth : forall fuel lib p b N order o, enumerating lib -> brentq_contract (lib_brentq lib) ->
  table_size N -> (order = 2 \/ order = 4)%Z -> smooth_options (S fuel) p b N order = Ok o ->
  exists lines, ebt_main lib o = Ok (lines, true) /\ (2 <= length lines)%nat /\ forall index JJ e, In (index, JJ, e) lines -> e = 0.
Proof. exact ebt_smooth. Qed.
Print Assumptions C79_smooth.

Example C79_smooth_example : let lib := ex_lib min_zero in
  enumerating lib /\ brentq_contract (lib_brentq lib) /\ table_size 16 /\ forall p b, exists o, smooth_options 1 p b 16 4 = Ok o.
Proof. exact (conj (ex_enumerating min_zero) (conj min_zero_contract (conj table16 smooth_opt_ex))). Qed.

(** C80: with all segments allowed, run_test of test_extend_f.py returns the
    largest difference between the source and the stored source over the nodes
    the scheme needs it at. *)
Theorem C80_measured : forall fuel lib N, enumerating lib -> brentq_contract (lib_brentq lib) -> table_size N ->
  exists o st e, smooth_options (S fuel) SmoothYCos OuterSine N 4 = Ok o /\ ps_init lib o = Ok st /\
  tef_run_test (S fuel) lib [0; 1; 2]%nat N = Ok e /\
  is_max (source_node (boundary_r OuterSine (23 / 10) None (PI / 4)) N) (fun q =>
    Cmod (Cminus (RtoC (((27 / 4) ^ 2 - 1) * snd (square_pt N (fst q) (snd q)) * cos (fst (square_pt N (fst q) (snd q))))) (st_f st (fst q) (snd q)))) e.
Proof. exact tef_default. Qed.
Print Assumptions C80_measured.

(** Whatever segments are allowed, the error returned is of third order. *)
Theorem C80_bound : forall fuel lib allowed N e, enumerating lib -> brentq_contract (lib_brentq lib) -> table_size N ->
  tef_run_test (S fuel) lib allowed N = Ok e -> 0 <= e <= ((27 / 4) ^ 2 - 1) * (2 * PI / IZR N * sqrt 2) ^ 3.
Proof. exact tef_bound. Qed.
Print Assumptions C80_bound.

(** The loop visits the five grids and compares each with the one before. *)
Theorem C80_main : forall fuel lib, enumerating lib -> brentq_contract (lib_brentq lib) ->
  exists e0 e1 e2 e3 e4, (forall n e, In (n, e) [(0%nat, e0); (1%nat, e1); (2%nat, e2); (3%nat, e3); (4%nat, e4)] ->
     tef_run_test (S fuel) lib [0; 1; 2]%nat (16 * 2 ^ Z.of_nat n) = Ok e) /\
  tef_main 5 (S fuel) lib [0; 1; 2]%nat None 16 256 =
    Ok [(16, e0, None); (32, e1, Some e0); (64, e2, Some e1); (128, e3, Some e2); (256, e4, Some e3)]%Z.
Proof. exact tef_main_runs. Qed.
Print Assumptions C80_main.

Example C80_example : let lib := ex_lib min_zero in enumerating lib /\ brentq_contract (lib_brentq lib) /\ table_size 16 /\
  exists e, tef_run_test 1 lib [0; 1; 2]%nat 16 = Ok e.
Proof.
  exact (conj (ex_enumerating min_zero) (conj min_zero_contract (conj table16 tef_ex))).
Qed.

(** C81: what optimize_basis.py prints last is, of the pairs of sizes tried, the
    first with the least error. *)
Theorem C81_best : forall lib o r, ob_main lib o = Ok r -> exists nc nr e, r = Some (nc, nr, e) /\ tried nc nr /\ error_with lib o nc nr (Some e) /\
  forall nc' nr' e', tried nc' nr' -> error_with lib o nc' nr' (Some e') ->
    e <= e' /\ ((nc' < nc)%Z \/ nc' = nc /\ (nr' < nr)%Z -> e < e').
Proof. exact ob_best. Qed.
Print Assumptions C81_best.

(** It finishes for the smooth problems on the outer sine. *)
Theorem C81_smooth : forall fuel lib p N o, enumerating lib -> fit_sizes lib -> brentq_contract (lib_brentq lib) -> table_size N ->
  (p = SmoothYCos -> off_curve (boundary_r OuterSine (23 / 10) None (PI / 4)) N) ->
  smooth_options (S fuel) p OuterSine N 4 = Ok o -> exists r, ob_main lib o = Ok r.
Proof. exact ob_smooth. Qed.
Print Assumptions C81_smooth.

Example C81_example : let lib := ex_lib min_zero in enumerating lib /\ fit_sizes lib /\ brentq_contract (lib_brentq lib) /\ table_size 16 /\
  exists o, smooth_options 1 SmoothSine OuterSine 16 4 = Ok o.
Proof. exact (conj (ex_enumerating min_zero) (conj (ex_fit min_zero) (conj min_zero_contract (conj table16 (smooth_opt_ex SmoothSine OuterSine))))). Qed.

(** Without a known solution it does all the runs and then raises TypeError. *)
Theorem C81_unknown : forall lib o, enumerating lib -> o_known o = false ->
  (forall nc nr, tried nc nr -> exists x, error_with lib o nc nr x) -> ob_main lib o = Err TypeError.
Proof. exact ob_unknown. Qed.
Print Assumptions C81_unknown.

Example C81_unknown_example : let lib := ex_lib min_zero in exists o, o_known o = false /\ forall nc nr, tried nc nr -> exists x, error_with lib o nc nr x.
Proof. exact unknown_ex. Qed.
