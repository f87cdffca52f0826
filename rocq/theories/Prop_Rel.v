(** Property C96: what the relative convergence says about the errors. *)
From Coq Require Import ZArith List Bool Reals Lia Lra.
From Coquelicot Require Import Coquelicot.
From Verif Require Import Model_Py Model_Domain Model_Multivalue Model_Grid Model_Problems Model_Run Model_Program Model_Rel
  Spec_Grid Spec_ZRun Spec_Run Spec_Program Spec_Curve Spec_Rel Model_ZProgram Proof_Place Proof_RunEx Proof_Bessel Proof_BesselJ Proof_ZRunEx Proof_Rel.
Import ListNotations.
Open Scope R_scope.

(** C96. Three runs of a smooth problem on grids of M, 2 M and 4 M cells with
    errors e2, e1 and e0: the two differences compared are the largest over the
    common inside nodes and lie between the difference and the sum of the
    errors; if the errors decrease the number printed is finite and within the
    bounds this gives, and if they decrease by the factor q it is log2 q up to
    log2 ((q + 1) / (q - 1)). *)
Theorem C96_run : forall fuel lib p b M order o0 o1 o2 st0 st1 st2 res0 res1 res2 e0 e1 e2,
  enumerating lib -> table_size M -> table_size (4 * M) ->
  smooth_options (S fuel) p b (4 * M) order = Ok o0 -> ps_run lib o0 st0 = Ok res0 -> res_error res0 = Some e0 ->
  smooth_options (S fuel) p b (2 * M) order = Ok o1 -> ps_run lib o1 st1 = Ok res1 -> res_error res1 = Some e1 ->
  smooth_options (S fuel) p b M order = Ok o2 -> ps_run lib o2 st2 = Ok res2 -> res_error res2 = Some e2 ->
  let r := boundary_r b (23 / 10) None (PI / 4) in
  let rel := run_rel lib o0 (UArray (res_u res0)) (UArray (res_u res1)) (UArray (res_u res2)) in
  exists m12 m01,
    is_max (region_node r M) (fun q => Cmod (Cminus (node_value (2 * M)%Z (res_u res1) (2 * fst q)%Z (2 * snd q)%Z) (node_value M (res_u res2) (fst q) (snd q)))) m12 /\
    is_max (region_node r (2 * M)) (fun q => Cmod (Cminus (node_value (4 * M)%Z (res_u res0) (2 * fst q)%Z (2 * snd q)%Z) (node_value (2 * M)%Z (res_u res1) (fst q) (snd q)))) m01 /\
    rel = Ok (if (Rltb 0 m12 && Rltb 0 m01)%bool then Some (ln (m12 / m01) / ln 2) else None) /\
    e2 - e1 <= m12 <= e2 + e1 /\ e1 - e0 <= m01 <= e1 + e0 /\
    (e0 < e1 -> e1 < e2 -> exists v, rel = Ok (Some v) /\ (e2 - e1) / (e1 + e0) <= Rpower 2 v <= (e2 + e1) / (e1 - e0)) /\
    (forall q, 1 < q -> 0 < e0 -> e1 = q * e0 -> e2 = q * e1 ->
       exists v, rel = Ok (Some v) /\ Rabs (v - ln q / ln 2) <= ln ((q + 1) / (q - 1)) / ln 2).
Proof. exact smooth_rel. Qed.
Print Assumptions C96_run.

Example C96_run_example : let lib := ex_lib min_zero in
  enumerating lib /\ table_size 32 /\ table_size (4 * 32) /\
  exists o0 o1 o2 st0 st1 st2 res0 res1 res2 e0 e1 e2,
    (smooth_options 1 SmoothSine OuterSine (4 * 32) 4 = Ok o0 /\ ps_run lib o0 st0 = Ok res0 /\ res_error res0 = Some e0) /\
    (smooth_options 1 SmoothSine OuterSine (2 * 32) 4 = Ok o1 /\ ps_run lib o1 st1 = Ok res1 /\ res_error res1 = Some e1) /\
    (smooth_options 1 SmoothSine OuterSine 32 4 = Ok o2 /\ ps_run lib o2 st2 = Ok res2 /\ res_error res2 = Some e2).
Proof. exact smooth_rel_example. Qed.

(** C96. The same for any three arrays compared with any function at the nodes
    of the square's grids that lie in any set. *)
Theorem C96_array : forall S (expd : R -> R -> C) M nodes u0 u1 u2 e0 e1 e2, (0 < M)%Z ->
  (forall p, In p nodes <-> set_node S (4 * M) p) ->
  let err N u := fun p : Z * Z => Cmod (Cminus (expd (fst (square_pt N (fst p) (snd p))) (snd (square_pt N (fst p) (snd p)))) (node_value N u (fst p) (snd p))) in
  is_max (set_node S (4 * M)) (err (4 * M)%Z u0) e0 -> is_max (set_node S (2 * M)) (err (2 * M)%Z u1) e1 -> is_max (set_node S M) (err M u2) e2 ->
  let rel := calc_rel_convergence (4 * M) nodes (UArray u0) (UArray u1) (UArray u2) in
  (e0 < e1 -> e1 < e2 -> exists v, rel = Ok (Some v) /\ (e2 - e1) / (e1 + e0) <= Rpower 2 v <= (e2 + e1) / (e1 - e0)) /\
  (forall q, 1 < q -> 0 < e0 -> e1 = q * e0 -> e2 = q * e1 ->
     exists v, rel = Ok (Some v) /\ Rabs (v - ln q / ln 2) <= ln ((q + 1) / (q - 1)) / ln 2).
Proof. exact array_rel. Qed.
Print Assumptions C96_array.

(** Errors 256, 16 and 1 at the centre of the grids of 2, 4 and 8 cells: order 4. *)
Example C96_array_example :
  (forall p, In p [(4, 4)%Z] <-> set_node only0 (4 * 2) p) /\
  let err N u := fun p : Z * Z => Cmod (Cminus (RtoC 0) (node_value N u (fst p) (snd p))) in
  is_max (set_node only0 (4 * 2)) (err (4 * 2)%Z (const_arr 1)) 1 /\ is_max (set_node only0 (2 * 2)) (err (2 * 2)%Z (const_arr 16)) 16 /\
  is_max (set_node only0 2) (err 2%Z (const_arr 256)) 256 /\
  calc_rel_convergence 8 [(4, 4)%Z] (UArray (const_arr 1)) (UArray (const_arr 16)) (UArray (const_arr 256)) = Ok (Some 4).
Proof. exact array_example. Qed.

(** C96. Multivalues with one value of the same sort per inside node give the
    number the arrays give, whichever solver is asked. *)
Theorem C96_multi : forall s S M nodes m0 m1 m2 u0 u1 u2, (0 < M)%Z -> (forall p, In p nodes <-> set_node S (4 * M) p) ->
  holds_array s (4 * M) (set_node S (4 * M)) m0 u0 -> holds_array s (2 * M) (set_node S (2 * M)) m1 u1 -> holds_array s M (set_node S M) m2 u2 ->
  forall N nodes', calc_rel_convergence N nodes' (UMulti m0) (UMulti m1) (UMulti m2) =
    calc_rel_convergence (4 * M) nodes (UArray u0) (UArray u1) (UArray u2).
Proof. exact multi_rel. Qed.
Print Assumptions C96_multi.

Example C96_multi_example :
  holds_array (0%Z, EStandard) (4 * 2) (set_node only0 (4 * 2)) (single_mv (4, 4)%Z 1) (const_arr 1) /\
  holds_array (0%Z, EStandard) (2 * 2) (set_node only0 (2 * 2)) (single_mv (2, 2)%Z 16) (const_arr 16) /\
  holds_array (0%Z, EStandard) 2 (set_node only0 2) (single_mv (1, 1)%Z 256) (const_arr 256).
Proof. split; [apply (single_holds 4); lia|]. split; [apply (single_holds 2); lia|apply (single_holds 1); lia]. Qed.

(** C96. In runz.py, where the remainder is in general not known: whatever
    function [w] the arrays approximate, with whatever errors. *)
Theorem C96_runz : forall fuel L s b acheat z1cheat attr M order z, enumerating (zl_ps L) -> (0 < M)%Z -> table_size (4 * M) ->
  zm_run fuel L (sing_problem (zl_jv L) (zl_gamma L) s) b acheat z1cheat attr (4 * M) order = Ok z ->
  forall (w : R -> R -> C) u1 u2 e0 e1 e2,
  let r := boundary_r b (23 / 10) None (PI / 4) in
  let err N u := fun p : Z * Z => Cmod (Cminus (w (fst (square_pt N (fst p) (snd p))) (snd (square_pt N (fst p) (snd p)))) (node_value N u (fst p) (snd p))) in
  is_max (region_node r (4 * M)) (err (4 * M)%Z (zr_u z)) e0 -> is_max (region_node r (2 * M)) (err (2 * M)%Z u1) e1 -> is_max (region_node r M) (err M u2) e2 ->
  let rel := run_rel (zl_ps L) (zr_opt z) (UArray (zr_u z)) (UArray u1) (UArray u2) in
  (e0 < e1 -> e1 < e2 -> exists v, rel = Ok (Some v) /\ (e2 - e1) / (e1 + e0) <= Rpower 2 v <= (e2 + e1) / (e1 - e0)) /\
  (forall q, 1 < q -> 0 < e0 -> e1 = q * e0 -> e2 = q * e1 ->
     exists v, rel = Ok (Some v) /\ Rabs (v - ln q / ln 2) <= ln ((q + 1) / (q - 1)) / ln 2).
Proof. exact z_rel. Qed.
Print Assumptions C96_runz.

Example C96_runz_example : let L := mk_zlib (ex_lib min_zero) jv_series gamma_ex (fun _ _ _ _ _ _ => 0) (fun _ _ => 0) lookup2d in
  enumerating (zl_ps L) /\ table_size (4 * 16) /\
  exists z e0, zm_run 1 L (sing_problem (zl_jv L) (zl_gamma L) IhzLine) Arc true false (Some None) (4 * 16) 4 = Ok z /\
    let r := boundary_r Arc (23 / 10) None (PI / 4) in
    let err N u := fun p : Z * Z => Cmod (Cminus (RtoC 0) (node_value N u (fst p) (snd p))) in
    is_max (region_node r (4 * 16)) (err (4 * 16)%Z (zr_u z)) e0 /\ is_max (region_node r (2 * 16)) (err (2 * 16)%Z (const_arr (e0 + 1))) (e0 + 1) /\
    is_max (region_node r 16) (err 16%Z (const_arr (e0 + 2))) (e0 + 2) /\ e0 < e0 + 1 < e0 + 2.
Proof. exact z_rel_example. Qed.
