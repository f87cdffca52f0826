(** Properties C07, C08, C33 (Cartesian part), C34, C56: grids. *)
From Coq Require Import ZArith List Bool Reals Lia Lra.
From Coquelicot Require Import Complex.
From Verif Require Import Model_Py Model_Multivalue Model_Grid Model_PS
  Spec_Grid Spec_PS Proof_Grid Proof_Grid2 Proof_GridIndex.
Import ListNotations.
Open Scope Z_scope.

(** C07. Interior and exterior sets partition the open grid by the point test. *)
Theorem C07_partition : forall N ins p,
  in_open_grid N p ->
  (In p (global_Mplus N ins) /\ ~ In p (global_Mminus N ins) /\
     ins (fst p) (snd p) = true) \/
  (In p (global_Mminus N ins) /\ ~ In p (global_Mplus N ins) /\
     ins (fst p) (snd p) = false).
Proof. exact grid_partition. Qed.
Print Assumptions C07_partition.

(** C07. Nothing else is in either set. *)
Theorem C07_partition_within : forall N ins p,
  In p (global_Mplus N ins) \/ In p (global_Mminus N ins) -> in_open_grid N p.
Proof. exact grid_partition_within. Qed.
Print Assumptions C07_partition_within.

(** C07. The discrete boundary is where stencils of interior and exterior
    nodes meet. *)
Theorem C07_discrete_boundary : forall order N ins q, (order = 2 \/ order = 4) ->
  (In q (gamma_set order N ins) <->
   (exists p, in_open_grid N p /\ ins (fst p) (snd p) = true /\ neighbour order p q) /\
   (exists p, in_open_grid N p /\ ins (fst p) (snd p) = false /\ neighbour order p q)).
Proof. exact gamma_set_in. Qed.
Print Assumptions C07_discrete_boundary.

(** C07. Nplus is exactly the union of the stencils of interior nodes. *)
Theorem C07_Nplus : forall order N ins q, (order = 2 \/ order = 4) ->
  (In q (Nplus order N ins) <->
   exists p, in_open_grid N p /\ ins (fst p) (snd p) = true /\ neighbour order p q).
Proof. exact nplus_in. Qed.
Print Assumptions C07_Nplus.

(** C07. Nodes where the source is needed. *)
Theorem C07_Kplus : forall order N ins q, (order = 2 \/ order = 4) ->
  (In q (Kplus order N ins) <->
   exists p, In p (global_Mplus N ins) /\
     (q = p \/ (order = 4 /\ Z.abs (fst p - fst q) + Z.abs (snd p - snd q) = 1))).
Proof. exact Kplus_in. Qed.
Print Assumptions C07_Kplus.

(** C07. The closed grid has the nodes 0..N in both directions and contains
    every set built from the stencils. *)
Theorem C07_closed_grid : forall N,
  (forall p, In p (grid_N0 N) <-> 0 <= fst p <= N /\ 0 <= snd p <= N) /\
  forall order ins p, (order = 2 \/ order = 4) ->
    In p (Nplus order N ins) \/ In p (Nminus order N ins) \/ In p (Kplus order N ins) ->
    In p (grid_N0 N).
Proof. exact closed_grid. Qed.
Print Assumptions C07_closed_grid.

(** On the 4 x 4 grid with everything inside, the corner of the closed grid is
    in Nplus of the fourth order scheme and not in that of the second. *)
Example C07_closed_grid_nonvacuous :
  In (0, 4) (Nplus 4 4 (fun _ _ => true)) /\ ~ In (0, 4) (Nplus 2 4 (fun _ _ => true)) /\
  In (0, 3) (Kplus 4 4 (fun _ _ => true)).
Proof.
  split; [apply node_mem_in; vm_compute; reflexivity|].
  split; [apply node_mem_not_in; vm_compute; reflexivity|].
  apply node_mem_in; vm_compute; reflexivity.
Qed.

(** A 6 x 6 grid with the middle 3 x 3 block inside: the five-node cross around
    a corner meets both sides, the centre is not in the discrete boundary. *)
Example C07_nonvacuous :
  let ins := fun i j => (2 <=? i) && (i <=? 4) && (2 <=? j) && (j <=? 4) in
  in_open_grid 6 (3, 3) /\ In (1, 2) (gamma_set 2 6 ins) /\ ~ In (3, 3) (gamma_set 4 6 ins) /\
  In (1, 1) (gamma_set 4 6 ins) /\ ~ In (1, 1) (gamma_set 2 6 ins).
Proof.
  cbv zeta. split; [split; cbn; lia|].
  split; [apply node_mem_in; vm_compute; reflexivity|].
  split; [apply node_mem_not_in; vm_compute; reflexivity|].
  split; [apply node_mem_in; vm_compute; reflexivity|].
  apply node_mem_not_in; vm_compute; reflexivity.
Qed.

(** C08. A subscript is taken as is or, when negative, counted from the end;
    every other subscript raises IndexError. *)
Theorem C08_index : forall n i,
  (forall k, py_index n i = Ok k <-> 0 <= k < n /\ (k = i \/ (i < 0 /\ k = n + i))) /\
  (forall e, py_index n i = Err e <-> e = IndexError /\ ~ (- n <= i < n)).
Proof. exact index_spec. Qed.
Print Assumptions C08_index.

Example C08_index_nonvacuous :
  py_index 3 2 = Ok 2 /\ py_index 3 (-1) = Ok 2 /\ py_index 3 (-4) = Err IndexError /\
  py_index 3 3 = Err IndexError /\ py_index 0 0 = Err IndexError.
Proof. repeat split. Qed.

(** C08. With a one-node margin every discrete-boundary index is used as is. *)
Theorem C08_no_wrap : forall s, ps_ok s -> margin (ps_N s) (ps_interior s) ->
  forall i j, In (i, j) (ps_gamma s) ->
    py_index (ps_N s - 1) (i - 1) = Ok (i - 1) /\ py_index (ps_N s - 1) (j - 1) = Ok (j - 1).
Proof. exact gamma_index_ok. Qed.
Print Assumptions C08_no_wrap.

(** C08. Potentials and traces are always defined. *)
Theorem C08_total : forall s, ps_ok s -> margin (ps_N s) (ps_interior s) ->
  forall ext A, (exists P, get_potential s ext = Ok P) /\ (exists tr, get_trace s A = Ok tr).
Proof. exact potential_trace_total. Qed.
Print Assumptions C08_total.

(** C08. Domains inside a disc of radius rho < AD_len/2 - h have the margin. *)
Theorem C08_disc : forall AD_len rho N ins, (0 < AD_len)%R -> 2 <= N ->
  (rho < AD_len / 2 - AD_len / IZR N)%R ->
  (forall i j, in_open_grid N (i, j) -> ins i j = true ->
     let '(x, y) := get_coord AD_len N i j in (x * x + y * y <= rho * rho)%R /\ (0 <= rho)%R) ->
  margin N ins.
Proof. exact disc_margin. Qed.
Print Assumptions C08_disc.

(** The disc of radius 1 in the square of side 4 with N = 8. *)
Example C08_disc_nonvacuous :
  let ins := fun i j => (fun x y => if Rle_dec (x * x + y * y) 1 then true else false)
     (fst (get_coord 4 8 i j)) (snd (get_coord 4 8 i j)) in
  (0 < 4)%R /\ 2 <= 8 /\ (1 < 4 / 2 - 4 / IZR 8)%R /\ ins 4 4 = true /\
  (forall i j, in_open_grid 8 (i, j) -> ins i j = true ->
     let '(x, y) := get_coord 4 8 i j in (x * x + y * y <= 1 * 1)%R /\ (0 <= 1)%R).
Proof.
  intros ins. split; [lra|]. split; [lia|]. split; [lra|]. split.
  - unfold ins, get_coord. cbn [fst snd]. destruct (Rle_dec _ _) as [|H]; [reflexivity|]. exfalso. apply H. lra.
  - intros i j _ H. unfold ins in H. destruct (get_coord 4 8 i j) as [x y]. cbn [fst snd] in H.
    destruct (Rle_dec (x * x + y * y) 1); [lra|discriminate].
Qed.

(** C08. Without the margin a boundary index wraps: the trace at node (0,1)
    is read from row 2, i.e. from node (3,1) on the opposite side. *)
Theorem C08_wrap_refuted : exists s, ps_ok s /\ exists l,
  nth_error (ps_gamma s) l = Some (0, 1) /\
  forall A, exists tr, get_trace s A = Ok tr /\ tr l = A 2 0.
Proof.
  exists corner_solver. split; [|exact corner_wraps].
  apply build_solver_ok; [lia|right; reflexivity|lra].
Qed.
Print Assumptions C08_wrap_refuted.

(** C08. ... or raises. *)
Theorem C08_index_error_refuted : exists s, ps_ok s /\
  (forall ext, get_potential s ext = Err IndexError) /\
  (forall A, get_trace s A = Err IndexError).
Proof.
  exists edge_solver. split.
  - apply build_solver_ok; [lia|right; reflexivity|lra].
  - split; [exact edge_raises_potential|exact edge_raises].
Qed.
Print Assumptions C08_index_error_refuted.

Example C08_nonvacuous :
  let ins := fun i j => (2 <=? i) && (i <=? 4) && (2 <=? j) && (j <=? 4) in
  let s := build_solver 6 4 1 0 ins in
  ps_ok s /\ margin (ps_N s) (ps_interior s) /\ In (1, 1) (ps_gamma s).
Proof.
  cbv zeta. split; [apply build_solver_ok; [lia|right; reflexivity|lra]|]. split.
  - intros i j _ H. cbn [ps_interior build_solver] in H.
    rewrite !andb_true_iff, !Z.leb_le in H. cbn [ps_N build_solver]. lia.
  - apply node_mem_in. vm_compute. reflexivity.
Qed.

(** C33. The differences compared are exactly those at the nodes shared with
    the coarser grid, which are interior there, denote the same point, and are
    read in range. *)
Theorem C33_same_points : forall L N u0 u1 u2 (P : R -> R -> bool) nodes,
  N mod 4 = 0 -> 0 < N ->
  let ins := fun M i j => P (fst (get_coord L M i j)) (snd (get_coord L M i j)) in
  enumerates nodes (global_Mplus N (ins N)) ->
  exists d12 d01, rel_diffs N u0 u1 u2 nodes = Ok (d12, d01) /\
    (forall d, In d d12 <-> exists i j, In (i, j) (global_Mplus (N / 4) (ins (N / 4))) /\
       In (2 * i, 2 * j) (global_Mplus (N / 2) (ins (N / 2))) /\
       get_coord L (N / 4) i j = get_coord L (N / 2) (2 * i) (2 * j) /\
       d = Cmod (Cminus (node_value (N / 2) u1 (2 * i) (2 * j)) (node_value (N / 4) u2 i j))) /\
    (forall d, In d d01 <-> exists i j, In (i, j) (global_Mplus (N / 2) (ins (N / 2))) /\
       In (2 * i, 2 * j) (global_Mplus N (ins N)) /\
       get_coord L (N / 2) i j = get_coord L N (2 * i) (2 * j) /\
       d = Cmod (Cminus (node_value N u0 (2 * i) (2 * j)) (node_value (N / 2) u1 i j))).
Proof. exact rel_convergence_points. Qed.
Print Assumptions C33_same_points.

(** C33. The two numbers whose ratio is reported are the maxima of these
    differences. *)
Theorem C33_maxima : forall N u0 u1 u2 nodes m12 m01,
  rel_convergence_pair N u0 u1 u2 nodes = Ok (m12, m01) <->
  exists d12 d01, rel_diffs N u0 u1 u2 nodes = Ok (d12, d01) /\
    (In m12 d12 /\ forall x, In x d12 -> (x <= m12)%R) /\
    (In m01 d01 /\ forall x, In x d01 -> (x <= m01)%R).
Proof. exact rel_pair_spec. Qed.
Print Assumptions C33_maxima.

Example C33_nonvacuous : exists nodes,
  enumerates nodes (global_Mplus 16 (fun i j => (fun _ _ => true)
     (fst (get_coord 1 16 i j)) (snd (get_coord 1 16 i j)))) /\ In (4, 8) nodes.
Proof.
  exists (nodup node_dec (global_Mplus 16 (fun i j => true))). split.
  - apply enumerates_nodup.
  - apply nodup_In. apply node_mem_in. vm_compute. reflexivity.
Qed.

(** C34. *)
Theorem C34_max_error : forall N L expd u ins nodes,
  enumerates nodes (global_Mplus N ins) -> nodes <> [] ->
  exists e, eval_error N L true expd u nodes = Ok (Some e) /\
    (exists i j, in_open_grid N (i, j) /\ ins i j = true /\
       e = Cmod (Cminus (expd (fst (get_coord L N i j)) (snd (get_coord L N i j)))
                        (node_value N u i j))) /\
    (forall i j, in_open_grid N (i, j) -> ins i j = true ->
       (Cmod (Cminus (expd (fst (get_coord L N i j)) (snd (get_coord L N i j)))
                     (node_value N u i j)) <= e)%R).
Proof. exact eval_error_spec. Qed.
Print Assumptions C34_max_error.

(** C34. Unknown reference solution: None. *)
Theorem C34_unknown : forall N L expd u nodes,
  eval_error N L false expd u nodes = Ok None.
Proof. exact eval_error_unknown. Qed.
Print Assumptions C34_unknown.

(** C34. Empty interior set: max() raises. *)
Theorem C34_empty : forall N L expd u, eval_error N L true expd u [] = Err ValueError.
Proof. exact eval_error_empty. Qed.
Print Assumptions C34_empty.

Example C34_nonvacuous : exists nodes,
  enumerates nodes (global_Mplus 4 (fun _ _ => true)) /\ nodes <> [].
Proof.
  exists (nodup node_dec (global_Mplus 4 (fun i j => true))). split.
  - apply enumerates_nodup.
  - intros H. assert (In (1, 1) (nodup node_dec (global_Mplus 4 (fun i j => true)))).
    { apply nodup_In. apply node_mem_in. vm_compute. reflexivity. }
    rewrite H in *. assumption.
Qed.

(** C56. get_coord_inv is the inverse of get_coord. *)
Theorem C56_inverse : forall L N i j, L <> 0%R -> N <> 0 ->
  let '(x, y) := get_coord L N i j in get_coord_inv L N x y = (IZR i, IZR j).
Proof. exact coord_inv_l. Qed.
Print Assumptions C56_inverse.

(** C56. Coordinates survive grid refinement. *)
Theorem C56_doubling : forall L N q i j, N <> 0 -> q <> 0 ->
  get_coord L (q * N) (q * i) (q * j) = get_coord L N i j.
Proof. exact coord_doubling. Qed.
Print Assumptions C56_doubling.

(** C56. Spacing and extent. *)
Theorem C56_spacing : forall L N i j, N <> 0 ->
  (fst (get_coord L N (i + 1) j) - fst (get_coord L N i j) = L / IZR N /\
   snd (get_coord L N i (j + 1)) - snd (get_coord L N i j) = L / IZR N /\
   fst (get_coord L N i (j + 1)) = fst (get_coord L N i j) /\
   snd (get_coord L N (i + 1) j) = snd (get_coord L N i j) /\
   get_coord L N 0 0 = (- L / 2, - L / 2) /\ get_coord L N N N = (L / 2, L / 2))%R.
Proof. exact coord_spacing. Qed.
Print Assumptions C56_spacing.

Example C56_nonvacuous : get_coord (2 * PI) 16 12 4 = (PI / 2, - PI / 2)%R.
Proof. unfold get_coord. f_equal; field. Qed.
