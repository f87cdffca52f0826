(** Properties C01-C06 and C30: auxiliary problem, difference potentials,
    variational formulation. *)
From Coq Require Import ZArith List Bool Reals Lia Lra.
From Coquelicot Require Import Complex.
From Verif Require Import Model_Py Model_Multivalue Model_Grid Model_Fourier
  Model_Linop Model_PS Spec_Grid Spec_PS Proof_Grid Proof_Fourier Proof_PS Proof_Grid2.
Import ListNotations.
Open Scope Z_scope.

(** C01. solve inverts apply_L. *)
Theorem C01_solve_apply : forall N order L k v, 2 <= N -> L <> 0%R ->
  eig_nonzero N order L k ->
  arr_eq N (ap_solve N order L k (ap_apply_L N order L k v)) v.
Proof. exact ap_solve_apply_L. Qed.
Print Assumptions C01_solve_apply.

(** C01. apply_L inverts solve. *)
Theorem C01_apply_solve : forall N order L k g, 2 <= N -> L <> 0%R ->
  eig_nonzero N order L k ->
  arr_eq N (ap_apply_L N order L k (ap_solve N order L k g)) g.
Proof. exact ap_apply_L_solve. Qed.
Print Assumptions C01_apply_solve.

(** C01. For k = 0 the hypothesis always holds. *)
Theorem C01_solvable_k0 : forall N order L, 2 <= N -> (order = 2 \/ order = 4) -> L <> 0%R ->
  eig_nonzero N order L 0.
Proof. exact eig_nonzero_k0. Qed.
Print Assumptions C01_solvable_k0.

Example C01_nonvacuous : eig_nonzero 16 4 (2 * PI) 0.
Proof. apply eig_nonzero_k0; [lia|right; reflexivity|]. pose proof PI_RGT_0. lra. Qed.

(** C02. apply_L is the 5-point / 9-point stencil on the zero-padded array. *)
Theorem C02_stencil : forall N order L k A i j, 2 <= N -> L <> 0%R ->
  (order = 2 \/ order = 4) -> 1 <= i <= N - 1 -> 1 <= j <= N - 1 ->
  ap_apply_L N order L k A (i - 1) (j - 1) =
  lin_apply_L N order L k (node_value N A) i j.
Proof. exact ap_apply_L_is_stencil. Qed.
Print Assumptions C02_stencil.

(** Corner entry of a 4 x 4 grid with side 4 (h = 1), order 2, k = 0, for the
    array that is 1 at node (1,1): L v = -4 there. *)
Example C02_nonvacuous :
  ap_apply_L 4 2 4 0 (arr_store arr_zeros 0 0 (RtoC 1)) 0 0 = RtoC (-4).
Proof.
  change 0 with (1 - 1) at 4 5. rewrite C02_stencil; try lia; try lra.
  unfold lin_apply_L, node_value, arr_store, arr_zeros.
  apply injective_projections; simpl; field.
Qed.

(** The 3 x 3 block in a 6 x 6 grid. *)
Definition example_solver : ps_solver :=
  build_solver 6 4 1 0 (fun i j => (2 <=? i) && (i <=? 4) && (2 <=? j) && (j <=? 4)).

Example PS_nonvacuous : ps_usable example_solver /\ inside_node example_solver (3, 3) /\
  outside_node example_solver (1, 1) /\ length (ps_gamma example_solver) = 24%nat.
Proof.
  split; [|split; [|split]].
  - apply build_solver_usable; [lia|right; reflexivity|lra|].
    intros i j _ H. rewrite !andb_true_iff, !Z.leb_le in H. lia.
  - split; [split; cbn; lia|reflexivity].
  - split; [split; cbn; lia|reflexivity].
  - vm_compute. reflexivity.
Qed.

(** C03. L P = 0 inside; L P = L(density) outside. *)
Theorem C03_potential : forall s, ps_usable s -> forall ext, exists P w,
  get_potential s ext = Ok P /\
  density_fun s ext (node_value (ps_N s) w) /\
  (forall i j, inside_node s (i, j) -> fd_L s P i j = RtoC 0) /\
  (forall i j, outside_node s (i, j) -> fd_L s P i j = fd_L s w i j).
Proof. exact potential_L. Qed.
Print Assumptions C03_potential.

(** C03. These two conditions determine the potential. *)
Theorem C03_potential_unique : forall s, ps_usable s -> forall ext w A,
  density_fun s ext (node_value (ps_N s) w) ->
  (forall i j, inside_node s (i, j) -> fd_L s A i j = RtoC 0) ->
  (forall i j, outside_node s (i, j) -> fd_L s A i j = fd_L s w i j) ->
  exists P, get_potential s ext = Ok P /\ arr_eq (ps_N s) P A.
Proof. exact potential_unique. Qed.
Print Assumptions C03_potential_unique.

(** C04. The trace lists the values on the discrete boundary. *)
Theorem C04_trace : forall s, ps_usable s -> forall A,
  exists tr, get_trace s A = Ok tr /\ is_trace s A tr.
Proof. exact trace_spec. Qed.
Print Assumptions C04_trace.

(** C04. A discrete solution is reproduced on the reached nodes from its
    trace; the potential is zero elsewhere. *)
Theorem C04_projection : forall s, ps_usable s -> forall A tr,
  (forall i j, inside_node s (i, j) -> fd_L s A i j = RtoC 0) ->
  is_trace s A tr ->
  exists P, get_potential s tr = Ok P /\
    (forall i j, reached s (i, j) -> node_value (ps_N s) P i j = node_value (ps_N s) A i j) /\
    (forall i j, ~ reached s (i, j) -> node_value (ps_N s) P i j = RtoC 0).
Proof. exact projection_interior_nodes. Qed.
Print Assumptions C04_projection.

(** C04. trace o potential is idempotent. *)
Theorem C04_idempotent : forall s, ps_usable s -> forall ext P tr P' tr',
  get_potential s ext = Ok P -> get_trace s P = Ok tr ->
  get_potential s tr = Ok P' -> get_trace s P' = Ok tr' -> vec_eq s tr' tr.
Proof. exact trace_idempotent. Qed.
Print Assumptions C04_idempotent.

(** C04. Complementary: the trace of an exterior discrete solution has a
    potential that vanishes on the reached nodes. *)
Theorem C04_exterior : forall s, ps_usable s -> forall A tr,
  (forall i j, outside_node s (i, j) -> fd_L s A i j = RtoC 0) ->
  is_trace s A tr ->
  exists P, get_potential s tr = Ok P /\
    forall i j, reached s (i, j) -> node_value (ps_N s) P i j = RtoC 0.
Proof. exact projection_exterior_nodes. Qed.
Print Assumptions C04_exterior.

(** The constant 1 solves the discrete equation inside (k = 0), the array that
    is 1 at the central node only solves it at the outside nodes. *)
Example C04_nonvacuous : ps_usable example_solver /\
  (forall i j, inside_node example_solver (i, j) -> fd_L example_solver (fun _ _ => RtoC 1) i j = RtoC 0) /\
  (forall i j, outside_node example_solver (i, j) -> fd_L example_solver (arr_store arr_zeros 2 2 (RtoC 1)) i j = RtoC 0) /\
  (forall A, is_trace example_solver A (fun l => let '(i, j) := nth l (ps_gamma example_solver) (0, 0) in node_value 6 A i j)).
Proof.
  split; [apply PS_nonvacuous|]. split; [|split].
  - intros i j [_ H]. cbn [ps_interior example_solver build_solver fst snd] in H. rewrite !andb_true_iff, !Z.leb_le in H.
    assert (Hi : i = 2 \/ i = 3 \/ i = 4) by lia. assert (Hj : j = 2 \/ j = 3 \/ j = 4) by lia.
    destruct Hi as [->|[->| ->]], Hj as [->|[->| ->]]; unfold fd_L, lin_apply_L, node_value; simpl; apply injective_projections; simpl; field.
  - intros i j [[Hi Hj] H]. cbn [ps_interior ps_N example_solver build_solver fst snd] in *.
    assert (Hi' : i = 1 \/ i = 2 \/ i = 3 \/ i = 4 \/ i = 5) by lia.
    assert (Hj' : j = 1 \/ j = 2 \/ j = 3 \/ j = 4 \/ j = 5) by lia.
    destruct Hi' as [->|[->|[->|[->| ->]]]], Hj' as [->|[->|[->|[->| ->]]]]; try discriminate H;
    unfold fd_L, lin_apply_L, node_value, arr_store, arr_zeros; simpl; apply injective_projections; simpl; field.
  - intros A l i j H. rewrite (nth_error_nth _ _ _ H). reflexivity.
Qed.

(** C05. Whatever the boundary extension, the reported solution satisfies the
    discrete equation inside. *)
Theorem C05_discrete_equation : forall s, ps_usable s -> forall ext f A,
  calc_ap_sol_f s f = Ok A ->
  exists u, ps_u_act s ext A = Ok u /\
    forall i j, inside_node s (i, j) -> fd_L s u i j = lin_apply_B f i j.
Proof. exact u_act_solves. Qed.
Print Assumptions C05_discrete_equation.

(** C05. calc_ap_sol_f is always defined. *)
Theorem C05_ap_sol_f : forall s, ps_usable s -> forall f,
  exists A, calc_ap_sol_f s f = Ok A /\
  (forall i j, inside_node s (i, j) -> fd_L s A i j = lin_apply_B f i j) /\
  (forall i j, outside_node s (i, j) -> fd_L s A i j = RtoC 0).
Proof. exact ap_sol_f_spec. Qed.
Print Assumptions C05_ap_sol_f.

(** C06. The least-squares residual is the trace mismatch. *)
Theorem C06_residual : forall s, ps_usable s -> forall ext0 ext1 c0 c1 ext_f A ext,
  length c0 = length ext0 -> length c1 = length ext1 ->
  vec_eq s ext (bd_ext c0 c1 ext0 ext1 ext_f) ->
  exists Q1 rhs q u tr,
    get_var s ext0 ext1 c0 ext_f A = Ok (Q1, rhs) /\
    mat_dot Q1 c1 = Ok q /\
    ps_u_act s ext A = Ok u /\ get_trace s u = Ok tr /\
    vec_eq s (fun l => Cminus (q l) (rhs l)) (fun l => Cminus (tr l) (ext l)).
Proof. exact residual_spec. Qed.
Print Assumptions C06_residual.

(** C06. If some grid function solves the discrete equation inside and has the
    extension as its trace (zero residual), the reported solution is that
    function on every reached node. *)
Theorem C06_reproduces : forall s, ps_usable s -> forall f A ext v,
  calc_ap_sol_f s f = Ok A ->
  (forall i j, inside_node s (i, j) -> fd_L s v i j = lin_apply_B f i j) ->
  is_trace s v ext ->
  exists u, ps_u_act s ext A = Ok u /\
    forall i j, reached s (i, j) -> node_value (ps_N s) u i j = node_value (ps_N s) v i j.
Proof. exact reproduces. Qed.
Print Assumptions C06_reproduces.

(** For f = 0 the constant 1 is such a function. *)
Example C06_reproduces_nonvacuous : exists A, calc_ap_sol_f example_solver (fun _ _ => RtoC 0) = Ok A /\
  forall i j, inside_node example_solver (i, j) ->
    fd_L example_solver (fun _ _ => RtoC 1) i j = lin_apply_B (fun _ _ => RtoC 0) i j.
Proof.
  destruct (C05_ap_sol_f example_solver ltac:(apply PS_nonvacuous) (fun _ _ => RtoC 0)) as (A & EA & _).
  exists A. split; [exact EA|]. intros i j H. destruct C04_nonvacuous as (_ & E & _). rewrite (E i j H).
  unfold lin_apply_B. apply injective_projections; simpl; field.
Qed.

Example C06_nonvacuous : exists e : vec, vec_eq example_solver e
  (bd_ext [RtoC 2] [RtoC 3] [fun _ => RtoC 1] [fun l => RtoC (INR l)] (fun _ => RtoC 5)) /\
  e 4%nat = RtoC 19.
Proof.
  exists (fun l => RtoC (3 * INR l + 7)). split.
  - intros l _. unfold bd_ext. simpl. apply injective_projections; simpl; ring.
  - f_equal. simpl. ring.
Qed.

(** C30. Order 4: B f at inside nodes depends only on the samples in Kplus. *)
Theorem C30_order4 : forall N ins (f g : arr2) i j,
  in_open_grid N (i, j) -> ins i j = true ->
  (forall p, In p (Kplus 4 N ins) -> f (fst p) (snd p) = g (fst p) (snd p)) ->
  lin_apply_B f i j = lin_apply_B g i j.
Proof. exact B_reads_Kplus. Qed.
Print Assumptions C30_order4.

(** C30. Order 2: with f sampled at inside nodes only, a constant source c is
    turned into c (1 - missing/12). *)
Theorem C30_order2_value : forall s c i j, inside_node s (i, j) ->
  lin_apply_B (setup_f_interior s (fun _ _ => c)) i j =
  Cmult c (RtoC (1 - missing (ps_N s) (ps_interior s) i j / 12)).
Proof. exact B_order2_constant. Qed.
Print Assumptions C30_order2_value.

(** C30. Hence with order 2 the samples used are not those of the source. *)
Theorem C30_order2_refuted : exists s f i j, ps_ok s /\ ps_order s = 2 /\
  inside_node s (i, j) /\ (forall x y, f x y = RtoC 1) /\
  lin_apply_B (setup_f_interior s f) i j = RtoC (5 / 6) /\
  lin_apply_B (fun i j => let '(x, y) := get_coord (ps_AD_len s) (ps_N s) i j in f x y) i j
    = RtoC 1.
Proof. exact order2_witness. Qed.
Print Assumptions C30_order2_refuted.

Example C30_nonvacuous : inside_node example_solver (2, 2) /\
  In (1, 2) (Kplus 4 6 (ps_interior example_solver)) /\
  ~ In (1, 2) (Kplus 2 6 (ps_interior example_solver)).
Proof.
  split; [split; [split; cbn; lia|reflexivity]|].
  split; [apply node_mem_in|apply node_mem_not_in]; vm_compute; reflexivity.
Qed.
