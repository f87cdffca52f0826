(** ps/ps.py: construction of PizzaSolver and its method run, put together from
    the parts modelled in the other files; ps/debug.py: Q_residual. *)
From Coq Require Import ZArith List Bool Reals.
From Coquelicot Require Import Coquelicot.
From Verif Require Import Model_Py Model_Multivalue Model_Grid Model_Fourier Model_Linop Model_PS
  Model_Chebyshev Model_Domain Model_Ext Model_Extend Model_Debug.
Import ListNotations.
Open Scope R_scope.

(** The library routines called: scipy.optimize.brentq (problems/boundary.py:151),
    numpy's chebfit (ps/basis.py:108), numpy.linalg.lstsq (ps/ps.py:215; rows,
    columns, matrix, right-hand side), and the order in which Python enumerates
    a set (ps/grid.py:197, ps/ps.py:69, ps/inhomo.py:43, solver.py:103). *)
Record library := mk_lib {
  lib_brentq : (R -> R) -> R -> R -> option R;
  lib_chebfit : list R -> list C -> nat -> list C;
  lib_lstsq : nat -> nat -> (nat -> nat -> C) -> (nat -> C) -> nat -> C;
  lib_enum : list node -> list node }.

(** What the constructor takes from [options] and from the problem
    (ps/ps.py:27-48, solver.py:21-26): wavenumber, R, a, side of the auxiliary
    square, cells, scheme order, boundary curve, the result of get_n_basis,
    options n_circle and n_radius when present, the flag homogeneous, the
    source, the Dirichlet data, the flag expected_known and the expected
    solution. *)
Record options := mk_opt {
  o_k : R; o_R : R; o_a : R; o_AD : R; o_N : Z; o_order : Z;
  o_r : R -> R;
  o_n_basis : nat * nat;
  o_n_circle : option nat; o_n_radius : option nat;
  o_homogeneous : bool; o_src : source;
  o_bc : R -> nat -> C;
  o_known : bool; o_expected : R -> R -> C }.

(** The attributes of the constructed solver that [run] uses (ps/ps.py:27-72):
    context of the extensions, difference potentials, segment_desc, f (with the
    flag telling that extend_f gave up), ap_sol_f. *)
Record ps_state := mk_state {
  st_ctx : ext_ctx;
  st_ps : ps_solver;
  st_seg : list (nat * list nat);
  st_f : arr2; st_gave_up : bool;
  st_ap : arr2 }.

(** ps/ps.py:40-48: the basis sizes; option n_circle without n_radius raises
    AssertionError. *)
Definition basis_sizes (o : options) : result (nat * nat) :=
  match o_n_circle o with
  | None => Ok (o_n_basis o)
  | Some nc => match o_n_radius o with Some nr => Ok (nc, nr) | None => Err AssertionError end
  end.

(** The point test as a function of the options (ps/ps.py:74-77). *)
Definition o_interior (o : options) : Z -> Z -> bool :=
  ps_is_interior (o_r o) (o_a o) (o_AD o) (o_N o).

(** ps/ps.py:50-52: grids and cache. c0 and c1 do not exist yet and are
    represented by empty lists. *)
Definition init_ctx (lib : library) (o : options) (B : list (nat * nat)) : result ext_ctx :=
  let bcoord := node_bcoord (lib_brentq lib) (o_r o) (o_a o) (o_AD o) (o_N o) in
  let union_gamma := lib_enum lib (gamma_set (o_order o) (o_N o) (o_interior o)) in
  g <- all_gamma (o_R o) (o_a o) (o_AD o) (o_N o) bcoord union_gamma;;
  let '(g0, g1, g2) := g in
  Ok (mk_ctx (o_k o) (o_R o) (o_a o) (o_AD o) (o_N o) (o_r o) bcoord union_gamma
        (fun sid => match sid with 0%nat => g0 | 1%nat => g1 | _ => g2 end)
        B [] [] (o_homogeneous o) (o_src o)).

(** ps/ps.py:50, 54-57: the part used by the difference potentials. *)
Definition init_ps (lib : library) (o : options) : ps_solver :=
  mk_ps (o_N o) (o_order o) (o_AD o) (o_k o) (o_interior o)
    (lib_enum lib (gamma_set (o_order o) (o_N o) (o_interior o)))
    (lib_enum lib (global_Mminus (o_N o) (o_interior o))).

(** solver.py:74-90 [setup_f] with ps/inhomo.py:27-93 [extend_f]. *)
Definition setup_f (lib : library) (o : options) (c : ext_ctx) (s : ps_solver)
  : result (arr2 * bool) :=
  let todo := lib_enum lib (node_diff (Kplus (o_order o) (o_N o) (o_interior o))
                                      (global_Mplus (o_N o) (o_interior o))) in
  extend_f c todo (setup_f_interior s (s_f (o_src o))).

(** ps/ps.py:27-59 [PizzaSolver.__init__]. *)
Definition ps_init (lib : library) (o : options) : result ps_state :=
  n <- basis_sizes o;;
  let '(B, seg) := setup_basis (fst n) (snd n) in
  c <- init_ctx lib o B;;
  let s := init_ps lib o in
  f <- setup_f lib o c s;;
  A <- calc_ap_sol_f s (fst f);;
  Ok (mk_state c s seg (fst f) (snd f) A).

(** A numpy vector as a function of its index (ps/ps.py:146: [ext[l]]); only
    read below len(union_gamma). *)
Definition list_vec (l : list C) : vec := fun i => nth i l (RtoC 0).

(** Assignment to self.c0 and self.c1 (ps/basis.py:114-128, ps/ps.py:215). *)
Definition set_coef (c : ext_ctx) (c0 c1 : list C) : ext_ctx :=
  mk_ctx (ec_k c) (ec_R c) (ec_a c) (ec_AD c) (ec_N c) (ec_r c) (ec_bcoord c) (ec_union c)
    (ec_gamma c) (ec_B c) c0 c1 (ec_homogeneous c) (ec_src c).

(** ps/ps.py:164-175 [get_Q] with the calls of extend_basis; [JJs] is
    range(len(B_desc)). np.column_stack of no columns raises ValueError. *)
Fixpoint get_Q_loop (c : ext_ctx) (s : ps_solver) (index : nat) (JJs : list nat)
  : result (list vec) :=
  match JJs with
  | [] => Ok []
  | JJ :: JJs' =>
      e <- extend_basis c JJ index;;
      col <- Q_column s (list_vec e);;
      cols <- get_Q_loop c s index JJs';;
      Ok (col :: cols)
  end.

(** ps/ps.py:164-175. *)
Definition run_get_Q (c : ext_ctx) (s : ps_solver) (index : nat) : result (list vec) :=
  cols <- get_Q_loop c s index (seq 0 (length (ec_B c)));;
  match cols with [] => Err ValueError | _ => Ok cols end.

(** ps/ps.py:177-208 [get_var]. *)
Definition run_get_var (c : ext_ctx) (s : ps_solver) (ap_sol_f : arr2)
  : result (list vec * vec) :=
  Q0 <- run_get_Q c s 0;;
  Q1 <- run_get_Q c s 1;;
  e <- extend_inhomo_f c;;
  let ext_f := list_vec e in
  proj_f <- get_potential s ext_f;;
  term <- get_trace s (arr_add proj_f ap_sol_f);;
  Q0c0 <- mat_dot Q0 (ec_c0 c);;
  Ok (Q1, fun l => Cminus (Cplus (Copp (Q0c0 l)) (ext_f l)) (term l)).

(** A matrix given by its columns (ps/ps.py:175). *)
Definition cols_matrix (cols : list vec) : nat -> nat -> C :=
  fun i j => nth j cols (fun _ => RtoC 0) i.

(** ps/ps.py:210-215 [solve_var]. *)
Definition solve_var (lib : library) (c : ext_ctx) (s : ps_solver) (ap_sol_f : arr2)
  : result (list C) :=
  v <- run_get_var c s ap_sol_f;;
  let '(Q1, rhs) := v in
  let x := lib_lstsq lib (length (ps_gamma s)) (length Q1) (cols_matrix Q1) rhs in
  Ok (map x (seq 0 (length Q1))).

(** solver.py:8-10 [Result], with c0, c1 and the pair printed by c0_test. *)
Record ps_result := mk_result {
  res_error : option R;
  res_u : arr2;
  res_c0 : list C; res_c1 : list C;
  res_test : R * R }.

(** ps/ps.py:217-257 [run]. *)
Definition ps_run (lib : library) (o : options) (st : ps_state) : result ps_result :=
  let c := st_ctx st in
  let s := st_ps st in
  c0 <- calc_c0 (lib_chebfit lib) (get_chebyshev_roots (Z.to_nat n_chebyshev_nodes))
          (o_R o) (o_a o) (st_seg st) (o_bc o);;
  t <- c0_test sample_n (o_r o) (o_bc o) (o_R o) (o_a o) (ec_B c) c0;;
  c1 <- solve_var lib (set_coef c c0 []) s (st_ap st);;
  ext <- extend_boundary (set_coef c c0 c1) SrcCoef false;;
  u <- ps_u_act s (list_vec ext) (st_ap st);;
  e <- eval_error (o_N o) (o_AD o) (o_known o) (o_expected o) u
         (lib_enum lib (global_Mplus (o_N o) (o_interior o)));;
  Ok (mk_result e u c0 c1 t).

(** ps/debug.py:252-268 [Q_residual], the printed array and its maximum; the
    files written are left out. [du] is the problem's eval_d_u_outwards. *)
Definition Q_residual (lib : library) (o : options) (st : ps_state) (du : R -> nat -> C)
  : result (list R * R) :=
  let nodes := get_chebyshev_roots (Z.to_nat n_chebyshev_nodes) in
  c0 <- calc_c0 (lib_chebfit lib) nodes (o_R o) (o_a o) (st_seg st) (o_bc o);;
  c1 <- calc_c1_exact (lib_chebfit lib) nodes (o_R o) (o_a o) (st_seg st) du;;
  v <- run_get_var (set_coef (st_ctx st) c0 c1) (st_ps st) (st_ap st);;
  let '(Q1, rhs) := v in
  q <- mat_dot Q1 c1;;
  let residual := map (fun l => Cmod (Cminus (q l) (rhs l))) (seq 0 (length (ps_gamma (st_ps st)))) in
  m <- py_max residual;;
  Ok (residual, m).
