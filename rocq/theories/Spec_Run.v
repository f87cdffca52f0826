(** Specification vocabulary for the construction and the run (C72). *)
From Coq Require Import ZArith List Bool Reals.
From Coquelicot Require Import Coquelicot.
From Verif Require Import Model_Py Model_Multivalue Model_Grid Model_Fourier Model_Linop Model_PS Model_Domain
  Model_Extend Model_Run Lib_Csum Spec_Grid Spec_PS Spec_Abcoef Spec_Domain Spec_Inhomo Spec_Extend.
Import ListNotations.
Open Scope R_scope.

(** Iterating over a set lists each element once. *)
Definition enumerating (lib : library) : Prop := forall l, enumerates (lib_enum lib l) l.

(** numpy's chebfit returns one coefficient more than the degree. *)
Definition fit_sizes (lib : library) : Prop :=
  forall ts ys deg, length (lib_chebfit lib ts ys deg) = S deg.

(** Two or more cells, a known scheme, a solvable auxiliary problem and a
    domain that keeps away from the border of the square. *)
Definition options_ok (o : options) : Prop :=
  (2 <= o_N o)%Z /\ (o_order o = 2 \/ o_order o = 4)%Z /\ o_AD o <> 0 /\
  margin (o_N o) (o_interior o) /\ eig_nonzero (o_N o) (o_order o) (o_AD o) (o_k o).

(** The inside nodes of the grid. *)
Definition o_inside (o : options) (i j : Z) : Prop :=
  in_open_grid (o_N o) (i, j) /\ o_interior o i j = true.

(** The difference operator of the scheme applied to an array. *)
Definition o_L (o : options) (u : arr2) (i j : Z) : C :=
  lin_apply_L (o_N o) (o_order o) (o_AD o) (o_k o) (node_value (o_N o) u) i j.

(** Value of array [u] at the [l]-th node of a list. *)
Definition nth_value (N : Z) (nodes : list node) (u : arr2) (l : nat) : C :=
  match nth_error nodes l with Some (i, j) => node_value N u i j | None => RtoC 0 end.

(** Sum of the squared differences between [u] and [e] on the discrete
    boundary. *)
Definition boundary_gap (st : ps_state) (u : arr2) (e : list C) : R :=
  let g := ps_gamma (st_ps st) in
  rsum (length g) (fun l => Cmod (Cminus (nth_value (ps_N (st_ps st)) g u l) (as_vec e l)) ^ 2).

(** [e] is the extension of the boundary data with coefficients [c0] and [c1],
    and [u] the grid function formed from it. *)
Definition candidate (st : ps_state) (c0 c1 e : list C) (u : arr2) : Prop :=
  extend_boundary (with_basis (st_ctx st) (ec_B (st_ctx st)) c0 c1) SrcCoef false = Ok e /\
  ps_u_act (st_ps st) (as_vec e) (st_ap st) = Ok u.

(** The call of lstsq in the run with Dirichlet coefficients [c0] returns a
    least-squares solution; the system is that of get_var. *)
Definition lstsq_contract (lib : library) (st : ps_state) (c0 : list C) : Prop :=
  forall Q1 rhs, run_get_var (with_basis (st_ctx st) (ec_B (st_ctx st)) c0 []) (st_ps st) (st_ap st) = Ok (Q1, rhs) ->
  least_squares (length (ps_gamma (st_ps st))) (length Q1) (cols_matrix Q1) rhs
    (lib_lstsq lib (length (ps_gamma (st_ps st))) (length Q1) (cols_matrix Q1) rhs).

(** The Neumann coefficients are determined by the discrete boundary: no
    non-zero combination of the extended basis functions for the normal
    derivative is the trace of its own potential. *)
Definition neumann_determined (st : ps_state) : Prop :=
  forall c1 e P tr, length c1 = length (ec_B (st_ctx st)) ->
    extend_boundary (with_basis (st_ctx st) (ec_B (st_ctx st)) (map (fun _ => RtoC 0) c1) c1) SrcCoef true = Ok e ->
    get_potential (st_ps st) (as_vec e) = Ok P -> get_trace (st_ps st) P = Ok tr ->
    vec_eq (st_ps st) tr (as_vec e) -> c1 = map (fun _ => RtoC 0) c1.

(** The arc domain on a grid fine enough for the tip and the corners to be
    separated (property C10), with the external root finder. *)
Definition arc_options (lib : library) (o : options) : Prop :=
  brentq_contract (lib_brentq lib) /\ o_r o = r_arc (o_R o) /\ 1 / 100000 <= o_R o /\ 0 < o_a o < PI /\ 0 < o_AD o /\
  o_R o > o_AD o / IZR (o_N o) * sqrt 2 * (1 + sqrt (2 / (1 - Rabs (cos (o_a o))))).

(** The problem's Cartesian methods return the derivatives [F] on the
    boundary. *)
Definition boundary_source (o : options) (F : nat -> nat -> R -> R -> C) : Prop :=
  forall sid b, on_seg (o_R o) (o_a o) sid b -> cart_source (o_src o) F (fst b) (snd b).

(** No node of the discrete boundary lies on the circle. *)
Definition off_circle (o : options) : Prop :=
  forall p, In p (gamma_set (o_order o) (o_N o) (o_interior o)) ->
  let '(x, y) := get_coord (o_AD o) (o_N o) (fst p) (snd p) in x ^ 2 + y ^ 2 <> o_R o ^ 2.
