(** Specification vocabulary for difference potentials. *)
From Coq Require Import ZArith List Bool Reals.
From Coquelicot Require Import Complex.
From Verif Require Import Model_Py Model_Multivalue Model_Grid Model_Fourier
  Model_Linop Model_PS Spec_Grid.
Import ListNotations.
Open Scope Z_scope.

(** No entry of the eigenvalue table vanishes: the auxiliary problem is
    uniquely solvable. *)
Definition eig_nonzero (N order : Z) (L k : R) : Prop :=
  forall j l, 1 <= j <= N - 1 -> 1 <= l <= N - 1 -> eigenval N order L k j l <> 0%R.

(** A solver as constructed, with a solvable auxiliary problem and a discrete
    boundary that stays in the array (property C08 gives a sufficient
    condition for the latter). *)
Definition ps_usable (s : ps_solver) : Prop :=
  ps_ok s /\ gamma_inside s /\
  eig_nonzero (ps_N s) (ps_order s) (ps_AD_len s) (ps_k s).

(** The finite-difference operator on grid functions given by arrays (zero on
    the border of the square). *)
Definition fd_L (s : ps_solver) (A : arr2) (i j : Z) : C :=
  lin_apply_L (ps_N s) (ps_order s) (ps_AD_len s) (ps_k s) (node_value (ps_N s) A) i j.

(** Node [p] is in the domain / outside it. *)
Definition inside_node (s : ps_solver) (p : node) : Prop :=
  in_open_grid (ps_N s) p /\ ps_interior s (fst p) (snd p) = true.

Definition outside_node (s : ps_solver) (p : node) : Prop :=
  in_open_grid (ps_N s) p /\ ps_interior s (fst p) (snd p) = false.

(** Reached by the stencil of an inside node. *)
Definition reached (s : ps_solver) (p : node) : Prop :=
  exists q, inside_node s q /\ neighbour (ps_order s) q p.

(** [w] is the grid function equal to the density on the discrete boundary
    and zero elsewhere. *)
Definition density_fun (s : ps_solver) (ext : vec) (w : Z -> Z -> C) : Prop :=
  (forall l i j, nth_error (ps_gamma s) l = Some (i, j) -> w i j = ext l) /\
  (forall i j, ~ In (i, j) (ps_gamma s) -> w i j = RtoC 0).

(** [tr] lists the values of [A] on the discrete boundary. *)
Definition is_trace (s : ps_solver) (A : arr2) (tr : vec) : Prop :=
  forall l i j, nth_error (ps_gamma s) l = Some (i, j) -> tr l = node_value (ps_N s) A i j.

(** Equality of two boundary grid functions. *)
Definition vec_eq (s : ps_solver) (x y : vec) : Prop :=
  forall l, (l < length (ps_gamma s))%nat -> x l = y l.

(** Linear combination of boundary grid functions. *)
Fixpoint lincomb (c : list C) (es : list vec) : vec :=
  match c, es with
  | x :: c', e :: es' => fun l => Cplus (Cmult x (e l)) (lincomb c' es' l)
  | _, _ => fun _ => RtoC 0
  end.

(** Boundary extension assembled from coefficients, basis extensions and the
    extension of the source term. *)
Definition bd_ext (c0 c1 : list C) (ext0 ext1 : list vec) (ext_f : vec) : vec :=
  fun l => Cplus (Cplus (lincomb c0 ext0 l) (lincomb c1 ext1 l)) (ext_f l).

(** Number of the four neighbours that are not inside nodes. *)
Definition missing (N : Z) (ins : Z -> Z -> bool) (i j : Z) : R :=
  let m := fun i' j' => if node_mem (i', j') (global_Mplus N ins) then 0%R else 1%R in
  (m (i + 1)%Z j + m (i - 1)%Z j + m i (j + 1)%Z + m i (j - 1)%Z)%R.
