(** Specification vocabulary for the polar scheme. *)
From Coq Require Import ZArith List Bool Reals.
From Verif Require Import Model_Py Model_PolarFD.
Import ListNotations.
Open Scope R_scope.

(** Difference operators on grid functions w(m, l), with the radius [rad m] of
    the m-th circle and the two steps. *)
Section Operators.
Variables (rad : Z -> R) (hr hth k : R).

Definition op_dr (w : Z -> Z -> R) (m l : Z) : R :=
  (w (m + 1)%Z l - w (m - 1)%Z l) / (2 * hr).
Definition op_drr (w : Z -> Z -> R) (m l : Z) : R :=
  (w (m + 1)%Z l - 2 * w m l + w (m - 1)%Z l) / hr ^ 2.
Definition op_dthth (w : Z -> Z -> R) (m l : Z) : R :=
  (w m (l + 1)%Z - 2 * w m l + w m (l - 1)%Z) / hth ^ 2.
(** Second-order flux form of (1/r) (r w_r)_r. *)
Definition op_radial (w : Z -> Z -> R) (m l : Z) : R :=
  ((rad m + hr / 2) * (w (m + 1)%Z l - w m l) - (rad m - hr / 2) * (w m l - w (m - 1)%Z l))
  / (rad m * hr ^ 2).
(** Second-order form of w_thth / r^2. *)
Definition op_angular (w : Z -> Z -> R) (m l : Z) : R := op_dthth w m l / rad m ^ 2.

(** The second-order Helmholtz operator plus its fourth-order corrections. *)
Definition compact_scheme (w : Z -> Z -> R) (m l : Z) : R :=
  let r := rad m in
  let v := fun m l => k ^ 2 * w m l + op_angular w m l in
  op_radial w m l + op_angular w m l + k ^ 2 * w m l
  + hr ^ 2 / 12 * (op_drr v m l + op_dr v m l / r + v m l / r ^ 2)
  + hr ^ 2 / (6 * r ^ 3) * op_dr w m l
  + hth ^ 2 / 12 * op_dthth (fun m l => op_radial w m l + k ^ 2 * w m l) m l.
End Operators.

(** Source term with its fourth-order corrections. *)
Definition compact_source (hr hth r f f_r f_rr f_thth : R) : R :=
  f + hr ^ 2 / 12 * (f_rr + f_r / r + f / r ^ 2) + hth ^ 2 / 12 * f_thth.

(** A sensible discretisation: at least one cell, an annulus away from the
    origin, an angle below the full turn. *)
Definition pf_ok (s : polar_fd) : Prop :=
  (1 <= pf_N s)%Z /\ 0 < pf_R0 s < pf_R1 s /\ pf_a s < 2 * PI.

(** Nodes of the closed polar grid. *)
Definition in_polar_grid (N : Z) (p : Z * Z) : Prop :=
  (0 <= fst p <= N)%Z /\ (0 <= snd p <= N)%Z.

(** The value of a solution vector at a node, numbered row by row: N+1 nodes
    on each circle. *)
Definition pf_at (s : polar_fd) (z : Z -> R) (m l : Z) : R := z (m * (pf_N s + 1) + l)%Z.

(** Column indices stored for a given row. *)
Definition cols_of_row (y : pf_system) (row : Z) : list Z :=
  map snd (filter (fun e => fst e =? row)%Z (combine (sy_row_ind y) (sy_col_ind y))).

Open Scope Z_scope.

(** What the row of a node refers to: a boundary node only to itself, an
    interior node to its nine neighbours. *)
Definition row_of (N : Z) (p : Z * Z) (cols : list Z) : Prop :=
  (fst p = 0 \/ fst p = N \/ snd p = 0 \/ snd p = N ->
     cols = [fst p * (N + 1) + snd p]) /\
  (1 <= fst p <= N - 1 -> 1 <= snd p <= N - 1 ->
     length cols = 9%nat /\
     forall c, In c cols <-> exists q, Z.abs (fst p - fst q) <= 1 /\ Z.abs (snd p - snd q) <= 1 /\
       c = fst q * (N + 1) + snd q).

(** A nine-point stencil applied to a grid function. *)
Definition stencil_sum (c : Z -> Z -> R) (w : Z -> Z -> R) (m l : Z) : R :=
  (c (-1)%Z (-1)%Z * w (m - 1)%Z (l - 1)%Z
   + c (-1)%Z (0)%Z * w (m - 1)%Z l
   + c (-1)%Z (1)%Z * w (m - 1)%Z (l + 1)%Z
   + c (0)%Z (-1)%Z * w m (l - 1)%Z
   + c (0)%Z (0)%Z * w m l
   + c (0)%Z (1)%Z * w m (l + 1)%Z
   + c (1)%Z (-1)%Z * w (m + 1)%Z (l - 1)%Z
   + c (1)%Z (0)%Z * w (m + 1)%Z l
   + c (1)%Z (1)%Z * w (m + 1)%Z (l + 1)%Z)%R.

(** The Helmholtz operator in polar coordinates, from the partial derivatives. *)
Definition polar_helmholtz (k : R) (U : nat -> nat -> R -> R -> R) (r th : R) : R :=
  (U 2%nat 0%nat r th + U 1%nat 0%nat r th / r + U 0%nat 2%nat r th / r ^ 2
   + k ^ 2 * U 0%nat 0%nat r th)%R.
