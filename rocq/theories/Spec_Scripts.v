(** Specification for the scripts (C78 to C81). *)
From Coq Require Import ZArith List Reals.
From Coquelicot Require Import Coquelicot.
From Verif Require Import Model_Py Model_Multivalue Model_Grid Model_Extend Model_Run Spec_Curve.
Import ListNotations.
Open Scope R_scope.

(** The Helmholtz equation on the square of side [s] has a non-zero solution
    vanishing on the four sides. *)
Definition square_resonance (s k : R) : Prop :=
  exists u : R -> R -> R, (exists x y, u x y <> 0) /\
    (forall t, u 0 t = 0 /\ u s t = 0 /\ u t 0 = 0 /\ u t s = 0) /\
    forall x y, ex_derive_n (fun t => u t y) 2 x /\ ex_derive_n (fun t => u x t) 2 y /\
      Derive_n (fun t => u t y) 2 x + Derive_n (fun t => u x t) 2 y + k ^ 2 * u x y = 0.

(** The nodes the fourth-order scheme needs the source at: the inside nodes and
    their four neighbours. *)
Definition source_node (r : R -> R) (N : Z) (q : node) : Prop :=
  exists p, region_node r N p /\ (Z.abs (fst p - fst q) + Z.abs (snd p - snd q) <= 1)%Z.

(** The options with the basis sizes given instead of looked up. *)
Definition resized (o : options) (nc nr : nat) : options :=
  mk_opt (o_k o) (o_R o) (o_a o) (o_AD o) (o_N o) (o_order o) (o_r o) (o_n_basis o) (Some nc) (Some nr)
    (o_homogeneous o) (o_src o) (o_bc o) (o_known o) (o_expected o).

(** A run with these basis sizes ends with error [e]. *)
Definition error_with (lib : library) (o : options) (nc nr : Z) (e : option R) : Prop :=
  exists st res, ps_init lib (resized o (Z.to_nat nc) (Z.to_nat nr)) = Ok st /\
    ps_run lib (resized o (Z.to_nat nc) (Z.to_nat nr)) st = Ok res /\ res_error res = e.

(** Basis sizes tried by optimize_basis.py: 30, 35, ..., 95 functions on the
    curve and 17, 21, ... on the radii, fewer than on the curve. *)
Definition tried (nc nr : Z) : Prop :=
  (exists i, nc = 30 + 5 * i)%Z /\ (30 <= nc < 100)%Z /\ (exists j, nr = 17 + 4 * j)%Z /\ (17 <= nr < nc)%Z.
