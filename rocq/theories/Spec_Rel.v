(** Specification vocabulary for the relative convergence (C96). *)
From Coq Require Import ZArith List Reals.
From Coquelicot Require Import Complex.
From Verif Require Import Model_Py Model_Multivalue Model_Grid Spec_Grid Spec_Program.
Import ListNotations.
Open Scope R_scope.

(** The inner nodes of the square's grid of [N] cells whose point is in [S]. *)
Definition set_node (S : R * R -> Prop) (N : Z) (p : Z * Z) : Prop :=
  in_open_grid N p /\ S (square_pt N (fst p) (snd p)).

(** [m] has one value of the sort [s] at every node in [I], that of [u]. *)
Definition holds_array (s : setype_t) (N : Z) (I : Z * Z -> Prop) (m : multivalue) (u : arr2) : Prop :=
  (forall p, In p (mv_nodes m) <-> I p) /\
  forall p, I p -> exists e, mv_get m p = Ok [e] /\ me_setype e = s /\ me_value e = node_value N u (fst p) (snd p).
