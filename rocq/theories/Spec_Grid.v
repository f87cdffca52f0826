(** Specification vocabulary for grids and difference potentials. *)
From Coq Require Import ZArith List Bool Reals.
From Coquelicot Require Import Complex.
From Verif Require Import Model_Py Model_Multivalue Model_Grid Model_PS.
Import ListNotations.
Open Scope Z_scope.

(** [l] lists every element of the set [s] exactly once, in some order: what
    [list(s)] or iteration over a Python set produces. *)
Definition enumerates (l s : list node) : Prop :=
  NoDup l /\ forall p, In p l <-> In p s.

(** The open grid. *)
Definition in_open_grid (N : Z) (p : node) : Prop :=
  1 <= fst p <= N - 1 /\ 1 <= snd p <= N - 1.

(** Geometric neighbour relation of the two schemes: the five-point cross for
    order 2, the 3x3 block for order 4. *)
Definition neighbour (order : Z) (p q : node) : Prop :=
  Z.abs (fst p - fst q) <= 1 /\ Z.abs (snd p - snd q) <= 1 /\
  (order = 2 -> fst p = fst q \/ snd p = snd q).

(** Interior nodes keep one node away from the border of the open grid. *)
Definition margin (N : Z) (inside : Z -> Z -> bool) : Prop :=
  forall i j, in_open_grid N (i, j) -> inside i j = true ->
    2 <= i <= N - 2 /\ 2 <= j <= N - 2.

(** Value of an (N-1, N-1) array at a grid node; zero off the open grid. *)
Definition node_value (N : Z) (A : arr2) (i j : Z) : C :=
  if (1 <=? i) && (i <=? N - 1) && (1 <=? j) && (j <=? N - 1)
  then A (i - 1) (j - 1) else RtoC 0.

(** Equality of (N-1, N-1) arrays. *)
Definition arr_eq (N : Z) (A B : arr2) : Prop :=
  forall i j, 0 <= i < N - 1 -> 0 <= j < N - 1 -> A i j = B i j.

(** A correctly constructed solver: sizes, order, and both enumerations. *)
Definition ps_ok (s : ps_solver) : Prop :=
  2 <= ps_N s /\ (ps_order s = 2 \/ ps_order s = 4) /\ ps_AD_len s <> 0%R /\
  enumerates (ps_gamma s) (gamma_set (ps_order s) (ps_N s) (ps_interior s)) /\
  enumerates (ps_Mminus s) (global_Mminus (ps_N s) (ps_interior s)).

(** The discrete boundary lies in the open grid. *)
Definition gamma_inside (s : ps_solver) : Prop :=
  forall p, In p (ps_gamma s) -> in_open_grid (ps_N s) p.
