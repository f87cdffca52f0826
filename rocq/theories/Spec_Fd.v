(** Specification vocabulary for finite-difference consistency. *)
From Coq Require Import Reals Lra ZArith.
From Coquelicot Require Import Coquelicot.
From Verif Require Import Model_Grid Model_Fourier Lib_Csum.
Open Scope R_scope.

(** [U i j] is the mixed partial derivative of order (i, j) of [u], for all
    i + j <= n, at every point of the set [D]. *)
Definition partials (n : nat) (D : R -> R -> Prop) (u : R -> R -> R)
    (U : nat -> nat -> R -> R -> R) : Prop :=
  (forall x y, U 0%nat 0%nat x y = u x y) /\
  forall i j, (i + j < n)%nat -> forall x y, D x y ->
    is_derive (fun t => U i j t y) x (U (S i) j x y) /\
    is_derive (fun t => U i j x t) y (U i (S j) x y).

(** The derivatives of total order exactly [n] are bounded by [M] on [D]. *)
Definition top_bounded (n : nat) (M : R) (D : R -> R -> Prop)
    (U : nat -> nat -> R -> R -> R) : Prop :=
  forall i j, (i + j = n)%nat -> forall x y, D x y -> Rabs (U i j x y) <= M.

(** All derivatives of total order up to [n] are bounded by [M] on [D]. *)
Definition all_bounded (n : nat) (M : R) (D : R -> R -> Prop)
    (U : nat -> nat -> R -> R -> R) : Prop :=
  forall i j, (i + j <= n)%nat -> forall x y, D x y -> Rabs (U i j x y) <= M.

(** The closed box around a point. *)
Definition box (x0 hx y0 hy x y : R) : Prop :=
  x0 - hx <= x <= x0 + hx /\ y0 - hy <= y <= y0 + hy.

(** Samples of the complex function ur + i ui at the nodes of the grid. *)
Definition sampled (L : R) (N : Z) (ur ui : R -> R -> R) : arr2 := fun i j =>
  let x := fst (get_coord L N i j) in let y := snd (get_coord L N i j) in (ur x y, ui x y).

(** The polynomial with coefficients [c], of total degree at most [d]. *)
Definition poly2 (d : nat) (c : nat -> nat -> R) (x y : R) : R :=
  rsum (S d) (fun i => rsum (S (d - i)) (fun j => c i j * x ^ i * y ^ j)).
