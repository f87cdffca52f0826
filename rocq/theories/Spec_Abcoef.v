(** Specification for the Fourier-Bessel coefficients (C38, C40). *)
From Coq Require Import Arith List Reals.
From Coquelicot Require Import Complex.
From Verif Require Import Model_Fourier Lib_Csum.
Open Scope R_scope.

(** A matrix with [m] columns applied to a vector. *)
Definition mat_app (m : nat) (W : nat -> nat -> C) (x : nat -> C) (i : nat) : C :=
  csum m (fun j => Cmult (W i j) (x j)).

(** Squared distance of [W x] from [y]. *)
Definition lsq_error (n m : nat) (W : nat -> nat -> C) (y x : nat -> C) : R :=
  rsum n (fun i => Cmod (Cminus (mat_app m W x i) (y i)) ^ 2).

(** [x] is a least-squares solution: what numpy.linalg.lstsq returns. *)
Definition least_squares (n m : nat) (W : nat -> nat -> C) (y x : nat -> C) : Prop :=
  forall x', lsq_error n m W y x <= lsq_error n m W y x'.

(** Full column rank. *)
Definition full_rank (n m : nat) (W : nat -> nat -> C) : Prop :=
  forall x, (forall i, (i < n)%nat -> mat_app m W x i = RtoC 0) ->
  forall j, (j < m)%nat -> x j = RtoC 0.
