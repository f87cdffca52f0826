(** Specification vocabulary for the regularisation as a whole (C59-C67). *)
From Coq Require Import ZArith List Bool Reals.
From Coquelicot Require Import Coquelicot.
From Verif Require Import Model_Fourier Spec_Fd Spec_PolarFD.
Open Scope R_scope.

(** [u] is twice differentiable on [D] and solves the polar Helmholtz equation
    with source [f] there, by real and imaginary parts. *)
Definition csolves (k : R) (D : R -> R -> Prop) (f u : R -> R -> C) : Prop :=
  exists Ur Ui,
    partials 2 D (fun r th => fst (u r th)) Ur /\ partials 2 D (fun r th => snd (u r th)) Ui /\
    forall r th, D r th ->
      polar_helmholtz k Ur r th = fst (f r th) /\ polar_helmholtz k Ui r th = snd (f r th).

(** The Fourier-Bessel sum with coefficients [c m] for the modes m+1 = 1..M. *)
Definition fourier_bessel (jv : R -> R -> R) (k nu a : R) (M : nat) (c : nat -> C) (r th : R) : C :=
  csum M (fun m => Cmult (c m)
    (RtoC (jv ((INR m + 1) * nu) (k * r) * sin ((INR m + 1) * nu * (th - a))))).

(** A strictly increasing list. *)
Definition increasing (l : list R) : Prop :=
  forall i j x y, (i < j)%nat -> nth_error l i = Some x -> nth_error l j = Some y -> x < y.

(** What is used of scipy's interp2d with kind='quintic' on a rectangular
    grid: it interpolates, and the flat table has the second coordinate running
    fastest. *)
Definition interp2d_ok (interp2d : list R -> list R -> list R -> R -> R -> R) : Prop :=
  forall x y z, increasing x -> increasing y -> (6 <= length x)%nat -> (6 <= length y)%nat ->
    length z = (length x * length y)%nat ->
    forall i j xi yj zij, nth_error x i = Some xi -> nth_error y j = Some yj ->
      nth_error z (i * length y + j) = Some zij -> interp2d x y z xi yj = zij.

(** The largest element of a non-empty finite family. *)
Definition is_max {A : Type} (P : A -> Prop) (f : A -> R) (e : R) : Prop :=
  (exists x, P x /\ f x = e) /\ forall x, P x -> f x <= e.
