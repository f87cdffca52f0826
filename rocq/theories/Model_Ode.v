(** ps/ode.py: the Fourier coefficients of z1 by an ODE in r. *)
From Coq Require Import ZArith List Bool Reals.
From Coquelicot Require Import Complex.
From Verif Require Import Model_Py Model_Grid Model_Fourier Model_Domain.
Import ListNotations.
Open Scope R_scope.

(** ps/ode.py:10 [fourier_N]. The theorems hold for every size. *)
Definition ode_fourier_N : nat := Z.to_nat 1024.

(** ps/ode.py:22 (local [arc_dst]) applied to a real function, entry [m]; the
    slice [:M] does not change the entries below M (M <= N). The transform of
    real samples is real, so the real part is the whole value. *)
Definition ode_dst (a : R) (N : nat) (func : R -> R) (m : nat) : R :=
  fst (arc_dst a (fun th => RtoC (func th)) N (Z.of_nat m)).

(** ps/ode.py:36-53 [eval_deriv], entry [i] of the vector of length 2M; the
    loop writes entries i and i+1 for even i. The counter n_dst is dropped. *)
Definition ode_eval_deriv (a nu k : R) (N : nat) (eval_f1 : R -> R -> R) (M : nat)
    (Y : nat -> R) (r : R) : result (nat -> R) :=
  if Reqb r 0 then Err AssertionError
  else Ok (fun i =>
    let m := (Nat.div i 2 + 1)%nat in
    if Nat.even i then Y (i + 1)%nat
    else
      let z1 := Y (i - 1)%nat in
      let z2 := Y i in
      - z2 / r - (k ^ 2 - (INR m * nu / r) ^ 2) * z1
      + ode_dst a N (fun th => eval_f1 r th) (m - 1)).

(** ps/ode.py:55-62, the initial vector. *)
Definition ode_ic (a R0 : R) (N : nat) (initial_func d_initial_func : R -> R -> R) (i : nat) : R :=
  let m := (Nat.div i 2 + 1)%nat in
  if Nat.even i then ode_dst a N (fun th => initial_func R0 th) (m - 1)
  else ode_dst a N (fun th => d_initial_func R0 th) (m - 1).

(** ps/ode.py:21-69 [calc_z1_fourier]. [odeint deriv dim ic R0 R] is row 1 of
    scipy's odeint(deriv, ic, [R0, R]); the progress prints and the
    discretisation estimate of 28-31 are dropped. *)
Definition ode_calc_z1_fourier
    (odeint : ((nat -> R) -> R -> result (nat -> R)) -> nat -> (nat -> R) -> R -> R -> nat -> R)
    (initial_func d_initial_func eval_f1 : R -> R -> R) (a nu k R0 R1 : R) (M N : nat) : list R :=
  let sol := odeint (ode_eval_deriv a nu k N eval_f1 M) (2 * M)%nat
               (ode_ic a R0 N initial_func d_initial_func) R0 R1 in
  map (fun m => sol (2 * m)%nat) (seq 0 M).
