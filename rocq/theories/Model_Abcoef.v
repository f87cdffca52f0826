(** abcoef.py: Fourier-Bessel coefficients by least squares. *)
From Coq Require Import String ZArith List Bool Reals.
From Coquelicot Require Import Complex.
From Verif Require Import Model_Py Model_Grid Model_Fourier.
Import ListNotations.
Open Scope R_scope.

(** problems/problem.py:47 [_a], the class attribute PizzaProblem.a. *)
Definition pizza_a : R := PI / 4.
(** problems/problem.py:48 [_nu], the class attribute PizzaProblem.nu. *)
Definition pizza_nu : R := PI / (2 * PI - pizza_a).

(** abcoef.py:8. The theorems hold for every number of nodes; this is the one
    the program uses. *)
Definition ab_n_nodes : nat := Z.to_nat 2048.

(** abcoef.py:9 [th_data], entry [i] of linspace(PizzaProblem.a, 2 pi, n+2)
    without its two end points. It uses the class attribute, not problem.a. *)
Definition ab_th (n : nat) (i : nat) : R :=
  pizza_a + (2 * PI - pizza_a) / (INR n + 1) * (INR i + 1).

(** abcoef.py:25-26: W[i, m-1] before the rescaling of lines 28-29. [jv v x]
    is scipy.special.jv, [m] the 0-based column. *)
Definition ab_W0 (jv : R -> R -> R) (k a nu : R) (eval_r : R -> R) (n i m : nat) : R :=
  let th := ab_th n i in
  jv ((INR m + 1) * nu) (k * eval_r th) * sin ((INR m + 1) * nu * (th - a)).

(** abcoef.py:28-29: the columns m = M+1 .. m1 are divided by jv(m nu, k R).
    Division by zero (numpy: inf) is 0 here; theorems exclude it. *)
Definition ab_W (jv : R -> R -> R) (k R0 a nu : R) (eval_r : R -> R) (n M i m : nat) : C :=
  let w := ab_W0 jv k a nu eval_r n i m in
  if Nat.leb M m then Cdiv (RtoC w) (RtoC (jv ((INR m + 1) * nu) (k * R0)))
  else RtoC w.

(** abcoef.py:11-36 [calc_a_coef]: the coefficients (the singular values, also
    returned, and the rank warning of 32-33 are dropped). [lstsq n m W y] is
    numpy.linalg.lstsq for an n-by-m matrix. *)
Definition calc_a_coef (lstsq : nat -> nat -> (nat -> nat -> C) -> (nat -> C) -> nat -> C)
    (jv : R -> R -> R) (k R0 a nu : R) (eval_r : R -> R) (eval_bc0 : R -> C)
    (n M m1 : nat) : list C :=
  let phi0_data := fun i => eval_bc0 (ab_th n i) in
  let W := fun i m => ab_W jv k R0 a nu eval_r n M i m in
  firstn M (map (lstsq n m1 W phi0_data) (seq 0 m1)).

(** abcoef.py:44-56 [_convert_ab]. [1/factor] with factor 0 (numpy: inf) is 0
    here; theorems exclude it. *)
Definition convert_ab (jv : R -> R -> R) (coef : list C) (coef_type : string)
    (k R0 nu : R) : result (list C) :=
  if (String.eqb coef_type "a" || String.eqb coef_type "b")%bool then
    Ok (map (fun m =>
      let factor := jv (INR m * nu) (k * R0) in
      let factor := if String.eqb coef_type "b" then 1 / factor else factor in
      Cmult (nth (m - 1) coef (RtoC 0)) (RtoC factor)) (seq 1 (length coef)))
  else Err AssertionError.

(** abcoef.py:38-39. *)
Definition a_to_b jv a_coef k R0 nu := convert_ab jv a_coef "a" k R0 nu.
(** abcoef.py:41-42. *)
Definition b_to_a jv b_coef k R0 nu := convert_ab jv b_coef "b" k R0 nu.
