(** ps/zmethod.py: the regularisation by a known singular part. *)
From Coq Require Import String ZArith List Bool Reals.
From Coquelicot Require Import Coquelicot.
From Verif Require Import Model_Py Model_Grid Model_Fourier Model_Domain Model_Abcoef.
Import ListNotations.
Open Scope R_scope.

(** ps/zmethod.py:25 [M]. *)
Definition zm_M : nat := 7.
(** ps/zmethod.py:26 [R0]. *)
Definition zm_R0 : R := / 10.

(** ps/zmethod.py:66, sympy.diff with respect to r. Expressions are functions
    of (r, th); diff is Coquelicot's total [Derive] (they agree wherever the
    derivative exists). *)
Definition diff_r (u : R -> R -> R) (r th : R) : R := Derive (fun r => u r th) r.
(** ps/zmethod.py:66, sympy.diff with respect to th. *)
Definition diff_th (u : R -> R -> R) (r th : R) : R := Derive (fun th => u r th) th.

(** ps/zmethod.py:70-72 [apply_helmholtz_op]. *)
Definition apply_helmholtz_op (k : R) (u : R -> R -> R) (r th : R) : R :=
  diff_r (diff_r u) r th + diff_r u r th / r + diff_th (diff_th u) r th / r ^ 2 + k ^ 2 * u r th.

(** ps/zmethod.py:74 [f]. *)
Definition zm_f (k : R) (v_asympt : R -> R -> R) (r th : R) : R := - apply_helmholtz_op k v_asympt r th.
(** ps/zmethod.py:75 [f0]. *)
Definition zm_f0 (k : R) (g : R -> R -> R) (r th : R) : R := - apply_helmholtz_op k g r th.

(** ps/zmethod.py:79 [p]. *)
Definition zm_p (x : R) : R := 10 * x ^ 3 - 15 * x ^ 4 + 6 * x ^ 5.

(** ps/zmethod.py:81-82 [q1]. *)
Definition zm_q1 (k a : R) (g : R -> R -> R) (r th : R) : R :=
  r ^ 2 * 1 / 2 * (th - a) ^ 2 * zm_f0 k g r a * zm_p ((a - th) / (2 * PI - a) + 1).
(** ps/zmethod.py:84-85 [q2]; np.pi and sympy.pi are both pi. *)
Definition zm_q2 (k a : R) (g : R -> R -> R) (r th : R) : R :=
  r ^ 2 * 1 / 2 * (th - 2 * PI) ^ 2 * zm_f0 k g r (2 * PI)
  * zm_p ((th - 2 * PI) / (2 * PI - a) + 1).
(** ps/zmethod.py:87 [q]. *)
Definition zm_q (k a : R) (g : R -> R -> R) (r th : R) : R :=
  zm_q1 k a g r th + zm_q2 k a g r th.
(** ps/zmethod.py:88 [f1]. *)
Definition zm_f1 (k a : R) (g : R -> R -> R) (r th : R) : R :=
  zm_f0 k g r th - apply_helmholtz_op k (zm_q k a g) r th.

(** ps/zmethod.py:96 [initial_func]. *)
Definition zm_initial (k a : R) (v_series g : R -> R -> R) (r th : R) : R :=
  v_series r th - (g r th + zm_q k a g r th).
(** ps/zmethod.py:97 [d_initial_func]. *)
Definition zm_d_initial (k a : R) (v_series g : R -> R -> R) : R -> R -> R :=
  diff_r (zm_initial k a v_series g).

(** ps/zmethod.py:101-114 [my_lambdify]: the expression, 0 at r = 0. *)
Definition zm_lambdify (e : R -> R -> R) (r th : R) : R := if Reqb r 0 then 0 else e r th.

(** ps/zmethod.py:177-191 [get_expected_z1_fourier]; [N] is arc_dst's default
    2048. *)
Definition zm_expected_z1 (eval_v eval_gq : R -> R -> R) (a arc_R : R) (N M : nat) : list C :=
  map (fun m => arc_dst a (fun th => RtoC (eval_v arc_R th - eval_gq arc_R th)) N (Z.of_nat m))
    (seq 0 M).

(** ps/zmethod.py:208-213 [eval_phi0] inside do_z_BVP. *)
Definition zm_z_phi0 (z1_fourier : nat -> R) (eval_gq : R -> R -> R) (a nu arc_R : R) (M : nat)
    (th : R) : R :=
  fold_left (fun acc m => acc + z1_fourier (m - 1)%nat * sin (INR m * nu * (th - a))) (seq 1 M) 0
  + eval_gq arc_R th.

(** ps/zmethod.py:275-294 [get_expected_a_coef]. *)
Definition zm_expected_a_coef (jv : R -> R -> R) (name : string) (eval_phi0 : R -> R)
    (eval_v : R -> R -> R) (a k R0 nu : R) (N M : nat) : result (list C) :=
  if String.eqb name "iz-bessel" then Ok (repeat (RtoC 0) M)
  else
    let b_coef := map (fun m => arc_dst a (fun th => RtoC (eval_phi0 th - eval_v R0 th)) N
                         (Z.of_nat m)) (seq 0 M) in
    b_to_a jv b_coef k R0 nu.

(** ps/zmethod.py:243-273 [calc_a_coef]; the report of 266-273 is dropped.
    [v_interp] is the interpolant of create_v_interp (Model_ZRun). *)
Definition zm_calc_a_coef lstsq (jv : R -> R -> R) (acheat : bool) (name : string)
    (eval_phi0 : R -> R) (eval_v : R -> R -> R) (v_interp : R -> R -> C) (eval_r : R -> R)
    (a k R0 nu : R) (N M m1 : nat) : result (list C) :=
  fft <- zm_expected_a_coef jv name eval_phi0 eval_v a k R0 nu N M;;
  if acheat then Ok fft
  else Ok (calc_a_coef lstsq jv k R0 a nu eval_r
         (fun th => Cminus (RtoC (eval_phi0 th)) (v_interp (eval_r th) th)) N M m1).

(** ps/zmethod.py:372-390 [u_BVP.eval_bc]; for another sid arg_to_polar returns
    None and unpacking it raises TypeError. The source data and v_asympt are real, the coefficients complex. *)
Definition zm_u_bc (jv : R -> R -> R) (eval_phi0 eval_phi1 eval_phi2 : R -> R)
    (eval_v_asympt : R -> R -> R) (a_coef : list C) (eval_r : R -> R) (a nu k : R) (M : nat)
    (arg : R) (sid : nat) : result C :=
  match arg_to_polar eval_r a arg sid with
  | None => Err TypeError
  | Some (r, th) =>
      Ok (
        if Nat.eqb sid 0 then
          fold_left (fun bc m => Cminus bc (Cmult (nth (m - 1) a_coef (RtoC 0))
              (RtoC (jv (INR m * nu) (k * r) * sin (INR m * nu * (th - a))))))
            (seq 1 M) (RtoC (eval_phi0 th - eval_v_asympt r th))
        else if (Nat.eqb sid 1 && Rleb 0 r)%bool then
          RtoC (eval_phi1 r - eval_v_asympt r (2 * PI))
        else if (Nat.eqb sid 2 && Rleb 0 r)%bool then
          RtoC (eval_phi2 r - eval_v_asympt r a)
        else RtoC 0)
  end.
