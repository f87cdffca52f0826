(** problems/problem.py, problems/sympy_problem.py, problems/smooth.py and
    problems/sing_ihz.py: the test problems. *)
From Coq Require Import String ZArith List Bool Reals.
From Coquelicot Require Import Coquelicot.
From Verif Require Import Model_Py Model_Grid Model_Multivalue Model_Fourier Model_Domain Model_Abcoef
  Model_Extend Model_ZMethod.
Import ListNotations.
Open Scope R_scope.

(** ** problems/sympy_problem.py *)

(** problems/sympy_problem.py:60-61 [eval_d_f_r]. [f] is the source in polar
    coordinates with k, a, nu substituted (lambdify and subs are application);
    diff is [Derive]. *)
Definition sp_d_f_r (f : R -> R -> R) : R -> R -> R := diff_r f.
(** problems/sympy_problem.py:63-64. *)
Definition sp_d2_f_r (f : R -> R -> R) : R -> R -> R := diff_r (sp_d_f_r f).
(** problems/sympy_problem.py:66-67. *)
Definition sp_d_f_th (f : R -> R -> R) : R -> R -> R := diff_th f.
(** problems/sympy_problem.py:69-70. *)
Definition sp_d2_f_th (f : R -> R -> R) : R -> R -> R := diff_th (sp_d_f_th f).
(** problems/sympy_problem.py:72-73. *)
Definition sp_d2_f_r_th (f : R -> R -> R) : R -> R -> R := diff_th (sp_d_f_r f).

(** problems/sympy_problem.py:103-110 [eval_grad_f_polar]. *)
Definition sp_grad_polar (f : R -> R -> R) (r th : R) : R * R :=
  let d_f_r := sp_d_f_r f r th in
  let d_f_th := sp_d_f_th f r th in
  (d_f_r * cos th - d_f_th * sin th / r, d_f_r * sin th + d_f_th * cos th / r).

(** problems/sympy_problem.py:96-101 [eval_grad_f]. *)
Definition sp_grad (f : R -> R -> R) (x y : R) : R * R :=
  let '(r, th) := cart_to_polar x y in sp_grad_polar f r th.

(** problems/sympy_problem.py:119-155 [eval_hessian_f_polar]. *)
Definition sp_hessian_polar (f : R -> R -> R) (r th : R) : (R * R) * (R * R) :=
  let d_f_r := sp_d_f_r f r th in
  let d_f_th := sp_d_f_th f r th in
  let d2_f_r := sp_d2_f_r f r th in
  let d2_f_r_th := sp_d2_f_r_th f r th in
  let d2_f_th := sp_d2_f_th f r th in
  let d_f_x_r := d2_f_r * cos th + d2_f_r_th * (- sin th / r) + d_f_th * sin th / r ^ 2 in
  let d_f_x_th := d2_f_r_th * cos th + d_f_r * (- sin th) + d2_f_th * (- sin th / r)
                  + d_f_th * (- cos th / r) in
  let d2_f_x := d_f_x_r * cos th + d_f_x_th * (- sin th / r) in
  let d2_f_x_y := d_f_x_r * sin th + d_f_x_th * cos th / r in
  let d_f_y_r := d2_f_r * sin th + d2_f_r_th * cos th / r + d_f_th * (- cos th / r ^ 2) in
  let d_f_y_th := d2_f_r_th * sin th + d_f_r * cos th + d2_f_th * cos th / r
                  + d_f_th * (- sin th / r) in
  let d2_f_y := d_f_y_r * sin th + d_f_y_th * cos th / r in
  ((d2_f_x, d2_f_x_y), (d2_f_x_y, d2_f_y)).

(** problems/sympy_problem.py:112-117 [eval_hessian_f]. *)
Definition sp_hessian (f : R -> R -> R) (x y : R) : (R * R) * (R * R) :=
  let '(r, th) := cart_to_polar x y in sp_hessian_polar f r th.

(** problems/sympy_problem.py:75-94 [eval_f_polar] for an inhomogeneous
    problem; line 88 calls problems/problem.py:31-35 [eval_f], which comes back
    here. [fuel] bounds that recursion, which is at most one deep when
    AD_len <> 0. *)
Fixpoint sp_eval_f_polar (fuel : nat) (AD_len : R) (f : R -> R -> R) (r th : R) : result R :=
  match fuel with
  | O => Err OutOfFuel
  | S fuel' =>
      if Reqb r 0 then
        let h := AD_len / 10000 in
        let '((hxx, hxy), (hyx, hyy)) := sp_hessian f (- h) 0 in
        let '(gx, gy) := sp_grad f (- h) 0 in
        let gx := gx + h * (hxx * 1 + hxy * 0) in
        let gy := gy + h * (hyx * 1 + hyy * 0) in
        let '(r', th') := cart_to_polar (- h) 0 in
        v <- sp_eval_f_polar fuel' AD_len f r' th';;
        let v := v + h * (gx * 1 + gy * 0) in
        let v := v + 1 / 2 * h ^ 2 * ((hxx * 1 + hxy * 0) * 1 + (hyx * 1 + hyy * 0) * 0) in
        Ok v
      else Ok (f r th)
  end.

(** problems/problem.py:31-35 [eval_f] of an inhomogeneous problem. *)
Definition sp_eval_f (fuel : nat) (AD_len : R) (f : R -> R -> R) (x y : R) : result R :=
  let '(r, th) := cart_to_polar x y in sp_eval_f_polar fuel AD_len f r th.

(** ** problems/smooth.py *)

(** problems/smooth.py:59-60 [Smooth_Sine.eval_expected]. *)
Definition sine_expected (k x y : R) : R := sin (k * x).
(** problems/smooth.py:62-64 [Smooth_Sine.get_grad]. *)
Definition sine_grad (k x y : R) : R * R := (k * cos (k * x), 0).

(** np.exp(1j*t), problems/smooth.py:77, 83. *)
Definition cis (t : R) : C := (cos t, sin t).

(** The attributes kx, ky of a Smooth_E object (problems/smooth.py:74-75);
    None before the first assignment. *)
Definition smooth_e_state := option (R * R).

(** problems/smooth.py:71-77 [Smooth_E.eval_expected]: new state and value. *)
Definition e_expected (k x y : R) (st : smooth_e_state) : smooth_e_state * C :=
  let kx := 8 / 10 * k in
  let ky := 6 / 10 * k in
  (Some (kx, ky), cis (kx * x + ky * y)).

(** problems/smooth.py:79-84 [Smooth_E.get_grad]; reading a missing attribute
    raises AttributeError. *)
Definition e_grad (x y : R) (st : smooth_e_state) : result (C * C) :=
  match st with
  | None => Err AttributeError
  | Some (kx, ky) =>
      let u := cis (kx * x + ky * y) in
      Ok (Cmult (0, kx) u, Cmult (0, ky) u)
  end.

(** A call on a Smooth_E object (problems/smooth.py:71, 79). *)
Inductive e_call := CallExpected (x y : R) | CallGrad (x y : R).

(** The state after a sequence of calls; a raising get_grad changes nothing
    (problems/smooth.py:71-84). *)
Definition e_run (k : R) (calls : list e_call) : smooth_e_state :=
  fold_left (fun st c => match c with
    | CallExpected x y => fst (e_expected k x y st)
    | CallGrad _ _ => st
    end) calls None.

(** problems/smooth.py:98, the source of Smooth_YCos in polar coordinates. *)
Definition ycos_f (k r th : R) : R := (k ^ 2 - 1) * r * sin th * cos (r * cos th).
(** problems/smooth.py:101-102 [Smooth_YCos.eval_expected]. *)
Definition ycos_expected (x y : R) : R := y * cos x.
(** problems/smooth.py:104-105 [Smooth_YCos.get_grad]. *)
Definition ycos_grad (x y : R) : R * R := (- y * sin x, cos x).

(** problems/smooth.py:33-52 [eval_d_u_outwards], for any get_grad. Another sid
    makes arg_to_polar_abs return None, whose unpacking raises TypeError. *)
Definition d_u_outwards (eval_r : R -> R) (a : R) (get_grad : R -> R -> result (C * C))
    (arg : R) (sid : nat) : result C :=
  match arg_to_polar_abs eval_r a arg sid with
  | None => Err TypeError
  | Some (r, th) =>
      let x := r * cos th in
      let y := r * sin th in
      g <- get_grad x y;;
      let normal := match sid with
        | 0%nat => eval_normal eval_r th
        | 1%nat => (0, 1)
        | _ => (sin a, - cos a)
        end in
      Ok (cdot g normal)
  end.

(** problems/smooth.py:26-31 [eval_bc], for any eval_expected
    (problems/problem.py:25-29 [eval_expected_polar]). *)
Definition smooth_bc (eval_r : R -> R) (a : R) (expected : R -> R -> C) (arg : R) (sid : nat)
  : result C :=
  match arg_to_polar_abs eval_r a arg sid with
  | None => Err TypeError
  | Some (r, th) => Ok (expected (r * cos th) (r * sin th))
  end.

(** ** problems/sing_ihz.py *)

(** problems/sing_ihz.py:52-57 [p]. *)
Definition taper_p (x : R) : R :=
  if Rltb x 0 then 0
  else if Rleb x 1 then
    x ^ 7 * (924 * x ^ 6 - 6006 * x ^ 5 + 16380 * x ^ 4 - 24024 * x ^ 3 + 20020 * x ^ 2
             - 9009 * x + 1716)
  else 1.

(** problems/sing_ihz.py:45-61 [get_tapering_func]; [r1] is ZMethod.R0 and
    [r2] the argument R. *)
Definition tapering (r1 r2 r : R) : R := taper_p (1 - (r - r1) / (r2 - r1)).

(** problems/sing_ihz.py:79-90 [get_v_asympt0]. [gamma] is scipy.special.gamma;
    the power with a real exponent is [Rpower] (positive base: theorems assume
    k r > 0; at r = 0 the lambdified function is 0, ps/zmethod.py:108-112). *)
Definition v_asympt0 (gamma : R -> R) (K k nu : R) (nterms : nat) (r : R) : R :=
  let kr2 := k * r / 2 in
  fold_left (fun acc l =>
    let x := (K + 1 / 2) * nu + INR l + 1 in
    acc + (-1) ^ l / (INR (fact l) * gamma x) * kr2 ^ (2 * l)) (seq 0 nterms) 0
  * Rpower kr2 ((K + 1 / 2) * nu).

(** problems/sing_ihz.py:39 [_nterms]. *)
Definition ih_nterms : nat := 2.

(** problems/sing_ihz.py:111-113 [IH_Bessel.v_asympt]. *)
Definition ih_v_asympt (gamma : R -> R) (K k nu a R0 : R) (r th : R) : R :=
  v_asympt0 gamma K k nu ih_nterms r * sin ((K + 1 / 2) * nu * (th - a)) * tapering zm_R0 R0 r.
(** problems/sing_ihz.py:115 [IH_Bessel.v_series]. *)
Definition ih_v_series (gamma : R -> R) (K k nu a : R) (r th : R) : R :=
  v_asympt0 gamma K k nu 10 r * sin ((K + 1 / 2) * nu * (th - a)).
(** problems/sing_ihz.py:117-121 [IH_Bessel.g], with alt_phi1_ext = False
    (line 42). [J v x] is the Bessel function (sympy.besselj, scipy jv). *)
Definition ih_g (J : R -> R -> R) (K k nu a : R) (r th : R) : R :=
  (th - a) / (2 * PI - a) * J ((K + 1 / 2) * nu) (k * r).
(** problems/sing_ihz.py:123-132 [IH_Bessel.eval_v]. *)
Definition ih_eval_v (J : R -> R -> R) (K k nu a : R) (r th : R) : R :=
  J ((K + 1 / 2) * nu) (k * r) * sin ((K + 1 / 2) * nu * (th - a)).

(** problems/sing_ihz.py:140-142 [IZ_Bessel.eval_phi0]. *)
Definition iz_phi0 (J : R -> R -> R) (K k nu a : R) (eval_r : R -> R) (th : R) : R :=
  ih_eval_v J K k nu a (eval_r th) th.
(** problems/sing_ihz.py:144-148 [IZ_Bessel.eval_phi1]. *)
Definition iz_phi1 (J : R -> R -> R) (K k nu a r : R) : R :=
  if Rltb 0 r then ih_eval_v J K k nu a r (2 * PI) else 0.
(** problems/sing_ihz.py:150-151 [IZ_Bessel.eval_phi2]. *)
Definition iz_phi2 (r : R) : R := 0.
(** problems/sing_ihz.py:153-154 [IZ_Bessel.eval_expected_polar]. *)
Definition iz_expected (J : R -> R -> R) (K k nu a : R) (r th : R) : R := ih_eval_v J K k nu a r th.

(** problems/sing_ihz.py:159-165 [IHZ_Bessel_Line.eval_phi0]. *)
Definition line_phi0 (J : R -> R -> R) (K k nu a : R) (eval_r : R -> R) (th : R) : R :=
  J ((K + 1 / 2) * nu) (k * eval_r th) * (th - a) / (2 * PI - a).
(** problems/sing_ihz.py:167-176 [IHZ_Bessel_Line.eval_phi1], with
    alt_phi1_ext = False. *)
Definition line_phi1 (J : R -> R -> R) (K k nu r : R) : R :=
  let bc := J ((K + 1 / 2) * nu) (k * r) in
  if Rltb 0 r then bc else 0.
(** problems/sing_ihz.py:178-179 [IHZ_Bessel_Line.eval_phi2]. *)
Definition line_phi2 (r : R) : R := 0.

(** problems/sing_ihz.py:197-200 [IHZ_Bessel_Quadratic.v_asympt]. *)
Definition quad_v_asympt (gamma : R -> R) (k nu a R0 : R) (r th : R) : R :=
  (v_asympt0 gamma 0 k nu ih_nterms r * sin (nu / 2 * (th - a))
   + v_asympt0 gamma 1 k nu ih_nterms r * sin (3 * nu / 2 * (th - 2 * PI))) * tapering zm_R0 R0 r.
(** problems/sing_ihz.py:202-205 [IHZ_Bessel_Quadratic.v_series]. *)
Definition quad_v_series (gamma : R -> R) (k nu a : R) (r th : R) : R :=
  v_asympt0 gamma 0 k nu 10 r * sin (nu / 2 * (th - a))
  + v_asympt0 gamma 1 k nu 10 r * sin (3 * nu / 2 * (th - 2 * PI)).
(** problems/sing_ihz.py:207-210 [IHZ_Bessel_Quadratic.g]. *)
Definition quad_g (J : R -> R -> R) (k nu a : R) (r th : R) : R :=
  (th - a) / (2 * PI - a) * J (nu / 2) (k * r)
  + (th - 2 * PI) / (a - 2 * PI) * J (3 * nu / 2) (k * r).
(** problems/sing_ihz.py:212-223 [IHZ_Bessel_Quadratic.eval_v]. *)
Definition quad_eval_v (J : R -> R -> R) (k nu a : R) (r th : R) : R :=
  J (nu / 2) (k * r) * sin (nu / 2 * (th - a))
  + J (3 * nu / 2) (k * r) * sin (3 * nu / 2 * (th - 2 * PI)).
(** problems/sing_ihz.py:225-233 [IHZ_Bessel_Quadratic.eval_phi0]. *)
Definition quad_phi0 (J : R -> R -> R) (k nu a : R) (eval_r : R -> R) (th : R) : R :=
  let r := eval_r th in
  let p := fun th => (th - a) * (th - (2 * PI - a)) / (a * (2 * PI - a)) in
  J (3 * nu / 2) (k * r) + (J (nu / 2) (k * r) - J (3 * nu / 2) (k * r)) * p th.
(** problems/sing_ihz.py:235-239 [IHZ_Bessel_Quadratic.eval_phi1]. *)
Definition quad_phi1 (J : R -> R -> R) (k nu r : R) : R :=
  if Rltb 0 r then J (nu / 2) (k * r) else 0.
(** problems/sing_ihz.py:241-245 [IHZ_Bessel_Quadratic.eval_phi2]. *)
Definition quad_phi2 (J : R -> R -> R) (k nu r : R) : R :=
  if Rltb 0 r then J (3 * nu / 2) (k * r) else 0.
