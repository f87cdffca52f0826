(** scripts/codegen/rhs_derivs.py, scripts/codegen/chebyshev_derivs.py,
    scripts/apply_helmholtz.py: sympy expressions are functions of their
    symbols, diff is Coquelicot's total [Derive], subs is composition; a line
    printed is the function it is the text of. Also the search for the number of
    columns in scripts/abcoef/generate_data.py. *)
From Coq Require Import ZArith List Reals String.
From Coquelicot Require Import Coquelicot.
From Verif Require Import Model_Py Model_Domain Model_Abcoef Model_Singular Model_ZMethod.
Import ListNotations.
Open Scope R_scope.

(** scripts/codegen/rhs_derivs.py:25, sympy.diff with respect to x. *)
Definition cg_diff_x (u : R -> R -> R) (x y : R) : R := Derive (fun x => u x y) x.
(** scripts/codegen/rhs_derivs.py:25, sympy.diff with respect to y. *)
Definition cg_diff_y (u : R -> R -> R) (x y : R) : R := Derive (fun y => u x y) y.

(** scripts/codegen/rhs_derivs.py:14-19 [print_code]: the signature and the
    value of the function printed, a number, a vector or a matrix. *)
Inductive code :=
| CNum (signature : string) (value : R -> R -> R)
| CVec (signature : string) (value : R -> R -> R * R)
| CMat (signature : string) (value : R -> R -> (R * R) * (R * R)).

(** scripts/codegen/rhs_derivs.py:44-51 [find_f_polar_derivs]. *)
Definition find_f_polar_derivs (f_polar : R -> R -> R) : list code :=
  [CNum "eval_d_f_r(self, r, th)" (diff_r f_polar);
   CNum "eval_d2_f_r(self, r, th)" (diff_r (diff_r f_polar));
   CNum "eval_d_f_th(self, r, th)" (diff_th f_polar);
   CNum "eval_d2_f_th(self, r, th)" (diff_th (diff_th f_polar));
   CNum "eval_d2_f_r_th(self, r, th)" (diff_th (diff_r f_polar))].

(** scripts/codegen/rhs_derivs.py:54-64 [find_f_total_derivs]. *)
Definition find_f_total_derivs (f : R -> R -> R) : list code :=
  [CVec "eval_grad_f(self, x, y)" (fun x y => (cg_diff_x f x y, cg_diff_y f x y));
   CMat "eval_hessian_f(self, x, y)" (fun x y =>
     ((cg_diff_x (cg_diff_x f) x y, cg_diff_y (cg_diff_x f) x y),
      (cg_diff_x (cg_diff_y f) x y, cg_diff_y (cg_diff_y f) x y)))].

(** scripts/codegen/rhs_derivs.py:22-31 [find_derivs]. *)
Definition find_derivs (k : R) (u : R -> R -> R) : list code :=
  let f := fun x y => cg_diff_x (cg_diff_x u) x y + cg_diff_y (cg_diff_y u) x y + k ^ 2 * u x y in
  let f_polar := fun r th => f (r * cos th) (r * sin th) in
  CNum "eval_expected(self, x, y)" u :: CNum "eval_f(self, x, y)" f ::
  find_f_polar_derivs f_polar ++ find_f_total_derivs f.

(** scripts/codegen/rhs_derivs.py:34-40 [find_derivs_polar]. *)
Definition find_derivs_polar (k : R) (u : R -> R -> R) : list code :=
  let f := fun r th => diff_r (diff_r u) r th + 1 / r * diff_r u r th + 1 / r ^ 2 * diff_th (diff_th u) r th + k ^ 2 * u r th in
  CNum "eval_expected_polar(self, r, th)" u :: CNum "eval_f_polar(self, r, th)" f :: find_f_polar_derivs f.

(** scripts/apply_helmholtz.py:6-8 [apply_helmholtz_op]. *)
Definition ah_op (k : R) (u : R -> R -> R) (r th : R) : R :=
  let d_u_r := diff_r u in
  diff_r d_u_r r th + d_u_r r th / r + diff_th (diff_th u) r th / r ^ 2 + k ^ 2 * u r th.

(** scripts/apply_helmholtz.py:10-21, the script: the input, the operator
    applied to it, and the gradient after substituting for r. *)
Definition ah_main (k : R) : (R -> R -> R) * (R -> R -> R) * (R -> R -> R * R) :=
  let u := fun r _ : R => r in
  let v := fun x y => u (sqrt (x ^ 2 + y ^ 2)) 0 in
  (u, ah_op k u, fun x y => (cg_diff_x v x y, cg_diff_y v x y)).

(** scripts/codegen/chebyshev_derivs.py:7-14: the expressions printed, with the
    number in their heading. *)
Definition cheb_codegen (J : R) : list (nat * (R -> R)) :=
  map (fun n => (n, Derive_n (fun t => cos (J * acos t)) n)) (seq 1 5).

(** scripts/abcoef/generate_data.py:23 [m1_list], range(8, 250, 2). *)
Definition gd_m1_list : list Z := map (fun i => 8 + 2 * Z.of_nat i)%Z (seq 0 121).

(** scripts/abcoef/generate_data.py:30-32, 62-64: error7, the largest error of
    the seven coefficients calc_a_coef finds from the values of the solution on
    the boundary, for a problem of class SingularKnown. *)
Definition gd_error7 (lstsq : nat -> nat -> (nat -> nat -> C) -> (nat -> C) -> nat -> C) (jv : R -> R -> R)
    (k R0 a nu : R) (eval_r : R -> R) (fft_a_coef : list C) (m1 : Z) : R :=
  let eval_phi0 := fun th => sk_expected jv (fun _ _ => RtoC 0) fft_a_coef k a nu sk_m_max (eval_r th) th in
  let a_coef := calc_a_coef lstsq jv k R0 a nu eval_r eval_phi0 ab_n_nodes 7 (Z.to_nat m1) in
  fold_right Rmax 0 (map (fun i => Cmod (Cminus (nth i a_coef (RtoC 0)) (nth i fft_a_coef (RtoC 0)))) (seq 0 7)).

(** scripts/abcoef/generate_data.py:59-72, the loop: min_error7 (None is inf)
    with the entry 'm1' of boundary_results. [error7 m1] is the error of the
    coefficients calc_a_coef finds with m1 columns. *)
Fixpoint gd_search (error7 : Z -> R) (m1s : list Z) (best : option (Z * R)) : option (Z * R) :=
  match m1s with
  | [] => best
  | m1 :: rest =>
      let e := error7 m1 in
      let better := match best with None => true | Some (_, e0) => Rltb e e0 end in
      gd_search error7 rest (if better then Some (m1, e) else best)
  end.
