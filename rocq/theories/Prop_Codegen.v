(** C95: the code generators of scripts/. *)
From Coq Require Import ZArith List Reals Lia Lra String.
From Coquelicot Require Import Coquelicot.
From Verif Require Import Model_Py Model_Grid Model_Chebyshev Model_Abcoef Model_Singular Model_ZMethod Model_Codegen
  Spec_Problems Spec_Abcoef Spec_Codegen Proof_Abcoef Proof_Lstsq Proof_Codegen.
Import ListNotations.
Open Scope R_scope.

(** C95. What rhs_derivs.py prints for a smooth solution in x and y: the source
    of the Helmholtz equation, its gradient and Hessian, and its derivatives in
    polar coordinates. *)
Theorem C95_generated : forall k U, regular 4 U -> exists f dr d2r dth d2th drth g h,
  find_derivs k (U 0%nat 0%nat) =
    [CNum "eval_expected(self, x, y)" (U 0%nat 0%nat); CNum "eval_f(self, x, y)" f;
     CNum "eval_d_f_r(self, r, th)" dr; CNum "eval_d2_f_r(self, r, th)" d2r; CNum "eval_d_f_th(self, r, th)" dth;
     CNum "eval_d2_f_th(self, r, th)" d2th; CNum "eval_d2_f_r_th(self, r, th)" drth;
     CVec "eval_grad_f(self, x, y)" g; CMat "eval_hessian_f(self, x, y)" h] /\
  (forall x y, f x y = U 2%nat 0%nat x y + U 0%nat 2%nat x y + k ^ 2 * U 0%nat 0%nat x y) /\
  (forall x y, is_grad f x y (g x y) /\ is_hessian f x y (h x y) /\ snd (fst (h x y)) = fst (snd (h x y))) /\
  (forall r th, let G := g (r * cos th) (r * sin th) in let H := h (r * cos th) (r * sin th) in
     let c := cos th in let s := sin th in let hxx := fst (fst H) in let hxy := snd (fst H) in let hyy := snd (snd H) in
     dr r th = c * fst G + s * snd G /\
     d2r r th = c ^ 2 * hxx + 2 * c * s * hxy + s ^ 2 * hyy /\
     dth r th = r * (c * snd G - s * fst G) /\
     d2th r th = r ^ 2 * (s ^ 2 * hxx - 2 * c * s * hxy + c ^ 2 * hyy) - r * (c * fst G + s * snd G) /\
     drth r th = c * snd G - s * fst G + r * (c * s * (hyy - hxx) + (c ^ 2 - s ^ 2) * hxy)).
Proof. exact generated. Qed.
Print Assumptions C95_generated.

(** The generator for a solution in polar coordinates prints the same source
    and the same derivatives, away from the origin. *)
Theorem C95_polar : forall k U, regular 2 U ->
  exists f fp dr d2r dth d2th drth dr' d2r' dth' d2th' drth' rest,
  find_derivs k (U 0%nat 0%nat) =
    CNum "eval_expected(self, x, y)" (U 0%nat 0%nat) :: CNum "eval_f(self, x, y)" f ::
    [CNum "eval_d_f_r(self, r, th)" dr; CNum "eval_d2_f_r(self, r, th)" d2r; CNum "eval_d_f_th(self, r, th)" dth;
     CNum "eval_d2_f_th(self, r, th)" d2th; CNum "eval_d2_f_r_th(self, r, th)" drth] ++ rest /\
  find_derivs_polar k (fun r th => U 0%nat 0%nat (r * cos th) (r * sin th)) =
    [CNum "eval_expected_polar(self, r, th)" (fun r th => U 0%nat 0%nat (r * cos th) (r * sin th)); CNum "eval_f_polar(self, r, th)" fp;
     CNum "eval_d_f_r(self, r, th)" dr'; CNum "eval_d2_f_r(self, r, th)" d2r'; CNum "eval_d_f_th(self, r, th)" dth';
     CNum "eval_d2_f_th(self, r, th)" d2th'; CNum "eval_d2_f_r_th(self, r, th)" drth'] /\
  forall r th, r <> 0 ->
    fp r th = f (r * cos th) (r * sin th) /\ dr' r th = dr r th /\ d2r' r th = d2r r th /\
    dth' r th = dth r th /\ d2th' r th = d2th r th /\ drth' r th = drth r th.
Proof. exact polar_same. Qed.
Print Assumptions C95_polar.

Example C95_regular_nonvacuous : exists U, regular 4 U /\ (forall x y, U 0%nat 0%nat x y = exp (x + 2 * y)) /\ U 1%nat 2%nat 0 0 = 4.
Proof. exact regular_ex. Qed.

(** scripts/apply_helmholtz.py: its operator is the Helmholtz operator, and
    what it prints for u = r. *)
Theorem C95_operator : forall k U r th, regular 2 U -> r <> 0 ->
  ah_op k (fun r th => U 0%nat 0%nat (r * cos th) (r * sin th)) r th =
  let D i j := U i j (r * cos th) (r * sin th) in D 2%nat 0%nat + D 0%nat 2%nat + k ^ 2 * D 0%nat 0%nat.
Proof. exact op_helmholtz. Qed.
Print Assumptions C95_operator.

Theorem C95_script : forall k u out grad, ah_main k = (u, out, grad) ->
  (forall r th, r <> 0 -> out r th = / r + k ^ 2 * r) /\
  (forall x y, (x <> 0 \/ y <> 0) ->
     grad x y = (x / sqrt (x ^ 2 + y ^ 2), y / sqrt (x ^ 2 + y ^ 2)) /\
     is_grad (fun x y => sqrt (x ^ 2 + y ^ 2)) x y (grad x y)).
Proof. exact ah_script. Qed.
Print Assumptions C95_script.

Example C95_script_nonvacuous : exists u out grad, ah_main 2 = (u, out, grad) /\ out 1 0 = 5 /\ fst (grad 3 4) = 3 / 5.
Proof. exact script_ex. Qed.

(** The expressions chebyshev_derivs.py prints are the values of the formulas
    in ps/chebyshev.py, for every degree. *)
Theorem C95_chebyshev : forall J t, -1 < t < 1 ->
  map fst (cheb_codegen (INR J)) = [1; 2; 3; 4; 5]%nat /\
  forall n g, In (n, g) (cheb_codegen (INR J)) -> eval_dn_T_t n J t = Ok (g t).
Proof. exact cheb_printed. Qed.
Print Assumptions C95_chebyshev.

Example C95_chebyshev_nonvacuous : -1 < / 2 < 1 /\ exists g, In (1%nat, g) (cheb_codegen (INR 2)) /\ g (/ 2) = 2.
Proof. exact cheb_ex. Qed.

(** generate_data.py keeps the first column number with the smallest error. *)
Theorem C95_search : forall error7, exists m1, gd_search error7 gd_m1_list None = Some (m1, error7 m1) /\
  (8 <= m1 <= 248)%Z /\ Z.Even m1 /\
  forall m, (8 <= m <= 248)%Z -> Z.Even m -> error7 m1 <= error7 m /\ ((m < m1)%Z -> error7 m1 < error7 m).
Proof. exact search_spec. Qed.
Print Assumptions C95_search.

Example C95_search_nonvacuous : gd_search (fun m => Rabs (IZR m - 11)) gd_m1_list None = Some (10%Z, 1).
Proof. exact search_ex. Qed.

(** On the arc the coefficients of a SingularKnown problem are found exactly
    with every column number, so the search keeps the first one. *)
Theorem C95_arc : forall (lstsq : nat -> nat -> (nat -> nat -> C) -> (nat -> C) -> nat -> C) jv k R0 to_dst A,
  (forall n m W y, least_squares n m W y (lstsq n m W y)) ->
  (forall m, (m < 300)%nat -> jv ((INR m + 1) * pizza_nu) (k * R0) <> 0) ->
  sk_a_coef jv to_dst pizza_a k R0 pizza_nu ab_n_nodes sk_m_max = Ok A ->
  (forall m1, (7 <= m1 <= 300)%Z -> gd_error7 lstsq jv k R0 pizza_a pizza_nu (fun _ => R0) A m1 = 0) /\
  gd_search (gd_error7 lstsq jv k R0 pizza_a pizza_nu (fun _ => R0) A) gd_m1_list None = Some (8%Z, 0).
Proof.
  exact (fun lstsq jv k R0 to_dst A Hl Hj HA =>
    conj (fun m1 H => arc_exact lstsq jv k R0 to_dst A m1 Hl Hj HA H) (arc_search lstsq jv k R0 to_dst A Hl Hj HA)).
Qed.
Print Assumptions C95_arc.

Example C95_arc_nonvacuous : exists A,
  (forall n m W y, least_squares n m W y (gs_lstsq n m W y)) /\
  (forall m, (m < 300)%nat -> sample_jv ((INR m + 1) * pizza_nu) (2 * 3) <> 0) /\
  sk_a_coef sample_jv (Some (fun th => RtoC (sin (pizza_nu * (th - pizza_a))))) pizza_a 2 3 pizza_nu ab_n_nodes sk_m_max = Ok A /\
  nth 0 A (RtoC 0) <> RtoC 0.
Proof. exact arc_search_ex. Qed.
