(** Properties C38 and C40: Fourier-Bessel coefficients. *)
From Coq Require Import String ZArith List Bool Reals Lia Lra.
From Coquelicot Require Import Complex.
From Verif Require Import Model_Py Model_Grid Model_Fourier Model_Abcoef Spec_Abcoef Proof_Abcoef.
Import ListNotations.
Open Scope R_scope.

(** C38. Both conversions succeed, keep the length, and undo each other. *)
Theorem C38_inverse : forall jv c k R0 nu,
  (forall m, (m < length c)%nat -> jv ((INR m + 1) * nu) (k * R0) <> 0) ->
  exists b a, a_to_b jv c k R0 nu = Ok b /\ b_to_a jv c k R0 nu = Ok a /\
    length b = length c /\ length a = length c /\
    b_to_a jv b k R0 nu = Ok c /\ a_to_b jv a k R0 nu = Ok c.
Proof. exact convert_inverse. Qed.
Print Assumptions C38_inverse.

(** Two coefficients and a factor that depends on the order. *)
Example C38_nonvacuous : forall m, (m < length [(1, 2); (0, 1)]%R)%nat ->
  (fun v x : R => 1 + v ^ 2) ((INR m + 1) * pizza_nu) (2 * 3) <> 0.
Proof. intros m _ H. pose proof (pow2_ge_0 ((INR m + 1) * pizza_nu)). cbv beta in H. lra. Qed.

(** C40. On the arc, any least-squares solution gives the transformed and
    rescaled boundary data, whatever the boundary function. *)
Theorem C40_arc : forall lstsq jv k R0 bc0 n M m1,
  (M <= m1)%nat -> (m1 <= n)%nat ->
  (forall m, (m < m1)%nat -> jv ((INR m + 1) * pizza_nu) (k * R0) <> 0) ->
  (let W := fun i m => ab_W jv k R0 pizza_a pizza_nu (fun _ => R0) n M i m in
   let y := fun i => bc0 (ab_th n i) in least_squares n m1 W y (lstsq n m1 W y)) ->
  b_to_a jv (map (fun m => arc_dst pizza_a bc0 n (Z.of_nat m)) (seq 0 M)) k R0 pizza_nu =
  Ok (calc_a_coef lstsq jv k R0 pizza_a pizza_nu (fun _ => R0) bc0 n M m1).
Proof. exact calc_on_arc. Qed.
Print Assumptions C40_arc.

(** C40. On any boundary, data in the span of the m1 functions are recovered
    when those functions are independent on the nodes. *)
Theorem C40_exact_data : forall lstsq jv k R0 a nu eval_r bc0 n M m1 c,
  (M <= m1)%nat ->
  (forall m, (m < m1)%nat -> jv ((INR m + 1) * nu) (k * R0) <> 0) ->
  (let W := fun i m => ab_W jv k R0 a nu eval_r n M i m in
   let y := fun i => bc0 (ab_th n i) in least_squares n m1 W y (lstsq n m1 W y)) ->
  full_rank n m1 (fun i m => RtoC (jv ((INR m + 1) * nu) (k * eval_r (ab_th n i)) *
                                   sin ((INR m + 1) * nu * (ab_th n i - a)))) ->
  (forall i, (i < n)%nat -> bc0 (ab_th n i) =
     csum m1 (fun m => Cmult (c m) (RtoC (jv ((INR m + 1) * nu) (k * eval_r (ab_th n i)) *
                                   sin ((INR m + 1) * nu * (ab_th n i - a)))))) ->
  calc_a_coef lstsq jv k R0 a nu eval_r bc0 n M m1 = map c (seq 0 M).
Proof. exact calc_recovers. Qed.
Print Assumptions C40_exact_data.

(** The program's sizes: 2048 nodes and seven modes, with complex data. *)
Example C40_nonvacuous :
  (7 <= ab_n_nodes)%nat /\
  (forall m, (m < 7)%nat -> sample_jv ((INR m + 1) * pizza_nu) (2 * 3) <> 0) /\
  (let W := fun i m => ab_W sample_jv 2 3 pizza_a pizza_nu (fun _ => 3) ab_n_nodes 7 i m in
   let y := fun i => sample_bc 7 (ab_th ab_n_nodes i) in
   least_squares ab_n_nodes 7 W y sample_coef) /\
  full_rank ab_n_nodes 7 (fun i m => RtoC (sample_jv ((INR m + 1) * pizza_nu) (2 * 3) *
                                   sin ((INR m + 1) * pizza_nu * (ab_th ab_n_nodes i - pizza_a)))).
Proof.
  assert (H : (7 <= ab_n_nodes)%nat) by (unfold ab_n_nodes; lia).
  split; [exact H|]. split; [intros; apply sample_jv_nz|].
  split; [apply sample_lstsq|]. apply sample_rank. exact H.
Qed.
