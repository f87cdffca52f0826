(** Property C88: what the regularisation leaves at the tip. *)
From Coq Require Import ZArith Reals Lra.
From Coquelicot Require Import Coquelicot.
From Verif Require Import Model_Py Model_Program Model_ZMethod Model_ZProgram Spec_Problems Spec_Bessel Spec_OdeAcc Spec_Tip
  Proof_Bessel Proof_OdeAccEx Proof_Tip2 Proof_Tip3.
Open Scope R_scope.

(** C88. Between the tip and r = 1/10 the regular part v - v_asympt of each
    problem has derivatives in r of every order, and the one of order j is
    O(r^(4 + 2/7 - j)), uniformly in the angle. The first four therefore tend
    to 0 at the tip. *)
Theorem C88_order : forall jv gamma s n, gamma_like gamma -> (forall p, 0 < p -> bessel_series jv gamma p) ->
  let p := sing_problem jv gamma s in
  exists (T : nat -> R -> R -> R) (K : R), forall th,
    radial (/ 10) (fun r => zp_eval_v p r th - zp_v_asympt p r th) (fun j r => T j r th) /\
    forall j r, (j <= n)%nat -> 0 < r < / 10 -> Rabs (T j r th) <= K * Rpower r (4 + 2 / 7 - INR j).
Proof. exact tip_order. Qed.
Print Assumptions C88_order.

Example C88_order_example : gamma_like gamma_ex /\ forall p, 0 < p -> bessel_series (jv_gamma gamma_ex) gamma_ex p.
Proof. destruct acc_example as (Hg & Hj & _). split; [exact Hg|exact Hj]. Qed.

(** C88. The fifth derivative is unbounded at the tip along every ray inside
    the wedge and along the edge 2 pi: two terms of the series leave a function
    that is not smooth enough for a fourth-order scheme there. *)
Theorem C88_unbounded : forall jv gamma s th T, gamma_like gamma -> (forall p, 0 < p -> bessel_series jv gamma p) -> PI / 4 < th <= 2 * PI ->
  let p := sing_problem jv gamma s in
  radial (/ 10) (fun r => zp_eval_v p r th - zp_v_asympt p r th) T ->
  forall M, exists e, 0 < e < / 10 /\ forall r, 0 < r < e -> M < Rabs (T 5%nat r).
Proof. exact tip_unbounded. Qed.
Print Assumptions C88_unbounded.

Example C88_unbounded_example : PI / 4 < PI <= 2 * PI /\ exists T,
  let p := sing_problem (jv_gamma gamma_ex) gamma_ex IhzQuadratic in
  radial (/ 10) (fun r => zp_eval_v p r PI - zp_v_asympt p r PI) T.
Proof.
  pose proof PI_RGT_0. split; [lra|]. destruct acc_example as (Hg & Hj & _).
  destruct (tip_order (jv_gamma gamma_ex) gamma_ex IhzQuadratic 0 Hg Hj) as (T & K & H0).
  exists (fun j r => T j r PI). apply H0.
Qed.

(** C88. The leading term is the first term of the series that is left out. *)
Theorem C88_leading : forall jv gamma s, gamma_like gamma -> (forall p, 0 < p -> bessel_series jv gamma p) ->
  let p := sing_problem jv gamma s in
  forall eps, 0 < eps -> exists e, 0 < e /\ forall r th, 0 < r < e ->
    Rabs (zp_eval_v p r th - zp_v_asympt p r th
          - Rpower (zp_k p * r / 2) (4 + 2 / 7) / (2 * gamma (2 / 7 + 3)) * sin (2 / 7 * (th - PI / 4))) <= eps * Rpower r (4 + 2 / 7).
Proof. exact tip_leading. Qed.
Print Assumptions C88_leading.

Example C88_leading_example : gamma_like gamma_ex /\ (forall p, 0 < p -> bessel_series (jv_gamma gamma_ex) gamma_ex p) /\ 0 < / 1000.
Proof. destruct acc_example as (Hg & Hj & _). split; [exact Hg|]. split; [exact Hj|lra]. Qed.

(** C88. The source of the regularised equation near the tip, in closed form:
    what the operator leaves of the two terms. *)
Theorem C88_source : forall jv gamma s, gamma_like gamma -> let p := sing_problem jv gamma s in let k := zp_k p in
  forall r th, 0 < r < / 10 -> zm_f k (zp_v_asympt p) r th =
    k ^ 2 * (Rpower (k * r / 2) (2 + 2 / 7) / gamma (2 + 2 / 7) * sin (2 / 7 * (th - PI / 4))
             + match s with IhzQuadratic => Rpower (k * r / 2) (2 + 6 / 7) / gamma (2 + 6 / 7) * sin (6 / 7 * (th - 2 * PI)) | _ => 0 end).
Proof. exact source_eq. Qed.
Print Assumptions C88_source.

Example C88_source_example : gamma_like gamma_ex /\ 0 < / 20 < / 10.
Proof. split; [exact gamma_ex_like|lra]. Qed.

(** C88. Its derivative in r of order j is O(r^(2 + 2/7 - j)): the second
    derivatives used by the source extension are bounded and vanish at the tip. *)
Theorem C88_source_order : forall jv gamma s n, gamma_like gamma -> let p := sing_problem jv gamma s in
  exists (T : nat -> R -> R -> R) (K : R), forall th,
    radial (/ 10) (fun r => zm_f (zp_k p) (zp_v_asympt p) r th) (fun j r => T j r th) /\
    forall j r, (j <= n)%nat -> 0 < r < / 10 -> Rabs (T j r th) <= K * Rpower r (2 + 2 / 7 - INR j).
Proof. exact source_order. Qed.
Print Assumptions C88_source_order.

(** C88. The third derivative is unbounded along every ray but the edge a. *)
Theorem C88_source_unbounded : forall jv gamma s th T, gamma_like gamma -> PI / 4 < th <= 2 * PI -> let p := sing_problem jv gamma s in
  radial (/ 10) (fun r => zm_f (zp_k p) (zp_v_asympt p) r th) T ->
  forall M, exists e, 0 < e < / 10 /\ forall r, 0 < r < e -> M < Rabs (T 3%nat r).
Proof. exact source_unbounded. Qed.
Print Assumptions C88_source_unbounded.

Example C88_source_unbounded_example : gamma_like gamma_ex /\ PI / 4 < PI <= 2 * PI /\ exists T,
  let p := sing_problem (jv_gamma gamma_ex) gamma_ex IhzQuadratic in
  radial (/ 10) (fun r => zm_f (zp_k p) (zp_v_asympt p) r PI) T.
Proof.
  pose proof PI_RGT_0. split; [exact gamma_ex_like|]. split; [lra|].
  destruct (source_order (jv_gamma gamma_ex) gamma_ex IhzQuadratic 0 gamma_ex_like) as (T & K & H0).
  exists (fun j r => T j r PI). apply H0.
Qed.
