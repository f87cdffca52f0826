(** Orientation and range of the Chebyshev parameter. *)
From Coq Require Import ZArith List Bool Reals Lia Lra.
From Verif Require Import Model_Py Model_Chebyshev.
Open Scope R_scope.

Lemma g_orient : forall R0 a arg arg', 0 < R0 -> 0 < a < 2 * PI -> arg < arg' ->
  eval_g_inv R0 a 0 arg < eval_g_inv R0 a 0 arg' /\
  eval_g_inv R0 a 1 arg' < eval_g_inv R0 a 1 arg /\
  eval_g_inv R0 a 2 arg < eval_g_inv R0 a 2 arg'.
Proof.
  intros R0 a x y HR Ha H. unfold eval_g_inv, get_span_center, basis_eps, Rdiv.
  split; [|split].
  - apply Rmult_lt_compat_r; [apply Rinv_0_lt_compat; lra|lra].
  - rewrite <- Ropp_inv_permute by lra.
    assert (0 < / (R0 * / 2 + 1 * / 1000)) by (apply Rinv_0_lt_compat; lra). nra.
  - apply Rmult_lt_compat_r; [apply Rinv_0_lt_compat; lra|lra].
Qed.

Lemma g_ends : forall R0 a,
  eval_g R0 a 0 (-1) = a - 1 / 1000 /\ eval_g R0 a 0 1 = 2 * PI + 1 / 1000 /\
  eval_g R0 a 1 (-1) = R0 + 1 / 1000 /\ eval_g R0 a 1 1 = - (1 / 1000) /\
  eval_g R0 a 2 (-1) = - (1 / 1000) /\ eval_g R0 a 2 1 = R0 + 1 / 1000.
Proof.
  intros R0 a. unfold eval_g, get_span_center, basis_eps. repeat split; lra.
Qed.
