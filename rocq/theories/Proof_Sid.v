(** The complete case table of get_sid. *)
From Coq Require Import Reals Lra.
From Verif Require Import Model_Py Model_Domain Proof_Domain.
Open Scope R_scope.

Lemma get_sid_table : forall a th, a < 2 * PI ->
  (get_sid a th = Some 1%nat <-> 2 * PI <= th) /\
  (get_sid a th = Some 0%nat <-> a < th < 2 * PI) /\
  (get_sid a th = Some 2%nat <-> a - 1 / 1000000000000 < th <= a) /\
  (get_sid a th = None <-> th <= a - 1 / 1000000000000).
Proof.
  intros a th Ha.
  assert (E : 1 / 1000000000000 = sid_tol) by (unfold sid_tol; lra).
  rewrite E. pose proof sid_tol_pos. rewrite get_sid_spec by assumption.
  destruct (Rleb_spec (2 * PI) th); destruct (Rltb_spec a th);
  destruct (Rltb_spec (a - sid_tol) th);
  repeat split; intros; try discriminate; try reflexivity; lra.
Qed.
