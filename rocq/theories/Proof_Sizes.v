(** The tabulated basis sizes as the solvers use them (C73, C74). *)
From Coq Require Import ZArith List Reals.
From Verif Require Import Model_Py Model_Problems Model_Run Model_Program Model_ZMethod Model_ZRun Model_ZProgram.
Import ListNotations.

Lemma smooth_sizes : forall fuel p b order N nc nr,
  In (N, (nc, nr)) [(16%Z, (20, 6)); (32%Z, (33, 8)); (64%Z, (42, 12)); (128%Z, (65, 18)); (256%Z, (80, 30)); (512%Z, (80, 45)); (1024%Z, (80, 45))]%nat ->
  exists o, smooth_options (S fuel) p b N order = Ok o /\ basis_sizes o = Ok (nc, nr).
Proof.
  intros fuel p b order N nc nr H. cbn [In] in H.
  repeat (destruct H as [H|H]; [injection H as <- <- <-; eexists; split; reflexivity|]). destruct H.
Qed.

Lemma singular_sizes : forall fuel L p b A order N nc nr,
  In (N, (nc, nr)) [(16%Z, (25, 5)); (32%Z, (30, 20)); (64%Z, (40, 30)); (128%Z, (55, 40)); (256%Z, (70, 60)); (512%Z, (90, 60)); (1024%Z, (110, 60))]%nat ->
  exists o, zm_u_options (S fuel) L p b A N order = Ok o /\ basis_sizes o = Ok (nc, nr).
Proof.
  intros fuel L p b A order N nc nr H. cbn [In] in H.
  repeat (destruct H as [H|H]; [injection H as <- <- <-; eexists; split; reflexivity|]). destruct H.
Qed.
