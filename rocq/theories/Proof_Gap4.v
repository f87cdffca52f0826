(** The gap for the runs of runz.py (C93). *)
From Coq Require Import ZArith List Bool Reals Lra Lia Psatz.
From Coquelicot Require Import Coquelicot.
From Verif Require Import Model_Py Model_Multivalue Model_Grid Model_Fourier Model_Run Model_Program Model_ZRun Model_ZProgram
  Spec_Program Spec_Bound Lib_Csum Proof_Norm Proof_ZProgram Proof_Gap Proof_Gap2 Proof_Gap3.
Import ListNotations.
Open Scope R_scope.

Local Notation table_size := Spec_Program.table_size.

Lemma table_quad : forall N, table_size N -> N = 16%Z \/ N = 32%Z \/ (64 <= N)%Z.
Proof.
  intros N (m & Hm & ->). destruct (Z.eq_dec m 4) as [->|H]; [left; reflexivity|]. destruct (Z.eq_dec m 5) as [->|H']; [right; left; reflexivity|].
  right; right. change 64%Z with (2 ^ 6)%Z. apply Z.pow_le_mono_r; lia.
Qed.

Lemma quad_all : forall N j l, (16 = N \/ 32 = N \/ 64 <= N)%Z -> (1 <= j <= N - 1)%Z -> (1 <= l <= N - 1)%Z ->
  63 / 1000 <= Rabs (eigenval N 4 (2 * PI) (43 / 4) j l).
Proof.
  intros N j l HN Hj Hl. destruct HN as [<-|[<-|HN]].
  - pose proof (proj2 (proj1 (coarse_gap j l) ltac:(lia) ltac:(lia))). lra.
  - apply (coarse_gap j l); lia.
  - pose proof (quadratic_gap N HN j l Hj Hl). lra.
Qed.

Lemma z_gap : forall fuel L s b acheat z1cheat attr N z, table_size N ->
  zm_run fuel L (sing_problem (zl_jv L) (zl_gamma L) s) b acheat z1cheat attr N 4 = Ok z ->
  eig_gap (zr_opt z) (match s with IhzQuadratic => 63 / 1000 | _ => 12 / 125 end).
Proof.
  intros fuel L s b acheat z1cheat attr N z HN H.
  destruct (zm_run_inv _ _ _ _ _ _ _ _ _ _ H) as (_ & _ & _ & _ & _ & (nc & nr & ->) & _).
  unfold eig_gap. cbn [zopt o_N o_order o_AD o_k]. split; [destruct s; lra|]. intros j l Hj Hl.
  assert (Hs : 12 / 125 <= Rabs (eigenval N 4 (2 * PI) (27 / 4) j l)).
  { destruct (table_cases N HN) as [->|H32]; [apply (coarse_gap j l); lia|]. pose proof (smooth_gap N H32 j l Hj Hl). lra. }
  destruct s; [exact Hs|exact Hs|]. apply quad_all; try assumption. destruct (table_quad N HN) as [->|[->|H64]]; lia.
Qed.

Lemma quad_stable : forall N, (16 = N \/ 32 = N \/ 64 <= N)%Z -> forall f,
  rsum (Z.to_nat (N - 1)) (fun i => rsum (Z.to_nat (N - 1)) (fun j => Cmod (ap_solve N 4 (2 * PI) (43 / 4) f (Z.of_nat i) (Z.of_nat j)) ^ 2)) <=
  (1000 / 63) ^ 2 * rsum (Z.to_nat (N - 1)) (fun i => rsum (Z.to_nat (N - 1)) (fun j => Cmod (f (Z.of_nat i) (Z.of_nat j)) ^ 2)).
Proof.
  intros N HN f. change (gsq N (ap_solve N 4 (2 * PI) (43 / 4) f) <= (1000 / 63) ^ 2 * gsq N f).
  pose proof PI_RGT_0 as HP.
  assert (H : sqrt (gsq N (ap_solve N 4 (2 * PI) (43 / 4) f)) <= sqrt (gsq N f) / (63 / 1000)).
  { apply solve_norm; [lia|lra|lra|]. intros j l Hj Hl. apply quad_all; assumption. }
  pose proof (gsq_nonneg N f) as G1. pose proof (gsq_nonneg N (ap_solve N 4 (2 * PI) (43 / 4) f)) as G2.
  rewrite <- (sqrt_sqrt _ G2), <- (sqrt_sqrt _ G1). pose proof (sqrt_pos (gsq N f)). pose proof (sqrt_pos (gsq N (ap_solve N 4 (2 * PI) (43 / 4) f))).
  set (a := sqrt (gsq N (ap_solve N 4 (2 * PI) (43 / 4) f))) in *. set (c := sqrt (gsq N f)) in *.
  assert (a <= 1000 / 63 * c) by lra. replace ((1000 / 63) ^ 2 * (c * c)) with ((1000 / 63 * c) * (1000 / 63 * c)) by ring. apply Rmult_le_compat; lra.
Qed.
