(** What the regularisation leaves at the tip, for the problems of runz.py (C88). *)
From Coq Require Import String ZArith List Bool Reals Lia Lra Psatz.
From Coquelicot Require Import Coquelicot.
From Verif Require Import Model_Py Model_ZMethod Model_Problems Model_Domain Model_Program Model_ZProgram Model_Run Model_Abcoef Spec_Problems Spec_Bessel Spec_OdeAcc Spec_Tip
  Proof_BesselJ Proof_OdeSeries Proof_OdeSing Proof_Taper Proof_Tip1.
Import ListNotations.
Open Scope R_scope.

Definition second (s : sing_name) : R := match s with IhzQuadratic => 1 | _ => 0 end.

(** The j-th derivative in r of the remainder. *)
Definition tip (gamma : R -> R) (s : sing_name) (k : R) (j : nat) (r th : R) : R :=
  rem (2 / 7) k gamma j r * sin (2 / 7 * (th - PI / 4)) + rem (6 / 7) k gamma j r * (second s * sin (6 / 7 * (th - 2 * PI))).

Lemma sing_k_pos : forall jv gamma s, 0 < zp_k (sing_problem jv gamma s).
Proof. intros jv gamma s. destruct s; cbn [sing_problem zp_k]; unfold smooth_k, quadratic_k; lra. Qed.

Lemma taper_one : forall r, r < / 10 -> tapering zm_R0 problem_R r = 1.
Proof.
  intros r Hr. assert (H0 : zm_R0 = / 10) by (unfold zm_R0; lra). assert (H1 : zm_R0 < problem_R) by (rewrite H0; unfold problem_R; lra).
  destruct (taper_spec zm_R0 problem_R H1) as [H _]. apply H. lra.
Qed.

Lemma tip_eq : forall jv gamma s, gamma_like gamma -> (forall p, 0 < p -> bessel_series jv gamma p) -> forall r th, 0 < r < / 10 ->
  let p := sing_problem jv gamma s in zp_eval_v p r th - zp_v_asympt p r th = tip gamma s (zp_k p) 0 r th.
Proof.
  intros jv gamma s Hg Hj r th Hr p. pose proof (sing_k_pos jv gamma s) as Hk. fold p in Hk.
  assert (Ea : pizza_a = PI / 4) by (unfold pizza_a; lra).
  assert (E1 : (0 + 1 / 2) * pizza_nu = 2 / 7) by (rewrite nu_val; lra).
  assert (E3 : (1 + 1 / 2) * pizza_nu = 6 / 7) by (rewrite nu_val; lra).
  pose proof (rem_eq (2 / 7) (zp_k p) jv gamma ltac:(lra) Hk Hg (Hj (2 / 7) ltac:(lra)) 0 pizza_nu r E1 ltac:(lra)) as R1.
  pose proof (rem_eq (6 / 7) (zp_k p) jv gamma ltac:(lra) Hk Hg (Hj (6 / 7) ltac:(lra)) 1 pizza_nu r E3 ltac:(lra)) as R3.
  unfold tip. rewrite <- R1, <- R3. pose proof (taper_one r ltac:(lra)) as Ht.
  unfold p. destruct s; cbn [sing_problem zp_eval_v zp_v_asympt zp_k second];
    unfold ih_eval_v, ih_v_asympt, quad_eval_v, quad_v_asympt, ih_nterms; rewrite Ht, ?E1, ?Ea.
  - ring.
  - ring.
  - replace (pizza_nu / 2) with (2 / 7) by (rewrite nu_val; lra). replace (3 * pizza_nu / 2) with (6 / 7) by (rewrite nu_val; lra). ring.
Qed.

Lemma tip_derive : forall gamma s k j r th, 0 < r -> is_derive (fun r => tip gamma s k j r th) r (tip gamma s k (S j) r th).
Proof.
  intros gamma s k j r th Hr. unfold tip. apply (is_derive_plus (V := R_NormedModule)).
  - apply (is_derive_ext (fun r => sin (2 / 7 * (th - PI / 4)) * rem (2 / 7) k gamma j r)); [intros; apply Rmult_comm|].
    rewrite (Rmult_comm (rem (2 / 7) k gamma (S j) r)). apply is_derive_scal. apply rem_derive; lra.
  - apply (is_derive_ext (fun r => second s * sin (6 / 7 * (th - 2 * PI)) * rem (6 / 7) k gamma j r)); [intros; apply Rmult_comm|].
    rewrite (Rmult_comm (rem (6 / 7) k gamma (S j) r)). apply is_derive_scal. apply rem_derive; lra.
Qed.

Lemma tip_bound : forall gamma s k (j : nat), exists B, 0 <= B /\ forall r th, 0 < r <= 1 -> Rabs (tip gamma s k j r th) <= B * Rpower r (4 + 2 / 7 - INR j).
Proof.
  intros gamma s k j. destruct (rem_bound (2 / 7) k gamma ltac:(lra) j) as (B1 & P1 & H1). destruct (rem_bound (6 / 7) k gamma ltac:(lra) j) as (B3 & P3 & H3).
  exists (B1 + B3). split; [lra|]. intros r th Hr. unfold tip. specialize (H1 r Hr). specialize (H3 r Hr).
  replace (2 / 7 + 4 - INR j) with (4 + 2 / 7 - INR j) in H1 by ring.
  assert (Hw : 0 < Rpower r (4 + 2 / 7 - INR j)) by (unfold Rpower; apply exp_pos).
  assert (Hq : Rpower r (6 / 7 + 4 - INR j) <= Rpower r (4 + 2 / 7 - INR j)).
  { replace (6 / 7 + 4 - INR j) with (4 / 7 + (4 + 2 / 7 - INR j)) by field. rewrite Rpower_plus. rewrite <- (Rmult_1_l (Rpower r (4 + 2 / 7 - INR j))) at 2.
    apply Rmult_le_compat_r; [lra|]. rewrite <- (rpow1 (4 / 7)). apply Rle_Rpower_l; lra. }
  assert (S1 : Rabs (sin (2 / 7 * (th - PI / 4))) <= 1) by apply Rabs_le, SIN_bound.
  assert (S3 : Rabs (second s * sin (6 / 7 * (th - 2 * PI))) <= 1).
  { rewrite Rabs_mult. assert (Rabs (sin (6 / 7 * (th - 2 * PI))) <= 1) by apply Rabs_le, SIN_bound. pose proof (Rabs_pos (sin (6 / 7 * (th - 2 * PI)))).
    destruct s; cbn [second]; rewrite ?Rabs_R0, ?Rabs_R1; lra. }
  eapply Rle_trans; [apply Rabs_triang|]. rewrite (Rabs_mult (rem _ _ _ _ _)), (Rabs_mult (rem (6 / 7) _ _ _ _)).
  pose proof (Rabs_pos (rem (2 / 7) k gamma j r)). pose proof (Rabs_pos (rem (6 / 7) k gamma j r)).
  assert (Q3 : B3 * Rpower r (6 / 7 + 4 - INR j) <= B3 * Rpower r (4 + 2 / 7 - INR j)) by (apply Rmult_le_compat_l; lra).
  rewrite Rmult_plus_distr_r. apply Rplus_le_compat.
  - eapply Rle_trans; [|exact H1]. rewrite <- (Rmult_1_r (Rabs (rem (2 / 7) k gamma j r))) at 2. apply Rmult_le_compat_l; lra.
  - eapply Rle_trans; [|exact Q3]. eapply Rle_trans; [|exact H3]. rewrite <- (Rmult_1_r (Rabs (rem (6 / 7) k gamma j r))) at 2. apply Rmult_le_compat_l; lra.
Qed.

(** ** The theorems *)

Lemma tip_order : forall jv gamma s n, gamma_like gamma -> (forall p, 0 < p -> bessel_series jv gamma p) ->
  let p := sing_problem jv gamma s in
  exists (T : nat -> R -> R -> R) (K : R), forall th,
    radial (/ 10) (fun r => zp_eval_v p r th - zp_v_asympt p r th) (fun j r => T j r th) /\
    forall j r, (j <= n)%nat -> 0 < r < / 10 -> Rabs (T j r th) <= K * Rpower r (4 + 2 / 7 - INR j).
Proof.
  intros jv gamma s n Hg Hj p. exists (tip gamma s (zp_k p)).
  assert (HK : exists K, forall (j : nat) r th, (j <= n)%nat -> 0 < r < / 10 -> Rabs (tip gamma s (zp_k p) j r th) <= K * Rpower r (4 + 2 / 7 - INR j)).
  { induction n as [|n (K & IH)].
    - destruct (tip_bound gamma s (zp_k p) 0) as (B & _ & H). exists B. intros j r th Hjn Hr. replace j with 0%nat by lia. apply H. lra.
    - destruct (tip_bound gamma s (zp_k p) (S n)) as (B & HB & H). exists (Rmax K B). intros j r th Hjn Hr.
      assert (Hw : 0 < Rpower r (4 + 2 / 7 - INR j)) by (unfold Rpower; apply exp_pos).
      pose proof (Rmax_l K B). pose proof (Rmax_r K B).
      destruct (Nat.eq_dec j (S n)) as [->|Hne].
      + eapply Rle_trans; [apply H; lra|]. apply Rmult_le_compat_r; lra.
      + eapply Rle_trans; [apply IH; [lia|exact Hr]|]. apply Rmult_le_compat_r; lra. }
  destruct HK as (K & HK). exists K. intros th. split; [split|].
  - intros r Hr. symmetry. apply tip_eq; assumption.
  - intros j r Hr. apply tip_derive. lra.
  - intros j r Hjn Hr. apply HK; assumption.
Qed.

Lemma radial_unique : forall R0 f T T', radial R0 f T -> radial R0 f T' -> forall j r, 0 < r < R0 -> T j r = T' j r.
Proof.
  intros R0 f T T' [H0 H] [H0' H'] j. induction j as [|j IH]; intros r Hr.
  - rewrite H0, H0' by exact Hr. reflexivity.
  - assert (D : is_derive (T j) r (T' (S j) r)).
    { apply (is_derive_ext_loc (T' j)); [|apply H'; exact Hr].
      assert (Hd : 0 < Rmin r (R0 - r)) by (apply Rmin_pos; lra). exists (mkposreal _ Hd). intros y Hy. symmetry. apply IH.
      change (Rabs (y - r) < Rmin r (R0 - r)) in Hy. apply Rabs_lt_between in Hy. pose proof (Rmin_l r (R0 - r)). pose proof (Rmin_r r (R0 - r)). lra. }
    rewrite <- (is_derive_unique _ _ _ (H j r Hr)). apply is_derive_unique. exact D.
Qed.

Lemma wedge_sin : forall th, PI / 4 < th <= 2 * PI -> 0 < sin (2 / 7 * (th - PI / 4)).
Proof. intros th Hth. pose proof PI_RGT_0. apply sin_gt_0; lra. Qed.

Lemma tip_unbounded : forall jv gamma s th T, gamma_like gamma -> (forall p, 0 < p -> bessel_series jv gamma p) -> PI / 4 < th <= 2 * PI ->
  let p := sing_problem jv gamma s in
  radial (/ 10) (fun r => zp_eval_v p r th - zp_v_asympt p r th) T ->
  forall M, exists e, 0 < e < / 10 /\ forall r, 0 < r < e -> M < Rabs (T 5%nat r).
Proof.
  intros jv gamma s th T Hg Hj Hth p HT M. pose proof (sing_k_pos jv gamma s) as Hk. fold p in Hk.
  destruct (rem_blowup gamma (2 / 7) (6 / 7) (zp_k p) (zp_k p) (sin (2 / 7 * (th - PI / 4))) (second s * sin (6 / 7 * (th - 2 * PI))) Hg
    ltac:(lra) ltac:(lra) Hk Hk ltac:(pose proof (wedge_sin th Hth); lra) M) as (e & He & H).
  exists (Rmin e (/ 20)). pose proof (Rmin_l e (/ 20)). pose proof (Rmin_r e (/ 20)). split; [split; [apply Rmin_pos; lra|lra]|].
  intros r Hr.
  assert (HT' : radial (/ 10) (fun r => zp_eval_v p r th - zp_v_asympt p r th) (fun j r => tip gamma s (zp_k p) j r th)).
  { split; [intros x Hx; symmetry; apply tip_eq; assumption|intros j x Hx; apply tip_derive; lra]. }
  rewrite (radial_unique _ _ _ _ HT HT' 5 r) by lra. apply H. lra.
Qed.

Lemma tip_leading : forall jv gamma s, gamma_like gamma -> (forall p, 0 < p -> bessel_series jv gamma p) ->
  let p := sing_problem jv gamma s in
  forall eps, 0 < eps -> exists e, 0 < e /\ forall r th, 0 < r < e ->
    Rabs (zp_eval_v p r th - zp_v_asympt p r th
          - Rpower (zp_k p * r / 2) (4 + 2 / 7) / (2 * gamma (2 / 7 + 3)) * sin (2 / 7 * (th - PI / 4))) <= eps * Rpower r (4 + 2 / 7).
Proof.
  intros jv gamma s Hg Hj p eps He. pose proof (sing_k_pos jv gamma s) as Hk. fold p in Hk. set (k := zp_k p) in *.
  set (A := lead (2 / 7) k gamma). set (a0 := dcoef (2 / 7) 0 0).
  assert (HA : 0 < Rabs A) by (apply Rabs_pos_lt, lead_nz; [lra|exact Hk|exact Hg]).
  destruct (entire_near0 (dcoef (2 / 7) 0) (eps / 2 / Rabs A) (dcoef_entire (2 / 7) ltac:(lra) 0)) as (d1 & Hd1 & N1); [repeat apply Rdiv_lt_0_compat; lra|].
  fold a0 in N1.
  destruct (rem_bound (6 / 7) k gamma ltac:(lra) 0) as (B & HB & N3).
  destruct (rpower_small (4 / 7) (eps / 2 / (B + 1)) ltac:(lra)) as (d2 & Hd2 & N2); [repeat apply Rdiv_lt_0_compat; lra|].
  set (kk := k ^ 2 / 4 + 1). assert (Hkk : 0 < kk) by (unfold kk; pose proof (pow2_ge_0 k); lra).
  assert (Hdk : 0 < d1 / kk) by (apply Rdiv_lt_0_compat; assumption).
  exists (Rmin (Rmin (/ 10) (d1 / kk)) d2). split; [apply Rmin_pos; [apply Rmin_pos; lra|exact Hd2]|]. intros r th [Hr0 Hr].
  pose proof (Rmin_l (Rmin (/ 10) (d1 / kk)) d2). pose proof (Rmin_r (Rmin (/ 10) (d1 / kk)) d2). pose proof (Rmin_l (/ 10) (d1 / kk)). pose proof (Rmin_r (/ 10) (d1 / kk)).
  pose proof (tip_eq jv gamma s Hg Hj r th ltac:(lra)) as E. cbv zeta in E. fold p in E. fold k in E. rewrite E. clear E.
  specialize (N2 r ltac:(lra)). specialize (N3 r ltac:(lra)).
  set (t := k ^ 2 / 4 * r ^ 2).
  assert (Ht : 0 <= t < d1).
  { pose proof (pow2_ge_0 k). assert (Hrd : r * kk < d1).
    { assert (Hx : r < d1 / kk) by lra. apply (Rmult_lt_compat_r kk) in Hx; [|lra]. replace (d1 / kk * kk) with d1 in Hx by (field; lra). exact Hx. }
    unfold t. assert (r ^ 2 <= r) by nra. split; [nra|]. unfold kk in Hrd. nra. }
  specialize (N1 t Ht). set (w := Rpower r (4 + 2 / 7)). assert (Hw : 0 < w) by (unfold w, Rpower; apply exp_pos).
  assert (E0 : Rpower (k * r / 2) (4 + 2 / 7) / (2 * gamma (2 / 7 + 3)) = A * (w * a0)).
  { unfold A, a0, w, lead. cbn [dcoef Nat.add].
    pose proof (gcoef (2 / 7) ltac:(lra) gamma Hg 2) as G. replace (2 / 7 + INR 2 + 1) with (2 / 7 + 3) in G by (cbn; ring).
    replace (INR (fact 2)) with 2 in G by (cbn; ring). replace ((-1) ^ 2) with 1 in G by ring.
    assert (Ew : Rpower (k * r / 2) (4 + 2 / 7) = Rpower (k / 2) (2 / 7) * (k / 2) ^ 4 * Rpower r (4 + 2 / 7)).
    { rewrite <- (Rpower_pow 4 (k / 2)) by lra. rewrite <- Rpower_plus. replace (2 / 7 + INR 4) with (4 + 2 / 7) by (cbn; ring).
      rewrite Rpower_mult_distr by lra. f_equal. field. }
    rewrite Ew. unfold Rdiv at 1. replace (/ (2 * gamma (2 / 7 + 3))) with (1 / (2 * gamma (2 / 7 + 3))) by (unfold Rdiv; ring). rewrite G.
    unfold Rdiv. ring. }
  rewrite E0. unfold tip.
  assert (E1 : rem (2 / 7) k gamma 0 r = A * (w * PSeries (dcoef (2 / 7) 0) t)).
  { unfold rem. fold A t. replace (2 / 7 + 4 - INR 0) with (4 + 2 / 7) by (cbn; ring). reflexivity. }
  rewrite E1. set (P := PSeries (dcoef (2 / 7) 0) t) in *. set (s1 := sin (2 / 7 * (th - PI / 4))).
  set (s3 := second s * sin (6 / 7 * (th - 2 * PI))).
  assert (S1 : Rabs s1 <= 1) by apply Rabs_le, SIN_bound.
  assert (S3 : Rabs s3 <= 1).
  { unfold s3. rewrite Rabs_mult. assert (Rabs (sin (6 / 7 * (th - 2 * PI))) <= 1) by apply Rabs_le, SIN_bound. pose proof (Rabs_pos (sin (6 / 7 * (th - 2 * PI)))).
    destruct s; cbn [second]; rewrite ?Rabs_R0, ?Rabs_R1; lra. }
  replace (A * (w * P) * s1 + rem (6 / 7) k gamma 0 r * s3 - A * (w * a0) * s1) with (A * (P - a0) * w * s1 + rem (6 / 7) k gamma 0 r * s3) by ring.
  eapply Rle_trans; [apply Rabs_triang|]. replace (eps * w) with (eps / 2 * w + eps / 2 * w) by field. apply Rplus_le_compat.
  - rewrite !Rabs_mult, (Rabs_pos_eq w) by lra.
    assert (Q : Rabs A * Rabs (P - a0) <= eps / 2).
    { apply Rlt_le in N1. apply (Rmult_le_compat_l (Rabs A)) in N1; [|lra]. replace (Rabs A * (eps / 2 / Rabs A)) with (eps / 2) in N1 by (field; lra). exact N1. }
    pose proof (Rabs_pos s1). pose proof (Rabs_pos (P - a0)). assert (0 <= Rabs A * Rabs (P - a0)) by (apply Rmult_le_pos; lra). assert (Rabs A * Rabs (P - a0) * w <= eps / 2 * w) by (apply Rmult_le_compat_r; lra).
    assert (0 <= Rabs A * Rabs (P - a0) * w) by (apply Rmult_le_pos; lra). nra.
  - rewrite Rabs_mult.
    assert (E3 : Rpower r (6 / 7 + 4 - INR 0) = Rpower r (4 / 7) * w) by (unfold w; rewrite <- Rpower_plus; f_equal; cbn; field).
    rewrite E3 in N3. assert (Hx : 0 < Rpower r (4 / 7)) by (unfold Rpower; apply exp_pos).
    assert (Q : Rpower r (4 / 7) * (B + 1) <= eps / 2).
    { apply Rlt_le in N2. apply (Rmult_le_compat_r (B + 1)) in N2; [|lra]. replace (eps / 2 / (B + 1) * (B + 1)) with (eps / 2) in N2 by (field; lra). exact N2. }
    pose proof (Rabs_pos s3). pose proof (Rabs_pos (rem (6 / 7) k gamma 0 r)).
    apply Rle_trans with (Rabs (rem (6 / 7) k gamma 0 r)); [nra|]. eapply Rle_trans; [exact N3|].
    replace (B * (Rpower r (4 / 7) * w)) with (Rpower r (4 / 7) * B * w) by ring. apply Rmult_le_compat_r; [lra|]. nra.
Qed.
