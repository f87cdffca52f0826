(** A concrete instance for C75: the outer sine on the grid of 16 cells. *)
From Coq Require Import ZArith List Bool Reals Lia Lra Psatz.
From Coquelicot Require Import Coquelicot.
From Verif Require Import Model_Py Model_Multivalue Model_Grid Model_Fourier Model_Linop Model_Abcoef Model_PS Model_Chebyshev Model_Domain Model_Extend
  Model_Problems Model_Driver Model_Run Model_Program
  Spec_Domain Spec_Grid Spec_PS Spec_Extend Spec_Inhomo Spec_Run Spec_Program Spec_Curve
  Proof_Place Proof_Boundary Proof_Eig Proof_Hessian Proof_Run Proof_RunEx Proof_Program Proof_Gentle Proof_CurvePlace Proof_CurveRun.
Open Scope R_scope.

Lemma sin_small : forall w, 0 <= w <= 1 -> w * (1 - w ^ 2 / 6) <= sin w <= w.
Proof.
  intros w Hw. pose proof PI_num. pose proof (sin_lower w ltac:(lra)) as L. pose proof (sin_upper w ltac:(lra)) as U. split; [|exact U].
  replace (w * (1 - w ^ 2 / 6)) with (w - w ^ 3 / 6) by field. exact L.
Qed.

Lemma square_bounds : forall S q : R, q ^ 2 = (PI / 8) ^ 2 * S -> 0 < q -> 0 < S ->
  forall l u, 0 <= l -> 0 <= u -> l ^ 2 < (31415 / 80000) ^ 2 * S -> (31416 / 80000) ^ 2 * S < u ^ 2 -> l < q < u.
Proof.
  intros S q E Hq HS l u Hl Hu H1 H2. pose proof PI_num.
  assert (P1 : (31415 / 80000) ^ 2 <= (PI / 8) ^ 2) by (apply pow_incr; lra).
  assert (P2 : (PI / 8) ^ 2 <= (31416 / 80000) ^ 2) by (apply pow_incr; lra).
  assert ((31415 / 80000) ^ 2 * S <= q ^ 2) by (rewrite E; apply Rmult_le_compat_r; lra).
  assert (q ^ 2 <= (31416 / 80000) ^ 2 * S) by (rewrite E; apply Rmult_le_compat_r; lra).
  split; apply Rnot_le_lt; intros L.
  - assert (q ^ 2 <= l ^ 2) by (apply pow_incr; lra). lra.
  - assert (u ^ 2 <= q ^ 2) by (apply pow_incr; lra). lra.
Qed.

Ltac fifteen z := let H := fresh in
  assert (H : (z = -7 \/ z = -6 \/ z = -5 \/ z = -4 \/ z = -3 \/ z = -2 \/ z = -1 \/ z = 0 \/ z = 1 \/ z = 2 \/ z = 3 \/ z = 4 \/ z = 5 \/ z = 6 \/ z = 7)%Z) by lia;
  repeat (destruct H as [H|H]); rewrite H in *; try lia.

Lemma no_square : forall m n : Z, (-7 <= m <= 7)%Z -> (-7 <= n <= 7)%Z ->
  (m * m + n * n = 34 -> (m * m = 9 \/ m * m = 25))%Z /\
  (m * m + n * n = 36 -> m = 0 \/ n = 0)%Z /\
  (m * m + n * n = 37 -> (m * m = 1 \/ m * m = 36))%Z /\
  (33 < m * m + n * n < 39 -> m * m + n * n = 34 \/ m * m + n * n = 36 \/ m * m + n * n = 37)%Z.
Proof. intros m n Hm Hn. fifteen m; fifteen n. Qed.

Lemma outer_off_16 : off_curve (boundary_r OuterSine (23 / 10) None (PI / 4)) 16.
Proof.
  intros i j t Hg Ht E. pose proof PI_num as HPI. unfold in_open_grid in Hg. cbn [fst snd] in Hg.
  set (m := (i - 8)%Z). set (n := (j - 8)%Z).
  assert (Em : forall k, 2 * PI * IZR k / 16 - PI = PI / 8 * IZR (k - 8)) by (intros k; rewrite minus_IZR; field).
  unfold square_pt in E. rewrite !Em in E. fold m n in E. assert (Hm : (-7 <= m <= 7)%Z) by lia. assert (Hn : (-7 <= n <= 7)%Z) by lia.
  clearbody m n. clear Hg Em i j.
  set (w := 4 / 7 * (t - PI / 4)).
  assert (Eq : boundary_r OuterSine (23 / 10) None (PI / 4) t = 23 / 10 + 15 / 100 * sin w).
  { unfold boundary_r, boundary_bet, bet0, r_outer_sine, w. cbv zeta.
    replace (problem_nu (PI / 4)) with (4 / 7) by (unfold problem_nu; field; lra). reflexivity. }
  rewrite Eq in E. injection E as Ex Ey.
  assert (Et : t = PI / 4 + 7 / 4 * w) by (unfold w; field).
  assert (Hw : - (PI / 14) <= w <= PI + PI / 14) by (unfold w; lra). clearbody w. clear Eq Ht.
  pose proof (SIN_bound w) as Sb. set (q := 23 / 10 + 15 / 100 * sin w) in *. assert (Hq0 : 0 < q) by (unfold q; lra).
  set (S := (m * m + n * n)%Z).
  assert (Eq2 : q ^ 2 = (PI / 8) ^ 2 * IZR S).
  { unfold S. rewrite plus_IZR, !mult_IZR. transitivity ((q * cos t) ^ 2 + (q * sin t) ^ 2); [rewrite !Rpow_mult_distr, (sc2 t); ring|].
    rewrite <- Ex, <- Ey. ring. }
  assert (Slow : - (225 / 1000) <= sin w).
  { destruct (Rle_lt_dec 0 w) as [L|L]; [destruct (Rle_lt_dec w PI) as [L2|L2]|].
    - pose proof (sin_ge_0 w L L2). lra.
    - pose proof (sin_upper (w - PI) ltac:(lra)) as Q. rewrite sin_minus, cos_PI, sin_PI in Q. lra.
    - pose proof (sin_upper (- w) ltac:(lra)) as Q. rewrite sin_neg in Q. lra. }
  assert (HS : (33 < S < 39)%Z).
  { assert (P1 : (31415 / 80000) ^ 2 <= (PI / 8) ^ 2) by (apply pow_incr; lra).
    assert (P2 : (PI / 8) ^ 2 <= (31416 / 80000) ^ 2) by (apply pow_incr; lra).
    assert (Q1 : (226 / 100) ^ 2 <= q ^ 2) by (apply pow_incr; unfold q; lra).
    assert (Q2 : q ^ 2 <= (245 / 100) ^ 2) by (apply pow_incr; unfold q; lra).
    split; apply lt_IZR.
    - apply Rnot_le_lt. intros L. assert ((PI / 8) ^ 2 * IZR S <= (31416 / 80000) ^ 2 * 33); [|lra].
      apply Rle_trans with ((PI / 8) ^ 2 * 33); [apply Rmult_le_compat_l; [apply pow2_ge_0|exact L]|apply Rmult_le_compat_r; lra].
    - apply Rnot_le_lt. intros L. assert ((31415 / 80000) ^ 2 * 39 <= (PI / 8) ^ 2 * IZR S); [|lra].
      apply Rle_trans with ((PI / 8) ^ 2 * 39); [apply Rmult_le_compat_r; lra|apply Rmult_le_compat_l; [apply pow2_ge_0|exact L]]. }
  (* signs of the coordinates from the direction *)
  assert (Sg : forall (k : Z) v, PI / 8 * IZR k = q * v -> (0 < v -> (0 < k)%Z) /\ (v < 0 -> (k < 0)%Z)).
  { intros k v Ek. split; intros Hv; apply lt_IZR.
    - assert (0 < q * v) by (apply Rmult_lt_0_compat; lra). apply Rmult_lt_reg_l with (PI / 8); lra.
    - assert (0 < q * - v) by (apply Rmult_lt_0_compat; lra). apply Rmult_lt_reg_l with (PI / 8); lra. }
  assert (Hcase : (S = 34 \/ S = 36 \/ S = 37)%Z).
  { exact (proj2 (proj2 (proj2 (no_square m n Hm Hn))) HS). }
  destruct Hcase as [E34|[E36|E37]].
  - (* squared distance 34 *)
    rewrite E34 in Eq2. destruct (square_bounds 34 q Eq2 Hq0 ltac:(lra) (2289 / 1000) (229 / 100)) as [Q1 Q2]; try lra.
    assert (Hs : - (74 / 1000) < sin w < - (66 / 1000)) by (unfold q in Q1, Q2; lra).
    destruct (Rlt_le_dec w 0) as [W|W].
    + destruct (sin_small (- w) ltac:(lra)) as [L1 _]. rewrite sin_neg in L1.
      assert (W2 : - w <= 76 / 1000).
      { apply Rnot_lt_le. intros L. assert ((- w) ^ 2 <= (225 / 1000) ^ 2) by (apply pow_incr; lra).
        assert (- w * (99 / 100) <= - w * (1 - (- w) ^ 2 / 6)) by (apply Rmult_le_compat_l; lra). lra. }
      set (d := PI / 4 - t). assert (Hd : 0 < d <= 133 / 1000) by (unfold d; lra).
      assert (Hct : 0 < cos t) by (apply cos_gt_0; lra).
      assert (Hst : 0 < sin t) by (apply sin_gt_0; lra).
      assert (Hlt : sin t < cos t).
      { replace (cos t) with (sin (PI / 2 - t)) by apply sin_shift. apply sin_increasing_1; lra. }
      assert (Hsn : 60 / 100 < sin t).
      { replace t with (PI / 4 - d) by (unfold d; ring). rewrite sin_minus, cos_PI4, sin_PI4.
        pose proof (cos_lower d ltac:(lra)) as Cl. pose proof (sin_upper d ltac:(lra)) as Su.
        assert (d ^ 2 <= (133 / 1000) ^ 2) by (apply pow_incr; lra).
        assert (I : 707 / 1000 <= 1 / sqrt 2).
        { pose proof sqrt2_num. apply Rmult_le_reg_r with (sqrt 2); [lra|]. unfold Rdiv at 2. rewrite Rmult_assoc, Rinv_l by lra. lra. }
        assert (707 / 1000 * (858 / 1000) <= 1 / sqrt 2 * (cos d - sin d)) by (apply Rmult_le_compat; lra). lra. }
      assert (N4 : (3 < n)%Z).
      { apply lt_IZR. apply Rmult_lt_reg_l with (PI / 8); [lra|]. rewrite Ey.
        assert (2289 / 1000 * (60 / 100) < q * sin t) by (apply Rmult_gt_0_lt_compat; lra). lra. }
      assert (NM : (n < m)%Z).
      { apply lt_IZR. apply Rmult_lt_reg_l with (PI / 8); [lra|]. rewrite Ey, Ex. apply Rmult_lt_compat_l; lra. }
      unfold S in E34. nia.
    + assert (W2 : PI < w) by (apply Rnot_le_lt; intros L; pose proof (sin_ge_0 w W L); lra).
      set (d := t - 2 * PI). assert (Hd : 0 < d <= PI / 8) by (unfold d; lra).
      assert (Es : sin t = sin d) by (unfold d; rewrite sin_minus, cos_2PI, sin_2PI; ring).
      assert (Hst : 0 < sin d) by (apply sin_gt_0; lra). pose proof (sin_upper d ltac:(lra)) as Su. rewrite Es in Ey.
      assert (N3 : (n < 3)%Z).
      { apply lt_IZR. apply Rmult_lt_reg_l with (PI / 8); [lra|]. rewrite Ey.
        assert (q * sin d <= 229 / 100 * (3928 / 10000)) by (apply Rmult_le_compat; lra). lra. }
      pose proof (proj1 (Sg n (sin d) Ey) Hst) as N0.
      pose proof (proj1 (no_square n m Hn Hm)) as NS. unfold S in E34. nia.
  - (* squared distance 36 *)
    rewrite E36 in Eq2. destruct (square_bounds 36 q Eq2 Hq0 ltac:(lra) (2356 / 1000) (2357 / 1000)) as [Q1 Q2]; try lra.
    assert (Hs : 37 / 100 < sin w < 39 / 100) by (unfold q in Q1, Q2; lra).
    pose proof sin_num as (N7 & _).
    assert (Hmid : ~ (PI / 7 <= w <= PI - PI / 7)).
    { intros Hm'. assert (sin (PI / 7) <= sin w); [|lra].
      destruct (Rle_lt_dec w (PI / 2)) as [L|L].
      - apply sin_incr_1; lra.
      - replace (sin w) with (sin (PI - w)) by apply sin_PI_x. apply sin_incr_1; lra. }
    assert (Hpos : 0 < w < PI).
    { split; apply Rnot_le_lt; intros L.
      - pose proof (sin_ge_0 (- w) ltac:(lra) ltac:(lra)) as Q. rewrite sin_neg in Q. lra.
      - pose proof (sin_ge_0 (w - PI) ltac:(lra) ltac:(lra)) as Q. rewrite sin_minus, cos_PI, sin_PI in Q. lra. }
    destruct (Rlt_le_dec w (PI / 7)) as [L|L].
    + assert (0 < cos t) by (apply cos_gt_0; lra). assert (0 < sin t) by (apply sin_gt_0; lra).
      pose proof (proj1 (Sg m _ Ex) ltac:(lra)). pose proof (proj1 (Sg n _ Ey) ltac:(lra)).
      pose proof (proj1 (proj2 (no_square m n Hm Hn)) E36). lia.
    + assert (L2 : PI - PI / 7 < w) by (apply Rnot_le_lt; intros L2; apply Hmid; lra).
      set (d := 2 * PI - t). assert (Hd : 0 < d < PI / 4) by (unfold d; lra).
      assert (Ec : cos t = cos d) by (unfold d; rewrite cos_minus, cos_2PI, sin_2PI; ring).
      assert (Es : sin t = - sin d) by (unfold d; rewrite sin_minus, cos_2PI, sin_2PI; ring).
      assert (0 < cos d) by (apply cos_gt_0; lra). assert (0 < sin d) by (apply sin_gt_0; lra).
      pose proof (proj1 (Sg m _ Ex) ltac:(lra)). pose proof (proj2 (Sg n _ Ey) ltac:(lra)).
      pose proof (proj1 (proj2 (no_square m n Hm Hn)) E36). lia.
  - (* squared distance 37 *)
    rewrite E37 in Eq2. destruct (square_bounds 37 q Eq2 Hq0 ltac:(lra) (23885 / 10000) (2389 / 1000)) as [Q1 Q2]; try lra.
    assert (Hs : 59 / 100 <= sin w < 60 / 100) by (unfold q in Q1, Q2; lra).
    assert (S4 : 707 / 1000 <= sin (PI / 4)).
    { rewrite sin_PI4. pose proof sqrt2_num. apply Rmult_le_reg_r with (sqrt 2); [lra|]. unfold Rdiv at 2. rewrite Rmult_assoc, Rinv_l by lra. lra. }
    assert (Hmid : ~ (PI / 4 <= w <= PI - PI / 4)).
    { intros Hm'. assert (sin (PI / 4) <= sin w); [|lra].
      destruct (Rle_lt_dec w (PI / 2)) as [L|L].
      - apply sin_incr_1; lra.
      - replace (sin w) with (sin (PI - w)) by apply sin_PI_x. apply sin_incr_1; lra. }
    assert (Hpos : 0 < w < PI).
    { split; apply Rnot_le_lt; intros L.
      - pose proof (sin_ge_0 (- w) ltac:(lra) ltac:(lra)) as Q. rewrite sin_neg in Q. lra.
      - pose proof (sin_ge_0 (w - PI) ltac:(lra) ltac:(lra)) as Q. rewrite sin_minus, cos_PI, sin_PI in Q. lra. }
    destruct (Rlt_le_dec w (PI / 4)) as [L|L].
    + assert (W1 : 59 / 100 <= w) by (pose proof (sin_upper w ltac:(lra)); lra).
      set (d := t - PI / 2). assert (Hd : 246 / 1000 <= d <= 59 / 100) by (unfold d; lra).
      assert (Ec : cos t = - sin d) by (unfold d; rewrite sin_minus, cos_PI2, sin_PI2; ring).
      assert (Es : sin t = cos d) by (unfold d; rewrite cos_minus, cos_PI2, sin_PI2; ring).
      rewrite Ec in Ex. rewrite Es in Ey.
      destruct (sin_small d ltac:(lra)) as [S1 S2].
      assert (S3 : 23 / 100 <= sin d).
      { assert (d ^ 2 <= (59 / 100) ^ 2) by (apply pow_incr; lra).
        assert (246 / 1000 * (94 / 100) <= d * (1 - d ^ 2 / 6)) by (apply Rmult_le_compat; lra). lra. }
      assert (0 < cos d) by (apply cos_gt_0; lra).
      assert (M1 : (m < -1)%Z).
      { apply lt_IZR. apply Rmult_lt_reg_l with (PI / 8); [lra|]. rewrite Ex.
        assert (23885 / 10000 * (23 / 100) <= q * sin d) by (apply Rmult_le_compat; lra). lra. }
      assert (M2 : (-6 < m)%Z).
      { apply lt_IZR. apply Rmult_lt_reg_l with (PI / 8); [lra|]. rewrite Ex.
        assert (q * sin d <= 2389 / 1000 * (59 / 100)) by (apply Rmult_le_compat; lra). lra. }
      pose proof (proj1 (proj2 (proj2 (no_square m n Hm Hn))) E37). nia.
    + assert (L2 : PI - PI / 4 < w) by (apply Rnot_le_lt; intros L2; apply Hmid; lra).
      assert (W1 : 59 / 100 <= PI - w) by (pose proof (sin_upper (PI - w) ltac:(lra)) as Q; rewrite sin_PI_x in Q; lra).
      set (d := 2 * PI - t). assert (Hd : 103 / 100 <= d <= 7 / 16 * PI) by (unfold d; lra).
      assert (Ec : cos t = cos d) by (unfold d; rewrite cos_minus, cos_2PI, sin_2PI; ring).
      rewrite Ec in Ex.
      assert (C1 : cos (7 / 16 * PI) <= cos d).
      { destruct (Rle_lt_or_eq_dec d (7 / 16 * PI) ltac:(lra)) as [Q|Q]; [apply Rlt_le, cos_decreasing_1; lra|rewrite Q; lra]. }
      assert (C2 : cos d <= cos 1) by (apply Rlt_le, cos_decreasing_1; lra).
      assert (C3 : 19 / 100 <= cos (7 / 16 * PI)).
      { replace (7 / 16 * PI) with (PI / 2 - PI / 16) by field. rewrite cos_shift.
        destruct (sin_small (PI / 16) ltac:(lra)) as [Q _]. assert ((PI / 16) ^ 2 <= (2 / 10) ^ 2) by (apply pow_incr; lra).
        assert (196 / 1000 * (99 / 100) <= PI / 16 * (1 - (PI / 16) ^ 2 / 6)) by (apply Rmult_le_compat; lra). lra. }
      assert (C4 : cos 1 <= 6 / 10).
      { pose proof (sc2 1) as S2. destruct (sin_small 1 ltac:(lra)) as [Q _].
        assert (8 / 10 * (8 / 10) <= sin 1 * sin 1) by (apply Rmult_le_compat; lra).
        apply Rnot_lt_le. intros Lc. assert (6 / 10 * (6 / 10) < cos 1 * cos 1) by (apply Rmult_gt_0_lt_compat; lra). lra. }
      assert (M1 : (1 < m)%Z).
      { apply lt_IZR. apply Rmult_lt_reg_l with (PI / 8); [lra|]. rewrite Ex.
        assert (23885 / 10000 * (19 / 100) <= q * cos d) by (apply Rmult_le_compat; lra). lra. }
      assert (M2 : (m < 6)%Z).
      { apply lt_IZR. apply Rmult_lt_reg_l with (PI / 8); [lra|]. rewrite Ex.
        assert (q * cos d <= 2389 / 1000 * (6 / 10)) by (apply Rmult_le_compat; lra). lra. }
      pose proof (proj1 (proj2 (proj2 (no_square m n Hm Hn))) E37). nia.
Qed.

Lemma curve_example : let lib := ex_lib min_zero in let r := boundary_r OuterSine (23 / 10) None (PI / 4) in
  enumerating lib /\ fit_sizes lib /\ brentq_contract (lib_brentq lib) /\ table_size 16 /\ off_curve r 16 /\
  (forall N, table_size N -> (N <= 16)%Z -> off_curve r N) /\
  region_node r 16 (2, 8)%Z /\ ~ pizza_node 16 (2, 8)%Z.
Proof.
  intros lib r. split; [apply ex_enumerating|]. split; [apply ex_fit|]. split; [exact min_zero_contract|].
  split; [exists 4%Z; split; [lia|reflexivity]|]. split; [exact outer_off_16|]. split.
  { intros N HN L. destruct (table_size_range N HN) as [L' _]. replace N with 16%Z by lia. exact outer_off_16. }
  pose proof PI_num as HPI. split.
  - split; [unfold in_open_grid; cbn; lia|]. cbn [fst snd]. exists (6 * (PI / 8)), PI. split; [lra|]. split.
    + split; [lra|]. unfold r, boundary_r, boundary_bet, bet0, r_outer_sine. cbv zeta.
      replace (problem_nu (PI / 4)) with (4 / 7) by (unfold problem_nu; field; lra).
      replace (4 / 7 * (PI - PI / 4)) with (3 / 7 * PI) by field.
      assert (S4 : 707 / 1000 <= sin (PI / 4)).
      { rewrite sin_PI4. pose proof sqrt2_num. apply Rmult_le_reg_r with (sqrt 2); [lra|]. unfold Rdiv at 2. rewrite Rmult_assoc, Rinv_l by lra. lra. }
      assert (sin (PI / 4) <= sin (3 / 7 * PI)) by (apply sin_incr_1; lra). lra.
    + rewrite cos_PI, sin_PI. unfold square_pt. f_equal; field.
  - intros [_ [H _]]. unfold square_pt in H. cbn [fst snd] in H.
    replace (2 * PI * 2 / 16 - PI) with (- (6 * (PI / 8))) in H by field. replace (2 * PI * 8 / 16 - PI) with 0 in H by field. nra.
Qed.

Lemma curve_source_example : exists c F, let r := boundary_r OuterSine (23 / 10) None (PI / 4) in
  curve_solver min_zero 4 r c /\ ec_homogeneous c = false /\ ec_N c = 16%Z /\
  forall q, expansion_pt r (PI / 4) q -> cart_source (ec_src c) F (fst q) (snd q).
Proof.
  assert (HN : table_size 16) by (exists 4%Z; split; [lia|reflexivity]).
  destruct (smooth_options_ok 9 SmoothYCos OuterSine 16 4 HN) as (nc & nr & Hc & Hr & E).
  set (o := mk_opt _ _ _ _ _ _ _ _ _ _ _ _ _ _ _) in E.
  pose proof (smooth_curve_options 9 (ex_lib min_zero) SmoothYCos OuterSine 16 4 o min_zero_contract HN E) as Hcv.
  destruct (curve_ctx (ex_lib min_zero) o (fst (setup_basis nc nr)) (ex_enumerating _)
    (smooth_ok 9 SmoothYCos OuterSine 16 4 o HN (or_intror eq_refl) E) Hcv) as (c & Ec & Hwf & Hcs).
  assert (F1 : ec_homogeneous c = o_homogeneous o /\ ec_N c = o_N o /\ ec_src c = o_src o)
    by (destruct (init_ctx_inv _ _ _ _ Ec) as (g0 & g1 & g2 & _ & ->); auto).
  destruct F1 as (Eh & EN & Es).
  exists c, (read_source (o_src o)). cbv zeta. split; [exact Hcs|]. split; [rewrite Eh; reflexivity|]. split; [rewrite EN; reflexivity|].
  intros q _. rewrite Es. apply read_cart. apply (smooth_symmetric SmoothYCos).
Qed.
