(** Boundary coordinates with respect to a curve that is nearly a circle. *)
From Coq Require Import ZArith List Bool Reals Lia Lra Psatz.
From Coquelicot Require Import Coquelicot.
From Verif Require Import Model_Py Model_Multivalue Model_Grid Model_Domain Spec_Domain
  Proof_Domain Proof_Boundary Proof_Eig Proof_Place.
Import ListNotations.
Open Scope R_scope.

(** ** Numbers *)

Lemma PI_num : 31415 / 10000 < PI < 31416 / 10000.
Proof. pose proof PI_bounds. lra. Qed.

Lemma sin_lower : forall x, 0 <= x <= PI -> x - x ^ 3 / 6 <= sin x.
Proof.
  intros x Hx. destruct (sin_bound x 0 (proj1 Hx) (proj2 Hx)) as [H _].
  unfold sin_approx, sin_term in H. cbn in H. lra.
Qed.

Lemma sin_upper : forall x, 0 <= x -> sin x <= x.
Proof.
  intros x Hx. destruct (Rle_lt_or_eq_dec 0 x Hx) as [H|<-]; [|rewrite sin_0; lra].
  apply Rlt_le, sin_lt_x; assumption.
Qed.

Lemma cos_lower : forall x, - PI / 2 <= x <= PI / 2 -> 1 - x ^ 2 / 2 <= cos x.
Proof.
  intros x Hx. destruct (cos_bound x 0 (proj1 Hx) (proj2 Hx)) as [H _].
  unfold cos_approx, cos_term in H. cbn in H. lra.
Qed.

Lemma cube_le : forall x y, 0 <= x <= y -> x ^ 3 <= y ^ 3.
Proof. intros x y H. apply pow_incr; assumption. Qed.

Lemma sin_num : 43 / 100 <= sin (PI / 7) /\ 38 / 100 <= sin (PI / 8) /\ 258 / 1000 <= sin (PI / 12) /\ 13 / 100 <= sin (PI / 24).
Proof.
  pose proof PI_num as HP.
  assert (H : forall n m, 0 < n -> 1 <= m -> n = m -> PI / m - (31416 / 10000 / m) ^ 3 / 6 <= sin (PI / m)).
  { intros n m Hn Hm _. assert (0 < / m) by (apply Rinv_0_lt_compat; lra).
    assert (/ m <= 1) by (rewrite <- Rinv_1; apply Rinv_le_contravar; lra).
    assert (B : 0 <= PI / m <= PI) by (unfold Rdiv; split; [apply Rmult_le_pos; lra|rewrite <- (Rmult_1_r PI) at 2; apply Rmult_le_compat_l; lra]).
    pose proof (sin_lower _ B). assert ((PI / m) ^ 3 <= (31416 / 10000 / m) ^ 3).
    { apply cube_le. split; [lra|]. unfold Rdiv. apply Rmult_le_compat_r; lra. }
    lra. }
  pose proof (H 7 7 ltac:(lra) ltac:(lra) eq_refl). pose proof (H 8 8 ltac:(lra) ltac:(lra) eq_refl).
  pose proof (H 12 12 ltac:(lra) ltac:(lra) eq_refl). pose proof (H 24 24 ltac:(lra) ltac:(lra) eq_refl).
  lra.
Qed.

Lemma small_angle : forall d, Rabs d <= PI / 7 -> 899 / 1000 <= cos d <= 1 /\ Rabs (sin d) <= 449 / 1000.
Proof.
  intros d Hd. pose proof PI_num. assert (Hb : - (449 / 1000) <= d <= 449 / 1000).
  { apply Rabs_le_between in Hd. lra. }
  split; [split; [|apply COS_bound]|].
  - pose proof (cos_lower d ltac:(lra)). assert (d ^ 2 <= (449 / 1000) ^ 2) by (simpl; nra). lra.
  - apply Rabs_le. pose proof (sin_upper (Rabs d) (Rabs_pos d)).
    destruct (Rle_lt_dec 0 d).
    + rewrite Rabs_pos_eq in * by assumption. assert (0 <= sin d) by (apply sin_ge_0; lra). lra.
    + rewrite Rabs_left in * by assumption. rewrite sin_neg in *. assert (0 <= sin (- d)) by (apply sin_ge_0; lra).
      rewrite sin_neg in *. lra.
Qed.

Lemma sqrt2_num : 14142 / 10000 < sqrt 2 < 14143 / 10000.
Proof.
  assert (H : sqrt 2 * sqrt 2 = 2) by (apply sqrt_sqrt; lra). pose proof (sqrt_pos 2). split; nra.
Qed.

(** Derivative of half the squared distance in polar coordinates, and its
    derivative. *)
Lemma dist_deriv_polar : forall r rho th1 th, eval_dist_deriv r (rho * cos th1) (rho * sin th1) th =
  rho * r th * sin (th - th1) - (rho * cos (th - th1) - r th) * Derive r th.
Proof.
  intros r rho th1 th. unfold eval_dist_deriv, b_d_r. rewrite sin_minus, cos_minus.
  pose proof (sin2_cos2 th) as S. unfold Rsqr in S.
  assert (S' : sin th * sin th = 1 - cos th * cos th) by lra. ring [S'].
Qed.

Section Gentle.
Context (r r1 r2 : R -> R)
  (Hr1 : forall t, is_derive r t (r1 t)) (Hr2 : forall t, is_derive r1 t (r2 t))
  (band : forall t, PI / 8 <= t <= 2 * PI + PI / 8 -> 9 / 5 <= r t <= 49 / 20)
  (slope : forall t, PI / 8 <= t <= 2 * PI + PI / 8 -> Rabs (r1 t) <= 2 / 7)
  (bend : forall t, PI / 8 <= t <= 2 * PI + PI / 8 -> Rabs (r2 t) <= 2 / 5)
  (end_a : r (PI / 4) = 23 / 10) (end_2pi : r (2 * PI) = 23 / 10).

Lemma Derive_r : forall t, Derive r t = r1 t.
Proof using Hr1. intros t. apply is_derive_unique, Hr1. Qed.

Lemma ex_r : forall t, ex_derive r t.
Proof using Hr1. intros t. eexists. apply Hr1. Qed.

Lemma ex_b_d_r : forall t, ex_derive (b_d_r r) t.
Proof using Hr1 Hr2.
  intros t. unfold b_d_r. apply ex_derive_ext with r1; [intros; symmetry; apply Derive_r|]. eexists. apply Hr2.
Qed.

(** The curve stays near its ends. *)
Lemma near_end : forall s t, PI / 8 <= s <= t -> t <= 2 * PI + PI / 8 -> Rabs (r t - r s) <= 2 / 7 * (t - s).
Proof using Hr1 slope.
  intros s t Hs Ht.
  destruct (MVT_gen r s t r1) as (c & Hc & E).
  - intros x _. apply Hr1.
  - intros x _. apply continuity_pt_filterlim. apply (ex_derive_continuous (V := R_NormedModule)). apply ex_r.
  - rewrite Rmin_left, Rmax_right in Hc by lra. rewrite E, Rabs_mult, (Rabs_pos_eq (t - s)) by lra.
    apply Rmult_le_compat_r; [lra|]. apply slope. lra.
Qed.

Section Point.
Context (rho th1 : R) (Hth1 : PI / 8 <= th1 < 2 * PI + PI / 8)
  (e phi : R) (He : 0 <= e <= 5555 / 10000) (Hphi : PI / 4 <= phi <= 2 * PI) (Hrho : 0 <= rho)
  (Hd : rho ^ 2 + r phi ^ 2 - 2 * rho * r phi * cos (th1 - phi) <= e ^ 2).

Let x1 := rho * cos th1.
Let y1 := rho * sin th1.
Let D := eval_dist_deriv r x1 y1.
Let lo := search_lo (PI / 4) th1.
Let hi := search_hi (PI / 4) th1.

Lemma e2_num : e ^ 2 <= (5555 / 10000) ^ 2.
Proof using All. apply pow_incr. lra. Qed.

Lemma rho_band : r phi - e <= rho <= r phi + e.
Proof using All.
  pose proof PI_num. pose proof (band phi ltac:(lra)) as B. pose proof (COS_bound (th1 - phi)) as Cb.
  assert ((rho - r phi) ^ 2 <= e ^ 2).
  { assert (0 <= rho * r phi * (1 - cos (th1 - phi))) by (apply Rmult_le_pos; [apply Rmult_le_pos; lra|lra]). lra. }
  assert (Rabs (rho - r phi) <= Rabs e) by (apply Rsqr_le_abs_0; unfold Rsqr; lra).
  rewrite (Rabs_pos_eq e) in * by lra. apply Rabs_le_between in H1. lra.
Qed.

(** The angle between the node and a near point of the curve. *)
Lemma angle_bound : forall al s, 0 < al <= PI / 4 -> 0 < s -> s <= r phi -> e < s * sin al -> Rabs (th1 - phi) < al.
Proof using All.
  intros al s Hal Hs Hsr Hlt. pose proof PI_num. pose proof (band phi ltac:(lra)) as B. pose proof e2_num.
  set (dl := th1 - phi) in *.
  assert (Hsin : r phi ^ 2 * sin dl ^ 2 <= e ^ 2).
  { pose proof (sin2_cos2 dl) as S. unfold Rsqr in S.
    replace (r phi ^ 2 * sin dl ^ 2) with (r phi ^ 2 - r phi ^ 2 * (cos dl * cos dl)) by (replace (sin dl ^ 2) with (1 - cos dl * cos dl) by (simpl; lra); ring).
    pose proof (pow2_ge_0 (rho - r phi * cos dl)). lra. }
  assert (Hcos : 0 < cos dl).
  { apply Rnot_le_lt. intros Hle.
    assert (0 <= rho * r phi * (- cos dl)) by (apply Rmult_le_pos; [apply Rmult_le_pos; lra|lra]).
    assert (9 / 5 * (9 / 5) <= r phi * r phi) by (apply Rmult_le_compat; lra). pose proof (pow2_ge_0 rho). lra. }
  assert (Hrange : - (2 * PI) + PI / 8 <= dl <= 2 * PI - PI / 8) by (unfold dl; lra).
  assert (Hsa : 0 < sin al) by (apply sin_gt_0; lra).
  assert (Hs2 : sin dl ^ 2 < sin al ^ 2).
  { apply Rnot_le_lt. intros Hle.
    assert (e * e < (s * sin al) * (s * sin al)) by (apply Rmult_le_0_lt_compat; lra).
    assert (s * s <= r phi * r phi) by (apply Rmult_le_compat; lra).
    assert (s * s * sin al ^ 2 <= r phi * r phi * sin dl ^ 2) by (apply Rmult_le_compat; [nra|apply pow2_ge_0|assumption|assumption]).
    lra. }
  (* reduce to |sin dl| >= sin al when |dl| >= al *)
  assert (Key : forall d, al <= d <= 2 * PI - PI / 8 -> 0 < cos d -> sin al ^ 2 <= sin d ^ 2 \/ 2 * PI - al < d).
  { intros d Hd' Hc'. destruct (Rlt_le_dec (2 * PI - al) d) as [L|L]; [right; assumption|left].
    destruct (Rle_lt_dec d (PI / 2)) as [L2|L2].
    - apply pow_incr. split; [lra|]. destruct (Rle_lt_or_eq_dec al d ltac:(lra)) as [L3|<-]; [|lra].
      apply Rlt_le, sin_increasing_1; lra.
    - destruct (Rle_lt_dec d (3 * (PI / 2))) as [L3|L3].
      + assert (cos d <= 0) by (apply cos_le_0; lra). lra.
      + replace (sin d) with (- sin (2 * PI - d)) by (rewrite sin_minus, cos_2PI, sin_2PI; ring).
        replace ((- sin (2 * PI - d)) ^ 2) with (sin (2 * PI - d) ^ 2) by ring.
        apply pow_incr. split; [lra|]. destruct (Rle_lt_or_eq_dec al (2 * PI - d) ltac:(lra)) as [L4|<-]; [|lra].
        apply Rlt_le, sin_increasing_1; lra. }
  assert (Hsp8 : PI / 8 < 2 * PI - (2 * PI - PI / 8) + PI / 8) by lra.
  (* near-full turn is excluded by the same estimate with the angle pi/8 *)
  assert (Hfull : forall d, 0 <= d <= 2 * PI - PI / 8 -> 0 < cos d -> sin d ^ 2 < sin al ^ 2 -> r phi ^ 2 * sin d ^ 2 <= e ^ 2 -> d < al).
  { intros d Hd' Hc' Hs' He'. apply Rnot_le_lt. intros Hle. destruct (Key d (conj Hle (proj2 Hd')) Hc') as [K|K]; [lra|].
    assert (S8 : sin (PI / 8) ^ 2 <= sin d ^ 2).
    { replace (sin d) with (- sin (2 * PI - d)) by (rewrite sin_minus, cos_2PI, sin_2PI; ring).
      replace ((- sin (2 * PI - d)) ^ 2) with (sin (2 * PI - d) ^ 2) by ring.
      apply pow_incr. split; [apply sin_ge_0; lra|].
      destruct (Rle_lt_or_eq_dec (PI / 8) (2 * PI - d) ltac:(lra)) as [L4|<-]; [|lra].
      apply Rlt_le, sin_increasing_1; lra. }
    pose proof sin_num as (_ & N8 & _).
    assert (38 / 100 * (38 / 100) <= sin (PI / 8) * sin (PI / 8)) by (apply Rmult_le_compat; lra).
    assert (9 / 5 * (9 / 5) <= r phi * r phi) by (apply Rmult_le_compat; lra).
    assert (9 / 5 * (9 / 5) * (38 / 100 * (38 / 100)) <= r phi * r phi * (sin d * sin d)) by (apply Rmult_le_compat; lra).
    lra. }
  destruct (Rle_lt_dec 0 dl) as [P|P].
  - rewrite Rabs_pos_eq by assumption. apply Hfull; try assumption; lra.
  - rewrite Rabs_left by assumption. apply Hfull.
    + lra.
    + rewrite cos_neg. assumption.
    + rewrite sin_neg. replace ((- sin dl) ^ 2) with (sin dl ^ 2) by ring. assumption.
    + rewrite sin_neg. replace ((- sin dl) ^ 2) with (sin dl ^ 2) by ring. assumption.
Qed.

Lemma angle8 : Rabs (th1 - phi) < PI / 8.
Proof using All.
  pose proof PI_num. pose proof (band phi ltac:(lra)) as B. pose proof sin_num as (_ & N8 & _).
  apply (angle_bound (PI / 8) (9 / 5)); lra.
Qed.

Lemma bracket : lo <= phi <= hi /\ PI / 8 <= lo /\ hi <= 2 * PI + PI / 8 /\ th1 - PI / 7 <= lo /\ hi <= th1 + PI / 7 /\ lo <= hi.
Proof using All.
  pose proof PI_num. pose proof angle8 as A. apply Rabs_lt_between in A.
  unfold lo, hi, search_lo, search_hi.
  destruct (Rltb_spec (th1 - PI / 7) (PI / 4 / 2)); destruct (Rltb_spec (2 * PI + PI / 4 / 2) (th1 + PI / 7)); lra.
Qed.

Lemma D_eq : forall th, D th = rho * r th * sin (th - th1) - (rho * cos (th - th1) - r th) * r1 th.
Proof using All. intros th. unfold D, x1, y1. rewrite dist_deriv_polar, Derive_r. reflexivity. Qed.

Lemma D_derive : forall th, is_derive D th
  (r1 th ^ 2 + r th * r2 th + rho * (cos (th - th1) * (r th - r2 th) + 2 * r1 th * sin (th - th1))).
Proof using All.
  intros th. apply (is_derive_ext (fun th => rho * r th * sin (th - th1) - (rho * cos (th - th1) - r th) * r1 th)).
  - intros t. symmetry. apply D_eq.
  - pose proof (Hr1 th) as E1. pose proof (Hr2 th) as E2.
    auto_derive.
    + repeat split; try (eexists; eassumption).
    + change (Derive (fun x => r x) th) with (Derive r th). change (Derive (fun x => r1 x) th) with (Derive r1 th).
      rewrite (is_derive_unique _ _ _ E1), (is_derive_unique _ _ _ E2).
      change (th + - th1) with (th - th1). ring.
Qed.

Lemma D_increasing : forall th, lo <= th <= hi ->
  0 < r1 th ^ 2 + r th * r2 th + rho * (cos (th - th1) * (r th - r2 th) + 2 * r1 th * sin (th - th1)).
Proof using All.
  intros th Hth. destruct bracket as (B1 & B2 & B3 & B4 & B5 & _).
  pose proof PI_num. pose proof (band th ltac:(lra)) as Hb. pose proof (slope th ltac:(lra)) as Hs. pose proof (bend th ltac:(lra)) as Hq.
  destruct (small_angle (th - th1)) as [Hc Hsn]; [apply Rabs_le; lra|].
  pose proof rho_band as HR. pose proof (band phi ltac:(lra)) as Hbp.
  apply Rabs_le_between in Hq.
  assert (Hprod : - (2 / 7 * (449 / 1000)) <= r1 th * sin (th - th1)).
  { assert (Rabs (r1 th * sin (th - th1)) <= 2 / 7 * (449 / 1000)).
    { rewrite Rabs_mult. apply Rmult_le_compat; try apply Rabs_pos; assumption. }
    apply Rabs_le_between in H0. lra. }
  pose proof (pow2_ge_0 (r1 th)) as Hsq. set (u := r th) in *. set (v := r2 th) in *. set (c := cos (th - th1)) in *.
  assert (Hrl : 12445 / 10000 <= rho) by lra.
  assert (Hg : 899 / 1000 * (u - v) - 2 * (2 / 7 * (449 / 1000)) <= c * (u - v) + 2 * (r1 th * sin (th - th1))).
  { assert (899 / 1000 * (u - v) <= c * (u - v)) by (apply Rmult_le_compat_r; lra). lra. }
  set (g := 899 / 1000 * (u - v) - 2 * (2 / 7 * (449 / 1000))) in *.
  assert (Hg0 : 1 <= g) by (unfold g; lra).
  replace (c * (u - v) + 2 * r1 th * sin (th - th1)) with (c * (u - v) + 2 * (r1 th * sin (th - th1))) by ring.
  assert (12445 / 10000 * g <= rho * (c * (u - v) + 2 * (r1 th * sin (th - th1)))).
  { apply Rmult_le_compat; lra. }
  assert (0 < u * v + 12445 / 10000 * g).
  { unfold g. assert (0 <= (u - 9 / 5) * (v + 2 / 5)) by (apply Rmult_le_pos; lra).
    lra. }
  lra.
Qed.

(** Near the corners the curve has nearly the radius of the corner. *)
Lemma corner_radius : 2 * PI - PI / 7 <= phi \/ phi <= PI / 4 + PI / 7 -> 217 / 100 <= r phi.
Proof using All.
  pose proof PI_num. intros [H1|H1].
  - pose proof (near_end phi (2 * PI) ltac:(lra) ltac:(lra)) as N. apply Rabs_le_between in N. lra.
  - pose proof (near_end (PI / 4) phi ltac:(lra) ltac:(lra)) as N. apply Rabs_le_between in N. lra.
Qed.

Lemma D_hi : 0 < D hi.
Proof using All.
  destruct bracket as (B1 & B2 & B3 & B4 & B5 & _). pose proof PI_num.
  pose proof (band hi ltac:(lra)) as Hb. pose proof (slope hi ltac:(lra)) as Hs.
  pose proof rho_band as HR. pose proof (band phi ltac:(lra)) as Hbp. pose proof sin_num as (N7 & N8 & N12 & N24).
  pose proof angle8 as A8. apply Rabs_lt_between in A8.
  rewrite D_eq.
  assert (Hmain : forall s, 0 <= s -> s <= sin (hi - th1) -> Rabs (rho * cos (hi - th1) - r hi) * (2 / 7) < rho * r hi * s ->
    0 < rho * r hi * sin (hi - th1) - (rho * cos (hi - th1) - r hi) * r1 hi).
  { intros s Hs0 Hs1 Hlt.
    assert (rho * r hi * s <= rho * r hi * sin (hi - th1)) by (apply Rmult_le_compat_l; [apply Rmult_le_pos; lra|assumption]).
    assert (Rabs ((rho * cos (hi - th1) - r hi) * r1 hi) <= Rabs (rho * cos (hi - th1) - r hi) * (2 / 7)).
    { rewrite Rabs_mult. apply Rmult_le_compat_l; [apply Rabs_pos|assumption]. }
    apply Rabs_le_between in H1. lra. }
  destruct (small_angle (hi - th1)) as [Hc Hsn].
  { apply Rabs_le. lra. }
  assert (Hrc : rho * (899 / 1000) <= rho * cos (hi - th1) <= rho * 1) by (split; apply Rmult_le_compat_l; lra).
  revert Hc Hrc. set (cc := cos (hi - th1)) in *. intros Hc Hrc.
  destruct (Rle_lt_dec (th1 + PI / 7) (2 * PI + PI / 8)) as [L|L].
  - assert (Eh : hi = th1 + PI / 7).
    { unfold hi, search_hi. destruct (Rltb_spec (2 * PI + PI / 4 / 2) (th1 + PI / 7)); lra. }
    apply (Hmain (43 / 100)); [lra| |].
    + replace (hi - th1) with (PI / 7) by lra. assumption.
    + assert (0 <= (rho - 12445 / 10000) * (r hi - 9 / 5)) by (apply Rmult_le_pos; lra).
      apply Rmult_lt_reg_r with (7 / 2); [lra|]. replace (Rabs (rho * cc - r hi) * (2 / 7) * (7 / 2)) with (Rabs (rho * cc - r hi)) by field.
      apply Rabs_def1; lra.
  - assert (Eh : hi = 2 * PI + PI / 8).
    { unfold hi, search_hi. destruct (Rltb_spec (2 * PI + PI / 4 / 2) (th1 + PI / 7)); lra. }
    pose proof (corner_radius ltac:(left; lra)) as Hcr.
    assert (A12 : Rabs (th1 - phi) < PI / 12) by (apply (angle_bound (PI / 12) (217 / 100)); lra).
    apply Rabs_lt_between in A12.
    pose proof (near_end (2 * PI) hi ltac:(lra) ltac:(lra)) as N1. apply Rabs_le_between in N1.
    pose proof (near_end phi (2 * PI) ltac:(lra) ltac:(lra)) as N2. apply Rabs_le_between in N2.
    apply (Hmain (13 / 100)); [lra| |].
    + apply Rle_trans with (sin (PI / 24)); [assumption|].
      destruct (Rle_lt_or_eq_dec (PI / 24) (hi - th1) ltac:(lra)) as [L3|L3]; [|rewrite L3; lra].
      apply Rlt_le, sin_increasing_1; lra.
    + assert (0 <= (rho - 16145 / 10000) * (r hi - 2187 / 1000)) by (apply Rmult_le_pos; lra).
      apply Rmult_lt_reg_r with (7 / 2); [lra|]. replace (Rabs (rho * cc - r hi) * (2 / 7) * (7 / 2)) with (Rabs (rho * cc - r hi)) by field.
      apply Rabs_def1; lra.
Qed.

Lemma D_lo : D lo < 0.
Proof using All.
  destruct bracket as (B1 & B2 & B3 & B4 & B5 & _). pose proof PI_num.
  pose proof (band lo ltac:(lra)) as Hb. pose proof (slope lo ltac:(lra)) as Hs.
  pose proof rho_band as HR. pose proof (band phi ltac:(lra)) as Hbp. pose proof sin_num as (N7 & N8 & N12 & N24).
  pose proof angle8 as A8. apply Rabs_lt_between in A8.
  rewrite D_eq. replace (lo - th1) with (- (th1 - lo)) by ring. rewrite sin_neg, cos_neg.
  assert (Hmain : forall s, 0 <= s -> s <= sin (th1 - lo) -> Rabs (rho * cos (th1 - lo) - r lo) * (2 / 7) < rho * r lo * s ->
    rho * r lo * - sin (th1 - lo) - (rho * cos (th1 - lo) - r lo) * r1 lo < 0).
  { intros s Hs0 Hs1 Hlt.
    assert (rho * r lo * s <= rho * r lo * sin (th1 - lo)) by (apply Rmult_le_compat_l; [apply Rmult_le_pos; lra|assumption]).
    assert (Rabs ((rho * cos (th1 - lo) - r lo) * r1 lo) <= Rabs (rho * cos (th1 - lo) - r lo) * (2 / 7)).
    { rewrite Rabs_mult. apply Rmult_le_compat_l; [apply Rabs_pos|assumption]. }
    apply Rabs_le_between in H1. lra. }
  destruct (small_angle (th1 - lo)) as [Hc Hsn].
  { apply Rabs_le. lra. }
  assert (Hrc : rho * (899 / 1000) <= rho * cos (th1 - lo) <= rho * 1) by (split; apply Rmult_le_compat_l; lra).
  revert Hc Hrc. set (cc := cos (th1 - lo)) in *. intros Hc Hrc.
  destruct (Rle_lt_dec (PI / 8) (th1 - PI / 7)) as [L|L].
  - assert (Eh : lo = th1 - PI / 7).
    { unfold lo, search_lo. destruct (Rltb_spec (th1 - PI / 7) (PI / 4 / 2)); lra. }
    apply (Hmain (43 / 100)); [lra| |].
    + replace (th1 - lo) with (PI / 7) by lra. assumption.
    + assert (0 <= (rho - 12445 / 10000) * (r lo - 9 / 5)) by (apply Rmult_le_pos; lra).
      apply Rmult_lt_reg_r with (7 / 2); [lra|]. replace (Rabs (rho * cc - r lo) * (2 / 7) * (7 / 2)) with (Rabs (rho * cc - r lo)) by field.
      apply Rabs_def1; lra.
  - assert (Eh : lo = PI / 8).
    { unfold lo, search_lo. destruct (Rltb_spec (th1 - PI / 7) (PI / 4 / 2)); lra. }
    pose proof (corner_radius ltac:(right; lra)) as Hcr.
    assert (A12 : Rabs (th1 - phi) < PI / 12) by (apply (angle_bound (PI / 12) (217 / 100)); lra).
    apply Rabs_lt_between in A12.
    pose proof (near_end lo (PI / 4) ltac:(lra) ltac:(lra)) as N1. apply Rabs_le_between in N1.
    pose proof (near_end (PI / 4) phi ltac:(lra) ltac:(lra)) as N2. apply Rabs_le_between in N2.
    apply (Hmain (13 / 100)); [lra| |].
    + apply Rle_trans with (sin (PI / 24)); [assumption|].
      destruct (Rle_lt_or_eq_dec (PI / 24) (th1 - lo) ltac:(lra)) as [L3|L3]; [|rewrite L3; lra].
      apply Rlt_le, sin_increasing_1; lra.
    + assert (0 <= (rho - 16145 / 10000) * (r lo - 2187 / 1000)) by (apply Rmult_le_pos; lra).
      apply Rmult_lt_reg_r with (7 / 2); [lra|]. replace (Rabs (rho * cc - r lo) * (2 / 7) * (7 / 2)) with (Rabs (rho * cc - r lo)) by field.
      apply Rabs_def1; lra.
Qed.
Lemma D_mono : forall u v, lo <= u -> u < v -> v <= hi -> D u < D v.
Proof using All.
  intros u v Hu Huv Hv.
  destruct (MVT_gen D u v (fun th => r1 th ^ 2 + r th * r2 th + rho * (cos (th - th1) * (r th - r2 th) + 2 * r1 th * sin (th - th1))))
    as (c & Hc & E).
  - intros t _. apply D_derive.
  - intros t _. apply continuity_pt_filterlim. apply (ex_derive_continuous (V := R_NormedModule)). eexists. apply D_derive.
  - rewrite Rmin_left, Rmax_right in Hc by lra. pose proof (D_increasing c ltac:(lra)).
    assert (0 < D v - D u) by (rewrite E; apply Rmult_lt_0_compat; lra). lra.
Qed.

(** Half the squared distance from the node to the curve. *)
Definition half_sq (th : R) : R := ((r th * cos th - x1) ^ 2 + (r th * sin th - y1) ^ 2) / 2.

Lemma half_sq_derive : forall th, is_derive half_sq th (D th).
Proof using All.
  intros th. pose proof (Hr1 th) as E1. unfold half_sq. auto_derive.
  - repeat split; eexists; eassumption.
  - change (Derive (fun x => r x) th) with (Derive r th). unfold D, eval_dist_deriv, b_d_r. 
    rewrite (is_derive_unique _ _ _ E1). field.
Qed.

Lemma half_sq_mono : forall th0 u v, D th0 = 0 -> lo <= th0 <= hi -> lo <= u <= hi -> lo <= v <= hi ->
  th0 <= u <= v \/ v <= u <= th0 -> half_sq u <= half_sq v.
Proof using All.
  intros th0 u v Z H0 Hu Hv [C|C].
  - destruct (MVT_gen half_sq u v D) as (c & Hc & E).
    + intros t _. apply half_sq_derive.
    + intros t _. apply continuity_pt_filterlim. apply (ex_derive_continuous (V := R_NormedModule)). eexists. apply half_sq_derive.
    + rewrite Rmin_left, Rmax_right in Hc by lra.
      assert (0 <= D c).
      { destruct (Rle_lt_or_eq_dec th0 c ltac:(lra)) as [L|<-]; [|lra]. pose proof (D_mono th0 c ltac:(lra) L ltac:(lra)). lra. }
      assert (0 <= D c * (v - u)) by (apply Rmult_le_pos; lra). lra.
  - destruct (MVT_gen half_sq v u D) as (c & Hc & E).
    + intros t _. apply half_sq_derive.
    + intros t _. apply continuity_pt_filterlim. apply (ex_derive_continuous (V := R_NormedModule)). eexists. apply half_sq_derive.
    + rewrite Rmin_left, Rmax_right in Hc by lra.
      assert (0 <= - D c).
      { destruct (Rle_lt_or_eq_dec c th0 ltac:(lra)) as [L| ->]; [|lra]. pose proof (D_mono c th0 ltac:(lra) L ltac:(lra)). lra. }
      assert (0 <= - D c * (u - v)) by (apply Rmult_le_pos; lra). lra.
Qed.

(** The root finder succeeds. *)
Lemma coord_found : forall brentq, brentq_contract brentq ->
  exists n th0, get_boundary_coord brentq r (PI / 4) rho th1 = Some (n, th0) /\ lo <= th0 <= hi /\ D th0 = 0 /\
    Rabs n = sqrt ((x1 - r th0 * cos th0) ^ 2 + (y1 - r th0 * sin th0) ^ 2).
Proof using All.
  intros brentq Hb. destruct bracket as (B1 & B2 & B3 & B4 & B5 & B6).
  destruct (Hb D lo hi B6) as [_ H2].
  { intros t. apply dist_deriv_continuous; [apply ex_r|apply ex_b_d_r]. }
  destruct H2 as (th0 & E & Hth0 & Z).
  { pose proof D_hi. pose proof D_lo. assert (0 <= - D lo * D hi) by (apply Rmult_le_pos; lra). lra. }
  unfold get_boundary_coord. fold x1 y1. fold D lo hi. rewrite E.
  destruct (eval_normal r th0) as [n0 n1].
  eexists _, th0. split; [reflexivity|]. split; [assumption|]. split; [assumption|].
  match goal with |- Rabs (if ?b then _ else _) = _ => destruct b end.
  - rewrite Rabs_Ropp. apply Rabs_pos_eq, sqrt_pos.
  - apply Rabs_pos_eq, sqrt_pos.
Qed.

(** The distance computed is the least on the curve. *)
Lemma dist_near : forall brentq, brentq_contract brentq -> let bc := get_boundary_coord brentq r (PI / 4) rho th1 in
  exists d n th0, bc = Some (n, th0) /\
    get_dist (23 / 10) (PI / 4) bc 0 (etype_of (23 / 10) (PI / 4) bc 0 x1 y1) x1 y1 = Ok d /\
    d <= dist2 (r phi * cos phi, r phi * sin phi) (x1, y1).
Proof using All.
  intros brentq Hb bc. destruct (coord_found brentq Hb) as (n & th0 & E & Hth0 & Z & En).
  unfold bc. rewrite E. pose proof PI_num. destruct bracket as (B1 & B2 & B3 & B4 & B5 & B6).
  assert (Hsq : forall u, half_sq u <= half_sq phi -> sqrt ((r u * cos u - x1) ^ 2 + (r u * sin u - y1) ^ 2) <= dist2 (r phi * cos phi, r phi * sin phi) (x1, y1)).
  { intros u Hu. unfold dist2. cbn [fst snd]. apply sqrt_le_1_alt. unfold half_sq in Hu. lra. }
  cbn [etype_of]. destruct (Rltb_spec (2 * PI) th0) as [H1|H1]; [|destruct (Rltb_spec th0 (PI / 4)) as [H2|H2]];
  cbn [get_dist]; eexists _, n, th0; (split; [reflexivity|]); (split; [reflexivity|]).
  - unfold dformula. replace (23 / 10 - x1) with (r (2 * PI) * cos (2 * PI) - x1) by (rewrite cos_2PI, end_2pi; ring).
    replace (0 - y1) with (r (2 * PI) * sin (2 * PI) - y1) by (rewrite sin_2PI; ring).
    apply Hsq. apply (half_sq_mono th0); try assumption; lra.
  - unfold dformula. rewrite <- end_a. apply Hsq. apply (half_sq_mono th0); try assumption; lra.
  - rewrite En. replace ((x1 - r th0 * cos th0) ^ 2) with ((r th0 * cos th0 - x1) ^ 2) by ring.
    replace ((y1 - r th0 * sin th0) ^ 2) with ((r th0 * sin th0 - y1) ^ 2) by ring.
    apply Hsq. apply (half_sq_mono th0); try assumption; lra.
Qed.
End Point.
End Gentle.
