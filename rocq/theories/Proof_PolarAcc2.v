(** Accuracy of the table computed by the polar solver (C86). *)
From Coq Require Import String ZArith List Reals Lia Lra Psatz FunctionalExtensionality.
From Coquelicot Require Import Coquelicot.
From Verif Require Import Model_Py Model_Grid Model_Fourier Model_Domain Model_Abcoef Model_Ode Model_PolarFD Model_ZMethod Model_Problems Model_ZRun Model_Run Model_Program Model_ZProgram
  Lib_Csum Spec_Fd Spec_PolarFD Spec_Ode Spec_Problems Spec_Bessel Spec_OdeAcc Spec_PolarAcc Spec_Abcoef Proof_Norm
  Proof_Domain Proof_Grid Proof_Fourier Proof_Bound Proof_Bessel Proof_PolarFD Proof_PolarRes Proof_ZRun Proof_Program Proof_ZProgram Proof_OdeProgram Proof_OdeSing Proof_PolarAcc1.
Import ListNotations.
Open Scope R_scope.

Lemma scheme_ext : forall rad hr hth k w w' m l, (forall i j, (Z.abs i <= 1)%Z -> (Z.abs j <= 1)%Z -> w (m + i)%Z (l + j)%Z = w' (m + i)%Z (l + j)%Z) ->
  compact_scheme rad hr hth k w m l = compact_scheme rad hr hth k w' m l.
Proof.
  intros rad hr hth k w w' m l H.
  assert (Q : forall i j a b, (Z.abs i <= 1)%Z -> (Z.abs j <= 1)%Z -> a = (m + i)%Z -> b = (l + j)%Z -> w a b = w' a b) by (intros; subst; apply H; assumption).
  unfold compact_scheme, op_radial, op_angular, op_drr, op_dr, op_dthth. cbv zeta beta.
  rewrite !(Q 0 0 m l)%Z, !(Q 1 0 (m + 1) l)%Z, !(Q (-1) 0 (m - 1) l)%Z, !(Q 0 1 m (l + 1))%Z, !(Q 0 (-1) m (l - 1))%Z,
    !(Q 1 1 (m + 1) (l + 1))%Z, !(Q 1 (-1) (m + 1) (l - 1))%Z, !(Q (-1) 1 (m - 1) (l + 1))%Z, !(Q (-1) (-1) (m - 1) (l - 1))%Z by lia.
  reflexivity.
Qed.

Lemma scheme_lin : forall rad hr hth k w w' c m l,
  compact_scheme rad hr hth k (fun i j => w i j + c * w' i j) m l = compact_scheme rad hr hth k w m l + c * compact_scheme rad hr hth k w' m l.
Proof.
  intros. unfold compact_scheme, op_radial, op_angular, op_drr, op_dr, op_dthth. cbv zeta beta. unfold Rdiv. ring.
Qed.

Lemma scheme_minus : forall rad hr hth k w w' m l,
  compact_scheme rad hr hth k (fun i j => w i j - w' i j) m l = compact_scheme rad hr hth k w m l - compact_scheme rad hr hth k w' m l.
Proof.
  intros. unfold compact_scheme, op_radial, op_angular, op_drr, op_dr, op_dthth. cbv zeta beta. unfold Rdiv. ring.
Qed.

(** ** Consistency *)

Lemma regular_residual : forall k u R0 R1 a, regular k u -> 0 < R0 < R1 -> a < 2 * PI -> exists K, 0 <= K /\
  forall N, (1 <= N)%Z -> forall m l, inside N m l ->
    Rabs (polar_op N R0 R1 a k (fun m l => u (circle N R0 R1 m) (a + IZR l * ((2 * PI - a) / IZR N))) m l)
    <= K * (((R1 - R0) / IZR N) ^ 4 + ((2 * PI - a) / IZR N) ^ 4).
Proof.
  intros k u R0 R1 a (U & HU & Hh & HB) HR Ha. destruct (HB R0 R1 ltac:(lra)) as (M & HM & B).
  exists (Rabs (rconst R0 k * M)). split; [apply Rabs_pos|]. intros N HN m l [Hm Hl].
  assert (HNr : 0 < IZR N) by (apply IZR_lt; lia).
  set (h := (R1 - R0) / IZR N). set (e := (2 * PI - a) / IZR N).
  assert (Hh0 : 0 < h) by (unfold h; apply Rdiv_lt_0_compat; lra). assert (He0 : 0 < e) by (unfold e; apply Rdiv_lt_0_compat; lra).
  set (r0 := circle N R0 R1 m). set (t0 := a + IZR l * e).
  assert (HNh : IZR N * h = R1 - R0) by (unfold h; field; lra).
  assert (Hlo : R0 <= r0 - h).
  { unfold r0, circle. fold h. assert (1 <= IZR m) by (apply IZR_le; lia). nra. }
  assert (Hhi : r0 + h <= R1).
  { unfold r0, circle. fold h. assert (IZR m <= IZR N - 1) by (rewrite <- minus_IZR; apply IZR_le; lia). nra. }
  assert (ZR : forall r t, 0 < r -> polar_helmholtz k U r t = 0) by exact Hh.
  pose proof (residual_bound R0 k U u r0 t0 h e M (fun _ => 0) 0 (fun _ => 0) 0) as T.
  assert (Hc : forall x : R, 0 < x -> is_derive (fun s => polar_helmholtz k U s t0) x 0).
  { intros x Hx. apply (is_derive_ext_loc (fun _ => 0)); [|apply (is_derive_const 0)].
    apply (filter_imp (fun y => 0 < y)); [intros y Hy; symmetry; apply ZR; exact Hy|]. apply locally_above; exact Hx. }
  assert (T' : Rabs (stencil_sum (local_get (fd4_local (r0 - h) (r0 - h / 2) r0 (r0 + h / 2) (r0 + h) h e k))
          (fun m l => u (r0 + IZR m * h) (t0 + IZR l * e)) 0 0 - fd4_rhs h e r0 (polar_helmholtz k U r0 t0) 0 0 0)
    <= rconst R0 k * M * (h ^ 4 + e ^ 4)).
  { apply T; try lra; try assumption.
    - split; [apply (proj1 HU)|]. intros i j Hij x y Hxy. apply (proj2 HU i j Hij). red. destruct Hxy as [Hx _]. lra.
    - intros i j Hij x y [Hx _]. apply B; [exact Hij|lra].
    - intros r Hr. apply Hc. lra.
    - apply (is_derive_const 0).
    - intros t _. apply (is_derive_ext (fun _ => 0)); [|apply (is_derive_const 0)]. intros t'. symmetry. apply ZR. lra.
    - apply (is_derive_const 0). }
  rewrite coefficients in T' by lra.
  rewrite ZR in T' by lra. replace (fd4_rhs h e r0 0 0 0 0) with 0 in T' by (unfold fd4_rhs, Rdiv; ring). rewrite Rminus_0_r in T'.
  eapply Rle_trans; [|eapply Rle_trans; [exact T'|]].
  - right. f_equal. unfold polar_op. fold h e.
    unfold compact_scheme, op_radial, op_angular, op_drr, op_dr, op_dthth. cbv zeta beta.
    assert (Er : forall i, circle N R0 R1 (m + i) = r0 + IZR i * h) by (intros i; unfold r0, circle; fold h; rewrite plus_IZR; ring).
    assert (Et : forall j, a + IZR (l + j) * e = t0 + IZR j * e) by (intros j; unfold t0; rewrite plus_IZR; ring).
    unfold Z.sub. rewrite !Er, !Et. fold r0 t0.
    change (0 + 1)%Z with 1%Z. change (0 + Z.opp 1)%Z with (-1)%Z. change (Z.opp 1) with (-1)%Z. change (Z.opp 0) with 0%Z. change (1 + 0)%Z with 1%Z. change (0 + 0)%Z with 0%Z. change (-1 + 0)%Z with (-1)%Z.
    replace (r0 + 0 * h) with r0 by ring. replace (t0 + 0 * e) with t0 by ring. reflexivity.
  - apply Rmult_le_compat_r; [|apply Rle_abs]. apply Rplus_le_le_0_compat; apply pow_le; lra.
Qed.

(** ** The table *)

Lemma rsum_abs : forall n f g, (forall i, (i < n)%nat -> Rabs (f i) <= g i) -> Rabs (rsum n f) <= rsum n g.
Proof.
  induction n as [|n IH]; intros f g H; cbn [rsum]; [rewrite Rabs_R0; lra|].
  eapply Rle_trans; [apply Rabs_triang|]. apply Rplus_le_compat; [apply IH; intros; apply H; lia|apply H; lia].
Qed.

Lemma table_bound : forall jv gamma s b, gamma_like gamma -> (forall p, 0 < p -> bessel_series jv gamma p) ->
  let p := sing_problem jv gamma s in
  let R1 := outer_radius b in
  let z1 := fun th => zp_eval_v p R1 th - (zp_g p R1 th + zm_q (zp_k p) (PI / 4) (zp_g p) R1 th) in
  exists K, 0 <= K /\ forall fuel L z1cheat attr N order z sigma d (e : nat -> R), zl_jv L = jv -> zl_gamma L = gamma ->
    zm_run fuel L p b false z1cheat attr N order = Ok z -> (1 <= N)%Z ->
    Model_PolarFD.solves (assemble (zr_fd z)) (zl_spsolve L (assemble (zr_fd z))) ->
    polar_stable N (/ 10) R1 (PI / 4) (zp_k p) sigma ->
    (forall th, PI / 4 <= th <= 2 * PI ->
       Rabs (z1 th - rsum 7 (fun m => sine_coef (PI / 4) z1 m * sin (mode_freq (PI / 4) m * (th - PI / 4)))) <= d) ->
    (forall m, (m < 7)%nat -> Rabs (nth m (zr_z1 z) 0 - sine_coef (PI / 4) z1 m) <= e m) ->
    let hr := (R1 - / 10) / IZR N in let hth := 7 * PI / 4 / IZR N in
    let D := sigma * (K * (hr ^ 4 + hth ^ 4) + d + rsum 7 e + / 10 ^ 18 * wedge_sum s (/ Rabs (gamma (9 / 7))) (/ Rabs (gamma (13 / 7)))) in
    (forall m l, (0 <= m <= N)%Z -> (0 <= l <= N)%Z ->
      Cmod (Cminus (zr_v z m l) (RtoC (zp_eval_v p (/ 10 + IZR m * hr) (PI / 4 + IZR l * hth)))) <= D).
Proof.
  intros jv gamma s b Hg Hj p R1 z1. destruct (outer_arc b) as [EA HR1]. fold R1 in EA, HR1. pose proof PI_RGT_0 as HP.
  destruct (regular_residual (zp_k p) (zp_eval_v p) (/ 10) R1 (PI / 4) (sing_regular jv gamma s Hg Hj) ltac:(lra) ltac:(lra)) as (K & HK & HC).
  exists K. split; [exact HK|]. intros fuel L z1cheat attr N order z sigma d e EJ EG Hz HN Hs Hst Hd He hr hth D.
  destruct (zm_run_inv _ _ _ _ _ _ _ _ _ _ Hz) as (_ & _ & Ef & Ev & _).
  assert (HNr : 0 < IZR N) by (apply IZR_lt; lia).
  rewrite Ef in Hs. unfold zfd in Hs. rewrite EA in Hs.
  pose proof (z_system (zl_spsolve L) N (zp_k p) pizza_a pizza_nu zm_R0 R1 zm_M (zr_z1 z) (zp_v_series p) (zp_gq p) (zp_phi1 p) (zp_phi2 p)
    HN ltac:(unfold zm_R0; lra) ltac:(unfold pizza_a; lra)) as Sy. cbv zeta in Sy.
  apply (proj1 Sy) in Hs. clear Sy.
  assert (EV : zr_v z = zm_v (zl_spsolve L) false (zm_z_fd N (zp_k p) pizza_a pizza_nu zm_R0 R1 zm_M (zr_z1 z) (zp_v_series p) (zp_gq p) (zp_phi1 p) (zp_phi2 p)))
    by (rewrite Ev, Ef; unfold zfd; rewrite EA; reflexivity).
  rewrite <- EV in Hs. destruct Hs as (H1 & H2 & H3).
  assert (Eh : (2 * PI - pizza_a) / IZR N = hth) by (unfold hth, pizza_a; field; lra).
  assert (Eh' : (2 * PI - PI / 4) / IZR N = hth) by (unfold hth; field; lra).
  unfold zm_R0 in *. change ((R1 - / 10) / IZR N) with hr in H1, H2, H3. rewrite Eh in H2, H3. change pizza_a with (PI / 4) in H2.
  set (V := fun m l => zp_eval_v p (/ 10 + IZR m * hr) (PI / 4 + IZR l * hth)).
  set (W := fun m l => fst (zr_v z m l)).
  assert (Hre : forall m l, zr_v z m l = RtoC (W m l)) by (intros m l; unfold W; rewrite EV; reflexivity).
  assert (Hws : 0 < wedge_sum s (/ Rabs (gamma (9 / 7))) (/ Rabs (gamma (13 / 7)))).
  { destruct (g_pos gamma Hg) as [G1 G3]. unfold wedge_sum; destruct s; [exact G1|exact G1|apply Rplus_lt_0_compat; assumption]. }
  set (w0 := / 10 ^ 18 * wedge_sum s (/ Rabs (gamma (9 / 7))) (/ Rabs (gamma (13 / 7)))) in *.
  assert (Hw0 : 0 <= w0) by (unfold w0; apply Rmult_le_pos; lra).
  assert (Hd0 : 0 <= d) by (eapply Rle_trans; [apply Rabs_pos|apply (Hd (PI / 4)); lra]).
  assert (Hse : 0 <= rsum 7 e).
  { apply Rle_trans with (rsum 7 (fun _ => 0)); [rewrite rsum_const; lra|]. apply rsum_le. intros i Hi. eapply Rle_trans; [apply Rabs_pos|apply (He i Hi)]. }
  assert (Hhr : 0 < hr) by (unfold hr; apply Rdiv_lt_0_compat; lra).
  assert (Hht : 0 < hth) by (unfold hth; apply Rdiv_lt_0_compat; lra).
  assert (Hrm : forall m, (0 <= m)%Z -> 0 < / 10 + IZR m * hr).
  { intros m Hm. apply IZR_le in Hm. nra. }
  assert (ERN : / 10 + IZR N * hr = R1) by (unfold hr; field; lra).
  assert (ETN : PI / 4 + IZR N * hth = 2 * PI) by (unfold hth; field; lra).
  assert (NH : IZR N * hth = 7 * PI / 4) by (unfold hth; field; lra).
  assert (Hedge : forall m l, on_edge N m l -> Rabs (W m l - V m l) <= d + rsum 7 e + w0).
  { assert (Q0 : Rabs 0 <= d + rsum 7 e + w0) by (rewrite Rabs_R0; lra).
    intros m l (Hm & Hl & Ho). destruct (Z.eq_dec l 0) as [->|Hl0].
    { destruct (H1 m Hm) as [A _]. unfold W. rewrite A. cbn [fst RtoC]. unfold V.
      destruct (sing_edges_v jv gamma s (/ 10 + IZR m * hr) (Hrm m (proj1 Hm))) as [A2 _]. fold p in A2.
      rewrite Rmult_0_l, Rplus_0_r. rewrite A2, Rminus_diag_eq; [exact Q0|reflexivity]. }
    destruct (Z.eq_dec l N) as [->|HlN].
    { destruct (H1 m Hm) as [_ A]. unfold W. rewrite A. cbn [fst RtoC]. unfold V.
      destruct (sing_edges_v jv gamma s (/ 10 + IZR m * hr) (Hrm m (proj1 Hm))) as [_ A2]. fold p in A2.
      rewrite ETN, A2, Rminus_diag_eq; [exact Q0|reflexivity]. }
    destruct (H2 l ltac:(lia)) as [A B]. destruct (Z.eq_dec m 0) as [->|Hm0].
    { unfold W. rewrite A. cbn [fst RtoC]. unfold V. rewrite Rmult_0_l, Rplus_0_r.
      pose proof (proj1 (sing_data jv gamma s Hg Hj (PI / 4 + IZR l * hth))) as S. cbv zeta in S. fold p in S. unfold w0 in *. lra. }
    assert (m = N) by lia. subst m. unfold W. rewrite B. cbn [fst RtoC]. unfold V. rewrite ERN.
    set (t := PI / 4 + IZR l * hth) in *. unfold zp_gq. rewrite lambdify_pos by lra.
    assert (Ht : PI / 4 <= t <= 2 * PI).
    { assert (0 <= IZR l) by (apply IZR_le; lia). assert (IZR l <= IZR N) by (apply IZR_le; lia). unfold t. split; nra. }
    specialize (Hd t Ht). unfold z1 in Hd at 1. unfold zm_M. unfold sine_series.
    set (c := sine_coef (PI / 4) z1) in *. set (G := zp_g p R1 t + zm_q (zp_k p) pizza_a (zp_g p) R1 t) in *. change (zp_g p R1 t + zm_q (zp_k p) (PI / 4) (zp_g p) R1 t) with G in Hd.
    assert (X : Rabs (rsum 7 (fun m => (nth m (zr_z1 z) 0 - c m) * sin (mode_freq (PI / 4) m * (t - PI / 4)))) <= rsum 7 e).
    { apply rsum_abs. intros i Hi. rewrite Rabs_mult. rewrite <- (Rmult_1_r (e i)).
      apply Rmult_le_compat; [apply Rabs_pos|apply Rabs_pos|apply He; exact Hi|apply Rabs_le; apply SIN_bound]. }
    replace (rsum 7 (fun m => nth m (zr_z1 z) 0 * sin ((INR m + 1) * pizza_nu * (t - PI / 4))) + G - zp_eval_v p R1 t) with
      (rsum 7 (fun m => (nth m (zr_z1 z) 0 - c m) * sin (mode_freq (PI / 4) m * (t - PI / 4)))
       - (zp_eval_v p R1 t - G - rsum 7 (fun m => c m * sin (mode_freq (PI / 4) m * (t - PI / 4))))).
    { unfold Rminus at 1. eapply Rle_trans; [apply Rabs_triang|]. rewrite Rabs_Ropp. lra. }
    cbn [rsum]. unfold mode_freq, pizza_nu, pizza_a. ring. }
  assert (Hin : forall m l, inside N m l -> Rabs (polar_op N (/ 10) R1 (PI / 4) (zp_k p) (fun m l => W m l - V m l) m l) <= K * (hr ^ 4 + hth ^ 4)).
  { intros m l Hml. unfold polar_op. rewrite scheme_minus. pose proof (H3 m l (proj1 Hml) (proj2 Hml)) as Z3.
    specialize (HC N HN m l Hml). unfold polar_op in HC. rewrite Eh' in HC |- *. unfold circle in HC |- *. fold hr in HC |- *. fold V in HC.
    change (compact_scheme (fun m0 : Z => / 10 + IZR m0 * hr) hr hth (zp_k p) W m l = 0) in Z3. rewrite Z3.
    replace (0 - _) with (- (compact_scheme (fun m0 : Z => / 10 + IZR m0 * hr) hr hth (zp_k p) V m l)) by ring. rewrite Rabs_Ropp. exact HC. }
  intros m l Hm Hl. rewrite Hre. fold (V m l). rewrite <- RtoC_minus, Cmod_R.
  assert (HE : 0 <= K * (hr ^ 4 + hth ^ 4)) by (apply Rmult_le_pos; [exact HK|apply Rplus_le_le_0_compat; apply pow_le; lra]).
  pose proof (Hst (fun m l => W m l - V m l) (d + rsum 7 e + w0) (K * (hr ^ 4 + hth ^ 4)) ltac:(lra) HE Hedge Hin m l (conj Hm Hl)) as F.
  unfold D. replace (K * (hr ^ 4 + hth ^ 4) + d + rsum 7 e + w0) with (d + rsum 7 e + w0 + K * (hr ^ 4 + hth ^ 4)) by ring. exact F.
Qed.

(** The reported error. *)
Lemma v_error_le : forall s v0 v M e D, 0 <= D ->
  (forall m l, (1 <= m < pf_N s)%Z -> (1 <= l < pf_N s)%Z -> Cmod (Cminus (RtoC (v0 (get_r s (IZR m)) (get_th s l))) (v m l)) <= D) ->
  zm_v_error s v0 v M = Ok e -> e <= 2 * D.
Proof.
  intros s v0 v M e D HD H E. unfold zm_v_error in E.
  assert (Q : forall rows es, zm_row_errors s v0 v M rows = Ok es -> (forall m, In m rows -> (1 <= m < pf_N s)%Z) -> forall x, In x es -> x <= 2 * D).
  { induction rows as [|m rows IH]; intros es Ees Hr x Hx.
    - cbn in Ees. apply Ok_inj' in Ees. subst es. destruct Hx.
    - cbn [zm_row_errors] in Ees. destruct (zm_row_error s v0 v M m) as [e0|] eqn:E0; cbn [bind] in Ees; [|discriminate Ees].
      destruct (zm_row_errors s v0 v M rows) as [es0|] eqn:E1; cbn [bind] in Ees; [|discriminate Ees].
      apply Ok_inj' in Ees. subst es. destruct Hx as [<-|Hx]; [|apply (IH es0 eq_refl); [intros; apply Hr; right; assumption|exact Hx]].
      unfold zm_row_error in E0. apply py_max_spec in E0. destruct E0 as [Hi _]. apply in_map_iff in Hi. destruct Hi as (j & <- & Hj). apply in_seq in Hj.
      specialize (Hr m (or_introl eq_refl)). assert (HN : (2 <= pf_N s)%Z) by lia.
      assert (HNr : 2 <= IZR (pf_N s)) by (apply IZR_le; exact HN).
      rewrite Cmod_div by (apply RtoC_neq; lra). rewrite Cmod_R, (Rabs_pos_eq (IZR (pf_N s))) by lra.
      apply Rmult_le_reg_r with (IZR (pf_N s)); [lra|]. unfold Rdiv. rewrite Rmult_assoc, Rinv_l, Rmult_1_r by lra.
      unfold dst1. rewrite Cmod_mult, Cmod_R, (Rabs_pos_eq 2) by lra.
      rewrite Rmult_assoc. apply Rmult_le_compat_l; [lra|].
      eapply Rle_trans; [apply csum_le|].
      apply Rle_trans with (rsum (Z.to_nat (pf_N s - 1)) (fun _ => D)).
      + apply rsum_le. intros i Hi. rewrite Cmod_mult. rewrite <- (Rmult_1_r D). apply Rmult_le_compat; [apply Cmod_ge_0|apply Cmod_ge_0| |].
        * apply H; lia.
        * rewrite Cmod_R. apply Rabs_le. apply SIN_bound.
      + rewrite rsum_const. rewrite INR_IZR_INZ, Z2Nat.id by lia. rewrite minus_IZR. nra. }
  destruct (zm_row_errors s v0 v M (py_range 1 (pf_N s))) as [es|] eqn:E1; cbn [bind] in E; [|discriminate E].
  apply py_max_spec in E. destruct E as [Hi _]. apply (Q _ es E1); [|exact Hi]. intros m Hm. apply py_range_in in Hm. exact Hm.
Qed.

Lemma table_error : forall fuel L p b z1cheat attr N order z D, zm_run fuel L p b false z1cheat attr N order = Ok z -> (1 <= N)%Z ->
  let hr := (outer_radius b - / 10) / IZR N in let hth := 7 * PI / 4 / IZR N in
  (forall m l, (0 <= m <= N)%Z -> (0 <= l <= N)%Z ->
    Cmod (Cminus (zr_v z m l) (RtoC (zp_eval_v p (/ 10 + IZR m * hr) (PI / 4 + IZR l * hth)))) <= D) -> zr_v_error z <= 2 * D.
Proof.
  intros fuel L p b z1cheat attr N order z D Hz HN hr hth H.
  destruct (zm_run_inv _ _ _ _ _ _ _ _ _ _ Hz) as (_ & _ & Ef & _ & _ & _ & _ & Ee).
  assert (HNr : 0 < IZR N) by (apply IZR_lt; lia).
  assert (EN : pf_N (zr_fd z) = N) by (rewrite Ef; reflexivity).
  apply (v_error_le (zr_fd z) (zp_eval_v p) (zr_v z) zm_M); [|rewrite EN|exact Ee].
  { eapply Rle_trans; [apply Cmod_ge_0|apply (H 0 0)%Z; lia]. }
  intros m l Hm Hl. destruct (outer_arc b) as [EA _].
  replace (get_r (zr_fd z) (IZR m)) with (/ 10 + IZR m * hr).
  2:{ rewrite Ef. unfold get_r, pf_hr, zfd, zm_z_fd. cbn [pf_R0 pf_R1 pf_N]. rewrite EA. reflexivity. }
  replace (get_th (zr_fd z) l) with (PI / 4 + IZR l * hth).
  2:{ rewrite Ef. unfold get_th, pf_hth, zfd, zm_z_fd. cbn [pf_a pf_N]. unfold hth, pizza_a. field. lra. }
  rewrite <- Cmod_opp. match goal with |- Cmod (Copp (Cminus ?u ?v)) <= _ => replace (Copp (Cminus u v)) with (Cminus v u) by ring end. apply H; lia.
Qed.

(** ** Stability from uniqueness *)

Definition unit_at (M : Z) (i : nat) (m l : Z) : R := if (m * M + l =? Z.of_nat i)%Z then 1 else 0.

Definition node_of (M : Z) (i : nat) : Z * Z := (Z.of_nat i / M, Z.of_nat i mod M)%Z.

Definition edgeb (N m l : Z) : bool := ((m =? 0) || (m =? N) || (l =? 0) || (l =? N))%Z%bool.

Lemma edgeb_spec : forall N m l, (0 <= m <= N)%Z -> (0 <= l <= N)%Z -> if edgeb N m l then on_edge N m l else inside N m l.
Proof.
  intros N m l Hm Hl. unfold edgeb, on_edge, inside.
  destruct (Z.eqb_spec m 0); destruct (Z.eqb_spec m N); destruct (Z.eqb_spec l 0); destruct (Z.eqb_spec l N); cbn [orb]; lia.
Qed.

Section Stable.
Variables (N : Z) (R0 R1 a k : R).
Hypothesis HN : (1 <= N)%Z.
Let M := (N + 1)%Z.
Let n := Z.to_nat (M * M).

Definition prow (w : Z -> Z -> R) (i : nat) : R :=
  let q := node_of M i in if edgeb N (fst q) (snd q) then w (fst q) (snd q) else polar_op N R0 R1 a k w (fst q) (snd q).

Lemma prow_lin : forall w w' c i, prow (fun m l => w m l + c * w' m l) i = prow w i + c * prow w' i.
Proof. intros w w' c i. unfold prow. cbv zeta. destruct (edgeb _ _ _); [reflexivity|]. unfold polar_op. apply scheme_lin. Qed.

Lemma prow_zero : forall i, prow (fun _ _ => 0) i = 0.
Proof.
  intros i. unfold prow. cbv zeta. destruct (edgeb _ _ _); [reflexivity|].
  unfold polar_op, compact_scheme, op_radial, op_angular, op_drr, op_dr, op_dthth. cbv zeta beta. unfold Rdiv. ring.
Qed.

Lemma prow_sum : forall (x : nat -> R) j i, prow (fun m l => rsum j (fun i => x i * unit_at M i m l)) i = rsum j (fun c => prow (unit_at M c) i * x c).
Proof.
  intros x j i. induction j as [|j IH]; cbn [rsum]; [apply prow_zero|]. rewrite prow_lin, IH. ring.
Qed.

Lemma unit_sum : forall (x : nat -> R) m l, (0 <= m <= N)%Z -> (0 <= l <= N)%Z -> rsum n (fun i => x i * unit_at M i m l) = x (Z.to_nat (m * M + l)).
Proof.
  intros x m l Hm Hl. set (q := Z.to_nat (m * M + l)). assert (Hq : (q < n)%nat) by (unfold q, n, M; nia).
  assert (Eq : Z.of_nat q = (m * M + l)%Z) by (unfold q, M; rewrite Z2Nat.id; nia).
  assert (G : forall j, rsum j (fun i => x i * unit_at M i m l) = if Nat.ltb q j then x q else 0).
  { induction j as [|j IH]; [reflexivity|]. cbn [rsum]. rewrite IH. unfold unit_at. rewrite <- Eq.
    destruct (Z.eqb_spec (Z.of_nat q) (Z.of_nat j)) as [E|E]; destruct (Nat.ltb_spec q j); destruct (Nat.ltb_spec q (S j)); try lia; try ring.
    replace j with q by lia. ring. }
  rewrite G. destruct (Nat.ltb_spec q n); [reflexivity|lia].
Qed.

Lemma node_index : forall i, (i < n)%nat -> let q := node_of M i in (0 <= fst q <= N)%Z /\ (0 <= snd q <= N)%Z /\ Z.to_nat (fst q * M + snd q) = i.
Proof.
  intros i Hi. unfold node_of. cbn [fst snd]. assert (HM : (0 < M)%Z) by (unfold M; lia).
  pose proof (Z_div_mod_eq_full (Z.of_nat i) M). pose proof (Z.mod_pos_bound (Z.of_nat i) M HM).
  assert (0 <= Z.of_nat i / M < M)%Z by (split; [apply Z.div_pos; lia|apply Z.div_lt_upper_bound; unfold n in Hi; lia]).
  unfold M in *. repeat split; nia.
Qed.

Lemma prow_ext : forall w w' i, (i < n)%nat -> (forall m l, (0 <= m <= N)%Z -> (0 <= l <= N)%Z -> w m l = w' m l) -> prow w i = prow w' i.
Proof.
  intros w w' i Hi H. destruct (node_index i Hi) as (Hm & Hl & _). unfold prow. cbv zeta. pose proof (edgeb_spec N _ _ Hm Hl) as S.
  destruct (edgeb _ _ _); [apply H; assumption|]. unfold polar_op. apply scheme_ext. intros p q Hp Hq. apply H; destruct S; lia.
Qed.

Definition pmat (i j : nat) : C := RtoC (prow (unit_at M j) i).

Lemma pmat_parts : forall x i, mat_app n pmat x i = (rsum n (fun j => prow (unit_at M j) i * fst (x j)), rsum n (fun j => prow (unit_at M j) i * snd (x j))).
Proof.
  intros x i. unfold mat_app. generalize n as j. induction j as [|j IH]; [reflexivity|]. cbn [csum rsum]. rewrite IH.
    unfold pmat, Cplus, Cmult, RtoC. cbn [fst snd]. f_equal; ring.
Qed.

Lemma pmat_rank : polar_trivial N R0 R1 a k -> full_rank n n pmat.
Proof.
  intros Hu. intros x Hx. assert (Z : forall y : nat -> R, (forall i, (i < n)%nat -> rsum n (fun j => prow (unit_at M j) i * y j) = 0) -> forall j, (j < n)%nat -> y j = 0).
    { intros y Hy. set (w := fun m l => rsum n (fun i => y i * unit_at M i m l)).
      assert (Hw : forall i, (i < n)%nat -> prow w i = 0) by (intros i Hi; unfold w; rewrite prow_sum; apply Hy; exact Hi).
      assert (Idx : forall m l, (0 <= m <= N)%Z -> (0 <= l <= N)%Z -> let i := Z.to_nat (m * M + l) in (i < n)%nat /\ node_of M i = (m, l)).
      { intros m l Hm Hl i. assert (Ei : Z.of_nat i = (m * M + l)%Z) by (unfold i, M; rewrite Z2Nat.id; nia). split; [unfold i, n, M; nia|].
        unfold node_of. rewrite Ei. f_equal; [symmetry; apply (Z.div_unique _ _ _ l); unfold M; lia|symmetry; apply (Z.mod_unique _ _ m); unfold M; lia]. }
      assert (Hz : forall m l, in_polar_grid N (m, l) -> w m l = 0).
      { apply Hu.
        - intros m l He. destruct He as (Hm & Hl & Ho). destruct (Idx m l Hm Hl) as [Hi En]. specialize (Hw _ Hi). unfold prow in Hw. cbv zeta in Hw. rewrite En in Hw. cbn [fst snd] in Hw.
          pose proof (edgeb_spec N m l Hm Hl) as S. destruct (edgeb N m l); [exact Hw|]. destruct S. lia.
        - intros m l Hi0. destruct Hi0 as [Hm Hl]. destruct (Idx m l ltac:(lia) ltac:(lia)) as [Hi En]. specialize (Hw _ Hi). unfold prow in Hw. cbv zeta in Hw. rewrite En in Hw. cbn [fst snd] in Hw.
          pose proof (edgeb_spec N m l ltac:(lia) ltac:(lia)) as S. destruct (edgeb N m l); [|exact Hw]. destruct S as (_ & _ & S). lia. }
      intros j Hj. destruct (node_index j Hj) as (Hm & Hl & Ej). rewrite <- Ej. rewrite <- (unit_sum y _ _ Hm Hl). apply Hz. split; assumption. }
    intros j Hj. rewrite (surjective_pairing (x j)). unfold RtoC. f_equal.
    - apply (Z (fun j => fst (x j))); [|exact Hj]. intros i Hi. specialize (Hx i Hi). rewrite pmat_parts in Hx. apply (f_equal fst) in Hx. exact Hx.
    - apply (Z (fun j => snd (x j))); [|exact Hj]. intros i Hi. specialize (Hx i Hi). rewrite pmat_parts in Hx. apply (f_equal snd) in Hx. exact Hx.
Qed.

Lemma stable_exists : polar_trivial N R0 R1 a k -> exists sigma, 0 <= sigma /\ polar_stable N R0 R1 a k sigma.
Proof.
  intros Hu. pose proof (pmat_rank Hu) as Hr. set (A := pmat) in *. assert (Parts := pmat_parts). change pmat with A in Parts.
  destruct (rank_bounded n n A Hr) as (K & HK & B). exists (K * INR n). split; [apply Rmult_le_pos; [exact HK|apply pos_INR]|].
  intros w bB bE HB HE Hb Hi m l [Hm Hl]. cbn [fst snd] in Hm, Hl.
  set (x := fun i => RtoC (w (fst (node_of M i)) (snd (node_of M i)))).
  assert (Hx : forall m l, (0 <= m <= N)%Z -> (0 <= l <= N)%Z -> rsum n (fun i => fst (x i) * unit_at M i m l) = w m l).
  { intros m' l' Hm' Hl'. rewrite (unit_sum (fun i => fst (x i)) m' l' Hm' Hl'). unfold x. cbn [fst RtoC]. set (i := Z.to_nat (m' * M + l')).
    assert (Ei : Z.of_nat i = (m' * M + l')%Z) by (unfold i, M; rewrite Z2Nat.id; nia).
    unfold node_of. rewrite Ei. cbn [fst snd]. f_equal; [symmetry; apply (Z.div_unique _ _ _ l'); unfold M; lia|symmetry; apply (Z.mod_unique _ _ m'); unfold M; lia]. }
  assert (Happ : forall i, (i < n)%nat -> Cmod (mat_app n A x i) <= bB + bE).
  { intros i Hin. rewrite Parts. replace (rsum n (fun j => prow (unit_at M j) i * snd (x j))) with 0.
    2:{ symmetry. rewrite <- (Rmult_0_r (INR n)), <- rsum_const. apply rsum_ext. intros c _. unfold x. cbn [snd RtoC]. ring. }
    fold (RtoC (rsum n (fun j => prow (unit_at M j) i * fst (x j)))). rewrite Cmod_R, <- prow_sum.
    rewrite (prow_ext _ w i Hin Hx). destruct (node_index i Hin) as (Hm' & Hl' & _). unfold prow. cbv zeta. pose proof (edgeb_spec N _ _ Hm' Hl') as S.
    destruct (edgeb _ _ _); [specialize (Hb _ _ S)|specialize (Hi _ _ S)]; lra. }
  set (i := Z.to_nat (m * M + l)). assert (Hin : (i < n)%nat) by (unfold i, n, M; nia).
  assert (Ei : Z.of_nat i = (m * M + l)%Z) by (unfold i, M; rewrite Z2Nat.id; nia).
  assert (En : node_of M i = (m, l)).
  { unfold node_of. rewrite Ei. f_equal; [symmetry; apply (Z.div_unique _ _ _ l); unfold M; lia|symmetry; apply (Z.mod_unique _ _ m); unfold M; lia]. }
  specialize (B x i Hin). unfold x in B at 1. rewrite En in B. cbn [fst snd] in B. rewrite Cmod_R in B.
  eapply Rle_trans; [exact B|]. rewrite Rmult_assoc. apply Rmult_le_compat_l; [exact HK|].
  assert (Hs : sq n (mat_app n A x) <= (INR n * (bB + bE)) ^ 2).
  { unfold sq. apply Rle_trans with (rsum n (fun _ => (bB + bE) ^ 2)).
    - apply rsum_le. intros c Hc. apply pow_incr. split; [apply Cmod_ge_0|apply Happ; exact Hc].
    - rewrite rsum_const. replace ((INR n * (bB + bE)) ^ 2) with (INR n * INR n * (bB + bE) ^ 2) by ring.
      apply Rmult_le_compat_r; [apply pow2_ge_0|]. assert (1 <= INR n) by (apply (le_INR 1); lia). nra. }
  apply Rle_trans with (sqrt ((INR n * (bB + bE)) ^ 2)); [apply sqrt_le_1_alt; exact Hs|].
  rewrite sqrt_pow2; [lra|]. apply Rmult_le_pos; [apply pos_INR|lra].
Qed.
End Stable.
