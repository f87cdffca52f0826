(** Residual of the polar scheme (C37). *)
From Coq Require Import Reals Lra Lia ZArith List Bool.
From Coquelicot Require Import Coquelicot.
From Verif Require Import Model_PolarFD Spec_PolarFD Spec_Fd Proof_Taylor Proof_PolarFD.
Open Scope R_scope.

Lemma coefficients : forall r hr hth k w m l,
  r <> 0 -> r - hr <> 0 -> r + hr <> 0 -> hr <> 0 -> hth <> 0 ->
  stencil_sum (local_get (fd4_local (r - hr) (r - hr / 2) r (r + hr / 2) (r + hr) hr hth k)) w m l =
  compact_scheme (fun j => r + IZR (j - m) * hr) hr hth k w m l.
Proof.
  intros r hr hth k w m l H1 H2 H3 H4 H5.
  unfold stencil_sum, fd4_local. rewrite !local_get_same by offs.
  cbn [Z.eqb Pos.eqb andb]. unfold local_get.
  unfold compact_scheme, op_radial, op_angular, op_drr, op_dr, op_dthth. cbv beta zeta.
  replace (m - m)%Z with 0%Z by lia. replace (m + 1 - m)%Z with 1%Z by lia.
  replace (m - 1 - m)%Z with (-1)%Z by lia.
  replace (r + 0 * hr) with r by ring. replace (r + 1 * hr) with (r + hr) by ring.
  replace (r + -1 * hr) with (r - hr) by ring.
  field. tauto.
Qed.

(** Negative powers of r and products with them. *)
Definition ipow (c : nat) (r : R) : R :=
  match c with
  | 0%nat => / r ^ 2 | 1%nat => -2 * / r ^ 3 | 2%nat => 6 * / r ^ 4
  | 3%nat => -24 * / r ^ 5 | _ => 120 * / r ^ 6
  end.

Lemma ipow_derive : forall c r, (c < 4)%nat -> r <> 0 -> is_derive (ipow c) r (ipow (S c) r).
Proof.
  intros c r Hc Hr.
  destruct c as [|[|[|[|c]]]]; [| | | |lia]; unfold ipow;
    (auto_derive;
     [repeat split; repeat apply Rmult_integral_contrapositive_currified;
        try exact Hr; exact R1_neq_R0
     |simpl; field; exact Hr]).
Qed.

Definition leib (q : nat -> R -> R) (i : nat) (r : R) : R :=
  match i with
  | 0%nat => ipow 0 r * q 0%nat r
  | 1%nat => ipow 0 r * q 1%nat r + ipow 1 r * q 0%nat r
  | 2%nat => ipow 0 r * q 2%nat r + 2 * (ipow 1 r * q 1%nat r) + ipow 2 r * q 0%nat r
  | 3%nat => ipow 0 r * q 3%nat r + 3 * (ipow 1 r * q 2%nat r) + 3 * (ipow 2 r * q 1%nat r)
             + ipow 3 r * q 0%nat r
  | _ => ipow 0 r * q 4%nat r + 4 * (ipow 1 r * q 3%nat r) + 6 * (ipow 2 r * q 2%nat r)
             + 4 * (ipow 3 r * q 1%nat r) + ipow 4 r * q 0%nat r
  end.

Lemma leib_derive : forall q n r i, (i < n)%nat -> (n <= 4)%nat -> r <> 0 ->
  (forall c, (c < n)%nat -> is_derive (q c) r (q (S c) r)) ->
  is_derive (leib q i) r (leib q (S i) r).
Proof.
  intros q n r i Hi Hn Hr Hq.
  assert (D : forall c d, (c < 4)%nat -> (d < n)%nat ->
    is_derive (fun t => ipow c t * q d t) r (ipow (S c) r * q d r + ipow c r * q (S d) r)).
  { intros c d Hc Hd. apply (is_derive_mult (ipow c) (q d)); [apply ipow_derive; assumption|
      apply Hq; exact Hd|intros; apply Rmult_comm]. }
  destruct i as [|[|[|[|i]]]]; [| | | |lia]; cbn [leib].
  - eapply is_derive_ext; [intros t; reflexivity|].
    replace (ipow 0 r * q 1%nat r + ipow 1 r * q 0%nat r)
      with (ipow 1 r * q 0%nat r + ipow 0 r * q 1%nat r) by ring.
    apply D; lia.
  - replace (_ + _ + _) with ((ipow 1 r * q 1%nat r + ipow 0 r * q 2%nat r)
      + (ipow 2 r * q 0%nat r + ipow 1 r * q 1%nat r)) by ring.
    apply (is_derive_plus (V := R_NormedModule)); apply D; lia.
  - replace (_ + _ + _ + _) with (((ipow 1 r * q 2%nat r + ipow 0 r * q 3%nat r)
      + 2 * (ipow 2 r * q 1%nat r + ipow 1 r * q 2%nat r))
      + (ipow 3 r * q 0%nat r + ipow 2 r * q 1%nat r)) by ring.
    apply (is_derive_plus (V := R_NormedModule)); [|apply D; lia].
    apply (is_derive_plus (V := R_NormedModule)); [apply D; lia|].
    apply (is_derive_scal (fun t => ipow 1 t * q 1%nat t)). apply D; lia.
  - replace (_ + _ + _ + _ + _) with ((((ipow 1 r * q 3%nat r + ipow 0 r * q 4%nat r)
      + 3 * (ipow 2 r * q 2%nat r + ipow 1 r * q 3%nat r))
      + 3 * (ipow 3 r * q 1%nat r + ipow 2 r * q 2%nat r))
      + (ipow 4 r * q 0%nat r + ipow 3 r * q 1%nat r)) by ring.
    apply (is_derive_plus (V := R_NormedModule)); [|apply D; lia].
    apply (is_derive_plus (V := R_NormedModule)).
    + apply (is_derive_plus (V := R_NormedModule)); [apply D; lia|].
      apply (is_derive_scal (fun t => ipow 1 t * q 2%nat t)). apply D; lia.
    + apply (is_derive_scal (fun t => ipow 2 t * q 1%nat t)). apply D; lia.
Qed.

(** A bound for all five negative powers. *)
Definition kbound (rho : R) : R :=
  / rho ^ 2 + 2 * / rho ^ 3 + 6 * / rho ^ 4 + 24 * / rho ^ 5 + 120 * / rho ^ 6.

Lemma ipow_bound : forall rho r c, 0 < rho <= r -> Rabs (ipow c r) <= kbound rho.
Proof.
  intros rho r c Hr.
  assert (P : forall n, 0 < / rho ^ n) by (intros; apply Rinv_0_lt_compat, pow_lt; lra).
  assert (L : forall n, 0 <= / r ^ n <= / rho ^ n).
  { intros n. split; [left; apply Rinv_0_lt_compat, pow_lt; lra|].
    apply Rinv_le_contravar; [apply pow_lt; lra|]. apply pow_incr. lra. }
  pose proof (P 2%nat). pose proof (P 3%nat). pose proof (P 4%nat). pose proof (P 5%nat).
  pose proof (P 6%nat).
  pose proof (L 2%nat). pose proof (L 3%nat). pose proof (L 4%nat). pose proof (L 5%nat).
  pose proof (L 6%nat). unfold kbound.
  destruct c as [|[|[|[|c]]]]; unfold ipow; apply Rabs_le; lra.
Qed.

Lemma Rabs_mult_le : forall a b A B, Rabs a <= A -> Rabs b <= B -> Rabs (a * b) <= A * B.
Proof.
  intros a b A B Ha Hb. rewrite Rabs_mult. apply Rmult_le_compat; try assumption; apply Rabs_pos.
Qed.

Lemma leib_bound : forall rho r q i B, 0 < rho <= r -> (i <= 4)%nat ->
  (forall c, (c <= i)%nat -> Rabs (q c r) <= B) ->
  Rabs (leib q i r) <= 16 * (kbound rho * B).
Proof.
  intros rho r q i B Hr Hi Hq.
  assert (T : forall c d, (d <= i)%nat -> - (kbound rho * B) <= ipow c r * q d r <= kbound rho * B).
  { intros c d Hd. apply Rabs_le_between. apply Rabs_mult_le; [apply ipow_bound; exact Hr|].
    apply Hq, Hd. }
  destruct i as [|[|[|[|[|i]]]]]; [| | | | |lia]; cbn [leib]; apply Rabs_le.
  - pose proof (T 0%nat 0%nat ltac:(lia)). lra.
  - pose proof (T 0%nat 1%nat ltac:(lia)). pose proof (T 1%nat 0%nat ltac:(lia)). lra.
  - pose proof (T 0%nat 2%nat ltac:(lia)). pose proof (T 1%nat 1%nat ltac:(lia)).
    pose proof (T 2%nat 0%nat ltac:(lia)). lra.
  - pose proof (T 0%nat 3%nat ltac:(lia)). pose proof (T 1%nat 2%nat ltac:(lia)).
    pose proof (T 2%nat 1%nat ltac:(lia)). pose proof (T 3%nat 0%nat ltac:(lia)). lra.
  - pose proof (T 0%nat 4%nat ltac:(lia)). pose proof (T 1%nat 3%nat ltac:(lia)).
    pose proof (T 2%nat 2%nat ltac:(lia)). pose proof (T 3%nat 1%nat ltac:(lia)).
    pose proof (T 4%nat 0%nat ltac:(lia)). lra.
Qed.

Lemma Rabs_div_le : forall a b A c, 0 < b -> Rabs a <= A -> A <= c * b -> Rabs (a / b) <= c.
Proof.
  intros a b A c Hb Ha Hc. unfold Rdiv. rewrite Rabs_mult, (Rabs_pos_eq (/ b)).
  2:{ left. apply Rinv_0_lt_compat, Hb. }
  apply (Rmult_le_reg_r b); [exact Hb|]. rewrite Rmult_assoc, Rinv_l by lra. lra.
Qed.

Lemma inv_le : forall rho r, 0 < rho <= r -> 0 < / r <= / rho.
Proof.
  intros rho r H. split; [apply Rinv_0_lt_compat; lra|]. apply Rinv_le_contravar; lra.
Qed.

Section Residual.
Variable (U : nat -> nat -> R -> R -> R) (u : R -> R -> R).
Variable (rho r0 t0 h e k M : R).
Hypothesis Hrho : 0 < rho <= r0 - h.
Hypothesis Hh : 0 < h.
Hypothesis He : 0 < e.
Hypothesis HU : partials 6 (box r0 h t0 e) u U.
Hypothesis HM : all_bounded 6 M (box r0 h t0 e) U.

Let io := / rho.

Local Lemma Mpos : 0 <= M.
Proof.
  eapply Rle_trans; [apply Rabs_pos|].
  apply (HM 0%nat 0%nat ltac:(lia) r0 t0). split; lra.
Qed.

Local Lemma Ur : forall i j r t, (i + j < 6)%nat -> r0 - h <= r <= r0 + h -> t0 - e <= t <= t0 + e ->
  is_derive (fun s => U i j s t) r (U (S i) j r t).
Proof. intros. apply (proj2 HU); [assumption|split; assumption]. Qed.
Local Lemma Ut : forall i j r t, (i + j < 6)%nat -> r0 - h <= r <= r0 + h -> t0 - e <= t <= t0 + e ->
  is_derive (U i j r) t (U i (S j) r t).
Proof. intros. apply (proj2 HU i j); [assumption|split; assumption]. Qed.
Local Lemma UM : forall i j r t, (i + j <= 6)%nat -> r0 - h <= r <= r0 + h -> t0 - e <= t <= t0 + e ->
  Rabs (U i j r t) <= M.
Proof. intros. apply HM; [assumption|split; assumption]. Qed.

(** Radial flux operator on a function of r. *)
Definition rad_op (g : R -> R) : R := dd g r0 h / h ^ 2 + d1 g r0 h / (2 * h * r0).

Local Lemma r0pos : 0 < r0. Proof. lra. Qed.

Local Lemma ir : forall a A, Rabs a <= A -> Rabs (a / r0) <= A * io.
Proof.
  intros a A Ha. unfold Rdiv. apply Rabs_mult_le; [exact Ha|].
  pose proof (inv_le rho r0 ltac:(lra)) as H. rewrite Rabs_pos_eq by lra. apply H.
Qed.

(** Radial operator: bounded, second order, fourth order. *)
Local Lemma rad_bounded : forall j t, (2 + j <= 6)%nat -> t0 - e <= t <= t0 + e ->
  Rabs (rad_op (fun s => U 0%nat j s t)) <= M + M * io.
Proof.
  intros j t Hj Ht. pose proof r0pos.
  pose proof (dd_2 (fun i s => U i j s t) r0 h M ltac:(lra)
    ltac:(intros; apply Ur; [lia|lra|lra]) ltac:(intros; apply UM; [lia|lra|lra])) as H2.
  pose proof (d1_1 (fun i s => U i j s t) r0 h M ltac:(lra)
    ltac:(intros; apply Ur; [lia|lra|lra]) ltac:(intros; apply UM; [lia|lra|lra])) as H1.
  unfold rad_op. eapply Rle_trans; [apply Rabs_triang|]. apply Rplus_le_compat.
  - apply (Rabs_div_le _ _ _ _ (pow_lt h 2 Hh) H2). lra.
  - replace (d1 (fun s => U 0%nat j s t) r0 h / (2 * h * r0))
      with (d1 (fun s => U 0%nat j s t) r0 h / (2 * h) / r0) by (field; lra).
    apply ir. refine (Rabs_div_le _ (2 * h) _ _ _ H1 _); [lra|]. lra.
Qed.

Local Lemma rad_second : forall j t, (4 + j <= 6)%nat -> t0 - e <= t <= t0 + e ->
  Rabs (rad_op (fun s => U 0%nat j s t) - (U 2%nat j r0 t + U 1%nat j r0 t / r0))
    <= (M / 12 + M / 6 * io) * h ^ 2.
Proof.
  intros j t Hj Ht. pose proof r0pos.
  pose proof (dd_4 (fun i s => U i j s t) r0 h M ltac:(lra)
    ltac:(intros; apply Ur; [lia|lra|lra]) ltac:(intros; apply UM; [lia|lra|lra])) as H2.
  pose proof (d1_3 (fun i s => U i j s t) r0 h M ltac:(lra)
    ltac:(intros; apply Ur; [lia|lra|lra]) ltac:(intros; apply UM; [lia|lra|lra])) as H1.
  unfold rad_op.
  set (A := dd (fun s => U 0%nat j s t) r0 h - h ^ 2 * U 2%nat j r0 t) in *.
  set (B := d1 (fun s => U 0%nat j s t) r0 h - 2 * h * U 1%nat j r0 t) in *.
  replace (_ - _) with (A / h ^ 2 + B / (2 * h) / r0) by (unfold A, B; field; lra).
  eapply Rle_trans; [apply Rabs_triang|]. rewrite Rmult_plus_distr_r. apply Rplus_le_compat.
  - apply (Rabs_div_le _ _ _ _ (pow_lt h 2 Hh) H2). simpl. lra.
  - replace (M / 6 * io * h ^ 2) with (M / 6 * h ^ 2 * io) by ring.
    apply ir. refine (Rabs_div_le _ (2 * h) _ _ _ H1 _); [lra|]. simpl. lra.
Qed.

Local Lemma rad_fourth : 
  Rabs (rad_op (fun s => U 0%nat 0%nat s t0) - (U 2%nat 0%nat r0 t0 + U 1%nat 0%nat r0 t0 / r0
    + h ^ 2 / 12 * (U 4%nat 0%nat r0 t0 + 2 * U 3%nat 0%nat r0 t0 / r0)))
    <= (M / 360 + M / 120 * io) * h ^ 4.
Proof.
  pose proof r0pos.
  pose proof (dd_6 (fun i s => U i 0%nat s t0) r0 h M ltac:(lra)
    ltac:(intros; apply Ur; [lia|lra|lra]) ltac:(intros; apply UM; [lia|lra|lra])) as H2.
  pose proof (d1_5 (fun i s => U i 0%nat s t0) r0 h M ltac:(lra)
    ltac:(intros; apply Ur; [lia|lra|lra]) ltac:(intros; apply UM; [lia|lra|lra])) as H1.
  unfold rad_op.
  set (A := dd (fun s => U 0%nat 0%nat s t0) r0 h - h ^ 2 * U 2%nat 0%nat r0 t0
    - h ^ 4 / 12 * U 4%nat 0%nat r0 t0) in *.
  set (B := d1 (fun s => U 0%nat 0%nat s t0) r0 h - 2 * h * U 1%nat 0%nat r0 t0
    - h ^ 3 / 3 * U 3%nat 0%nat r0 t0) in *.
  replace (_ - _) with (A / h ^ 2 + B / (2 * h) / r0) by (unfold A, B; field; lra).
  eapply Rle_trans; [apply Rabs_triang|]. rewrite Rmult_plus_distr_r. apply Rplus_le_compat.
  - apply (Rabs_div_le _ _ _ _ (pow_lt h 2 Hh) H2). simpl. lra.
  - replace (M / 120 * io * h ^ 4) with (M / 120 * h ^ 4 * io) by ring.
    apply ir. refine (Rabs_div_le _ (2 * h) _ _ _ H1 _); [lra|]. simpl. lra.
Qed.

(** The auxiliary function v = k^2 u + u_thth / r^2 and its r-derivatives. *)
Definition vfun (i : nat) (r : R) : R :=
  k ^ 2 * U i 0%nat r t0 + leib (fun c s => U c 2%nat s t0) i r.

Local Lemma vfun_derive : forall i r, (i < 4)%nat -> r0 - h <= r <= r0 + h ->
  is_derive (vfun i) r (vfun (S i) r).
Proof.
  intros i r Hi Hr. unfold vfun. apply (is_derive_plus (V := R_NormedModule)).
  - apply (is_derive_scal (fun s => U i 0%nat s t0)). apply Ur; [lia|lra|lra].
  - apply (leib_derive (fun c s => U c 2%nat s t0) 4 r i); [lia|lia|lra|].
    intros c Hc. apply Ur; [lia|lra|lra].
Qed.

Definition BV : R := k ^ 2 * M + 16 * (kbound rho * M).
Local Lemma vfun_bound : forall i r, (i <= 4)%nat -> r0 - h <= r <= r0 + h -> Rabs (vfun i r) <= BV.
Proof.
  intros i r Hi Hr. unfold vfun, BV. eapply Rle_trans; [apply Rabs_triang|]. apply Rplus_le_compat.
  - apply Rabs_mult_le; [|apply UM; [lia|lra|lra]]. rewrite Rabs_pos_eq; [lra|]. apply pow2_ge_0.
  - apply (leib_bound rho r _ i M); [lra|exact Hi|]. intros c Hc. apply UM; [lia|lra|lra].
Qed.

(** Error of the angular difference, as a function of r. *)
Definition qfun (i : nat) (r : R) : R := dd (U i 0%nat r) t0 e / e ^ 2 - U i 2%nat r t0.
Definition tfun (i : nat) (r : R) : R := leib qfun i r.

Local Lemma qfun_derive : forall i r, (i < 2)%nat -> r0 - h <= r <= r0 + h ->
  is_derive (qfun i) r (qfun (S i) r).
Proof.
  intros i r Hi Hr. unfold qfun. apply (is_derive_minus (V := R_NormedModule)).
  - unfold dd. apply (is_derive_ext (fun s => / e ^ 2 * (U i 0%nat s (t0 + e) - 2 * U i 0%nat s t0
      + U i 0%nat s (t0 - e)))); [intros s; unfold Rdiv; apply Rmult_comm|].
    unfold Rdiv. rewrite Rmult_comm.
    apply (is_derive_scal (fun s => U i 0%nat s (t0 + e) - 2 * U i 0%nat s t0 + U i 0%nat s (t0 - e))).
    apply (is_derive_plus (V := R_NormedModule)); [|apply Ur; [lia|lra|lra]].
    apply (is_derive_minus (V := R_NormedModule)); [apply Ur; [lia|lra|lra]|].
    apply (is_derive_scal (fun s => U i 0%nat s t0)). apply Ur; [lia|lra|lra].
  - apply Ur; [lia|lra|lra].
Qed.

Local Lemma qfun_bound : forall i r, (i <= 2)%nat -> r0 - h <= r <= r0 + h ->
  Rabs (qfun i r) <= M / 12 * e ^ 2.
Proof.
  intros i r Hi Hr. unfold qfun.
  pose proof (dd_4 (fun j => U i j r) t0 e M ltac:(lra)
    ltac:(intros; apply Ut; [lia|lra|lra]) ltac:(intros; apply UM; [lia|lra|lra])) as H.
  set (A := dd (U i 0%nat r) t0 e - e ^ 2 * U i 2%nat r t0) in *.
  replace (_ - _) with (A / e ^ 2) by (unfold A; field; lra).
  apply (Rabs_div_le _ _ _ _ (pow_lt e 2 He) H). simpl. lra.
Qed.

Definition BT : R := 16 * (kbound rho * (M / 12 * e ^ 2)).
Local Lemma tfun_derive : forall i r, (i < 2)%nat -> r0 - h <= r <= r0 + h ->
  is_derive (tfun i) r (tfun (S i) r).
Proof.
  intros i r Hi Hr. unfold tfun.
  apply (leib_derive qfun 2 r i); [lia|lia|lra|]. intros c Hc. apply qfun_derive; [lia|lra].
Qed.
Local Lemma tfun_bound : forall i r, (i <= 2)%nat -> r0 - h <= r <= r0 + h -> Rabs (tfun i r) <= BT.
Proof.
  intros i r Hi Hr. unfold tfun, BT. apply (leib_bound rho r _ i); [lra|lia|].
  intros c Hc. apply qfun_bound; [lia|lra].
Qed.

(** The eight error terms. *)
Local Lemma err_ang : Rabs (dd (U 0%nat 0%nat r0) t0 e / e ^ 2 / r0 ^ 2
    - (U 0%nat 2%nat r0 t0 + e ^ 2 / 12 * U 0%nat 4%nat r0 t0) / r0 ^ 2)
  <= M / 360 * io ^ 2 * e ^ 4.
Proof.
  pose proof r0pos.
  pose proof (dd_6 (fun j => U 0%nat j r0) t0 e M ltac:(lra)
    ltac:(intros; apply Ut; [lia|lra|lra]) ltac:(intros; apply UM; [lia|lra|lra])) as H6.
  set (A := dd (U 0%nat 0%nat r0) t0 e - e ^ 2 * U 0%nat 2%nat r0 t0
    - e ^ 4 / 12 * U 0%nat 4%nat r0 t0) in *.
  replace (_ - _) with (A / e ^ 2 / r0 / r0) by (unfold A; field; lra).
  replace (M / 360 * io ^ 2 * e ^ 4) with (M / 360 * e ^ 4 * io * io) by ring.
  apply ir, ir. apply (Rabs_div_le _ _ _ _ (pow_lt e 2 He) H6). simpl. lra.
Qed.

Local Lemma err_v : Rabs ((dd (vfun 0) r0 h / h ^ 2 - vfun 2 r0)
    + (d1 (vfun 0) r0 h / (2 * h) - vfun 1 r0) / r0) <= (BV / 12 + BV / 6 * io) * h ^ 2.
Proof.
  pose proof r0pos.
  pose proof (dd_4 vfun r0 h BV ltac:(lra)
    ltac:(intros; apply vfun_derive; [lia|lra]) ltac:(intros; apply vfun_bound; [lia|lra])) as H2.
  pose proof (d1_3 vfun r0 h BV ltac:(lra)
    ltac:(intros; apply vfun_derive; [lia|lra]) ltac:(intros; apply vfun_bound; [lia|lra])) as H1.
  set (A := dd (vfun 0) r0 h - h ^ 2 * vfun 2 r0) in *.
  set (B := d1 (vfun 0) r0 h - 2 * h * vfun 1 r0) in *.
  replace (_ + _) with (A / h ^ 2 + B / (2 * h) / r0) by (unfold A, B; field; lra).
  eapply Rle_trans; [apply Rabs_triang|]. rewrite Rmult_plus_distr_r. apply Rplus_le_compat.
  - apply (Rabs_div_le _ _ _ _ (pow_lt h 2 Hh) H2). simpl. lra.
  - replace (BV / 6 * io * h ^ 2) with (BV / 6 * h ^ 2 * io) by ring.
    apply ir. refine (Rabs_div_le _ (2 * h) _ _ _ H1 _); [lra|]. simpl. lra.
Qed.

Local Lemma err_t : Rabs (dd (tfun 0) r0 h / h ^ 2 + d1 (tfun 0) r0 h / (2 * h) / r0
    + tfun 0 r0 / r0 ^ 2) <= BT * (1 + io + io ^ 2).
Proof.
  pose proof r0pos.
  pose proof (dd_2 tfun r0 h BT ltac:(lra)
    ltac:(intros; apply tfun_derive; [lia|lra]) ltac:(intros; apply tfun_bound; [lia|lra])) as H2.
  pose proof (d1_1 tfun r0 h BT ltac:(lra)
    ltac:(intros; apply tfun_derive; [lia|lra]) ltac:(intros; apply tfun_bound; [lia|lra])) as H1.
  pose proof (tfun_bound 0 r0 ltac:(lia) ltac:(lra)) as H0.
  replace (BT * (1 + io + io ^ 2)) with (BT + BT * io + BT * io * io) by ring.
  replace (tfun 0 r0 / r0 ^ 2) with (tfun 0 r0 / r0 / r0) by (field; lra).
  eapply Rle_trans; [apply Rabs_triang|]. apply Rplus_le_compat; [|apply ir, ir, H0].
  eapply Rle_trans; [apply Rabs_triang|]. apply Rplus_le_compat.
  - apply (Rabs_div_le _ _ _ _ (pow_lt h 2 Hh) H2). lra.
  - apply ir. refine (Rabs_div_le _ (2 * h) _ _ _ H1 _); [lra|]. lra.
Qed.

Local Lemma err_d : Rabs ((d1 (fun s => U 0%nat 0%nat s t0) r0 h / (2 * h) - U 1%nat 0%nat r0 t0) / r0 ^ 3)
  <= M / 6 * io ^ 3 * h ^ 2.
Proof.
  pose proof r0pos.
  pose proof (d1_3 (fun i s => U i 0%nat s t0) r0 h M ltac:(lra)
    ltac:(intros; apply Ur; [lia|lra|lra]) ltac:(intros; apply UM; [lia|lra|lra])) as H1.
  set (B := d1 (fun s => U 0%nat 0%nat s t0) r0 h - 2 * h * U 1%nat 0%nat r0 t0) in *.
  replace (_ / _) with (B / (2 * h) / r0 / r0 / r0) by (unfold B; field; lra).
  replace (M / 6 * io ^ 3 * h ^ 2) with (M / 6 * h ^ 2 * io * io * io) by ring.
  apply ir, ir, ir. refine (Rabs_div_le _ (2 * h) _ _ _ H1 _); [lra|]. simpl. lra.
Qed.

Definition gfun (j : nat) (t : R) : R :=
  rad_op (fun s => U 0%nat j s t) + k ^ 2 * U 0%nat j r0 t.

Local Lemma gfun_derive : forall j t, (j < 4)%nat -> t0 - e <= t <= t0 + e ->
  is_derive (gfun j) t (gfun (S j) t).
Proof.
  intros j t Hj Ht. unfold gfun, rad_op, dd, d1.
  assert (D : forall r, r0 - h <= r <= r0 + h -> is_derive (U 0%nat j r) t (U 0%nat (S j) r t))
    by (intros; apply Ut; [lia|lra|lra]).
  apply (is_derive_plus (V := R_NormedModule)).
  - apply (is_derive_plus (V := R_NormedModule)).
    + apply (is_derive_ext (fun t => / h ^ 2 * (U 0%nat j (r0 + h) t - 2 * U 0%nat j r0 t
        + U 0%nat j (r0 - h) t))); [intros s; unfold Rdiv; apply Rmult_comm|].
      unfold Rdiv. rewrite Rmult_comm.
      apply (is_derive_scal (fun t => U 0%nat j (r0 + h) t - 2 * U 0%nat j r0 t + U 0%nat j (r0 - h) t)).
      apply (is_derive_plus (V := R_NormedModule)); [|apply D; lra].
      apply (is_derive_minus (V := R_NormedModule)); [apply D; lra|].
      apply (is_derive_scal (U 0%nat j r0)). apply D; lra.
    + apply (is_derive_ext (fun t => / (2 * h * r0) * (U 0%nat j (r0 + h) t - U 0%nat j (r0 - h) t)));
        [intros s; unfold Rdiv; apply Rmult_comm|].
      unfold Rdiv. rewrite (Rmult_comm _ (/ (2 * h * r0))).
      apply (is_derive_scal (fun t => U 0%nat j (r0 + h) t - U 0%nat j (r0 - h) t)).
      apply (is_derive_minus (V := R_NormedModule)); apply D; lra.
  - apply (is_derive_scal (U 0%nat j r0)). apply D; lra.
Qed.

Local Lemma err_g : Rabs (dd (gfun 0) t0 e / e ^ 2 - gfun 2 t0)
  <= (M + M * io + k ^ 2 * M) / 12 * e ^ 2.
Proof.
  assert (B : forall t, t0 - e <= t <= t0 + e -> Rabs (gfun 4 t) <= M + M * io + k ^ 2 * M).
  { intros t Ht. unfold gfun. eapply Rle_trans; [apply Rabs_triang|]. apply Rplus_le_compat.
    - apply rad_bounded; [lia|lra].
    - apply Rabs_mult_le; [rewrite Rabs_pos_eq; [lra|apply pow2_ge_0]|]. apply UM; [lia|lra|lra]. }
  pose proof (dd_4 gfun t0 e _ ltac:(lra) ltac:(intros; apply gfun_derive; [lia|lra]) B) as H.
  set (A := dd (gfun 0) t0 e - e ^ 2 * gfun 2 t0) in *.
  replace (_ - _) with (A / e ^ 2) by (unfold A; field; lra).
  apply (Rabs_div_le _ _ _ _ (pow_lt e 2 He) H). simpl. lra.
Qed.

(** Derivatives of the source. *)
Definition src_r (r t : R) : R :=
  U 3%nat 0%nat r t + U 2%nat 0%nat r t / r - U 1%nat 0%nat r t / r ^ 2
  + (U 1%nat 2%nat r t / r ^ 2 - 2 * U 0%nat 2%nat r t / r ^ 3) + k ^ 2 * U 1%nat 0%nat r t.
Definition src_rr (r t : R) : R :=
  U 4%nat 0%nat r t + U 3%nat 0%nat r t / r - 2 * U 2%nat 0%nat r t / r ^ 2
  + 2 * U 1%nat 0%nat r t / r ^ 3
  + (U 2%nat 2%nat r t / r ^ 2 - 4 * U 1%nat 2%nat r t / r ^ 3 + 6 * U 0%nat 2%nat r t / r ^ 4)
  + k ^ 2 * U 2%nat 0%nat r t.
Definition src_tt (r t : R) : R :=
  U 2%nat 2%nat r t + U 1%nat 2%nat r t / r + U 0%nat 4%nat r t / r ^ 2 + k ^ 2 * U 0%nat 2%nat r t.

Lemma decomposition :
  dd (fun s => U 0%nat 0%nat s t0) r0 h / h ^ 2 + d1 (fun s => U 0%nat 0%nat s t0) r0 h / (2 * h * r0)
  + dd (U 0%nat 0%nat r0) t0 e / e ^ 2 / r0 ^ 2 + k ^ 2 * U 0%nat 0%nat r0 t0
  + h ^ 2 / 12 * (dd (fun s => vfun 0 s + tfun 0 s) r0 h / h ^ 2
      + d1 (fun s => vfun 0 s + tfun 0 s) r0 h / (2 * h) / r0 + (vfun 0 r0 + tfun 0 r0) / r0 ^ 2)
  + h ^ 2 / (6 * r0 ^ 3) * (d1 (fun s => U 0%nat 0%nat s t0) r0 h / (2 * h))
  + e ^ 2 / 12 * (dd (gfun 0) t0 e / e ^ 2)
  - compact_source h e r0 (polar_helmholtz k U r0 t0) (src_r r0 t0) (src_rr r0 t0) (src_tt r0 t0)
  = (rad_op (fun s => U 0%nat 0%nat s t0) - (U 2%nat 0%nat r0 t0 + U 1%nat 0%nat r0 t0 / r0
       + h ^ 2 / 12 * (U 4%nat 0%nat r0 t0 + 2 * U 3%nat 0%nat r0 t0 / r0)))
  + (dd (U 0%nat 0%nat r0) t0 e / e ^ 2 / r0 ^ 2
       - (U 0%nat 2%nat r0 t0 + e ^ 2 / 12 * U 0%nat 4%nat r0 t0) / r0 ^ 2)
  + h ^ 2 / 12 * ((dd (vfun 0) r0 h / h ^ 2 - vfun 2 r0)
       + (d1 (vfun 0) r0 h / (2 * h) - vfun 1 r0) / r0)
  + h ^ 2 / 12 * (dd (tfun 0) r0 h / h ^ 2 + d1 (tfun 0) r0 h / (2 * h) / r0 + tfun 0 r0 / r0 ^ 2)
  + h ^ 2 / 6 * ((d1 (fun s => U 0%nat 0%nat s t0) r0 h / (2 * h) - U 1%nat 0%nat r0 t0) / r0 ^ 3)
  + e ^ 2 / 12 * (dd (gfun 0) t0 e / e ^ 2 - gfun 2 t0)
  + e ^ 2 / 12 * (rad_op (fun s => U 0%nat 2%nat s t0)
       - (U 2%nat 2%nat r0 t0 + U 1%nat 2%nat r0 t0 / r0)).
Proof.
  pose proof r0pos.
  assert (E1 : forall a b : R -> R, dd (fun s => a s + b s) r0 h = dd a r0 h + dd b r0 h)
    by (intros; unfold dd; ring).
  assert (E2 : forall a b : R -> R, d1 (fun s => a s + b s) r0 h = d1 a r0 h + d1 b r0 h)
    by (intros; unfold d1; ring).
  rewrite E1, E2.
  unfold compact_source, polar_helmholtz, src_r, src_rr, src_tt.
  change (gfun 2 t0) with (rad_op (fun s => U 0%nat 2%nat s t0) + k ^ 2 * U 0%nat 2%nat r0 t0).
  unfold rad_op.
  generalize (dd (vfun 0) r0 h) (d1 (vfun 0) r0 h) (dd (tfun 0) r0 h) (d1 (tfun 0) r0 h)
    (dd (gfun 0) t0 e) (dd (fun s => U 0%nat 0%nat s t0) r0 h) (d1 (fun s => U 0%nat 0%nat s t0) r0 h)
    (dd (U 0%nat 0%nat r0) t0 e) (dd (fun s => U 0%nat 2%nat s t0) r0 h)
    (d1 (fun s => U 0%nat 2%nat s t0) r0 h) (tfun 0 r0). intros.
  unfold vfun, leib, ipow. field. lra.
Qed.
End Residual.

Lemma src_r_derive : forall U u r0 t0 h e k r t, partials 6 (box r0 h t0 e) u U ->
  box r0 h t0 e r t -> r <> 0 ->
  is_derive (fun s => polar_helmholtz k U s t) r (src_r U k r t).
Proof.
  intros U u r0 t0 h e k r t [_ HU] Hb Hr.
  pose proof (proj1 (HU 2%nat 0%nat ltac:(lia) r t Hb)) as D2.
  pose proof (proj1 (HU 1%nat 0%nat ltac:(lia) r t Hb)) as D1.
  pose proof (proj1 (HU 0%nat 0%nat ltac:(lia) r t Hb)) as D0.
  pose proof (proj1 (HU 0%nat 2%nat ltac:(lia) r t Hb)) as D02.
  unfold polar_helmholtz.
  assert (Di : is_derive (fun s => / s) r (- / r ^ 2)).
  { auto_derive; [exact Hr|field; exact Hr]. }
  assert (Di2 : is_derive (fun s => / s ^ 2) r (-2 * / r ^ 3)).
  { exact (ipow_derive 0 r ltac:(lia) Hr). }
  replace (src_r U k r t) with
    (((U 3%nat 0%nat r t + (U 2%nat 0%nat r t * / r + U 1%nat 0%nat r t * (- / r ^ 2)))
      + (U 1%nat 2%nat r t * / r ^ 2 + U 0%nat 2%nat r t * (-2 * / r ^ 3)))
      + k ^ 2 * U 1%nat 0%nat r t) by (unfold src_r; field; exact Hr).
  apply (is_derive_plus (V := R_NormedModule)).
  - apply (is_derive_plus (V := R_NormedModule)).
    + apply (is_derive_plus (V := R_NormedModule)); [exact D2|].
      apply (is_derive_mult (fun s => U 1%nat 0%nat s t) (fun s => / s)); [exact D1|exact Di|].
      intros; apply Rmult_comm.
    + apply (is_derive_mult (fun s => U 0%nat 2%nat s t) (fun s => / s ^ 2)); [exact D02|exact Di2|].
      intros; apply Rmult_comm.
  - apply (is_derive_scal (fun s => U 0%nat 0%nat s t)). exact D0.
Qed.

Lemma src_rr_derive : forall U u r0 t0 h e k r t, partials 6 (box r0 h t0 e) u U ->
  box r0 h t0 e r t -> r <> 0 ->
  is_derive (fun s => src_r U k s t) r (src_rr U k r t).
Proof.
  intros U u r0 t0 h e k r t [_ HU] Hb Hr.
  pose proof (proj1 (HU 3%nat 0%nat ltac:(lia) r t Hb)) as D3.
  pose proof (proj1 (HU 2%nat 0%nat ltac:(lia) r t Hb)) as D2.
  pose proof (proj1 (HU 1%nat 0%nat ltac:(lia) r t Hb)) as D1.
  pose proof (proj1 (HU 1%nat 2%nat ltac:(lia) r t Hb)) as D12.
  pose proof (proj1 (HU 0%nat 2%nat ltac:(lia) r t Hb)) as D02.
  assert (Di : is_derive (fun s => / s) r (- / r ^ 2)).
  { auto_derive; [exact Hr|field; exact Hr]. }
  assert (Di2 : is_derive (fun s => / s ^ 2) r (-2 * / r ^ 3)).
  { exact (ipow_derive 0 r ltac:(lia) Hr). }
  assert (Di3 : is_derive (fun s => / s ^ 3) r (-3 * / r ^ 4)).
  { auto_derive; [repeat apply Rmult_integral_contrapositive_currified;
      try exact Hr; exact R1_neq_R0|simpl; field; exact Hr]. }
  unfold src_r.
  replace (src_rr U k r t) with
    ((((U 4%nat 0%nat r t + (U 3%nat 0%nat r t * / r + U 2%nat 0%nat r t * (- / r ^ 2)))
      - (U 2%nat 0%nat r t * / r ^ 2 + U 1%nat 0%nat r t * (-2 * / r ^ 3)))
      + ((U 2%nat 2%nat r t * / r ^ 2 + U 1%nat 2%nat r t * (-2 * / r ^ 3))
         - ((2 * U 1%nat 2%nat r t) * / r ^ 3 + 2 * U 0%nat 2%nat r t * (-3 * / r ^ 4))))
      + k ^ 2 * U 2%nat 0%nat r t) by (unfold src_rr; field; exact Hr).
  apply (is_derive_plus (V := R_NormedModule)).
  - apply (is_derive_plus (V := R_NormedModule)).
    + apply (is_derive_minus (V := R_NormedModule)).
      * apply (is_derive_plus (V := R_NormedModule)); [exact D3|].
        apply (is_derive_mult (fun s => U 2%nat 0%nat s t) (fun s => / s)); [exact D2|exact Di|].
        intros; apply Rmult_comm.
      * apply (is_derive_mult (fun s => U 1%nat 0%nat s t) (fun s => / s ^ 2)); [exact D1|exact Di2|].
        intros; apply Rmult_comm.
    + apply (is_derive_minus (V := R_NormedModule)).
      * apply (is_derive_mult (fun s => U 1%nat 2%nat s t) (fun s => / s ^ 2)); [exact D12|exact Di2|].
        intros; apply Rmult_comm.
      * apply (is_derive_mult (fun s => 2 * U 0%nat 2%nat s t) (fun s => / s ^ 3)); [|exact Di3|].
        -- apply (is_derive_scal (fun s => U 0%nat 2%nat s t)). exact D02.
        -- intros; apply Rmult_comm.
  - apply (is_derive_scal (fun s => U 1%nat 0%nat s t)). exact D1.
Qed.

Lemma src_t_chain : forall U u r0 t0 h e k r t j, partials 6 (box r0 h t0 e) u U -> (j < 2)%nat ->
  box r0 h t0 e r t -> r <> 0 ->
  is_derive (fun s => U 2%nat j r s + U 1%nat j r s / r + U 0%nat (2 + j)%nat r s / r ^ 2
    + k ^ 2 * U 0%nat j r s) t
   (U 2%nat (S j) r t + U 1%nat (S j) r t / r + U 0%nat (3 + j)%nat r t / r ^ 2
    + k ^ 2 * U 0%nat (S j) r t).
Proof.
  intros U u r0 t0 h e k r t j [_ HU] Hj Hb Hr.
  pose proof (proj2 (HU 2%nat j ltac:(lia) r t Hb)) as D2.
  pose proof (proj2 (HU 1%nat j ltac:(lia) r t Hb)) as D1.
  pose proof (proj2 (HU 0%nat j ltac:(lia) r t Hb)) as D0.
  pose proof (proj2 (HU 0%nat (2 + j)%nat ltac:(lia) r t Hb)) as D02.
  apply (is_derive_plus (V := R_NormedModule)); [|apply (is_derive_scal (U 0%nat j r)); exact D0].
  apply (is_derive_plus (V := R_NormedModule)).
  - apply (is_derive_plus (V := R_NormedModule)); [exact D2|].
    apply (is_derive_ext (fun s => / r * U 1%nat j r s)); [intros; apply Rmult_comm|].
    unfold Rdiv. rewrite Rmult_comm. apply (is_derive_scal (U 1%nat j r)). exact D1.
  - apply (is_derive_ext (fun s => / r ^ 2 * U 0%nat (2 + j)%nat r s)); [intros; apply Rmult_comm|].
    unfold Rdiv. rewrite Rmult_comm. apply (is_derive_scal (U 0%nat (2 + j)%nat r)). exact D02.
Qed.

Lemma derive_local_eq : forall (f g : R -> R) x h l l', 0 < h ->
  (forall t, x - h < t < x + h -> f t = g t) ->
  is_derive f x l -> is_derive g x l' -> l = l'.
Proof.
  intros f g x h l l' Hh E Hf Hg.
  assert (Hf' : is_derive g x l).
  { apply (is_derive_ext_loc f); [|exact Hf].
    exists (mkposreal h Hh). intros t Ht. apply E.
    unfold ball in Ht; simpl in Ht. unfold AbsRing_ball, abs, minus, plus, opp in Ht; simpl in Ht.
    apply Rabs_def2 in Ht. lra. }
  rewrite <- (is_derive_unique _ _ _ Hf'). apply is_derive_unique, Hg.
Qed.

Definition rconst (rho k : R) : R :=
  let io := / rho in
  (1 / 360 + 1 / 120 * io) + 1 / 360 * io ^ 2
  + ((k ^ 2 + 16 * kbound rho) / 12 + (k ^ 2 + 16 * kbound rho) / 6 * io) / 12
  + 16 * kbound rho / 12 * (1 + io + io ^ 2) / 24
  + 1 / 36 * io ^ 3
  + (1 + io + k ^ 2) / 144
  + (1 / 12 + 1 / 6 * io) / 24.

Lemma residual_bound : forall rho k U u r0 t0 h e M f_r f_rr f_t f_tt,
  0 < rho <= r0 - h -> 0 < h -> 0 < e ->
  partials 6 (box r0 h t0 e) u U -> all_bounded 6 M (box r0 h t0 e) U ->
  (forall r, r0 - h < r < r0 + h -> is_derive (fun s => polar_helmholtz k U s t0) r (f_r r)) ->
  is_derive f_r r0 f_rr ->
  (forall t, t0 - e < t < t0 + e -> is_derive (polar_helmholtz k U r0) t (f_t t)) ->
  is_derive f_t t0 f_tt ->
  Rabs (stencil_sum (local_get (fd4_local (r0 - h) (r0 - h / 2) r0 (r0 + h / 2) (r0 + h) h e k))
          (fun m l => u (r0 + IZR m * h) (t0 + IZR l * e)) 0 0
        - fd4_rhs h e r0 (polar_helmholtz k U r0 t0) (f_r r0) f_rr f_tt)
    <= rconst rho k * M * (h ^ 4 + e ^ 4).
Proof.
  intros rho k U u r0 t0 h e M f_r f_rr f_t f_tt Hrho Hh He HU HM Hfr Hfrr Hft Hftt.
  assert (B0 : forall r, r0 - h < r < r0 + h -> box r0 h t0 e r t0) by (intros; split; lra).
  assert (B1 : forall t, t0 - e < t < t0 + e -> box r0 h t0 e r0 t) by (intros; split; lra).
  assert (Efr : forall r, r0 - h < r < r0 + h -> f_r r = src_r U k r t0).
  { intros r Hr. rewrite <- (is_derive_unique _ _ _ (Hfr r Hr)). apply is_derive_unique.
    apply (src_r_derive U u r0 t0 h e); [exact HU|apply B0, Hr|lra]. }
  assert (Efrr : f_rr = src_rr U k r0 t0).
  { apply (derive_local_eq f_r (fun s => src_r U k s t0) r0 h); try assumption.
    apply (src_rr_derive U u r0 t0 h e); [exact HU|apply B0; lra|lra]. }
  assert (Eft : forall t, t0 - e < t < t0 + e -> f_t t =
    U 2%nat 1%nat r0 t + U 1%nat 1%nat r0 t / r0 + U 0%nat 3%nat r0 t / r0 ^ 2
    + k ^ 2 * U 0%nat 1%nat r0 t).
  { intros t Ht. rewrite <- (is_derive_unique _ _ _ (Hft t Ht)). apply is_derive_unique.
    apply (src_t_chain U u r0 t0 h e k r0 t 0); [exact HU|lia|apply B1, Ht|lra]. }
  assert (Eftt : f_tt = src_tt U k r0 t0).
  { apply (derive_local_eq f_t (fun t => U 2%nat 1%nat r0 t + U 1%nat 1%nat r0 t / r0
      + U 0%nat 3%nat r0 t / r0 ^ 2 + k ^ 2 * U 0%nat 1%nat r0 t) t0 e); try assumption.
    apply (src_t_chain U u r0 t0 h e k r0 t0 1); [exact HU|lia|apply B1; lra|lra]. }
  rewrite (Efr r0) by lra. rewrite Efrr, Eftt.
  rewrite coefficients by lra.
  replace (fd4_rhs h e r0 (polar_helmholtz k U r0 t0) (src_r U k r0 t0) (src_rr U k r0 t0)
    (src_tt U k r0 t0)) with (compact_source h e r0 (polar_helmholtz k U r0 t0) (src_r U k r0 t0)
    (src_rr U k r0 t0) (src_tt U k r0 t0)) by (unfold fd4_rhs, compact_source; field; lra).
  match goal with |- Rabs (?A - ?S) <= _ => set (SA := A); set (SS := S) end.
  assert (E : SA =
    dd (fun s => U 0%nat 0%nat s t0) r0 h / h ^ 2 + d1 (fun s => U 0%nat 0%nat s t0) r0 h / (2 * h * r0)
  + dd (U 0%nat 0%nat r0) t0 e / e ^ 2 / r0 ^ 2 + k ^ 2 * U 0%nat 0%nat r0 t0
  + h ^ 2 / 12 * (dd (fun s => vfun U t0 k 0 s + tfun U t0 e 0 s) r0 h / h ^ 2
      + d1 (fun s => vfun U t0 k 0 s + tfun U t0 e 0 s) r0 h / (2 * h) / r0
      + (vfun U t0 k 0 r0 + tfun U t0 e 0 r0) / r0 ^ 2)
  + h ^ 2 / (6 * r0 ^ 3) * (d1 (fun s => U 0%nat 0%nat s t0) r0 h / (2 * h))
  + e ^ 2 / 12 * (dd (gfun U r0 h k 0) t0 e / e ^ 2)).
  { unfold SA, compact_scheme, op_radial, op_angular, op_drr, op_dr, op_dthth. cbv beta zeta.
    change (0 - 0)%Z with 0%Z. change (0 + 1)%Z with 1%Z. change (0 - 1)%Z with (-1)%Z.
    change (1 - 0)%Z with 1%Z. change (-1 - 0)%Z with (-1)%Z.
    rewrite <- !(proj1 HU).
    unfold gfun, rad_op, vfun, tfun, leib, qfun, ipow, dd, d1.
    replace (r0 + 0 * h) with r0 by ring. replace (t0 + 0 * e) with t0 by ring.
    replace (r0 + 1 * h) with (r0 + h) by ring. replace (t0 + 1 * e) with (t0 + e) by ring.
    replace (r0 + -1 * h) with (r0 - h) by ring. replace (t0 + -1 * e) with (t0 - e) by ring.
    field. lra. }
  rewrite E. unfold SS. rewrite (decomposition U rho r0 t0 h e k) by assumption.
  pose proof (Mpos U r0 t0 h e M Hh He HM) as MP.
  pose proof (rad_fourth U u rho r0 t0 h e M Hrho Hh He HU HM) as T1.
  pose proof (err_ang U u rho r0 t0 h e M Hrho Hh He HU HM) as T2.
  pose proof (err_v U u rho r0 t0 h e k M Hrho Hh He HU HM) as T3.
  pose proof (err_t U u rho r0 t0 h e M Hrho Hh He HU HM) as T4.
  pose proof (err_d U u rho r0 t0 h e M Hrho Hh He HU HM) as T5.
  pose proof (err_g U u rho r0 t0 h e k M Hrho Hh He HU HM) as T6.
  pose proof (rad_second U u rho r0 t0 h e M Hrho Hh HU HM 2 t0 ltac:(lia) ltac:(lra)) as T7.
  unfold BV in T3. unfold BT in T4. unfold rconst. cbv zeta.
  pose proof (inv_le rho rho ltac:(lra)) as [IP _].
  assert (KP : 0 < kbound rho).
  { unfold kbound. assert (P : forall n, 0 < / rho ^ n)
      by (intros; apply Rinv_0_lt_compat, pow_lt; lra).
    pose proof (P 2%nat). pose proof (P 3%nat). pose proof (P 4%nat). pose proof (P 5%nat).
    pose proof (P 6%nat). lra. }
  set (io := / rho) in *. set (K := kbound rho) in *.
  assert (K2 : 0 <= k ^ 2) by apply pow2_ge_0.
  assert (h2 : 0 < h ^ 2) by (apply pow_lt; lra). assert (e2 : 0 < e ^ 2) by (apply pow_lt; lra).
  assert (X : h ^ 2 * e ^ 2 <= (h ^ 4 + e ^ 4) / 2).
  { replace (h ^ 4) with (h ^ 2 * h ^ 2) by ring. replace (e ^ 4) with (e ^ 2 * e ^ 2) by ring.
    pose proof (Rle_0_sqr (h ^ 2 - e ^ 2)) as Q. unfold Rsqr in Q. lra. }
  assert (h4 : 0 < h ^ 4) by (apply pow_lt; lra). assert (e4 : 0 < e ^ 4) by (apply pow_lt; lra).
  assert (S : forall c a A B, 0 <= c -> Rabs a <= A -> c * A <= B -> Rabs (c * a) <= B).
  { intros c a A B Hc Ha Hb. rewrite Rabs_mult, (Rabs_pos_eq c Hc).
    eapply Rle_trans; [apply Rmult_le_compat_l; [exact Hc|exact Ha]|exact Hb]. }
  assert (W : forall a b c, 0 <= a -> b <= c -> a * b <= a * c)
    by (intros; apply Rmult_le_compat_l; assumption).
  set (H4 := h ^ 4) in *. set (E4 := e ^ 4) in *.
  assert (LH : H4 <= H4 + E4) by lra. assert (LE : E4 <= H4 + E4) by lra.
  assert (P1 : 0 <= (1 / 360 + 1 / 120 * io) * M) by (apply Rmult_le_pos; [nra|exact MP]).
  assert (P2 : 0 <= 1 / 360 * io ^ 2 * M).
  { apply Rmult_le_pos; [|exact MP]. pose proof (pow2_ge_0 io). lra. }
  assert (P3 : 0 <= ((k ^ 2 + 16 * K) / 12 + (k ^ 2 + 16 * K) / 6 * io) / 12 * M).
  { apply Rmult_le_pos; [|exact MP]. nra. }
  assert (P4 : 0 <= 16 * K / 12 * (1 + io + io ^ 2) / 24 * M).
  { apply Rmult_le_pos; [|exact MP]. pose proof (pow2_ge_0 io). nra. }
  assert (P5 : 0 <= 1 / 36 * io ^ 3 * M).
  { apply Rmult_le_pos; [|exact MP]. pose proof (pow_lt io 3 IP). lra. }
  assert (P6 : 0 <= (1 + io + k ^ 2) / 144 * M) by (apply Rmult_le_pos; [lra|exact MP]).
  assert (P7 : 0 <= (1 / 12 + 1 / 6 * io) / 24 * M) by (apply Rmult_le_pos; [lra|exact MP]).
  assert (G1 : (M / 360 + M / 120 * io) * H4 <= (1 / 360 + 1 / 120 * io) * M * (H4 + E4)).
  { pose proof (W _ _ (H4 + E4) P1 LH). lra. }
  assert (G2 : M / 360 * io ^ 2 * E4 <= 1 / 360 * io ^ 2 * M * (H4 + E4)).
  { pose proof (W _ _ (H4 + E4) P2 LE). lra. }
  pose proof (S (h ^ 2 / 12) _ _ (((k ^ 2 + 16 * K) / 12 + (k ^ 2 + 16 * K) / 6 * io) / 12 * M * (H4 + E4))
    ltac:(lra) T3) as G3.
  pose proof (S (h ^ 2 / 12) _ _ (16 * K / 12 * (1 + io + io ^ 2) / 24 * M * (H4 + E4))
    ltac:(lra) T4) as G4.
  pose proof (S (h ^ 2 / 6) _ _ (1 / 36 * io ^ 3 * M * (H4 + E4)) ltac:(lra) T5) as G5.
  pose proof (S (e ^ 2 / 12) _ _ ((1 + io + k ^ 2) / 144 * M * (H4 + E4)) ltac:(lra) T6) as G6.
  pose proof (S (e ^ 2 / 12) _ _ ((1 / 12 + 1 / 6 * io) / 24 * M * (H4 + E4)) ltac:(lra) T7) as G7.
  assert (EH : H4 = h ^ 2 * h ^ 2) by (unfold H4; ring).
  assert (EE : E4 = e ^ 2 * e ^ 2) by (unfold E4; ring).
  lapply G3; [clear G3; intros G3|].
  2:{ pose proof (W _ _ (H4 + E4) P3 LH) as Q. rewrite EH in Q at 1. lra. }
  lapply G4; [clear G4; intros G4|].
  2:{ pose proof (W _ _ _ P4 X) as Q. lra. }
  lapply G5; [clear G5; intros G5|].
  2:{ pose proof (W _ _ (H4 + E4) P5 LH) as Q. rewrite EH in Q at 1. lra. }
  lapply G6; [clear G6; intros G6|].
  2:{ pose proof (W _ _ (H4 + E4) P6 LE) as Q. rewrite EE in Q at 1. lra. }
  lapply G7; [clear G7; intros G7|].
  2:{ pose proof (W _ _ _ P7 X) as Q. lra. }
  apply Rabs_le_between in G3, G4, G5, G6, G7, T1, T2. apply Rabs_le. lra.
Qed.
