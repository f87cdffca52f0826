(** The truncated Bessel series of the problems, and a bound of the Bessel
    functions. *)
From Coq Require Import ZArith List Bool Reals Lia Lra Psatz.
From Coquelicot Require Import Coquelicot.
From Verif Require Import Model_Py Model_Problems Lib_Csum Proof_BesselJ Proof_OdeAcc Spec_Fd Spec_Problems Spec_Bessel Spec_OdeAcc.
Import ListNotations.
Open Scope R_scope.

Lemma pser_bound : forall (a : nat -> R) A n t, 0 <= t <= 1 / 2 -> (forall l, Rabs (a l) <= A) -> (forall l, (l < n)%nat -> a l = 0) ->
  Rabs (PSeries a t) <= 2 * A * t ^ n.
Proof.
  intros a A n t Ht HA Hz. assert (HA0 : 0 <= A) by (pose proof (HA 0%nat); pose proof (Rabs_pos (a 0%nat)); lra).
  rewrite (PSeries_decr_n_aux a n t Hz), Rabs_mult, (Rabs_pos_eq (t ^ n)) by (apply pow_le; lra).
  rewrite (Rmult_comm (2 * A)). apply Rmult_le_compat_l; [apply pow_le; lra|].
  set (b := PS_decr_n a n). assert (Hb : forall l, Rabs (b l) <= A) by (intros l; apply HA).
  assert (G : is_series (fun l => t ^ l) (/ (1 - t))) by (apply is_series_geom; rewrite Rabs_pos_eq; lra).
  assert (GA : ex_series (fun l => A * t ^ l)) by (apply (ex_series_scal_l A (fun l => t ^ l)); exists (/ (1 - t)); exact G).
  assert (Hl : forall l, Rabs (b l * t ^ l) <= A * t ^ l).
  { intros l. rewrite Rabs_mult, (Rabs_pos_eq (t ^ l)) by (apply pow_le; lra). apply Rmult_le_compat_r; [apply pow_le; lra|apply Hb]. }
  assert (Ex : ex_series (fun l => Rabs (b l * t ^ l))).
  { apply (ex_series_le (K := R_AbsRing) (V := R_CompleteNormedModule) _ (fun l => A * t ^ l)); [|exact GA].
    intros l. change (Rabs (Rabs (b l * t ^ l)) <= A * t ^ l). rewrite Rabs_Rabsolu. apply Hl. }
  unfold PSeries. eapply Rle_trans; [apply Series_Rabs; exact Ex|].
  eapply Rle_trans; [apply (Series_le _ (fun l => A * t ^ l)); [intros l; split; [apply Rabs_pos|apply Hl]|exact GA]|].
  rewrite Series_scal_l. replace (Series _) with (/ (1 - t)) by (symmetry; apply is_series_unique; exact G). rewrite (Rmult_comm 2). apply Rmult_le_compat_l; [exact HA0|].
  replace 2 with (/ (1 / 2)) by field. apply Rinv_le_contravar; lra.
Qed.

Lemma rpow1 : forall p, Rpower 1 p = 1.
Proof. intros p. unfold Rpower. rewrite ln_1, Rmult_0_r. apply exp_0. Qed.

Lemma pow2_abs_eq : forall x, x ^ 2 = Rabs x ^ 2.
Proof. intros x. symmetry. apply pow2_abs. Qed.

Lemma pow_incr_inv : forall x y n, 0 <= x -> 0 <= y -> x ^ S n <= y ^ S n -> x <= y.
Proof.
  intros x y n Hx Hy H. destruct (Rle_lt_dec x y) as [L|L]; [exact L|exfalso].
  assert (y ^ S n < x ^ S n); [|lra]. clear H. induction n as [|n IH]; [cbn; lra|].
  change (y * y ^ S n < x * x ^ S n). assert (0 <= y ^ S n) by (apply pow_le; exact Hy). nra.
Qed.

Section Order.
Variables (p : R).
Hypothesis Hp : 0 < p.

Lemma bcoef_step : forall l, Rabs (bcoef p (S l)) <= Rabs (bcoef p l) / ((INR l + 1) * (INR l + 1)).
Proof using Hp.
  intros l. pose proof (pos_INR l). cbn [bcoef]. unfold Rdiv. rewrite Rabs_mult, Rabs_Ropp.
  apply Rmult_le_compat_l; [apply Rabs_pos|].
  assert (H1 : 0 < (INR l + 1) * (INR l + 1)) by nra. assert (H2 : (INR l + 1) * (INR l + 1) <= (INR l + 1) * (INR l + 1 + p)) by nra.
  rewrite Rabs_pos_eq by (left; apply Rinv_0_lt_compat; lra). apply Rinv_le_contravar; assumption.
Qed.

Lemma bcoef_dec : forall l, Rabs (bcoef p (S l)) <= Rabs (bcoef p l).
Proof using Hp.
  intros l. eapply Rle_trans; [apply bcoef_step|]. pose proof (pos_INR l). pose proof (Rabs_pos (bcoef p l)).
  apply Rle_div_l; nra.
Qed.

Lemma bcoef_10 : Rabs (bcoef p 10) <= / 13168189440000.
Proof using Hp.
  assert (S0 : forall l c n, Rabs (bcoef p l) <= / c -> 0 < c -> INR l + 1 = n -> Rabs (bcoef p (S l)) <= / (c * (n * n))).
  { intros l c n H Hc Hn. eapply Rle_trans; [apply bcoef_step|]. rewrite Hn.
    assert (0 < n) by (pose proof (pos_INR l); lra). rewrite Rinv_mult_distr by (try nra; apply Rgt_not_eq; nra).
    unfold Rdiv. apply Rmult_le_compat_r; [left; apply Rinv_0_lt_compat; nra|exact H]. }
  assert (B0 : Rabs (bcoef p 0) <= / 1) by (cbn; rewrite Rabs_R1; lra).
  assert (B1 := S0 0%nat _ 1 B0 ltac:(lra) ltac:(cbn; lra)).
  assert (B2 := S0 1%nat _ 2 B1 ltac:(lra) ltac:(cbn; lra)).
  assert (B3 := S0 2%nat _ 3 B2 ltac:(lra) ltac:(cbn; lra)).
  assert (B4 := S0 3%nat _ 4 B3 ltac:(lra) ltac:(cbn; lra)).
  assert (B5 := S0 4%nat _ 5 B4 ltac:(lra) ltac:(cbn; lra)).
  assert (B6 := S0 5%nat _ 6 B5 ltac:(lra) ltac:(cbn; lra)).
  assert (B7 := S0 6%nat _ 7 B6 ltac:(lra) ltac:(cbn; lra)).
  assert (B8 := S0 7%nat _ 8 B7 ltac:(lra) ltac:(cbn; lra)).
  assert (B9 := S0 8%nat _ 9 B8 ltac:(lra) ltac:(cbn; lra)).
  assert (B10 := S0 9%nat _ 10 B9 ltac:(lra) ltac:(cbn; lra)).
  eapply Rle_trans; [exact B10|]. right. f_equal. lra.
Qed.

Lemma bcoef_le : forall l, Rabs (bcoef p l) <= 1.
Proof using Hp. induction l as [|l IH]; [cbn; rewrite Rabs_R1; lra|]. eapply Rle_trans; [apply bcoef_dec|exact IH]. Qed.

Lemma bcoef_tail : forall j, Rabs (bcoef p (10 + j)) <= / 13168189440000 /\ INR (10 + j) * Rabs (bcoef p (10 + j)) <= 10 / 13168189440000.
Proof using Hp.
  induction j as [|j [IH1 IH2]].
  - pose proof bcoef_10 as H. rewrite Nat.add_0_r. split; [exact H|]. replace (INR 10) with 10 by (cbn; lra). lra.
  - replace (10 + S j)%nat with (S (10 + j))%nat by lia. split; [eapply Rle_trans; [apply bcoef_dec|exact IH1]|].
    eapply Rle_trans; [|exact IH2]. rewrite S_INR. pose proof (bcoef_step (10 + j)) as H. pose proof (Rabs_pos (bcoef p (10 + j))) as Q.
    assert (H10 : 10 <= INR (10 + j)) by (rewrite plus_INR; pose proof (pos_INR j); replace (INR 10) with 10 by (cbn; lra); lra).
    set (n := INR (10 + j)) in *. set (x := Rabs (bcoef p (10 + j))) in *. clearbody n x.
    eapply Rle_trans; [apply Rmult_le_compat_l; [lra|exact H]|].
    replace ((n + 1) * (x / ((n + 1) * (n + 1)))) with (x / (n + 1)) by (field; lra).
    apply Rle_div_l; [lra|]. nra.
Qed.

Lemma bcoef_deriv_le : forall l, INR (S l) * Rabs (bcoef p (S l)) <= 1.
Proof using Hp.
  intros l. eapply Rle_trans; [apply Rmult_le_compat_l; [apply pos_INR|apply bcoef_step]|]. rewrite S_INR.
  pose proof (pos_INR l). pose proof (bcoef_le l). set (x := Rabs _) in *.
  replace ((INR l + 1) * (x / ((INR l + 1) * (INR l + 1)))) with (x / (INR l + 1)) by (field; lra).
  apply Rle_div_l; lra.
Qed.

(** The series beyond the first ten terms. *)
Definition tcoef (l : nat) : R := if Nat.ltb l 10 then 0 else bcoef p l.
Definition tail (i : nat) (t : R) : R := PSeries (match i with O => tcoef | _ => PS_derive tcoef end) t.
Definition head (t : R) : R := rsum 10 (fun l => bcoef p l * t ^ l).

Lemma tcoef_ex : forall t, ex_pseries tcoef t.
Proof using Hp.
  intros t. pose proof (inf_ex _ t (bcoef_radius p Hp)) as Ex. unfold ex_pseries, is_pseries in *.
  apply (ex_series_incr_n (fun k => scal (pow_n t k) (tcoef k)) 10).
  apply (ex_series_incr_n (fun k => scal (pow_n t k) (bcoef p k)) 10) in Ex.
  eapply ex_series_ext; [|exact Ex]. intros n. cbv beta. unfold tcoef. destruct (Nat.ltb_spec (10 + n) 10); [lia|reflexivity].
Qed.

Lemma bser_split : forall t, bser p 0 t = head t + tail 0 t.
Proof using Hp.
  intros t. unfold bser, tail, head. pose proof (inf_ex _ t (bcoef_radius p Hp)) as Ex.
  pose proof (tcoef_ex t) as Et.
  rewrite (PSeries_decr_n (bcoef p) 9 t Ex), (PSeries_decr_n tcoef 9 t Et).
  assert (E1 : PSeries (PS_decr_n (bcoef p) 10) t = PSeries (PS_decr_n tcoef 10) t).
  { apply PSeries_ext. intros n. unfold PS_decr_n, tcoef. destruct (Nat.ltb_spec (10 + n) 10); [lia|reflexivity]. }
  rewrite E1. cbn [sum_f_R0 rsum tcoef Nat.ltb Nat.leb]. ring.
Qed.

Lemma tcoef_radius : CV_radius tcoef = p_infty.
Proof using Hp.
  assert (H : forall x : R, Rbar_le x (CV_radius tcoef)).
  { intros x. apply (Rbar_not_lt_le (CV_radius tcoef) x). intros Hx.
    pose proof (tcoef_ex (Rabs x + 1)) as Et.
    apply (CV_disk_outside tcoef (Rabs x + 1)).
    - eapply Rbar_lt_le_trans; [exact Hx|]. cbn. rewrite Rabs_pos_eq by (pose proof (Rabs_pos x); lra). pose proof (Rle_abs x). lra.
    - apply ex_series_lim_0 in Et. eapply is_lim_seq_ext; [|exact Et]. intros n. cbv beta.
      change (scal (pow_n (Rabs x + 1) n) (tcoef n)) with (pow_n (Rabs x + 1) n * tcoef n). rewrite pow_n_pow. ring. }
  destruct (CV_radius tcoef) as [x| |]; [|reflexivity|exfalso; exact (H 0)].
  exfalso. specialize (H (x + 1)). cbn in H. lra.
Qed.

Lemma tail_derive : forall t, is_derive (tail 0) t (tail 1 t).
Proof using Hp. intros t. apply is_derive_PSeries. rewrite tcoef_radius. exact I. Qed.

Lemma tail_bound : forall t, 0 <= t <= 1 / 2 ->
  Rabs (tail 0 t) <= 2 * / 13168189440000 * t ^ 10 /\ Rabs (tail 1 t) <= 2 * (10 / 13168189440000) * t ^ 9.
Proof using Hp.
  intros t Ht. split; apply pser_bound; try exact Ht.
  - intros l. unfold tcoef. destruct (Nat.ltb_spec l 10); [rewrite Rabs_R0; lra|].
    replace l with (10 + (l - 10))%nat by lia. apply bcoef_tail.
  - intros l Hl. unfold tcoef. destruct (Nat.ltb_spec l 10); [reflexivity|lia].
  - intros l. unfold PS_derive, tcoef. destruct (Nat.ltb_spec (S l) 10); [rewrite Rmult_0_r, Rabs_R0; lra|].
    rewrite Rabs_mult, (Rabs_pos_eq (INR (S l))) by apply pos_INR. replace (S l) with (10 + (S l - 10))%nat by lia. apply bcoef_tail.
  - intros l Hl. unfold PS_derive, tcoef. destruct (Nat.ltb_spec (S l) 10); [ring|lia].
Qed.

Lemma bser_bound : forall t, 0 <= t <= 1 / 2 -> Rabs (bser p 0 t) <= 2 /\ Rabs (bser p 1 t) <= 2.
Proof using Hp.
  intros t Ht. split.
  - replace 2 with (2 * 1 * t ^ 0) by (cbn; ring). apply pser_bound; [exact Ht|apply bcoef_le|intros; lia].
  - replace 2 with (2 * 1 * t ^ 0) by (cbn; ring). apply pser_bound; [exact Ht| |intros; lia].
    intros l. unfold PS_derive. rewrite Rabs_mult, (Rabs_pos_eq (INR (S l))) by apply pos_INR. apply bcoef_deriv_le.
Qed.

Variables (jv : R -> R -> R) (gamma : R -> R).
Hypothesis Hg : gamma_like gamma.
Hypothesis Hj : bessel_series jv gamma p.
Let c := gamma (p + 1).

Lemma c_nz : c <> 0.
Proof using Hp Hg. unfold c. apply Hg. lra. Qed.

Lemma gcoef : forall l, (-1) ^ l / (INR (fact l) * gamma (p + INR l + 1)) = bcoef p l / c.
Proof using Hp Hg.
  pose proof c_nz as Hc. induction l as [|l IH].
  - change (INR 0) with 0. rewrite Rplus_0_r. fold c. cbn. field. exact Hc.
  - pose proof (pos_INR l). pose proof (INR_fact_neq_0 l). rewrite S_INR. destruct (Hg (p + INR l + 1) ltac:(lra)) as [E Hn].
    replace (p + (INR l + 1) + 1) with (p + INR l + 1 + 1) by ring. rewrite E, fact_simpl, mult_INR, S_INR. cbn [pow bcoef].
    replace (- bcoef p l / ((INR l + 1) * (INR l + 1 + p)) / c) with (- (bcoef p l / c) / ((INR l + 1) * (INR l + 1 + p))) by (field; lra).
    rewrite <- IH. field. repeat split; try assumption; lra.
Qed.

Lemma jv_eq : forall x, 0 < x -> jv p x = Rpower (x / 2) p / c * bser p 0 ((x / 2) ^ 2).
Proof using Hp Hg Hj.
  intros x Hx. pose proof c_nz as Hc. assert (Hr : 0 < Rpower (x / 2) p) by (unfold Rpower; apply exp_pos).
  pose proof (is_series_unique _ _ (Hj x Hx)) as E.
  assert (E2 : Series (fun l => (-1) ^ l / (INR (fact l) * gamma (p + INR l + 1)) * (x / 2) ^ (2 * l)) = / c * bser p 0 ((x / 2) ^ 2)).
  { unfold bser, PSeries. rewrite <- Series_scal_l. apply Series_ext. intros l. rewrite gcoef, pow_mult. unfold Rdiv. ring. }
  rewrite E2 in E. replace (jv p x) with (Rpower (x / 2) p * (jv p x / Rpower (x / 2) p)) by (field; lra). rewrite <- E. unfold Rdiv. ring.
Qed.

Lemma va_eq : forall K k nu r, (K + 1 / 2) * nu = p ->
  v_asympt0 gamma K k nu 10 r = Rpower (k * r / 2) p / c * head ((k * r / 2) ^ 2).
Proof using Hp Hg.
  intros K k nu r HK. unfold v_asympt0. rewrite HK.
  assert (F : forall n (h : nat -> R), fold_left (fun acc l => acc + h l) (seq 0 n) 0 = rsum n h).
  { intros n h. induction n as [|n IH]; [reflexivity|]. rewrite seq_S, fold_left_app, IH. cbn [fold_left rsum Nat.add]. reflexivity. }
  rewrite F. unfold head.
  assert (E : rsum 10 (fun l => (-1) ^ l / (INR (fact l) * gamma (p + INR l + 1)) * (k * r / 2) ^ (2 * l)) =
    / c * rsum 10 (fun l => bcoef p l * ((k * r / 2) ^ 2) ^ l)).
  { rewrite (rsum_ext 10 _ (fun l => / c * (bcoef p l * ((k * r / 2) ^ 2) ^ l))).
    - cbn [rsum]. ring.
    - intros l _. rewrite gcoef, pow_mult. unfold Rdiv. ring. }
  rewrite E. unfold Rdiv. ring.
Qed.

(** The error of the truncated series and of its derivative at r = 1/10. *)
Lemma va_error : forall K k nu, (K + 1 / 2) * nu = p -> p <= 1 -> 0 < k <= 43 / 4 ->
  Rabs (v_asympt0 gamma K k nu 10 (/ 10) - jv p (k * / 10)) <= / 10 ^ 18 / Rabs c /\
  exists y : R, is_derive (fun r => v_asympt0 gamma K k nu 10 r - jv p (k * r)) (/ 10) y /\ Rabs y <= / 10 ^ 15 / Rabs c.
Proof using Hp Hg Hj.
  intros K k nu HK Hp1 Hk. pose proof c_nz as Hc. assert (Hca : 0 < Rabs c) by (apply Rabs_pos_lt; exact Hc).
  assert (D : forall r, 0 < r -> v_asympt0 gamma K k nu 10 r - jv p (k * r) = - (Rpower (k * r / 2) p / c) * tail 0 ((k * r / 2) ^ 2)).
  { intros r Hr. rewrite (va_eq K k nu r HK), jv_eq by nra. rewrite bser_split. ring. }
  set (x := k * / 10 / 2). assert (Hx : 0 < x <= 43 / 80) by (unfold x; lra).
  assert (Ht : 0 <= x ^ 2 <= 3 / 10) by nra.
  assert (Hpw : 0 < Rpower x p <= 1).
  { split; [unfold Rpower; apply exp_pos|]. rewrite <- (rpow1 p). apply Rle_Rpower_l; lra. }
  assert (H10 : (x ^ 2) ^ 10 <= (3 / 10) ^ 10) by (apply pow_incr; exact Ht).
  assert (HPc : Rabs (Rpower x p / c) <= / Rabs c).
  { unfold Rdiv. rewrite Rabs_mult, (Rabs_pos_eq (Rpower x p)), Rabs_inv by lra.
    rewrite <- (Rmult_1_l (/ Rabs c)) at 2. apply Rmult_le_compat_r; [left; apply Rinv_0_lt_compat; exact Hca|lra]. }
  destruct (tail_bound (x ^ 2) ltac:(lra)) as [T0 T1].
  assert (Hci : 0 < / Rabs c) by (apply Rinv_0_lt_compat; exact Hca).
  split.
  - rewrite D by lra. fold x. rewrite Rabs_mult, Rabs_Ropp. unfold Rdiv at 2. rewrite (Rmult_comm (/ 10 ^ 18)).
    apply Rmult_le_compat; try apply Rabs_pos; [exact HPc|]. eapply Rle_trans; [exact T0|]. lra.
  - exists (- (Rpower x p / c) * (10 * p * tail 0 (x ^ 2) + 20 * x ^ 2 * tail 1 (x ^ 2))). split.
    + apply (is_derive_ext_loc (fun r => - (Rpower (k * r / 2) p / c) * tail 0 ((k * r / 2) ^ 2))).
      { exists (mkposreal (/ 20) ltac:(lra)). intros r Hr. symmetry. apply D. change (Rabs (r - / 10) < / 20) in Hr. apply Rabs_lt_between in Hr. lra. }
      assert (DP : is_derive (fun r => - (Rpower (k * r / 2) p / c)) (/ 10) (- (Rpower x p / c) * (10 * p))).
      { unfold x, Rpower. auto_derive; [lra|]. unfold Rdiv. field. split; [exact Hc|lra]. }
      assert (DT : is_derive (fun r => tail 0 ((k * r / 2) ^ 2)) (/ 10) (20 * x ^ 2 * tail 1 (x ^ 2))).
      { apply (is_derive_comp (tail 0) (fun r => (k * r / 2) ^ 2)); [apply tail_derive|]. unfold x. auto_derive; [exact I|]. field. }
      evar_last. { apply (is_derive_mult (K := R_AbsRing)); [exact DP|exact DT|apply Rmult_comm]. }
      fold x. change (- (Rpower x p / c) * (10 * p) * tail 0 (x ^ 2) + - (Rpower x p / c) * (20 * x ^ 2 * tail 1 (x ^ 2)) =
        - (Rpower x p / c) * (10 * p * tail 0 (x ^ 2) + 20 * x ^ 2 * tail 1 (x ^ 2))). ring.
    + rewrite Rabs_mult, Rabs_Ropp. unfold Rdiv at 2. rewrite (Rmult_comm (/ 10 ^ 15)).
      apply Rmult_le_compat; try apply Rabs_pos; [exact HPc|]. eapply Rle_trans; [apply Rabs_triang|].
      rewrite !Rabs_mult, (Rabs_pos_eq 10), (Rabs_pos_eq 20), (Rabs_pos_eq p), (Rabs_pos_eq (x ^ 2)) by lra.
      set (a0 := Rabs (tail 0 _)) in *. set (a1 := Rabs (tail 1 _)) in *.
      assert (P0 : 0 <= a0) by apply Rabs_pos. assert (P1 : 0 <= a1) by apply Rabs_pos.
      assert (Q1 : x ^ 2 * a1 <= 2 * (10 / 13168189440000) * (x ^ 2) ^ 10).
      { replace (2 * (10 / 13168189440000) * (x ^ 2) ^ 10) with (x ^ 2 * (2 * (10 / 13168189440000) * (x ^ 2) ^ 9)) by ring.
        apply Rmult_le_compat_l; lra. }
      assert (Q0 : p * a0 <= 1 * a0) by (apply Rmult_le_compat_r; lra). lra.
Qed.

(** The Bessel function itself. *)
Lemma jv_like : bessel_like jv p.
Proof using Hp Hg Hj.
  pose proof c_nz as Hc. destruct (jv_series_bessel p Hp) as [J1 [J2 HJ]]. set (e := Rpower (/ 2) p / c).
  assert (E : forall x, 0 < x -> jv p x = e * jv_series p x).
  { intros x Hx. rewrite jv_eq by exact Hx. unfold jv_series, e. replace ((x / 2) ^ 2) with (x ^ 2 / 4) by field.
    replace (Rpower (x / 2) p) with (Rpower x p * Rpower (/ 2) p) by (rewrite Rpower_mult_distr by lra; reflexivity). unfold Rdiv. ring. }
  exists (fun x => e * J1 x), (fun x => e * J2 x). intros x Hx. destruct (HJ x Hx) as (D1 & D2 & Q). split; [|split].
  - apply (is_derive_ext_loc (fun x => e * jv_series p x)).
    + exists (mkposreal x Hx). intros y Hy. symmetry. apply E. change (Rabs (y - x) < x) in Hy. apply Rabs_lt_between in Hy. lra.
    + apply is_derive_scal. exact D1.
  - apply is_derive_scal. exact D2.
  - rewrite E by exact Hx. replace 0 with (e * (x ^ 2 * J2 x + x * J1 x + (x ^ 2 - p ^ 2) * jv_series p x)) by (rewrite Q; ring). ring.
Qed.

Lemma jv_bound : forall x0 x, p <= 1 -> 27 / 40 <= x0 <= 43 / 40 -> p ^ 2 <= 7 / 10 * x0 -> x0 <= x -> Rabs (jv p x) <= 7 / Rabs c.
Proof using Hp Hg Hj.
  intros x0 x Hp1 H0 Hpx Hx. pose proof c_nz as Hc. assert (Hca : 0 < Rabs c) by (apply Rabs_pos_lt; exact Hc).
  destruct jv_like as [J1 [J2 HJ]].
  set (E := fun x => (J1 x ^ 2 + jv p x ^ 2) * exp (p ^ 2 / x)).
  assert (DE : forall x, 0 < x -> is_derive E x ((2 * J1 x * J2 x + 2 * jv p x * J1 x - (J1 x ^ 2 + jv p x ^ 2) * (p ^ 2 / x ^ 2)) * exp (p ^ 2 / x))).
  { intros y Hy. destruct (HJ y Hy) as (D1 & D2 & _). unfold E. auto_derive.
    - repeat split; try exact I; try lra; eexists; first [exact D1|exact D2].
    - replace (Derive (fun x => J1 x) y) with (J2 y) by (symmetry; apply is_derive_unique; exact D2).
      replace (Derive (fun x => jv p x) y) with (J1 y) by (symmetry; apply is_derive_unique; exact D1). replace (p ^ 2 / y) with (p * (p * 1) * / y) by (unfold Rdiv; ring). field. lra. }
  assert (NE : forall x, 0 < x -> (2 * J1 x * J2 x + 2 * jv p x * J1 x - (J1 x ^ 2 + jv p x ^ 2) * (p ^ 2 / x ^ 2)) * exp (p ^ 2 / x) <= 0).
  { intros y Hy. destruct (HJ y Hy) as (_ & _ & Q). pose proof (exp_pos (p ^ 2 / y)) as He.
    set (j := jv p y) in *. set (u := J1 y) in *. set (w := J2 y) in *.
    assert (Ew : w = - u / y - j + p ^ 2 / y ^ 2 * j).
    { apply (Rmult_eq_reg_l (y ^ 2)); [|apply pow_nonzero; lra].
      replace (y ^ 2 * (- u / y - j + p ^ 2 / y ^ 2 * j)) with (- y * u - (y ^ 2 - p ^ 2) * j) by (field; lra). lra. }
    assert (Z : 2 * u * w + 2 * j * u - (u ^ 2 + j ^ 2) * (p ^ 2 / y ^ 2) = - (2 * u ^ 2 / y) - (u - j) ^ 2 * (p ^ 2 / y ^ 2)).
    { rewrite Ew. field. lra. }
    rewrite Z. assert (0 <= 2 * u ^ 2 / y) by (apply Rmult_le_pos; [pose proof (pow2_ge_0 u); lra|left; apply Rinv_0_lt_compat; exact Hy]).
    assert (0 <= (u - j) ^ 2 * (p ^ 2 / y ^ 2)).
    { apply Rmult_le_pos; [apply pow2_ge_0|]. apply Rmult_le_pos; [apply pow2_ge_0|left; apply Rinv_0_lt_compat, pow_lt; exact Hy]. }
    nra. }
  assert (ME : E x <= E x0).
  { destruct (Rle_lt_or_eq_dec _ _ Hx) as [Hlt|<-]; [|apply Rle_refl].
    destruct (MVT_gen E x0 x (fun x => (2 * J1 x * J2 x + 2 * jv p x * J1 x - (J1 x ^ 2 + jv p x ^ 2) * (p ^ 2 / x ^ 2)) * exp (p ^ 2 / x))) as [z [Hz Ez]].
    - intros y Hy. rewrite Rmin_left in Hy by lra. apply DE. lra.
    - intros y Hy. rewrite Rmin_left in Hy by lra. apply continuity_pt_filterlim.
      apply (ex_derive_continuous (K := R_AbsRing) (V := R_NormedModule)). eexists. apply DE. lra.
    - rewrite Rmin_left in Hz by lra. pose proof (NE z ltac:(lra)). nra. }
  assert (Hci : 0 < / Rabs c) by (apply Rinv_0_lt_compat; exact Hca).
  assert (Hpw : 0 < Rpower (x0 / 2) p <= 1).
  { split; [unfold Rpower; apply exp_pos|]. rewrite <- (rpow1 p). apply Rle_Rpower_l; lra. }
  assert (HPc : Rabs (Rpower (x0 / 2) p / c) <= / Rabs c).
  { unfold Rdiv. rewrite Rabs_mult, (Rabs_pos_eq (Rpower (x0 * / 2) p)), Rabs_inv by (unfold Rdiv in Hpw; lra).
    rewrite <- (Rmult_1_l (/ Rabs c)) at 2. apply Rmult_le_compat_r; [lra|]. unfold Rdiv in Hpw. lra. }
  destruct (bser_bound ((x0 / 2) ^ 2) ltac:(nra)) as [B0 B1].
  assert (J0 : Rabs (jv p x0) <= 2 / Rabs c).
  { rewrite jv_eq by lra. rewrite Rabs_mult. replace (2 / Rabs c) with (/ Rabs c * 2) by (unfold Rdiv; ring). apply Rmult_le_compat; try apply Rabs_pos; assumption. }
  assert (K0 : Rabs (J1 x0) <= 4 / Rabs c).
  { destruct (HJ x0 ltac:(lra)) as (D1 & _ & _).
    assert (DP : is_derive (fun x => Rpower (x / 2) p / c) x0 (Rpower (x0 / 2) p / c * (p / x0))).
    { unfold Rpower. auto_derive; [lra|]. unfold Rdiv. field. split; [lra|exact Hc]. }
    assert (DB : is_derive (fun x => bser p 0 ((x / 2) ^ 2)) x0 (x0 / 2 * bser p 1 ((x0 / 2) ^ 2))).
    { apply (is_derive_comp (bser p 0) (fun x => (x / 2) ^ 2)); [apply bser_derive; [exact Hp|lia]|]. auto_derive; [exact I|]. field. }
    assert (DJ : is_derive (jv p) x0 (Rpower (x0 / 2) p / c * (p / x0 * bser p 0 ((x0 / 2) ^ 2) + x0 / 2 * bser p 1 ((x0 / 2) ^ 2)))).
    { apply (is_derive_ext_loc (fun x => Rpower (x / 2) p / c * bser p 0 ((x / 2) ^ 2))).
      - exists (mkposreal x0 ltac:(lra)). intros y Hy. symmetry. apply jv_eq. change (Rabs (y - x0) < x0) in Hy. apply Rabs_lt_between in Hy. lra.
      - evar_last. { apply (is_derive_mult (K := R_AbsRing)); [exact DP|exact DB|apply Rmult_comm]. }
        change (Rpower (x0 / 2) p / c * (p / x0) * bser p 0 ((x0 / 2) ^ 2) + Rpower (x0 / 2) p / c * (x0 / 2 * bser p 1 ((x0 / 2) ^ 2)) =
          Rpower (x0 / 2) p / c * (p / x0 * bser p 0 ((x0 / 2) ^ 2) + x0 / 2 * bser p 1 ((x0 / 2) ^ 2))). ring. }
    assert (EJ : J1 x0 = Rpower (x0 / 2) p / c * (p / x0 * bser p 0 ((x0 / 2) ^ 2) + x0 / 2 * bser p 1 ((x0 / 2) ^ 2)))
      by (transitivity (Derive (jv p) x0); [symmetry|]; apply is_derive_unique; assumption).
    rewrite EJ, Rabs_mult. replace (4 / Rabs c) with (/ Rabs c * 4) by (unfold Rdiv; ring). apply Rmult_le_compat; try apply Rabs_pos; [exact HPc|].
    eapply Rle_trans; [apply Rabs_triang|]. rewrite !Rabs_mult.
    assert (Hpp : 0 < p / x0) by (apply Rdiv_lt_0_compat; lra).
    rewrite (Rabs_pos_eq (p / x0)), (Rabs_pos_eq (x0 / 2)) by lra.
    assert (p / x0 <= (4 - x0) / 2) by (apply Rle_div_l; nra).
    pose proof (Rmult_le_compat_l (p / x0) _ _ ltac:(lra) B0). pose proof (Rmult_le_compat_l (x0 / 2) _ _ ltac:(lra) B1). lra. }
  assert (He : exp (p ^ 2 / x0) <= 49 / 20).
  { assert (Hq : p ^ 2 / x0 <= 7 / 10) by (apply Rle_div_l; lra).
    assert (H1 : exp (7 / 20) <= 20 / 13).
    { pose proof (exp_ineq1_le (- (7 / 20))) as H. pose proof (exp_pos (7 / 20)) as H'.
      assert (exp (7 / 20) * exp (- (7 / 20)) = 1) by (rewrite <- exp_plus, Rplus_opp_r; apply exp_0). nra. }
    apply Rle_trans with (exp (7 / 10)).
    - destruct (Rle_lt_or_eq_dec _ _ Hq) as [H|H]; [left; apply exp_increasing; exact H|rewrite H; apply Rle_refl].
    - replace (7 / 10) with (7 / 20 + 7 / 20) by field. rewrite exp_plus. pose proof (exp_pos (7 / 20)). nra. }
  assert (Hx0 : E x0 <= 49 * (/ Rabs c) ^ 2).
  { unfold E.
    assert (S0 : jv p x0 ^ 2 <= 4 * (/ Rabs c) ^ 2).
    { rewrite pow2_abs_eq. replace (4 * (/ Rabs c) ^ 2) with ((2 / Rabs c) ^ 2) by (field; lra). apply pow_incr. split; [apply Rabs_pos|exact J0]. }
    assert (S1 : J1 x0 ^ 2 <= 16 * (/ Rabs c) ^ 2).
    { rewrite pow2_abs_eq. replace (16 * (/ Rabs c) ^ 2) with ((4 / Rabs c) ^ 2) by (field; lra). apply pow_incr. split; [apply Rabs_pos|exact K0]. }
    pose proof (exp_pos (p ^ 2 / x0)). pose proof (pow2_ge_0 (jv p x0)). pose proof (pow2_ge_0 (J1 x0)). pose proof (pow2_ge_0 (/ Rabs c)).
    apply Rle_trans with (20 * (/ Rabs c) ^ 2 * (49 / 20)); [|lra]. apply Rmult_le_compat; lra. }
  assert (Hj2 : jv p x ^ 2 <= (7 / Rabs c) ^ 2).
  { replace ((7 / Rabs c) ^ 2) with (49 * (/ Rabs c) ^ 2) by (field; lra). eapply Rle_trans; [|exact (Rle_trans _ _ _ ME Hx0)].
    unfold E. assert (1 <= exp (p ^ 2 / x)).
    { rewrite <- exp_0 at 1. assert (0 <= p ^ 2 / x) by (apply Rmult_le_pos; [apply pow2_ge_0|left; apply Rinv_0_lt_compat; lra]).
      destruct (Rle_lt_or_eq_dec _ _ H) as [H1|H1]; [left; apply exp_increasing; exact H1|rewrite <- H1; apply Rle_refl]. }
    pose proof (pow2_ge_0 (jv p x)). pose proof (pow2_ge_0 (J1 x)). nra. }
  apply pow_incr_inv with (n := 1%nat); [apply Rabs_pos|left; apply Rdiv_lt_0_compat; lra|]. rewrite <- pow2_abs_eq. exact Hj2.
Qed.
End Order.
