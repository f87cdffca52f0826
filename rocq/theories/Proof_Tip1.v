(** What the regularisation leaves at the tip: one mode (C88). *)
From Coq Require Import ZArith List Bool Reals Lia Lra Psatz.
From Coquelicot Require Import Coquelicot.
From Verif Require Import Lib_Csum Model_Py Model_Problems Spec_Problems Spec_Bessel Spec_OdeAcc Proof_BesselJ Proof_OdeSeries.
Import ListNotations.
Open Scope R_scope.

(** ** Power series converging everywhere *)

Definition entire (a : nat -> R) : Prop := CV_radius a = p_infty.

Lemma entire_of : forall a, (forall x, ex_pseries a x) -> entire a.
Proof.
  intros a Ha.
  assert (H : forall x : R, Rbar_le x (CV_radius a)).
  { intros x. apply (Rbar_not_lt_le (CV_radius a) x). intros Hx.
    pose proof (Ha (Rabs x + 1)) as Et.
    apply (CV_disk_outside a (Rabs x + 1)).
    - eapply Rbar_lt_le_trans; [exact Hx|]. cbn. rewrite Rabs_pos_eq by (pose proof (Rabs_pos x); lra). pose proof (Rle_abs x). lra.
    - apply ex_series_lim_0 in Et. eapply is_lim_seq_ext; [|exact Et]. intros n. cbv beta.
      change (scal (pow_n (Rabs x + 1) n) (a n)) with (pow_n (Rabs x + 1) n * a n). rewrite pow_n_pow. ring. }
  unfold entire. destruct (CV_radius a) as [x| |]; [|reflexivity|exfalso; exact (H 0)].
  exfalso. specialize (H (x + 1)). cbn in H. lra.
Qed.

(** Coefficients of c f + 2 t f'. *)
Definition euler (c : R) (a : nat -> R) (n : nat) : R := (c + 2 * INR n) * a n.

Lemma euler_is : forall c a t, entire a -> is_pseries (euler c a) t (c * PSeries a t + 2 * (t * PSeries (PS_derive a) t)).
Proof.
  intros c a t Ha. assert (Hd : entire (PS_derive a)) by (unfold entire; rewrite CV_radius_derive; exact Ha).
  pose proof (PSeries_correct a t (inf_ex a t Ha)) as H1. pose proof (PSeries_correct _ t (inf_ex _ t Hd)) as H2.
  apply (is_pseries_incr_1 (PS_derive a) t) in H2.
  apply (is_pseries_scal c a t) in H1; [|apply Rmult_comm]. apply (is_pseries_scal 2 _ t) in H2; [|apply Rmult_comm].
  pose proof (is_pseries_plus _ _ t _ _ H1 H2) as H3.
  eapply is_pseries_ext; [|exact H3]. intros n. unfold PS_plus, PS_scal, PS_incr_1, PS_derive, euler.
  change (c * a n + 2 * match n with 0%nat => 0 | S n0 => INR (S n0) * a (S n0) end = (c + 2 * INR n) * a n).
  destruct n as [|n]; [cbn; ring|]. ring.
Qed.

Lemma euler_entire : forall c a, entire a -> entire (euler c a).
Proof. intros c a Ha. apply entire_of. intros x. eexists. apply euler_is. exact Ha. Qed.

Lemma entire_bounded : forall a X, entire a -> exists B, 0 <= B /\ forall x, 0 <= x <= X -> Rabs (PSeries a x) <= B.
Proof.
  intros a X Ha. destruct (Rle_lt_dec 0 X) as [HX|HX]; [|exists 0; split; [lra|intros; lra]].
  destruct (continuity_ab_maj (fun x => Rabs (PSeries a x)) 0 X HX) as (m & Hm & _).
  - intros x _. apply continuity_pt_filterlim. apply (continuous_comp (PSeries a) Rabs); [|apply continuous_Rabs].
    apply (ex_derive_continuous (V := R_NormedModule)). apply ex_derive_PSeries. rewrite Ha. exact I.
  - exists (Rabs (PSeries a m)). split; [apply Rabs_pos|exact Hm].
Qed.

Lemma entire_near0 : forall a eps, entire a -> 0 < eps -> exists d, 0 < d /\ forall x, 0 <= x < d -> Rabs (PSeries a x - a 0%nat) < eps.
Proof.
  intros a eps Ha He.
  assert (Hc : continuous (PSeries a) 0).
  { apply (ex_derive_continuous (V := R_NormedModule)). apply ex_derive_PSeries. rewrite Ha. exact I. }
  apply continuity_pt_filterlim in Hc. destruct (Hc eps He) as (d & Hd & H). exists d. split; [exact Hd|]. intros x Hx.
  destruct (Req_dec x 0) as [->|Hx0]; [rewrite PSeries_0, Rminus_diag_eq, Rabs_R0 by reflexivity; exact He|].
  rewrite <- (PSeries_0 a). apply H. split; [split; [exact I|lra]|]. cbn. unfold R_dist. rewrite Rabs_pos_eq; lra.
Qed.

Lemma rpower_derive : forall q r, 0 < r -> is_derive (fun r => Rpower r q) r (q * Rpower r (q - 1)).
Proof.
  intros q r Hr. unfold Rpower. auto_derive; [exact Hr|].
  replace ((q - 1) * ln r) with (q * ln r + - ln r) by ring. rewrite exp_plus, exp_Ropp, exp_ln by exact Hr. ring.
Qed.

(** ** The remainder of one Bessel mode *)

Section Mode.
Variables (p k : R) (jv : R -> R -> R) (gamma : R -> R).
Hypothesis Hp : 0 < p.
Hypothesis Hk : 0 < k.
Hypothesis Hg : gamma_like gamma.
Hypothesis Hj : bessel_series jv gamma p.

Fixpoint dcoef (j : nat) : nat -> R :=
  match j with
  | O => fun n => bcoef p (2 + n)
  | S j => euler (p + 4 - INR j) (dcoef j)
  end.

Definition lead : R := Rpower (k / 2) p * (k / 2) ^ 4 / gamma (p + 1).
Definition rem (j : nat) (r : R) : R := lead * (Rpower r (p + 4 - INR j) * PSeries (dcoef j) (k ^ 2 / 4 * r ^ 2)).

Lemma dcoef_entire : forall j, entire (dcoef j).
Proof using Hp.
  induction j as [|j IH]; [|apply euler_entire; exact IH]. apply entire_of. intros x. cbn [dcoef].
  pose proof (inf_ex _ x (bcoef_radius p Hp)) as Ex.
  refine (ex_pseries_decr_n (K := R_AbsRing) (V := R_NormedModule) (bcoef p) 2 x _ Ex).
  destruct (Req_dec x 0) as [->|Hx]; [left; reflexivity|right; exists (/ x); exact (Rinv_l x Hx)].
Qed.

Lemma bser_tail : forall t, bser p 0 t = bcoef p 0 + bcoef p 1 * t + t ^ 2 * PSeries (dcoef 0) t.
Proof using Hp.
  intros t. unfold bser. rewrite (PSeries_decr_n (bcoef p) 1 t (inf_ex _ t (bcoef_radius p Hp))).
  cbn [sum_f_R0]. change (PS_decr_n (bcoef p) 2) with (dcoef 0). rewrite pow_O, pow_1. ring.
Qed.

Lemma gamma_nz : gamma (p + 1) <> 0.
Proof using Hp Hg. exact (c_nz p Hp gamma Hg). Qed.

Lemma va2_eq : forall K nu r, (K + 1 / 2) * nu = p ->
  v_asympt0 gamma K k nu 2 r = Rpower (k * r / 2) p / gamma (p + 1) * (bcoef p 0 + bcoef p 1 * (k * r / 2) ^ 2).
Proof using Hp Hg.
  intros K nu r HK. unfold v_asympt0. rewrite HK. cbn [seq fold_left].
  rewrite !(gcoef p Hp gamma Hg). rewrite pow_O. replace (2 * 1)%nat with 2%nat by reflexivity. unfold Rdiv. ring.
Qed.

Lemma rem_eq : forall K nu r, (K + 1 / 2) * nu = p -> 0 < r -> jv p (k * r) - v_asympt0 gamma K k nu 2 r = rem 0 r.
Proof using Hp Hk Hg Hj.
  intros K nu r HK Hr. assert (Hkr : 0 < k * r) by (apply Rmult_lt_0_compat; assumption).
  rewrite (va2_eq K nu r HK), (jv_eq p Hp jv gamma Hg Hj) by exact Hkr. rewrite bser_tail. unfold rem, lead.
  replace (k ^ 2 / 4 * r ^ 2) with ((k * r / 2) ^ 2) by field.
  assert (E1 : Rpower (k * r / 2) p = Rpower (k / 2) p * Rpower r p).
  { rewrite Rpower_mult_distr by lra. f_equal. field. }
  assert (E2 : Rpower r (p + 4 - INR 0) = Rpower r p * r ^ 4).
  { rewrite <- (Rpower_pow 4 r Hr), <- Rpower_plus. f_equal. cbn. ring. }
  rewrite E1, E2. pose proof gamma_nz. field. assumption.
Qed.

Lemma rem_derive : forall j r, 0 < r -> is_derive (rem j) r (rem (S j) r).
Proof using Hp.
  intros j r Hr. unfold rem. apply is_derive_scal. set (q := p + 4 - INR j).
  replace (p + 4 - INR (S j)) with (q - 1) by (unfold q; rewrite S_INR; ring).
  pose proof (dcoef_entire j) as He. cbn [dcoef]. fold q.
  rewrite (is_pseries_unique _ _ _ (euler_is q (dcoef j) (k ^ 2 / 4 * r ^ 2) He)).
  assert (D1 := rpower_derive q r Hr).
  assert (D2 : is_derive (fun r => PSeries (dcoef j) (k ^ 2 / 4 * r ^ 2)) r (k ^ 2 / 4 * (2 * r) * PSeries (PS_derive (dcoef j)) (k ^ 2 / 4 * r ^ 2))).
  { apply (is_derive_comp (PSeries (dcoef j)) (fun r => k ^ 2 / 4 * r ^ 2)).
    - apply is_derive_PSeries. rewrite He. exact I.
    - auto_derive; [exact I|]. field. }
  evar_last. { apply (is_derive_mult (K := R_AbsRing)); [exact D1|exact D2|apply Rmult_comm]. }
  assert (E : Rpower r q = Rpower r (q - 1) * r).
  { rewrite <- (Rpower_1 r Hr) at 3. rewrite <- Rpower_plus. f_equal. ring. }
  set (A := PSeries (dcoef j) _). set (B := PSeries (PS_derive (dcoef j)) _).
  change (q * Rpower r (q - 1) * A + Rpower r q * (k ^ 2 / 4 * (2 * r) * B) =
    Rpower r (q - 1) * (q * A + 2 * (k ^ 2 / 4 * r ^ 2 * B))). rewrite E. field.
Qed.

Lemma rem_bound : forall j, exists B, 0 <= B /\ forall r, 0 < r <= 1 -> Rabs (rem j r) <= B * Rpower r (p + 4 - INR j).
Proof using Hp.
  intros j. destruct (entire_bounded (dcoef j) (k ^ 2 / 4) (dcoef_entire j)) as (B & HB & H).
  exists (Rabs lead * B). split; [apply Rmult_le_pos; [apply Rabs_pos|exact HB]|]. intros r Hr. unfold rem.
  rewrite !Rabs_mult, (Rabs_pos_eq (Rpower r _)) by (unfold Rpower; left; apply exp_pos).
  rewrite Rmult_assoc. apply Rmult_le_compat_l; [apply Rabs_pos|]. rewrite Rmult_comm.
  apply Rmult_le_compat_r; [unfold Rpower; left; apply exp_pos|]. apply H.
  pose proof (pow2_ge_0 k). assert (0 <= r ^ 2 <= 1) by nra. nra.
Qed.

Lemma lead_nz : lead <> 0.
Proof using Hp Hk Hg.
  unfold lead, Rdiv. apply Rmult_integral_contrapositive_currified; [|apply Rinv_neq_0_compat, gamma_nz].
  apply Rmult_integral_contrapositive_currified; [apply Rgt_not_eq; unfold Rpower; apply exp_pos|apply pow_nonzero; lra].
Qed.

Lemma dcoef5_nz : p < 1 -> dcoef 5 0 <> 0.
Proof using Hp.
  intros Hp1. cbn [dcoef euler Nat.add]. unfold euler. pose proof (bcoef_nz p 2 Hp) as Hb.
  repeat (apply Rmult_integral_contrapositive_currified; [cbn; lra|]). exact Hb.
Qed.
End Mode.

(** ** Powers near 0 *)

Lemma rpower_small : forall q eps, 0 < q -> 0 < eps -> exists d, 0 < d /\ forall r, 0 < r < d -> Rpower r q < eps.
Proof.
  intros q eps Hq He. exists (Rpower (eps / 2) (/ q)). split; [unfold Rpower; apply exp_pos|]. intros r Hr.
  apply Rle_lt_trans with (Rpower (Rpower (eps / 2) (/ q)) q); [apply Rle_Rpower_l; lra|].
  rewrite Rpower_mult, Rinv_l, Rpower_1 by lra. lra.
Qed.

(** A first mode of order below one with a non-zero factor and any second mode
    of higher order: the fifth derivative is unbounded. *)
Lemma rem_blowup : forall gamma p1 p3 k1 k3 s1 s3, gamma_like gamma -> 0 < p1 < 1 -> p1 < p3 -> 0 < k1 -> 0 < k3 -> s1 <> 0 ->
  forall M, exists e, 0 < e /\ forall r, 0 < r < e -> M < Rabs (rem p1 k1 gamma 5 r * s1 + rem p3 k3 gamma 5 r * s3).
Proof.
  intros gamma p1 p3 k1 k3 s1 s3 Hg Hp1 Hp3 Hk1 Hk3 Hs M.
  assert (Hp3' : 0 < p3) by lra. assert (Hp1' : 0 < p1) by lra.
  set (A := lead p1 k1 gamma * s1). set (a0 := dcoef p1 5 0).
  assert (HA : 0 < Rabs A) by (apply Rabs_pos_lt, Rmult_integral_contrapositive_currified; [apply lead_nz; assumption|exact Hs]).
  assert (Ha0 : 0 < Rabs a0) by (apply Rabs_pos_lt, dcoef5_nz; lra).
  destruct (entire_near0 (dcoef p1 5) (Rabs a0 / 2) (dcoef_entire p1 Hp1' 5) ltac:(lra)) as (d1 & Hd1 & N1).
  destruct (rem_bound p3 k3 gamma Hp3' 5) as (B & HB & N3).
  set (g := Rabs A * Rabs a0 / 4). assert (Hgp : 0 < g) by (unfold g; nra).
  set (B' := B * Rabs s3 + 1). assert (HB' : 0 < B') by (unfold B'; pose proof (Rabs_pos s3); nra).
  destruct (rpower_small (p3 - p1) (g / B') ltac:(lra)) as (d2 & Hd2 & N2); [apply Rdiv_lt_0_compat; assumption|].
  set (M' := Rabs M + 1). assert (HM' : 0 < M') by (unfold M'; pose proof (Rabs_pos M); lra).
  destruct (rpower_small (1 - p1) (g / M') ltac:(lra)) as (d4 & Hd4 & N4); [apply Rdiv_lt_0_compat; assumption|].
  set (kk := k1 ^ 2 / 4 + 1). assert (Hkk : 0 < kk) by (unfold kk; pose proof (pow2_ge_0 k1); lra).
  exists (Rmin (Rmin 1 (d1 / kk)) (Rmin d2 d4)).
  assert (Hdk : 0 < d1 / kk) by (apply Rdiv_lt_0_compat; assumption).
  split; [repeat apply Rmin_pos; lra|]. intros r [Hr0 Hr].
  pose proof (Rmin_l (Rmin 1 (d1 / kk)) (Rmin d2 d4)). pose proof (Rmin_r (Rmin 1 (d1 / kk)) (Rmin d2 d4)).
  pose proof (Rmin_l 1 (d1 / kk)). pose proof (Rmin_r 1 (d1 / kk)). pose proof (Rmin_l d2 d4). pose proof (Rmin_r d2 d4).
  specialize (N2 r ltac:(lra)). specialize (N4 r ltac:(lra)). specialize (N3 r ltac:(lra)).
  set (t := k1 ^ 2 / 4 * r ^ 2).
  assert (Ht : 0 <= t < d1).
  { pose proof (pow2_ge_0 k1). assert (Hrd : r * kk < d1).
    { assert (Hx : r < d1 / kk) by lra. apply (Rmult_lt_compat_r kk) in Hx; [|lra]. replace (d1 / kk * kk) with d1 in Hx by (field; lra). exact Hx. }
    unfold t. assert (r ^ 2 <= r) by nra. split; [nra|]. unfold kk in Hrd. nra. }
  specialize (N1 t Ht). fold a0 in N1.
  assert (HP : Rabs a0 / 2 <= Rabs (PSeries (dcoef p1 5) t)).
  { pose proof (Rabs_triang_inv a0 (a0 - PSeries (dcoef p1 5) t)) as T. replace (a0 - (a0 - PSeries (dcoef p1 5) t)) with (PSeries (dcoef p1 5) t) in T by ring.
    rewrite Rabs_minus_sym in N1. lra. }
  set (w := Rpower r (p1 + 4 - INR 5)). assert (Hw : 0 < w) by (unfold w, Rpower; apply exp_pos).
  assert (E1 : Rabs (rem p1 k1 gamma 5 r * s1) = Rabs A * w * Rabs (PSeries (dcoef p1 5) t)).
  { unfold rem. fold t w. replace (lead p1 k1 gamma * (w * PSeries (dcoef p1 5) t) * s1) with (A * w * PSeries (dcoef p1 5) t) by (unfold A; ring).
    rewrite !Rabs_mult, (Rabs_pos_eq w) by lra. reflexivity. }
  assert (L1 : 2 * g * w <= Rabs (rem p1 k1 gamma 5 r * s1)).
  { rewrite E1. replace (2 * g * w) with (Rabs A * w * (Rabs a0 / 2)) by (unfold g; field). apply Rmult_le_compat_l; [nra|exact HP]. }
  assert (L3 : Rabs (rem p3 k3 gamma 5 r * s3) <= g * w).
  { rewrite Rabs_mult. assert (E3 : Rpower r (p3 + 4 - INR 5) = Rpower r (p3 - p1) * w) by (unfold w; rewrite <- Rpower_plus; f_equal; ring).
    rewrite E3 in N3. assert (Hq : Rpower r (p3 - p1) * B' <= g).
    { apply Rlt_le in N2. apply (Rmult_le_compat_r B') in N2; [|lra]. replace (g / B' * B') with g in N2 by (field; lra). exact N2. }
    pose proof (Rabs_pos s3). assert (Hx : 0 < Rpower r (p3 - p1)) by (unfold Rpower; apply exp_pos).
    apply Rle_trans with (B * (Rpower r (p3 - p1) * w) * Rabs s3); [apply Rmult_le_compat_r; lra|].
    replace (B * (Rpower r (p3 - p1) * w) * Rabs s3) with (Rpower r (p3 - p1) * (B * Rabs s3) * w) by ring.
    apply Rmult_le_compat_r; [lra|]. unfold B' in Hq. nra. }
  assert (L4 : M' < g * w).
  { assert (Ew : Rpower r (1 - p1) * w = 1).
    { unfold w. rewrite <- Rpower_plus. replace (1 - p1 + (p1 + 4 - INR 5)) with 0 by (cbn; ring). apply Rpower_O. exact Hr0. }
    apply (Rmult_lt_compat_r w) in N4; [|exact Hw]. rewrite Ew in N4.
    apply (Rmult_lt_compat_r M') in N4; [|exact HM']. replace (g / M' * w * M') with (g * w) in N4 by (field; lra). lra. }
  pose proof (Rle_abs M). pose proof (Rabs_triang_inv (rem p1 k1 gamma 5 r * s1) (- (rem p3 k3 gamma 5 r * s3))) as T.
  rewrite Rabs_Ropp in T. unfold Rminus in T. rewrite Ropp_involutive in T. unfold M' in L4. lra.
Qed.
