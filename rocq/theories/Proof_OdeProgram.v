(** The ODE step on the program's data. *)
From Coq Require Import ZArith List Bool Reals Lia Lra.
From Coquelicot Require Import Coquelicot.
From Verif Require Import Model_Py Model_Grid Model_Fourier Model_Domain Model_Ode Model_ZMethod Lib_Csum
  Proof_Domain Proof_Fourier Proof_ArcDst Proof_Consist Proof_Ode Proof_OdeExact Proof_ZMethod Proof_ZEx
  Spec_Fd Spec_PolarFD Spec_Ode.
Import ListNotations.
Open Scope R_scope.

Lemma lambdify_pos : forall e r th, 0 < r -> zm_lambdify e r th = e r th.
Proof. intros e r th Hr. unfold zm_lambdify. destruct (Reqb_spec r 0); [lra|reflexivity]. Qed.

Lemma sine_series_pad : forall a nu N n c th, (N <= n)%nat ->
  sine_series a nu N c th = sine_series a nu n (fun m => if Nat.ltb m N then c m else 0) th.
Proof.
  intros a nu N n c th H. unfold sine_series. induction n as [|n IH].
  - replace N with 0%nat by lia. reflexivity.
  - destruct (Nat.eq_dec N (S n)) as [->|Hne].
    + apply rsum_ext. intros m Hm. destruct (Nat.ltb_spec m (S n)); [reflexivity|lia].
    + simpl. rewrite IH by lia. destruct (Nat.ltb_spec n N); [lia|]. ring.
Qed.

Lemma expected_modes : forall a arc_R n M N (v gq : R -> R -> R) c m, a < 2 * PI -> (M <= N)%nat -> (N <= n)%nat ->
  (forall th, a < th < 2 * PI -> v arc_R th - gq arc_R th = sine_series a (PI / (2 * PI - a)) N c th) ->
  (m < M)%nat -> nth m (map fst (zm_expected_z1 v gq a arc_R n M)) 0 = c m.
Proof.
  intros a arc_R n M N v gq c m Ha HM HN H Hm. unfold zm_expected_z1. rewrite map_map.
  set (F := fun m0 : nat => _). rewrite (nth_indep _ 0 (F 0%nat)) by (rewrite map_length, seq_length; lia).
  rewrite map_nth, seq_nth by lia. unfold F. cbn [Nat.add].
  change (ode_dst a n (fun th => v arc_R th - gq arc_R th) m = c m).
  rewrite (ode_dst_modes a n (fun m => if Nat.ltb m N then c m else 0)).
  - destruct (Nat.ltb_spec m N); [reflexivity|lia].
  - assumption.
  - lia.
  - intros th Hth. rewrite H by assumption. apply sine_series_pad. assumption.
Qed.

Lemma ode_program : forall odeint k a g v V G A B vs vs1 R0 R1 M N n d0 d1,
  a < 2 * PI -> 0 < R0 < R1 -> (M <= N)%nat -> (N <= n)%nat -> 0 <= d0 -> 0 <= d1 ->
  partials 2 right_half v V -> partials 2 right_half g G ->
  (forall r th, 0 < r -> polar_helmholtz k V r th = 0) ->
  (forall r, 0 < r -> A 0%nat r = zm_f0 k g r a) -> (forall r, 0 < r -> B 0%nat r = zm_f0 k g r (2 * PI)) ->
  (forall i r, (i < 2)%nat -> 0 < r -> is_derive (A i) r (A (S i) r)) ->
  (forall i r, (i < 2)%nat -> 0 < r -> is_derive (B i) r (B (S i) r)) ->
  (forall r, R0 < r <= R1 -> exists c, forall th, a < th < 2 * PI ->
     zm_initial k a v g r th = sine_series a (PI / (2 * PI - a)) N c th) ->
  (forall th, a < th < 2 * PI -> Rabs (vs R0 th - v R0 th) <= d0) ->
  (forall th, a < th < 2 * PI -> is_derive (fun r => vs r th) R0 (vs1 th) /\ Rabs (vs1 th - V 1%nat 0%nat R0 th) <= d1) ->
  let init := zm_lambdify (zm_initial k a vs g) in
  let d_init := zm_lambdify (zm_d_initial k a vs g) in
  let f1 := zm_lambdify (zm_f1 k a g) in
  let gq := zm_lambdify (fun r th => g r th + zm_q k a g r th) in
  let nu := PI / (2 * PI - a) in
  (let deriv := ode_eval_deriv a nu k N f1 M in let ic := ode_ic a R0 N init d_init in
   trajectory deriv (2 * M) ic R0 R1 (odeint deriv (2 * M)%nat ic R0 R1)) ->
  forall m, (m < M)%nat ->
  (nth m (ode_calc_z1_fourier odeint init d_init f1 a nu k R0 R1 M N) 0
   - nth m (map fst (zm_expected_z1 v gq a R1 n M)) 0) ^ 2 <=
  4 * (d0 ^ 2 + d1 ^ 2) * exp ((2 + k ^ 2 + (INR (m + 1) * nu / R0) ^ 2) * (R1 - R0)).
Proof.
  intros odeint k a g v V G A B vs vs1 R0 R1 M N n d0 d1 Ha HR HM HN Hd0 Hd1 HV HG Hv HA0 HB0 HA HB
    Hmodes Hvs Hvs1 init d_init f1 gq nu Ht m Hm.
  destruct (z1_full k a g v V G A B ltac:(lra) HV HG Hv HA0 HB0 HA HB) as [W [HW HWeq]].
  destruct (Hmodes R1 ltac:(lra)) as [c Hc].
  assert (Ec : nth m (map fst (zm_expected_z1 v gq a R1 n M)) 0 = c m).
  { apply (expected_modes a R1 n M N v gq c m Ha HM HN); [|assumption].
    intros th Hth. rewrite <- Hc by assumption. unfold gq. rewrite lambdify_pos by lra. reflexivity. }
  rewrite Ec.
  pose proof (ode_stable odeint init d_init f1 a k R0 R1 M N (zm_initial k a v g) W (zm_f1 k a g) d0 d1 0
    Ha HR HM Hd0 Hd1 (Rle_refl 0) Ht) as H.
  replace (d0 ^ 2 + d1 ^ 2) with (d0 ^ 2 + d1 ^ 2 + 0 ^ 2 * (R1 - R0)) by ring.
  apply H; clear H; try assumption.
  - destruct HW as [HW0 HW]. split; [exact HW0|]. intros i j Hij r th [Hr _]. apply HW; [assumption|].
    unfold right_half. lra.
  - intros r th Hr Hth. destruct HW as [HW0 HW]. split.
    + apply (ex_derive_continuous (K := R_AbsRing) (V := R_NormedModule)). exists (W 1%nat 0%nat r th).
      apply (is_derive_ext (fun r => W 0%nat 0%nat r th)); [intros; apply HW0|].
      apply (HW 0%nat 0%nat ltac:(lia) r th). unfold right_half. lra.
    + apply (ex_derive_continuous (K := R_AbsRing) (V := R_NormedModule)). exists (W 2%nat 0%nat r th).
      apply (HW 1%nat 0%nat ltac:(lia) r th). unfold right_half. lra.
  - intros r th Hr Hth. apply HWeq. lra.
  - intros r Hr. apply Hmodes. lra.
  - intros th Hth. unfold init. rewrite lambdify_pos by lra. unfold zm_initial.
    replace (vs R0 th - (g R0 th + zm_q k a g R0 th) - (v R0 th - (g R0 th + zm_q k a g R0 th)))
      with (vs R0 th - v R0 th) by ring. apply Hvs. assumption.
  - intros th Hth. unfold d_init. rewrite lambdify_pos by lra. unfold zm_d_initial, diff_r.
    destruct (Hvs1 th Hth) as [D1 Hb]. destruct HW as [HW0 HW]. destruct HV as [HV0 HV].
    assert (DW : is_derive (fun r => zm_initial k a v g r th) R0 (W 1%nat 0%nat R0 th)).
    { apply (is_derive_ext (fun r => W 0%nat 0%nat r th)); [intros; apply HW0|].
      apply (HW 0%nat 0%nat ltac:(lia) R0 th). unfold right_half. lra. }
    assert (DV : is_derive (fun r => v r th) R0 (V 1%nat 0%nat R0 th)).
    { apply (is_derive_ext (fun r => V 0%nat 0%nat r th)); [intros; apply HV0|].
      apply (HV 0%nat 0%nat ltac:(lia) R0 th). unfold right_half. lra. }
    assert (DI : is_derive (fun r => zm_initial k a vs g r th) R0 (W 1%nat 0%nat R0 th + (vs1 th - V 1%nat 0%nat R0 th))).
    { apply (is_derive_ext (fun r => zm_initial k a v g r th + (vs r th - v r th))).
      - intros t. unfold zm_initial.
        change (v t th - (g t th + zm_q k a g t th) + (vs t th - v t th) = vs t th - (g t th + zm_q k a g t th)). ring.
      - apply (is_derive_plus (V := R_NormedModule)); [exact DW|].
        apply (is_derive_minus (V := R_NormedModule)); [exact D1|exact DV]. }
    replace (Derive (fun r => zm_initial k a vs g r th) R0) with (W 1%nat 0%nat R0 th + (vs1 th - V 1%nat 0%nat R0 th))
      by (symmetry; apply is_derive_unique; exact DI).
    replace (W 1%nat 0%nat R0 th + (vs1 th - V 1%nat 0%nat R0 th) - W 1%nat 0%nat R0 th)
      with (vs1 th - V 1%nat 0%nat R0 th) by ring. exact Hb.
  - intros r th Hr Hth. unfold f1. rewrite lambdify_pos by lra.
    unfold Rminus. rewrite Rplus_opp_r, Rabs_R0. lra.
Qed.
