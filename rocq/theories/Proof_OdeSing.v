(** Accuracy of the ODE step for the problems of runz.py. *)
From Coq Require Import String ZArith List Bool Reals Lia Lra Psatz FunctionalExtensionality.
From Coquelicot Require Import Coquelicot.
From Verif Require Import Model_Py Model_Grid Model_Fourier Model_Domain Model_Abcoef Model_Ode Model_ZMethod Model_Problems
  Model_ZRun Model_Program Model_ZProgram Lib_Csum
  Proof_Domain Proof_Bessel Proof_Regular Proof_Fourier Proof_ArcDst Proof_Consist Proof_Ode Proof_OdeExact Proof_ZMethod Proof_OdeProgram Proof_ZSing Proof_OdeAcc Proof_OdeSeries Proof_OdeExist
  Proof_ZProgram Spec_Fd Spec_PolarFD Spec_Ode Spec_Problems Spec_Bessel Spec_OdeAcc.
Import ListNotations.
Open Scope R_scope.

(** ** The program's data *)

Lemma program_accurate : forall odeint k a g v W T (K : nat -> R) vs R0 R1 M N d0 d1 m,
  a < 2 * PI -> 0 < R0 < R1 -> (M <= N)%nat -> 0 <= d0 -> 0 <= d1 -> (m < M)%nat ->
  partials 2 off_tip (zm_initial k a v g) W ->
  (forall r th, 0 < r -> polar_helmholtz k W r th = zm_f1 k a g r th) ->
  angular 6 (fun r => R0 <= r <= R1) (zm_initial k a v g) T ->
  (forall r th, R0 <= r <= R1 -> th = a \/ th = 2 * PI -> T 0%nat r th = 0 /\ T 2%nat r th = 0) ->
  (forall i r th, (i <= 6)%nat -> R0 <= r <= R1 -> a <= th <= 2 * PI -> Rabs (T i r th) <= K i) ->
  (forall th, a < th < 2 * PI -> Rabs (vs R0 th - v R0 th) <= d0) ->
  (forall th, a < th < 2 * PI -> exists y : R, is_derive (fun r => vs r th - v r th) R0 y /\ Rabs y <= d1) ->
  let init := zm_lambdify (zm_initial k a vs g) in
  let d_init := zm_lambdify (zm_d_initial k a vs g) in
  let f1 := zm_lambdify (zm_f1 k a g) in
  let nu := PI / (2 * PI - a) in
  (let deriv := ode_eval_deriv a nu k N f1 M in let ic := ode_ic a R0 N init d_init in
   trajectory deriv (2 * M) ic R0 R1 (odeint deriv (2 * M)%nat ic R0 R1)) ->
  let beta := mode_freq a m in
  Rabs (nth m (ode_calc_z1_fourier odeint init d_init f1 a nu k R0 R1 M N) 0 - sine_coef a (zm_initial k a v g R1) m) <=
  mode_error a k m R0 R1 (2 * d0) (2 * d1) (step4 a N * (product4 beta K 2 + beta ^ 2 * product4 beta K 0) / R0 ^ 2)
  + step4 a N * product4 beta K 0.
Proof.
  intros odeint k a g v W T K vs R0 R1 M N d0 d1 m Ha HR HM Hd0 Hd1 Hm HW HWeq HT Hedge HK Hvs Hvs1 init d_init f1 nu Ht beta.
  replace (step4 a N * (product4 beta K 2 + beta ^ 2 * product4 beta K 0) / R0 ^ 2) with
    (2 * 0 + step4 a N * (product4 beta K 2 + beta ^ 2 * product4 beta K 0) / R0 ^ 2) by ring.
  apply (ode_accurate odeint init d_init f1 a k R0 R1 M N (zm_initial k a v g) W T (zm_f1 k a g) K d0 d1 0 m);
    try assumption; try lra.
  - destruct HW as [HW0 HW]. split; [exact HW0|]. intros i j Hij r th [Hr _]. apply HW; [assumption|]. unfold off_tip. lra.
  - intros r th Hr Hth. destruct HW as [HW0 HW]. split.
    + apply (ex_derive_continuous (K := R_AbsRing) (V := R_NormedModule)). exists (W 1%nat 0%nat r th).
      apply (is_derive_ext (fun r => W 0%nat 0%nat r th)); [intros; apply HW0|].
      apply (HW 0%nat 0%nat ltac:(lia) r th). unfold off_tip. lra.
    + apply (ex_derive_continuous (K := R_AbsRing) (V := R_NormedModule)). exists (W 2%nat 0%nat r th).
      apply (HW 1%nat 0%nat ltac:(lia) r th). unfold off_tip. lra.
  - intros r th Hr Hth. apply HWeq. lra.
  - intros th Hth. unfold init. rewrite lambdify_pos by lra. unfold zm_initial.
    replace (vs R0 th - (g R0 th + zm_q k a g R0 th) - (v R0 th - (g R0 th + zm_q k a g R0 th)))
      with (vs R0 th - v R0 th) by ring. apply Hvs. assumption.
  - intros th Hth. unfold d_init. rewrite lambdify_pos by lra. unfold zm_d_initial, diff_r.
    destruct (Hvs1 th Hth) as (y & D1 & Hb). destruct HW as [HW0 HW].
    assert (DW : is_derive (fun r => zm_initial k a v g r th) R0 (W 1%nat 0%nat R0 th)).
    { apply (is_derive_ext (fun r => W 0%nat 0%nat r th)); [intros; apply HW0|].
      apply (HW 0%nat 0%nat ltac:(lia) R0 th). unfold off_tip. lra. }
    assert (DI : is_derive (fun r => zm_initial k a vs g r th) R0 (W 1%nat 0%nat R0 th + y)).
    { apply (is_derive_ext (fun r => zm_initial k a v g r th + (vs r th - v r th))).
      - intros t. unfold zm_initial.
        change (v t th - (g t th + zm_q k a g t th) + (vs t th - v t th) = vs t th - (g t th + zm_q k a g t th)). ring.
      - apply (is_derive_plus (V := R_NormedModule)); [exact DW|exact D1]. }
    replace (Derive (fun r => zm_initial k a vs g r th) R0) with (W 1%nat 0%nat R0 th + y)
      by (symmetry; apply is_derive_unique; exact DI).
    replace (W 1%nat 0%nat R0 th + y - W 1%nat 0%nat R0 th) with y by ring. exact Hb.
  - intros r th Hr Hth. unfold f1. rewrite lambdify_pos by lra.
    unfold Rminus. rewrite Rplus_opp_r, Rabs_R0. lra.
Qed.

(** ** The remainder in the angle *)

Definition corr (i : nat) (s : R) : R :=
  match i with
  | 0%nat => 6 * s ^ 7 - 27 * s ^ 6 + 46 * s ^ 5 - 35 * s ^ 4 + 10 * s ^ 3
  | 1%nat => 42 * s ^ 6 - 162 * s ^ 5 + 230 * s ^ 4 - 140 * s ^ 3 + 30 * s ^ 2
  | 2%nat => 252 * s ^ 5 - 810 * s ^ 4 + 920 * s ^ 3 - 420 * s ^ 2 + 60 * s
  | 3%nat => 1260 * s ^ 4 - 3240 * s ^ 3 + 2760 * s ^ 2 - 840 * s + 60
  | 4%nat => 5040 * s ^ 3 - 9720 * s ^ 2 + 5520 * s - 840
  | 5%nat => 15120 * s ^ 2 - 19440 * s + 5520
  | _ => 30240 * s - 19440
  end.
Definition sine_i (A w : R) (i : nat) (s : R) : R :=
  match i with
  | 0%nat => A * sin (w * s) | 1%nat => A * w * cos (w * s) | 2%nat => - A * w ^ 2 * sin (w * s) | 3%nat => - A * w ^ 3 * cos (w * s)
  | 4%nat => A * w ^ 4 * sin (w * s) | 5%nat => A * w ^ 5 * cos (w * s) | _ => - A * w ^ 6 * sin (w * s)
  end.
Definition line_i (i : nat) (s : R) : R := match i with 0%nat => s | 1%nat => 1 | _ => 0 end.
Definition rem_i (A w : R) (i : nat) (s : R) : R := sine_i A w i s - line_i i s + w ^ 2 / 2 * corr i s.

Lemma rem_derive : forall A w i s, (i < 6)%nat -> is_derive (rem_i A w i) s (rem_i A w (S i) s).
Proof.
  intros A w i s Hi. destruct i as [|[|[|[|[|[|i]]]]]]; [| | | | | |lia];
    unfold rem_i, sine_i, line_i, corr; (auto_derive; [exact I|field]).
Qed.

Lemma rem_edges : forall A w, A * sin w = 1 -> rem_i A w 0 0 = 0 /\ rem_i A w 2 0 = 0 /\ rem_i A w 0 1 = 0 /\ rem_i A w 2 1 = 0.
Proof.
  intros A w H. unfold rem_i, sine_i, line_i, corr. rewrite Rmult_0_r, Rmult_1_r, sin_0.
  repeat split; try field.
  - rewrite H. field.
  - replace (- A * w ^ 2 * sin w) with (- w ^ 2 * (A * sin w)) by ring. rewrite H. field.
Qed.

Lemma corr_bound : forall i s, (i <= 6)%nat -> 0 <= s <= 1 -> Rabs (corr i s) <=
  match i with 0%nat => 124 | 1%nat => 604 | 2%nat => 2462 | 3%nat => 8160 | 4%nat => 21120 | 5%nat => 40080 | _ => 49680 end.
Proof.
  intros i s Hi Hs.
  assert (P : forall n, 0 <= s ^ n <= 1).
  { intros n. split; [apply pow_le; lra|]. rewrite <- (pow1 n). apply pow_incr. exact Hs. }
  pose proof (P 2%nat). pose proof (P 3%nat). pose proof (P 4%nat). pose proof (P 5%nat). pose proof (P 6%nat). pose proof (P 7%nat).
  destruct i as [|[|[|[|[|[|[|i]]]]]]]; [| | | | | | |lia]; cbn [corr]; apply Rabs_le; lra.
Qed.

Lemma rem_bound : forall A w i s, Rabs A = 1 -> 0 <= w -> (i <= 6)%nat -> 0 <= s <= 1 -> Rabs (rem_i A w i s) <= ramp_bound w i.
Proof.
  intros A w i s HA Hw Hi Hs. unfold rem_i, ramp_bound.
  assert (B1 : Rabs (sine_i A w i s) <= w ^ i).
  { assert (Q : forall c x n, Rabs c = 1 -> Rabs x <= 1 -> Rabs (c * w ^ n * x) <= w ^ n).
    { intros c x n Hc Hx. rewrite !Rabs_mult, Hc, (Rabs_pos_eq (w ^ n)) by (apply pow_le; lra). pose proof (pow_le w n Hw). pose proof (Rabs_pos x). nra. }
    assert (HA' : Rabs (- A) = 1) by (rewrite Rabs_Ropp; exact HA).
    assert (Hsn : Rabs (sin (w * s)) <= 1) by (apply Rabs_le, SIN_bound).
    assert (Hcn : Rabs (cos (w * s)) <= 1) by (apply Rabs_le, COS_bound).
    destruct i as [|[|[|[|[|[|[|i]]]]]]]; [| | | | | | |lia]; unfold sine_i.
    - replace (A * sin (w * s)) with (A * w ^ 0 * sin (w * s)) by ring. apply Q; assumption.
    - replace (A * w * cos (w * s)) with (A * w ^ 1 * cos (w * s)) by ring. apply Q; assumption.
    - apply Q; assumption.
    - apply Q; assumption.
    - apply Q; assumption.
    - apply Q; assumption.
    - apply Q; assumption. }
  assert (B2 : Rabs (line_i i s) <= if Nat.leb i 1 then 1 else 0).
  { destruct i as [|[|i]]; cbn [line_i Nat.leb]; apply Rabs_le; lra. }
  pose proof (corr_bound i s Hi Hs) as B3.
  assert (B4 : Rabs (w ^ 2 / 2 * corr i s) <= w ^ 2 / 2 * match i with 0%nat => 124 | 1%nat => 604 | 2%nat => 2462 | 3%nat => 8160 | 4%nat => 21120 | 5%nat => 40080 | _ => 49680 end).
  { rewrite Rabs_mult, (Rabs_pos_eq (w ^ 2 / 2)) by (pose proof (pow2_ge_0 w); lra). apply Rmult_le_compat_l; [pose proof (pow2_ge_0 w); lra|exact B3]. }
  eapply Rle_trans; [apply Rabs_triang|]. apply Rplus_le_compat; [|exact B4].
  unfold Rminus. eapply Rle_trans; [apply Rabs_triang|]. rewrite Rabs_Ropp. apply Rplus_le_compat; assumption.
Qed.

(** In the angle itself: the arc from a to 2 pi, forwards (c = 1) or backwards. *)
Lemma is_derive_affine : forall (f f' : R -> R) c d t, is_derive f (c * t + d) (f' (c * t + d)) -> forall n : nat,
  is_derive (fun t => c ^ n * f (c * t + d)) t (c ^ S n * f' (c * t + d)).
Proof.
  intros f f' c d t D n.
  replace (c ^ S n * f' (c * t + d)) with (c ^ n * (c * f' (c * t + d))) by (simpl; ring).
  apply is_derive_scal. apply (is_derive_comp f (fun t => c * t + d)); [exact D|]. auto_derive; [exact I|ring].
Qed.

Section Arc.
Variables (a : R).
Hypothesis Ha : a < 2 * PI.
Let D := 2 * PI - a.

Definition fwd (i : nat) (th : R) : R := (/ D) ^ i * rem_i 1 (PI / 2) i (/ D * th + - a / D).
Definition bwd (i : nat) (th : R) : R := (- / D) ^ i * rem_i (-1) (3 * PI / 2) i (- / D * th + 2 * PI / D).

Lemma D_pos : 0 < D.
Proof. unfold D. lra. Qed.

Lemma fwd_derive : forall i th, (i < 6)%nat -> is_derive (fwd i) th (fwd (S i) th).
Proof. intros i th Hi. apply (is_derive_affine (rem_i 1 (PI / 2) i) (rem_i 1 (PI / 2) (S i))). apply rem_derive. exact Hi. Qed.
Lemma bwd_derive : forall i th, (i < 6)%nat -> is_derive (bwd i) th (bwd (S i) th).
Proof. intros i th Hi. apply (is_derive_affine (rem_i (-1) (3 * PI / 2) i) (rem_i (-1) (3 * PI / 2) (S i))). apply rem_derive. exact Hi. Qed.

Lemma sin_fwd : 1 * sin (PI / 2) = 1.
Proof. rewrite sin_PI2. ring. Qed.
Lemma sin_bwd : -1 * sin (3 * PI / 2) = 1.
Proof. replace (3 * PI / 2) with (3 * (PI / 2)) by field. rewrite sin_3PI2. ring. Qed.

Lemma arc_edges : forall th, th = a \/ th = 2 * PI -> (fwd 0 th = 0 /\ fwd 2 th = 0) /\ (bwd 0 th = 0 /\ bwd 2 th = 0).
Proof using Ha.
  pose proof D_pos as HD. destruct (rem_edges 1 (PI / 2) sin_fwd) as (F1 & F2 & F3 & F4).
  destruct (rem_edges (-1) (3 * PI / 2) sin_bwd) as (G1 & G2 & G3 & G4).
  intros th [->| ->]; unfold fwd, bwd.
  - replace (/ D * a + - a / D) with 0 by (field; lra). replace (- / D * a + 2 * PI / D) with 1 by (unfold D in *; field; lra).
    rewrite F1, F2, G3, G4. repeat split; ring.
  - replace (/ D * (2 * PI) + - a / D) with 1 by (unfold D in *; field; lra). replace (- / D * (2 * PI) + 2 * PI / D) with 0 by (field; lra).
    rewrite F3, F4, G1, G2. repeat split; ring.
Qed.

Lemma arc_bound : forall i th, (i <= 6)%nat -> a <= th <= 2 * PI ->
  Rabs (fwd i th) <= ramp_bound (PI / 2) i / D ^ i /\ Rabs (bwd i th) <= ramp_bound (3 * PI / 2) i / D ^ i.
Proof using Ha.
  intros i th Hi Hth. pose proof D_pos as HD. pose proof PI_RGT_0. assert (HI : 0 < / D) by (apply Rinv_0_lt_compat; exact HD).
  assert (Hp : 0 < (/ D) ^ i) by (apply pow_lt; exact HI).
  assert (Hs : 0 <= / D * th + - a / D <= 1).
  { replace (/ D * th + - a / D) with (/ D * (th - a)) by (field; lra). split; [apply Rmult_le_pos; lra|].
    replace 1 with (/ D * D) by (field; lra). apply Rmult_le_compat_l; unfold D in *; lra. }
  assert (Hs' : 0 <= - / D * th + 2 * PI / D <= 1).
  { replace (- / D * th + 2 * PI / D) with (/ D * (2 * PI - th)) by (field; lra). split; [apply Rmult_le_pos; lra|].
    replace 1 with (/ D * D) by (field; lra). apply Rmult_le_compat_l; unfold D in *; lra. }
  split; unfold fwd, bwd; rewrite Rabs_mult; unfold Rdiv; rewrite (Rmult_comm (ramp_bound _ i)), <- pow_inv by lra.
  - rewrite (Rabs_pos_eq ((/ D) ^ i)) by lra. apply Rmult_le_compat_l; [lra|]. apply rem_bound; try assumption; [apply Rabs_R1|lra].
  - rewrite <- RPow_abs, Rabs_Ropp, (Rabs_pos_eq (/ D)) by lra. apply Rmult_le_compat_l; [lra|]. apply rem_bound; try assumption; [rewrite Rabs_left; lra|lra].
Qed.
End Arc.

(** The remainder of the two kinds of problem. *)
Lemma line_z1 : forall J k nu a, nu * (2 * PI - a) = PI -> 0 < a < 2 * PI -> 0 < k -> bessel_like J (nu / 2) ->
  forall r th, 0 < r -> zm_initial k a (ih_eval_v J 0 k nu a) (ih_g J 0 k nu a) r th = J (nu / 2) (k * r) * fwd a 0 th.
Proof.
  intros J k nu a Hnu Ha Hk [J1 [J2 HJ]] r th Hr. assert (E0 : (0 + 1 / 2) * nu = nu / 2) by field.
  pose proof (ramp_partials J J1 J2 (nu / 2) k Hk HJ (/ (2 * PI - a)) (- a / (2 * PI - a))) as PG.
  assert (PG' : partials 2 off_tip (ih_g J 0 k nu a)
    (ramp J J1 J2 (nu / 2) k (/ (2 * PI - a)) (- a / (2 * PI - a)))).
  { eapply partials_ext; [|exact PG]. intros x y. cbv beta. unfold ih_g. rewrite E0. field. lra. }
  assert (F0 : forall th, zm_f0 k (ih_g J 0 k nu a) r th =
    - ((nu / 2) ^ 2 * ((th - a) / (2 * PI - a))) * (J (nu / 2) (k * r) / r ^ 2)).
  { intros t. unfold zm_f0. rewrite (helm_partials k _ _ r t PG' Hr).
    rewrite (ramp_image J J1 J2 (nu / 2) k Hk HJ) by exact Hr. unfold jq, jr. field. lra. }
  unfold zm_initial, zm_q, zm_q1, zm_q2, ih_eval_v, ih_g, fwd, rem_i, sine_i, line_i, corr, zm_p. rewrite !F0, E0.
  assert (En : nu = PI / (2 * PI - a)) by (apply (Rmult_eq_reg_r (2 * PI - a)); [rewrite Hnu; field; lra|lra]).
  replace (PI / 2 * (/ (2 * PI - a) * th + - a / (2 * PI - a))) with (nu / 2 * (th - a)) by (rewrite En; field; lra).
  set (S0 := sin _). set (J0 := J _ _). clearbody S0 J0. rewrite En. field. lra.
Qed.

Lemma quad_z1 : forall J k nu a, nu * (2 * PI - a) = PI -> 0 < a < 2 * PI -> 0 < k -> bessel_like J (nu / 2) -> bessel_like J (3 * nu / 2) ->
  forall r th, 0 < r -> zm_initial k a (quad_eval_v J k nu a) (quad_g J k nu a) r th =
    J (nu / 2) (k * r) * fwd a 0 th + J (3 * nu / 2) (k * r) * bwd a 0 th.
Proof.
  intros J k nu a Hnu Ha Hk [J1 [J2 HJ]] [L1 [L2 HL]] r th Hr.
  pose proof (ramp_partials J J1 J2 (nu / 2) k Hk HJ (/ (2 * PI - a)) (- a / (2 * PI - a))) as PG.
  pose proof (ramp_partials J L1 L2 (3 * nu / 2) k Hk HL (/ (a - 2 * PI)) (- (2 * PI) / (a - 2 * PI))) as PH.
  pose proof (partials_comb 2 off_tip _ _ _ _ 1 1 PG PH) as PC.
  match type of PC with partials _ _ _ ?U => set (GG := U) in PC end.
  assert (PG' : partials 2 off_tip (quad_g J k nu a) GG).
  { eapply partials_ext; [|exact PC]. intros x y. cbv beta. unfold quad_g. field. lra. }
  assert (F0 : forall th, zm_f0 k (quad_g J k nu a) r th =
    - ((nu / 2) ^ 2 * ((th - a) / (2 * PI - a))) * (J (nu / 2) (k * r) / r ^ 2)
    - ((3 * nu / 2) ^ 2 * ((th - 2 * PI) / (a - 2 * PI))) * (J (3 * nu / 2) (k * r) / r ^ 2)).
  { intros t. unfold zm_f0. rewrite (helm_partials k _ _ r t PG' Hr). unfold GG.
    rewrite helm_lin by exact Hr.
    rewrite (ramp_image J J1 J2 (nu / 2) k Hk HJ), (ramp_image J L1 L2 (3 * nu / 2) k Hk HL) by exact Hr.
    unfold jq, jr. field. lra. }
  unfold zm_initial, zm_q, zm_q1, zm_q2, quad_eval_v, quad_g, fwd, bwd, rem_i, sine_i, line_i, corr, zm_p. rewrite !F0.
  assert (En : nu = PI / (2 * PI - a)) by (apply (Rmult_eq_reg_r (2 * PI - a)); [rewrite Hnu; field; lra|lra]).
  replace (PI / 2 * (/ (2 * PI - a) * th + - a / (2 * PI - a))) with (nu / 2 * (th - a)) by (rewrite En; field; lra).
  replace (3 * PI / 2 * (- / (2 * PI - a) * th + 2 * PI / (2 * PI - a))) with (- (3 * nu / 2 * (th - 2 * PI))) by (rewrite En; field; lra).
  rewrite sin_neg.
  set (S0 := sin (nu / 2 * _)). set (S1 := sin (3 * nu / 2 * _)). set (J0 := J (nu / 2) _). set (J3 := J (3 * nu / 2) _).
  clearbody S0 S1 J0 J3. rewrite En. field. lra.
Qed.

(** ** The problems of runz.py *)

Section Sing.
Variables (jv : R -> R -> R) (gamma : R -> R) (s : sing_name).
Hypothesis Hg : gamma_like gamma.
Hypothesis Hj : forall p, 0 < p -> bessel_series jv gamma p.
Let p := sing_problem jv gamma s.
Let k := zp_k p.
Let z1 := zm_initial k (PI / 4) (zp_eval_v p) (zp_g p).
Let g1 := / Rabs (gamma (9 / 7)).
Let g3 := / Rabs (gamma (13 / 7)).

Lemma nu_val : pizza_nu = 4 / 7.
Proof. unfold pizza_nu, problem_nu, pizza_a. pose proof PI_RGT_0. field. lra. Qed.

Lemma nu1_pos : 0 < pizza_nu / 2.
Proof. rewrite nu_val. lra. Qed.
Lemma nu3_pos : 0 < 3 * pizza_nu / 2.
Proof. rewrite nu_val. lra. Qed.
Lemma like1 : bessel_like jv (pizza_nu / 2).
Proof using Hg Hj. apply (jv_like _ nu1_pos jv gamma Hg). apply Hj, nu1_pos. Qed.
Lemma like3 : bessel_like jv (3 * pizza_nu / 2).
Proof using Hg Hj. apply (jv_like _ nu3_pos jv gamma Hg). apply Hj, nu3_pos. Qed.

Lemma k_range : 27 / 4 <= k <= 43 / 4.
Proof. unfold k, p. destruct s; cbn; unfold smooth_k, quadratic_k; lra. Qed.

Lemma arc_a : 0 < pizza_a < 2 * PI.
Proof. unfold pizza_a. pose proof PI_RGT_0. lra. Qed.

Definition sing_T (i : nat) (r th : R) : R :=
  match i with
  | O => z1 r th
  | _ => wedge_sum s (jv (pizza_nu / 2) (k * r) * fwd (PI / 4) i th) (jv (3 * pizza_nu / 2) (k * r) * bwd (PI / 4) i th)
  end.

Lemma sing_z1 : forall r th, 0 < r ->
  z1 r th = wedge_sum s (jv (pizza_nu / 2) (k * r) * fwd (PI / 4) 0 th) (jv (3 * pizza_nu / 2) (k * r) * bwd (PI / 4) 0 th).
Proof using Hg Hj.
  intros r th Hr. pose proof arc_a as Ha. pose proof k_range as Hk. unfold z1, k, p in *. destruct s; cbn [sing_problem zp_k zp_eval_v zp_g wedge_sum] in *.
  - apply (line_z1 jv smooth_k pizza_nu pizza_a pizza_nu_turn Ha); [lra|apply like1|exact Hr].
  - apply (line_z1 jv smooth_k pizza_nu pizza_a pizza_nu_turn Ha); [lra|apply like1|exact Hr].
  - apply (quad_z1 jv quadratic_k pizza_nu pizza_a pizza_nu_turn Ha); [lra|apply like1|apply like3|exact Hr].
Qed.

Lemma sing_T_eq : forall i r th, 0 < r ->
  sing_T i r th = wedge_sum s (jv (pizza_nu / 2) (k * r) * fwd (PI / 4) i th) (jv (3 * pizza_nu / 2) (k * r) * bwd (PI / 4) i th).
Proof using Hg Hj. intros [|i] r th Hr; [apply sing_z1; exact Hr|reflexivity]. Qed.

Lemma wedge_derive : forall c1 c3 (f f' g g' : R -> R) th, is_derive f th (f' th) -> is_derive g th (g' th) ->
  is_derive (fun th => wedge_sum s (c1 * f th) (c3 * g th)) th (wedge_sum s (c1 * f' th) (c3 * g' th)).
Proof.
  intros c1 c3 f f' g g' th Hf Hgg. unfold wedge_sum. destruct s.
  - apply is_derive_scal; exact Hf.
  - apply is_derive_scal; exact Hf.
  - apply (is_derive_plus (V := R_NormedModule)); apply is_derive_scal; assumption.
Qed.

Lemma sing_angular : forall R0 R1, 0 < R0 -> angular 6 (fun r => R0 <= r <= R1) z1 sing_T.
Proof using Hg Hj.
  intros R0 R1 HR. split; [reflexivity|]. intros i r th Hi Hr.
  apply (is_derive_ext (fun th => wedge_sum s (jv (pizza_nu / 2) (k * r) * fwd (PI / 4) i th) (jv (3 * pizza_nu / 2) (k * r) * bwd (PI / 4) i th))).
  - intros t. symmetry. apply sing_T_eq. lra.
  - rewrite sing_T_eq by lra. apply wedge_derive; [apply fwd_derive|apply bwd_derive]; exact Hi.
Qed.

Lemma sing_edges : forall r th, 0 < r -> th = PI / 4 \/ th = 2 * PI -> sing_T 0 r th = 0 /\ sing_T 2 r th = 0.
Proof using Hg Hj.
  intros r th Hr Hth. rewrite !sing_T_eq by exact Hr.
  destruct (arc_edges (PI / 4) ltac:(pose proof PI_RGT_0; lra) th Hth) as [[-> ->] [-> ->]].
  unfold wedge_sum. destruct s; split; ring.
Qed.

Lemma sing_jv : forall r, / 10 <= r -> Rabs (jv (pizza_nu / 2) (k * r)) <= 7 * g1 /\ (s = IhzQuadratic -> Rabs (jv (3 * pizza_nu / 2) (k * r)) <= 7 * g3).
Proof using Hg Hj.
  intros r Hr. pose proof k_range as Hk. split.
  - replace (7 * g1) with (7 / Rabs (gamma (pizza_nu / 2 + 1))).
    2:{ unfold g1. rewrite nu_val. replace (4 / 7 / 2 + 1) with (9 / 7) by field. reflexivity. }
    apply (jv_bound _ nu1_pos jv gamma Hg (Hj _ nu1_pos) (k / 10)); [rewrite nu_val; lra|lra|rewrite nu_val; lra|nra].
  - intros Es. replace (7 * g3) with (7 / Rabs (gamma (3 * pizza_nu / 2 + 1))).
    2:{ unfold g3. rewrite nu_val. replace (3 * (4 / 7) / 2 + 1) with (13 / 7) by field. reflexivity. }
    assert (Ek : k = 43 / 4) by (unfold k, p; rewrite Es; reflexivity).
    apply (jv_bound _ nu3_pos jv gamma Hg (Hj _ nu3_pos) (k / 10)); [rewrite nu_val; lra|lra|rewrite nu_val, Ek; lra|nra].
Qed.

Lemma g_pos : 0 < g1 /\ 0 < g3.
Proof using Hg. split; apply Rinv_0_lt_compat, Rabs_pos_lt; apply Hg; lra. Qed.

Lemma sing_K : forall i r th, (i <= 6)%nat -> / 10 <= r -> PI / 4 <= th <= 2 * PI -> Rabs (sing_T i r th) <= wedge_bound s g1 g3 i.
Proof using Hg Hj.
  intros i r th Hi Hr Hth. rewrite sing_T_eq by lra. pose proof PI_RGT_0.
  destruct (arc_bound (PI / 4) ltac:(lra) i th Hi Hth) as [B1 B3].
  replace (2 * PI - PI / 4) with (7 * PI / 4) in B1, B3 by field. destruct (sing_jv r Hr) as [Q1 Q3]. destruct g_pos as [G1 G3].
  assert (HD : 0 < (7 * PI / 4) ^ i) by (apply pow_lt; lra).
  unfold wedge_bound.
  assert (X1 : Rabs (jv (pizza_nu / 2) (k * r) * fwd (PI / 4) i th) <= 7 * (g1 * ramp_bound (PI / 2) i) / (7 * PI / 4) ^ i).
  { rewrite Rabs_mult. replace (7 * (g1 * ramp_bound (PI / 2) i) / (7 * PI / 4) ^ i) with ((7 * g1) * (ramp_bound (PI / 2) i / (7 * PI / 4) ^ i)) by (unfold Rdiv; ring).
    apply Rmult_le_compat; try apply Rabs_pos; assumption. }
  destruct s eqn:Es; cbn [wedge_sum]; try exact X1.
  assert (X3 : Rabs (jv (3 * pizza_nu / 2) (k * r) * bwd (PI / 4) i th) <= 7 * (g3 * ramp_bound (3 * PI / 2) i) / (7 * PI / 4) ^ i).
  { rewrite Rabs_mult. replace (7 * (g3 * ramp_bound (3 * PI / 2) i) / (7 * PI / 4) ^ i) with ((7 * g3) * (ramp_bound (3 * PI / 2) i / (7 * PI / 4) ^ i)) by (unfold Rdiv; ring).
    apply Rmult_le_compat; try apply Rabs_pos; [apply Q3; reflexivity|exact B3]. }
  eapply Rle_trans; [apply Rabs_triang|]. eapply Rle_trans; [apply Rplus_le_compat; [exact X1|exact X3]|].
  right. unfold Rdiv. ring.
Qed.

(** The truncated series against the solution. *)
Lemma sing_data : forall th,
  Rabs (zp_v_series p (/ 10) th - zp_eval_v p (/ 10) th) <= / 10 ^ 18 * wedge_sum s g1 g3 /\
  exists y : R, is_derive (fun r => zp_v_series p r th - zp_eval_v p r th) (/ 10) y /\ Rabs y <= / 10 ^ 15 * wedge_sum s g1 g3.
Proof using Hg Hj.
  intros th. pose proof k_range as Hk.
  assert (E1 : (0 + 1 / 2) * pizza_nu = pizza_nu / 2) by field. assert (E3 : (1 + 1 / 2) * pizza_nu = 3 * pizza_nu / 2) by field.
  destruct (va_error _ nu1_pos jv gamma Hg (Hj _ nu1_pos) 0 k pizza_nu E1 ltac:(rewrite nu_val; lra) ltac:(lra)) as [A0 [y1 [D1 A1]]].
  destruct (va_error _ nu3_pos jv gamma Hg (Hj _ nu3_pos) 1 k pizza_nu E3 ltac:(rewrite nu_val; lra) ltac:(lra)) as [B0 [y3 [D3 B1]]].
  replace (gamma (pizza_nu / 2 + 1)) with (gamma (9 / 7)) in A0, A1 by (rewrite nu_val; f_equal; field).
  replace (gamma (3 * pizza_nu / 2 + 1)) with (gamma (13 / 7)) in B0, B1 by (rewrite nu_val; f_equal; field).
  change (/ 10 ^ 18 / Rabs (gamma (9 / 7))) with (/ 10 ^ 18 * g1) in A0. change (/ 10 ^ 15 / Rabs (gamma (9 / 7))) with (/ 10 ^ 15 * g1) in A1.
  change (/ 10 ^ 18 / Rabs (gamma (13 / 7))) with (/ 10 ^ 18 * g3) in B0. change (/ 10 ^ 15 / Rabs (gamma (13 / 7))) with (/ 10 ^ 15 * g3) in B1.
  assert (M : forall x w e, Rabs x <= e -> Rabs (x * sin w) <= e).
  { intros x w e H. rewrite Rabs_mult. pose proof (SIN_bound w). assert (Rabs (sin w) <= 1) by (apply Rabs_le; lra).
    pose proof (Rabs_pos x). pose proof (Rabs_pos (sin w)). nra. }
  assert (LINE : forall kk, kk = k ->
    Rabs (ih_v_series gamma 0 kk pizza_nu pizza_a (/ 10) th - ih_eval_v jv 0 kk pizza_nu pizza_a (/ 10) th) <= / 10 ^ 18 * g1 /\
    exists y : R, is_derive (fun r => ih_v_series gamma 0 kk pizza_nu pizza_a r th - ih_eval_v jv 0 kk pizza_nu pizza_a r th) (/ 10) y /\ Rabs y <= / 10 ^ 15 * g1).
  { intros kk ->. unfold ih_v_series, ih_eval_v. rewrite E1. split.
    - rewrite <- Rmult_minus_distr_r. apply M. exact A0.
    - exists (y1 * sin (pizza_nu / 2 * (th - pizza_a))). split; [|apply M; exact A1].
      apply (is_derive_ext (fun r => sin (pizza_nu / 2 * (th - pizza_a)) * (v_asympt0 gamma 0 k pizza_nu 10 r - jv (pizza_nu / 2) (k * r)))).
      + intros t. match goal with |- @eq _ ?u ?w => change (@eq R u w) end. ring.
      + rewrite (Rmult_comm y1). apply is_derive_scal. exact D1. }
  unfold p, k, p in *. destruct s; cbn [sing_problem zp_k zp_eval_v zp_v_series wedge_sum] in *.
  - apply LINE. reflexivity.
  - apply LINE. reflexivity.
  - clear LINE. unfold quad_v_series, quad_eval_v. split.
    + match goal with |- Rabs ?u <= _ => replace u with
        ((v_asympt0 gamma 0 quadratic_k pizza_nu 10 (/ 10) - jv (pizza_nu / 2) (quadratic_k * / 10)) * sin (pizza_nu / 2 * (th - pizza_a)) +
         (v_asympt0 gamma 1 quadratic_k pizza_nu 10 (/ 10) - jv (3 * pizza_nu / 2) (quadratic_k * / 10)) * sin (3 * pizza_nu / 2 * (th - 2 * PI))) by ring end.
      rewrite Rmult_plus_distr_l. eapply Rle_trans; [apply Rabs_triang|]. apply Rplus_le_compat; apply M; assumption.
    + exists (y1 * sin (pizza_nu / 2 * (th - pizza_a)) + y3 * sin (3 * pizza_nu / 2 * (th - 2 * PI))). split.
      * apply (is_derive_ext (fun r => sin (pizza_nu / 2 * (th - pizza_a)) * (v_asympt0 gamma 0 quadratic_k pizza_nu 10 r - jv (pizza_nu / 2) (quadratic_k * r))
          + sin (3 * pizza_nu / 2 * (th - 2 * PI)) * (v_asympt0 gamma 1 quadratic_k pizza_nu 10 r - jv (3 * pizza_nu / 2) (quadratic_k * r)))).
        { intros t. match goal with |- @eq _ ?u ?w => change (@eq R u w) end. ring. }
        rewrite (Rmult_comm y1), (Rmult_comm y3). apply (is_derive_plus (V := R_NormedModule)); apply is_derive_scal; assumption.
      * rewrite Rmult_plus_distr_l. eapply Rle_trans; [apply Rabs_triang|]. apply Rplus_le_compat; apply M; assumption.
Qed.

Lemma sing_W : exists W, partials 2 off_tip z1 W /\ forall r th, 0 < r -> polar_helmholtz k W r th = zm_f1 k (PI / 4) (zp_g p) r th.
Proof using Hg Hj.
  pose proof (sing_problems jv gamma s Arc like1 like3) as H. cbv zeta in H. destruct H as (_ & _ & _ & [HW _] & _). exact HW.
Qed.

(** The source is continuous in the radius. *)
Lemma sing_f1 : forall r th, 0 < r -> zm_f1 k (PI / 4) (zp_g p) r th =
  wedge_sum s (jv (pizza_nu / 2) (k * r) * ((pizza_nu / 2) ^ 2 * fwd (PI / 4) 0 th + fwd (PI / 4) 2 th))
    (jv (3 * pizza_nu / 2) (k * r) * ((3 * pizza_nu / 2) ^ 2 * bwd (PI / 4) 0 th + bwd (PI / 4) 2 th)) / r ^ 2.
Proof using Hg Hj.
  destruct sing_W as [W [[HW0 HW] HWeq]]. intros r th Hr. rewrite <- HWeq by exact Hr. pose proof k_range as Hk.
  destruct like1 as [J1 [J2 HJ]]. destruct like3 as [L1 [L2 HL]].
  assert (P : forall x, 0 < x -> 0 < k * x) by (intros; nra).
  assert (near : forall x, 0 < x -> locally x (fun y => 0 < y)).
  { intros x Hx. exists (mkposreal x Hx). intros y Hy. change (Rabs (y - x) < x) in Hy. apply Rabs_lt_between in Hy. lra. }
  assert (DJ : forall x, 0 < x -> is_derive (fun r => jv (pizza_nu / 2) (k * r)) x (k * J1 (k * x)) /\ is_derive (fun r => k * J1 (k * r)) x (k ^ 2 * J2 (k * x))).
  { intros x Hx. destruct (HJ (k * x) (P x Hx)) as (D1 & D2 & _).
    assert (Dk : is_derive (fun r => k * r) x k) by (auto_derive; [exact I|ring]). split.
    - exact (is_derive_comp (jv (pizza_nu / 2)) (fun r => k * r) x _ k D1 Dk).
    - replace (k ^ 2 * J2 (k * x)) with (k * (k * J2 (k * x))) by ring. apply is_derive_scal. exact (is_derive_comp J1 (fun r => k * r) x _ k D2 Dk). }
  assert (DL : forall x, 0 < x -> is_derive (fun r => jv (3 * pizza_nu / 2) (k * r)) x (k * L1 (k * x)) /\ is_derive (fun r => k * L1 (k * r)) x (k ^ 2 * L2 (k * x))).
  { intros x Hx. destruct (HL (k * x) (P x Hx)) as (D1 & D2 & _).
    assert (Dk : is_derive (fun r => k * r) x k) by (auto_derive; [exact I|ring]). split.
    - exact (is_derive_comp (jv (3 * pizza_nu / 2)) (fun r => k * r) x _ k D1 Dk).
    - replace (k ^ 2 * L2 (k * x)) with (k * (k * L2 (k * x))) by ring. apply is_derive_scal. exact (is_derive_comp L1 (fun r => k * r) x _ k D2 Dk). }
  set (A := fwd (PI / 4)). set (B := bwd (PI / 4)).
  assert (W00 : forall x t, 0 < x -> W 0%nat 0%nat x t = wedge_sum s (A 0%nat t * jv (pizza_nu / 2) (k * x)) (B 0%nat t * jv (3 * pizza_nu / 2) (k * x))).
  { intros x t Hx. rewrite HW0, sing_z1 by exact Hx. unfold wedge_sum, A, B. destruct s; ring. }
  assert (W10 : forall x t, 0 < x -> W 1%nat 0%nat x t = wedge_sum s (A 0%nat t * (k * J1 (k * x))) (B 0%nat t * (k * L1 (k * x)))).
  { intros x t Hx. pose proof (proj1 (HW 0%nat 0%nat ltac:(lia) x t Hx)) as D. apply is_derive_unique in D. rewrite <- D. apply is_derive_unique.
    apply (is_derive_ext_loc (fun x => wedge_sum s (A 0%nat t * jv (pizza_nu / 2) (k * x)) (B 0%nat t * jv (3 * pizza_nu / 2) (k * x)))).
    - generalize (near x Hx). apply filter_imp. intros y Hy. symmetry. apply W00. exact Hy.
    - apply (wedge_derive _ _ _ (fun x => k * J1 (k * x)) _ (fun x => k * L1 (k * x))); [apply DJ|apply DL]; exact Hx. }
  assert (W20 : W 2%nat 0%nat r th = wedge_sum s (A 0%nat th * (k ^ 2 * J2 (k * r))) (B 0%nat th * (k ^ 2 * L2 (k * r)))).
  { pose proof (proj1 (HW 1%nat 0%nat ltac:(lia) r th Hr)) as D. apply is_derive_unique in D. rewrite <- D. apply is_derive_unique.
    apply (is_derive_ext_loc (fun x => wedge_sum s (A 0%nat th * (k * J1 (k * x))) (B 0%nat th * (k * L1 (k * x))))).
    - generalize (near r Hr). apply filter_imp. intros y Hy. symmetry. apply W10. exact Hy.
    - apply (wedge_derive _ _ (fun x => k * J1 (k * x)) (fun x => k ^ 2 * J2 (k * x)) (fun x => k * L1 (k * x)) (fun x => k ^ 2 * L2 (k * x))); [apply DJ|apply DL]; exact Hr. }
  assert (W01 : forall t, W 0%nat 1%nat r t = wedge_sum s (jv (pizza_nu / 2) (k * r) * A 1%nat t) (jv (3 * pizza_nu / 2) (k * r) * B 1%nat t)).
  { intros t. pose proof (proj2 (HW 0%nat 0%nat ltac:(lia) r t Hr)) as D. apply is_derive_unique in D. rewrite <- D. apply is_derive_unique.
    apply (is_derive_ext (fun t => wedge_sum s (jv (pizza_nu / 2) (k * r) * A 0%nat t) (jv (3 * pizza_nu / 2) (k * r) * B 0%nat t))).
    - intros y. rewrite W00 by exact Hr. match goal with |- @eq _ ?u ?w => change (@eq R u w) end. unfold wedge_sum. destruct s; ring.
    - apply wedge_derive; [apply fwd_derive|apply bwd_derive]; lia. }
  assert (W02 : W 0%nat 2%nat r th = wedge_sum s (jv (pizza_nu / 2) (k * r) * A 2%nat th) (jv (3 * pizza_nu / 2) (k * r) * B 2%nat th)).
  { pose proof (proj2 (HW 0%nat 1%nat ltac:(lia) r th Hr)) as D. apply is_derive_unique in D. rewrite <- D. apply is_derive_unique.
    apply (is_derive_ext (fun t => wedge_sum s (jv (pizza_nu / 2) (k * r) * A 1%nat t) (jv (3 * pizza_nu / 2) (k * r) * B 1%nat t))).
    - intros y. symmetry. apply W01.
    - apply wedge_derive; [apply fwd_derive|apply bwd_derive]; lia. }
  unfold polar_helmholtz. rewrite W20, W10, W02, W00 by exact Hr.
  destruct (HJ (k * r) (P r Hr)) as (_ & _ & QJ). destruct (HL (k * r) (P r Hr)) as (_ & _ & QL).
  assert (EJ : k ^ 2 * J2 (k * r) = - (k * J1 (k * r)) / r - k ^ 2 * jv (pizza_nu / 2) (k * r) + (pizza_nu / 2) ^ 2 / r ^ 2 * jv (pizza_nu / 2) (k * r)).
  { apply (Rmult_eq_reg_l (r ^ 2)); [|apply pow_nonzero; lra].
    match goal with |- _ = r ^ 2 * (- ?u / r - k ^ 2 * ?j + ?n / r ^ 2 * ?j) => replace (r ^ 2 * (- u / r - k ^ 2 * j + n / r ^ 2 * j)) with (- r * u - (k ^ 2 * r ^ 2 - n) * j) by (field; lra) end. lra. }
  assert (EL : k ^ 2 * L2 (k * r) = - (k * L1 (k * r)) / r - k ^ 2 * jv (3 * pizza_nu / 2) (k * r) + (3 * pizza_nu / 2) ^ 2 / r ^ 2 * jv (3 * pizza_nu / 2) (k * r)).
  { apply (Rmult_eq_reg_l (r ^ 2)); [|apply pow_nonzero; lra].
    match goal with |- _ = r ^ 2 * (- ?u / r - k ^ 2 * ?j + ?n / r ^ 2 * ?j) => replace (r ^ 2 * (- u / r - k ^ 2 * j + n / r ^ 2 * j)) with (- r * u - (k ^ 2 * r ^ 2 - n) * j) by (field; lra) end. lra. }
  rewrite EJ, EL. fold A B. unfold wedge_sum. destruct s; field; lra.
Qed.

Lemma sing_f1_cont : forall m N r, 0 < r -> continuous (fun r => ode_dst (PI / 4) N (zm_lambdify (zm_f1 k (PI / 4) (zp_g p)) r) m) r.
Proof using Hg Hj.
  intros m N r Hr. pose proof PI_RGT_0. apply ode_dst_continuous; [lra|]. intros th _.
  assert (P : 0 < k * r) by (pose proof k_range; nra).
  set (F := fun r => wedge_sum s (((pizza_nu / 2) ^ 2 * fwd (PI / 4) 0 th + fwd (PI / 4) 2 th) * jv (pizza_nu / 2) (k * r))
    (((3 * pizza_nu / 2) ^ 2 * bwd (PI / 4) 0 th + bwd (PI / 4) 2 th) * jv (3 * pizza_nu / 2) (k * r))).
  apply (continuous_ext_loc _ (fun r => F r * / r ^ 2)).
  - exists (mkposreal r Hr). intros y Hy. change (Rabs (y - r) < r) in Hy. apply Rabs_lt_between in Hy.
    rewrite lambdify_pos by lra. rewrite sing_f1 by lra. unfold F, Rdiv. f_equal.
    match goal with |- @eq _ ?u ?w => change (@eq R u w) end. unfold wedge_sum. destruct s; ring.
  - apply (continuous_mult (K := R_AbsRing) F (fun r => / r ^ 2)).
    + apply (ex_derive_continuous (K := R_AbsRing) (V := R_NormedModule)).
      destruct like1 as [J1 [J2 HJ]]. destruct like3 as [L1 [L2 HL]]. destruct (HJ (k * r) P) as (D1 & _ & _). destruct (HL (k * r) P) as (D3 & _ & _).
      assert (Dk : is_derive (fun r => k * r) r k) by (auto_derive; [exact I|ring]).
      eexists. unfold F. apply (wedge_derive _ _ (fun r => jv (pizza_nu / 2) (k * r)) (fun r => k * J1 (k * r)) (fun r => jv (3 * pizza_nu / 2) (k * r)) (fun r => k * L1 (k * r))).
      * exact (is_derive_comp (jv (pizza_nu / 2)) (fun r => k * r) r _ k D1 Dk).
      * exact (is_derive_comp (jv (3 * pizza_nu / 2)) (fun r => k * r) r _ k D3 Dk).
    + apply (ex_derive_continuous (K := R_AbsRing) (V := R_NormedModule)). auto_derive. apply Rgt_not_eq. nra.
Qed.

Lemma sing_exists : forall N M ic R0 R1, 0 < R0 < R1 ->
  exists sol, trajectory (ode_eval_deriv (PI / 4) pizza_nu k N (zm_lambdify (zm_f1 k (PI / 4) (zp_g p))) M) (2 * M) ic R0 R1 sol.
Proof using Hg Hj.
  intros N M ic R0 R1 HR. apply ode_exists; [exact HR|]. intros m r _ Hr. apply sing_f1_cont. lra.
Qed.
End Sing.

Lemma trajectory_ext : forall deriv dim ic R0 R1 sol sol', (forall i, (i < dim)%nat -> sol' i = sol i) ->
  trajectory deriv dim ic R0 R1 sol -> trajectory deriv dim ic R0 R1 sol'.
Proof.
  intros deriv dim ic R0 R1 sol sol' H (Y & I1 & C1 & D1). exists Y. split; [|split; [exact C1|exact D1]].
  intros i Hi. rewrite H by exact Hi. apply I1. exact Hi.
Qed.

Lemma contract_call : forall odeint a nu k N f1 M ic R0 R1, odeint_contract odeint -> 0 < R0 < R1 -> 0 < nu ->
  (exists sol, trajectory (ode_eval_deriv a nu k N f1 M) (2 * M) ic R0 R1 sol) ->
  trajectory (ode_eval_deriv a nu k N f1 M) (2 * M) ic R0 R1 (odeint (ode_eval_deriv a nu k N f1 M) (2 * M)%nat ic R0 R1).
Proof.
  intros odeint a nu k N f1 M ic R0 R1 Hc HR Hnu [sol Hs]. apply (trajectory_ext _ _ _ _ _ sol); [|exact Hs].
  apply Hc; [lra|exact Hs|]. intros sol' Hs' i Hi. apply (ode_unique a nu k N f1 M ic R0 R1 sol sol' HR Hnu Hs Hs' i Hi).
Qed.

Lemma outer_arc : forall b, zm_arc_R problem_R (boundary_bet b None) = outer_radius b /\ 23 / 10 <= outer_radius b.
Proof. intros b. unfold zm_arc_R, problem_R, boundary_bet, outer_radius, bet0. destruct b; split; lra. Qed.

Lemma run_accurate : forall fuel L s b acheat N order z m,
  gamma_like (zl_gamma L) -> (forall p, 0 < p -> bessel_series (zl_jv L) (zl_gamma L) p) -> odeint_contract (zl_odeint L) ->
  let p := sing_problem (zl_jv L) (zl_gamma L) s in
  zm_run fuel L p b acheat false (Some None) N order = Ok z -> (m < 7)%nat ->
  let R1 := outer_radius b in
  let g1 := / Rabs (zl_gamma L (9 / 7)) in let g3 := / Rabs (zl_gamma L (13 / 7)) in
  let K := wedge_bound s g1 g3 in let h4 := step4 (PI / 4) (Z.to_nat 1024) in let beta := mode_freq (PI / 4) m in
  let z1 := fun th => zp_eval_v p R1 th - (zp_g p R1 th + zm_q (zp_k p) (PI / 4) (zp_g p) R1 th) in
  Rabs (nth m (zr_z1 z) 0 - sine_coef (PI / 4) z1 m) <=
  mode_error (PI / 4) (zp_k p) m (/ 10) R1 (2 * (/ 10 ^ 18 * wedge_sum s g1 g3)) (2 * (/ 10 ^ 15 * wedge_sum s g1 g3))
    (h4 * (product4 beta K 2 + beta ^ 2 * product4 beta K 0) / (/ 10) ^ 2)
  + h4 * product4 beta K 0.
Proof.
  intros fuel L s b acheat N order z m Hg Hj Ho p Hz Hm R1 g1 g3 K h4 beta z1.
  destruct (zm_run_inv _ _ _ _ _ _ _ _ _ _ Hz) as (_ & E & _). unfold zm_z1_fourier in E. apply Ok_inj in E. rewrite <- E.
  destruct (outer_arc b) as [-> HR1]. fold R1 in HR1 |- *.
  assert (HR : 0 < / 10 < R1) by lra. pose proof PI_RGT_0.
  destruct (sing_W (zl_jv L) (zl_gamma L) s Hg Hj) as [W [HW HWeq]].
  assert (Hw : 0 < wedge_sum s g1 g3) by (destruct (g_pos (zl_gamma L) Hg) as [G1 G3]; unfold wedge_sum; destruct s; [exact G1|exact G1|apply Rplus_lt_0_compat; assumption]).
  apply (program_accurate (zl_odeint L) (zp_k p) (PI / 4) (zp_g p) (zp_eval_v p) W (sing_T (zl_jv L) (zl_gamma L) s) K (zp_v_series p) (/ 10) R1 7 (Z.to_nat 1024)
    (/ 10 ^ 18 * wedge_sum s g1 g3) (/ 10 ^ 15 * wedge_sum s g1 g3) m); try assumption.
  - lra.
  - lia.
  - apply Rmult_le_pos; lra.
  - apply Rmult_le_pos; lra.
  - apply sing_angular; [exact Hg|exact Hj|lra].
  - intros r th Hr Hth. apply sing_edges; [exact Hg|exact Hj|lra|exact Hth].
  - intros i r th Hi Hr Hth. apply sing_K; [exact Hg|exact Hj|exact Hi|lra|exact Hth].
  - intros th _. apply (sing_data (zl_jv L) (zl_gamma L) s Hg Hj th).
  - intros th _. apply (sing_data (zl_jv L) (zl_gamma L) s Hg Hj th).
  - cbv zeta. apply contract_call; [exact Ho|exact HR|exact pizza_nu_pos|].
    apply (sing_exists (zl_jv L) (zl_gamma L) s Hg Hj). exact HR.
Qed.

Lemma cheat_accurate : forall fuel L s b acheat attr N order z m,
  gamma_like (zl_gamma L) -> (forall p, 0 < p -> bessel_series (zl_jv L) (zl_gamma L) p) ->
  let p := sing_problem (zl_jv L) (zl_gamma L) s in
  zm_run fuel L p b acheat true attr N order = Ok z -> (m < 7)%nat ->
  let R1 := outer_radius b in
  let K := wedge_bound s (/ Rabs (zl_gamma L (9 / 7))) (/ Rabs (zl_gamma L (13 / 7))) in
  let z1 := fun th => zp_eval_v p R1 th - (zp_g p R1 th + zm_q (zp_k p) (PI / 4) (zp_g p) R1 th) in
  Rabs (nth m (zr_z1 z) 0 - sine_coef (PI / 4) z1 m) <= step4 (PI / 4) (Z.to_nat 2048) * product4 (mode_freq (PI / 4) m) K 0.
Proof.
  intros fuel L s b acheat attr N order z m Hg Hj p Hz Hm R1 K z1.
  destruct (zm_run_inv _ _ _ _ _ _ _ _ _ _ Hz) as (_ & E & _). unfold zm_z1_fourier in E. apply Ok_inj in E. rewrite <- E.
  destruct (outer_arc b) as [-> HR1]. fold R1 in HR1 |- *. pose proof PI_RGT_0.
  unfold zm_expected_z1. rewrite map_map. set (F := fun m0 : nat => _).
  rewrite (nth_indep _ 0 (F 0%nat)) by (rewrite map_length, seq_length; exact Hm).
  rewrite map_nth, seq_nth by exact Hm. unfold F. cbn [Nat.add].
  set (T := fun i => sing_T (zl_jv L) (zl_gamma L) s i R1).
  assert (E1 : forall th, zp_eval_v p R1 th - zp_gq p R1 th = T 0%nat th).
  { intros th. unfold zp_gq. rewrite lambdify_pos by lra. reflexivity. }
  match goal with |- Rabs (?u - _) <= _ => replace u with (ode_dst (PI / 4) (Z.to_nat 2048) (T 0%nat) m) end.
  2:{ unfold ode_dst. f_equal. unfold arc_dst_N. f_equal. apply functional_extensionality. intros th. rewrite E1. reflexivity. }
  destruct (sing_angular (zl_jv L) (zl_gamma L) s Hg Hj (/ 10) R1 ltac:(lra)) as [_ HT].
  apply (dst_coef (PI / 4) (Z.to_nat 2048) m ltac:(lra) T K 0%nat).
  - intros i t Hi. apply HT; [lia|lra].
  - apply (sing_edges (zl_jv L) (zl_gamma L) s Hg Hj R1 (PI / 4)); [lra|left; reflexivity].
  - apply (sing_edges (zl_jv L) (zl_gamma L) s Hg Hj R1 (2 * PI)); [lra|right; reflexivity].
  - intros i t Hi Ht. rewrite Nat.add_0_r. apply (sing_K (zl_jv L) (zl_gamma L) s Hg Hj); [lia|lra|exact Ht].
Qed.
