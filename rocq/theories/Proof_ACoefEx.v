(** Examples for the accuracy of the Fourier-Bessel coefficients (C87). *)
From Coq Require Import String ZArith List Bool Reals Lia Lra Psatz.
From Coquelicot Require Import Coquelicot.
From Verif Require Import Lib_Csum Model_Py Model_Multivalue Model_Grid Model_Fourier Model_Abcoef Model_PolarFD Model_ZMethod Model_Problems Model_ZRun Model_Driver
  Model_Run Model_Program Model_ZProgram
  Spec_Abcoef Spec_PolarFD Spec_ZRun Spec_Problems Spec_Ode Spec_OdeAcc Spec_PolarAcc Spec_ACoef
  Proof_Abcoef Proof_Lstsq Proof_ZRunEx Proof_ZProgram Proof_OdeSing Proof_PolarSolve Proof_TightEx Proof_PolarAccEx Proof_ACoef2.
Import ListNotations.
Open Scope R_scope.

Lemma lookup_zero : interp2d_zero lookup2d.
Proof.
  intros x y z u v H. unfold lookup2d. destruct (nth_in_or_default (ix_of u x 0 * length y + ix_of v y 0) z 0) as [Hin|E]; [apply H; exact Hin|exact E].
Qed.

(** Between the knots the table lookup is off by at most twice the size of the
    function. *)
Lemma lookup_close : forall x y f M, (forall u v, within x u -> within y v -> Rabs (f u v) <= M) -> interp2d_close lookup2d x y f 1 (2 * M).
Proof.
  intros x y f M HM z D Hlen HD Hz u v Hu Hv. specialize (HM u v Hu Hv) as B. pose proof (Rabs_pos (f u v)).
  assert (Hq : Rabs (lookup2d x y z u v) <= M + D).
  { unfold lookup2d. set (q := (ix_of u x 0 * length y + ix_of v y 0)%nat).
    destruct (nth_error z q) as [w|] eqn:E.
    - rewrite (nth_error_nth z q 0 E). assert (Hq : (q < length z)%nat) by (apply nth_error_Some; congruence). rewrite Hlen in Hq.
      assert (Ny : length y <> 0%nat) by nia.
      assert (Eq : q = (q / length y * length y + q mod length y)%nat) by (rewrite Nat.mul_comm; apply Nat.div_mod; exact Ny).
      assert (Hi : (q / length y < length x)%nat) by (apply Nat.div_lt_upper_bound; lia).
      assert (Hj : (q mod length y < length y)%nat) by (apply Nat.mod_upper_bound; exact Ny).
      destruct (nth_error x (q / length y)) as [xi|] eqn:Ex; [|apply nth_error_None in Ex; lia].
      destruct (nth_error y (q mod length y)) as [yj|] eqn:Ey; [|apply nth_error_None in Ey; lia].
      rewrite Eq in E. specialize (Hz _ _ _ _ _ Ex Ey E).
      assert (Rabs (f xi yj) <= M).
      { apply HM; [exists xi, xi|exists yj, yj]; (split; [eapply nth_error_In; eassumption|]); (split; [eapply nth_error_In; eassumption|lra]). }
      replace w with ((w - f xi yj) + f xi yj) by ring. eapply Rle_trans; [apply Rabs_triang|]. lra.
    - apply nth_error_None in E. rewrite nth_overflow by exact E. rewrite Rabs_R0. lra. }
  eapply Rle_trans; [apply Rabs_triang|]. rewrite Rabs_Ropp. lra.
Qed.

Lemma v_bounded : forall jv gamma s, gamma_like gamma -> (forall p, 0 < p -> bessel_series jv gamma p) ->
  exists M, forall r th, / 10 <= r -> Rabs (zp_eval_v (sing_problem jv gamma s) r th) <= M.
Proof.
  intros jv gamma s Hg Hj. exists (7 * / Rabs (gamma (9 / 7)) + 7 * / Rabs (gamma (13 / 7))). intros r th Hr.
  destruct (sing_jv jv gamma s Hg Hj r Hr) as [J1 J3]. destruct (g_pos gamma Hg) as [G1 G3].
  assert (S1 : forall a t, Rabs (a * sin t) <= Rabs a).
  { intros a t. rewrite Rabs_mult, <- (Rmult_1_r (Rabs a)) at 1. rewrite Rmult_1_r. rewrite <- (Rmult_1_r (Rabs a)) at 2. apply Rmult_le_compat_l; [apply Rabs_pos|]. apply Rabs_le. apply SIN_bound. }
  destruct s; cbn [sing_problem zp_eval_v zp_k] in *.
  - unfold ih_eval_v. eapply Rle_trans; [apply S1|]. replace ((0 + 1 / 2) * pizza_nu) with (pizza_nu / 2) by field. lra.
  - unfold ih_eval_v. eapply Rle_trans; [apply S1|]. replace ((0 + 1 / 2) * pizza_nu) with (pizza_nu / 2) by field. lra.
  - unfold quad_eval_v. eapply Rle_trans; [apply Rabs_triang|]. specialize (J3 eq_refl).
    apply Rplus_le_compat; (eapply Rle_trans; [apply S1|]; assumption).
Qed.

Lemma expected_exists : forall jv gamma s, let p := sing_problem jv gamma s in
  exists B, zm_expected_a_coef jv (zp_name p) (zp_phi0 p (fun _ => 23 / 10)) (zp_eval_v p) (PI / 4) (zp_k p) (23 / 10) (4 / 7) (Z.to_nat 2048) 7 = Ok B.
Proof.
  intros jv gamma s p. unfold zm_expected_a_coef. destruct (String.eqb _ _); [eexists; reflexivity|]. unfold b_to_a. rewrite convert_map by auto. eexists. reflexivity.
Qed.

Lemma coef_example : forall s z1cheat, let L := polar_zlib in let p := sing_problem (zl_jv L) (zl_gamma L) s in
  gamma_like (zl_gamma L) /\ (forall p, 0 < p -> bessel_series (zl_jv L) (zl_gamma L) p) /\
  odeint_contract (zl_odeint L) /\ spsolve_contract (zl_spsolve L) /\
  (forall n m W x, least_squares n m W x (lib_lstsq (zl_ps L) n m W x)) /\ interp2d_zero (zl_interp2d L) /\
  exists z sigma d Lam eta B,
    (forall x y, radii 16 (23 / 10) 0 x -> angles 16 (PI / 4) y -> interp2d_close (zl_interp2d L) x y (zp_eval_v p) Lam eta) /\
    zm_run 1 L p Arc false z1cheat (Some None) 16 4 = Ok z /\
    zm_expected_a_coef (zl_jv L) (zp_name p) (zp_phi0 p (fun _ => 23 / 10)) (zp_eval_v p) (PI / 4) (zp_k p) (23 / 10) (4 / 7) (Z.to_nat 2048) 7 = Ok B /\
    polar_stable 16 (/ 10) (23 / 10) (PI / 4) (zp_k p) sigma /\
    let z1 := fun th => zp_eval_v p (23 / 10) th - (zp_g p (23 / 10) th + zm_q (zp_k p) (PI / 4) (zp_g p) (23 / 10) th) in
    forall th, PI / 4 <= th <= 2 * PI ->
      Rabs (z1 th - rsum 7 (fun m => sine_coef (PI / 4) z1 m * sin (mode_freq (PI / 4) m * (th - PI / 4)))) <= d.
Proof.
  intros s z1cheat L p. destruct polar_example as (Hg & Hj & Ho & Hc & H). split; [exact Hg|]. split; [exact Hj|]. split; [exact Ho|]. split; [exact Hc|].
  split; [exact gs_least_squares|]. split; [exact lookup_zero|].
  destruct (H s z1cheat) as (z & sigma & Hz & _ & Hs & d & Hd). destruct (v_bounded _ _ s Hg Hj) as (M & HM). destruct (expected_exists (zl_jv L) (zl_gamma L) s) as (B & HB).
  assert (ER : outer_radius Arc = 23 / 10) by (unfold outer_radius; lra). rewrite ER in Hs. cbv zeta in Hd. rewrite ER in Hd.
  exists z, sigma, d, 1, (2 * M), B. split; [|split; [exact Hz|split; [exact HB|split; [exact Hs|exact Hd]]]].
  intros x y [_ Hx] _. apply lookup_close. intros u v (lo & hi & H1 & _ & H2) _. apply HM. apply Hx in H1. destruct H1 as (m & Hm & -> & _).
  assert (0 <= IZR m) by (apply IZR_le; lia). lra.
Qed.

(** The run of C86 on the arc has some bound for its table and so for the
    interpolant. *)
Lemma interp_example : forall s z1cheat, let L := polar_zlib in let p := sing_problem (zl_jv L) (zl_gamma L) s in
  interp2d_zero (zl_interp2d L) /\ exists z Lam eta D, zm_run 1 L p Arc false z1cheat (Some None) 16 4 = Ok z /\
  (forall x y, radii 16 (outer_radius Arc) (if (128 <=? 16)%Z then (23 / 10 - bet0 Arc) * (2 / 3) else 0) x -> angles 16 (PI / 4) y ->
     interp2d_close (zl_interp2d L) x y (zp_eval_v p) Lam eta) /\
  (forall m l, (0 <= m <= 16)%Z -> (0 <= l <= 16)%Z ->
     Cmod (Cminus (zr_v z m l) (RtoC (zp_eval_v p (/ 10 + IZR m * ((outer_radius Arc - / 10) / IZR 16)) (PI / 4 + IZR l * (7 * PI / 4 / IZR 16))))) <= D).
Proof.
  intros s z1cheat L p. split; [exact lookup_zero|]. destruct (v_error_example s z1cheat) as (z & D & Hz & HD).
  destruct polar_example as (Hg & Hj & _). destruct (v_bounded _ _ s Hg Hj) as (M & HM). exists z, 1, (2 * M), D. split; [exact Hz|]. split; [|exact HD].
  intros x y [_ Hx] _. apply lookup_close. intros u v (lo & hi & H1 & _ & H2) _. apply HM. apply Hx in H1. destruct H1 as (m & Hm & -> & _).
  assert (0 <= IZR m) by (apply IZR_le; lia). unfold outer_radius in H2. lra.
Qed.

Lemma arc_example : forall s z1cheat, let L := polar_zlib in let p := sing_problem (zl_jv L) (zl_gamma L) s in
  gamma_like (zl_gamma L) /\ (forall p, 0 < p -> bessel_series (zl_jv L) (zl_gamma L) p) /\
  (forall n m W x, least_squares n m W x (lib_lstsq (zl_ps L) n m W x)) /\
  exists z B delta, zm_run 1 L p Arc false z1cheat (Some None) 16 4 = Ok z /\
    zm_expected_a_coef (zl_jv L) (zp_name p) (zp_phi0 p (fun _ => 23 / 10)) (zp_eval_v p) (PI / 4) (zp_k p) (23 / 10) (4 / 7) (Z.to_nat 2048) 7 = Ok B /\
    forall th, PI / 4 <= th <= 2 * PI ->
      Cmod (Cminus (zm_v_interp (zl_interp2d L) (zr_fd z) (23 / 10) 0 (zr_v z) (23 / 10) th) (RtoC (zp_eval_v p (23 / 10) th))) <= delta.
Proof.
  intros s z1cheat L p. destruct polar_example as (Hg & Hj & _). split; [exact Hg|]. split; [exact Hj|]. split; [exact gs_least_squares|].
  destruct (interp_example s z1cheat) as (H0 & z & Lam & eta & D & Hz & Hc & HD). destruct (expected_exists (zl_jv L) (zl_gamma L) s) as (B & HB).
  exists z, B, (Lam * D + eta). split; [exact Hz|]. split; [exact HB|]. intros th Hth.
  exact (run_interp 1 L p Arc z1cheat (Some None) 16 4 z (zp_eval_v p) Lam eta D ltac:(lia) Hz H0 Hc HD th Hth).
Qed.

Lemma curve_coef_example : let L := curve_zlib in let p := sing_problem (zl_jv L) (zl_gamma L) IhzLine in
  let r := boundary_r OuterSine (23 / 10) None (PI / 4) in
  (forall m, (m < 200)%nat -> zl_jv L (4 / 7 * (INR m + 1)) (zp_k p * (23 / 10)) <> 0) /\
  full_rank ab_n_nodes 200 (fun i m => RtoC (zl_jv L (4 / 7 * (INR m + 1)) (zp_k p * r (ab_th ab_n_nodes i)) *
                                   sin (4 / 7 * (INR m + 1) * (ab_th ab_n_nodes i - PI / 4)))) /\
  (forall n m W x, least_squares n m W x (lib_lstsq (zl_ps L) n m W x)) /\
  exists z, zm_run 1 L p OuterSine false false (Some None) 16 4 = Ok z /\
    forall i, (i < ab_n_nodes)%nat -> let th := ab_th ab_n_nodes i in
      Cmod (Cminus (Cminus (RtoC (zp_phi0 p r th)) (zm_v_interp (zl_interp2d L) (zr_fd z) (23 / 10) (bet0 OuterSine) (zr_v z) (r th) th))
        (fourier_bessel (zl_jv L) (zp_k p) (4 / 7) (PI / 4) 200 (fun m => RtoC (if Nat.eqb m 3 then 5 else INR m + 1)) (r th) th)) <= 1.
Proof.
  intros L p r. destruct fit_curve_example as (_ & H2 & H3 & z & Hz & H4).
  assert (En : pizza_nu = 4 / 7) by (unfold pizza_nu, pizza_a; pose proof PI_RGT_0; field; lra).
  split; [intros m _; cbn; lra|]. split.
  - intros x Hx. apply H3. intros i Hi. rewrite <- (Hx i Hi). apply csum_ext. intros j _. rewrite En, (Rmult_comm (4 / 7)). reflexivity.
  - split; [exact H2|]. exists z. split; [exact Hz|]. intros i _ th. specialize (H4 th). fold L p r in H4. rewrite H4, En. unfold fourier_bessel.
    match goal with |- Cmod (Cminus (csum _ ?f) (csum _ ?g)) <= _ => set (F := f); set (G := g) end.
    assert (E : Cminus (csum 200 F) (csum 200 G) = csum 200 (fun m => if Nat.eqb m 3 then Cminus (F 3%nat) (G 3%nat) else RtoC 0)).
    { assert (Eg : csum 200 F = csum 200 (fun m => Cplus (G m) (if Nat.eqb m 3 then Cminus (F 3%nat) (G 3%nat) else RtoC 0))).
      { apply csum_ext. intros m _. destruct (Nat.eqb_spec m 3) as [->|Hne]; [ring|]. unfold F, G. destruct (Nat.eqb_spec m 3); [contradiction|]. ring. }
      rewrite Eg, csum_plus. ring. }
    rewrite E, csum_delta by lia. unfold F, G. cbn [Nat.eqb zl_jv L curve_zlib].
    match goal with |- Cmod ?a <= 1 => replace a with (RtoC (- (1 * sin ((INR 3 + 1) * (4 / 7) * (th - PI / 4))))) end.
    + rewrite Cmod_R, Rabs_Ropp, Rmult_1_l. apply Rabs_le. apply SIN_bound.
    + rewrite <- !RtoC_mult, <- RtoC_minus. f_equal. cbn [INR]. ring.
Qed.
