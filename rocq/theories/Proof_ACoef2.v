(** Accuracy of the Fourier-Bessel coefficients of a run (C87). *)
From Coq Require Import String ZArith List Bool Reals Lia Lra Psatz.
From Coquelicot Require Import Coquelicot.
From Verif Require Import Lib_Csum Model_Py Model_Multivalue Model_Grid Model_Fourier Model_Linop Model_Abcoef Model_PS Model_Domain Model_Extend
  Model_PolarFD Model_ZMethod Model_Problems Model_ZRun Model_Driver Model_Run Model_Program Model_ZProgram
  Spec_Abcoef Spec_PolarFD Spec_ZRun Spec_Problems Spec_Ode Spec_OdeAcc Spec_PolarAcc Spec_ACoef
  Proof_Domain Proof_Grid Proof_Fourier Proof_Abcoef Proof_Norm Proof_Bound Proof_Curves Proof_Regular Proof_ZRun Proof_Program Proof_ZProgram Proof_Tight Proof_OdeSing Proof_PolarSolve Proof_ACoef1.
Import ListNotations.
Open Scope R_scope.

(** ** The interpolant *)

Lemma table_radii : forall s rmin, pf_ok s -> pf_R0 s = / 10 -> radii (pf_N s) (pf_R1 s) rmin (zm_r_data s rmin).
Proof.
  intros s rmin Hok E0. split; [apply r_data_increasing; exact Hok|]. intros r. unfold zm_r_data. rewrite in_map_iff. split.
  - intros (m & <- & Hm). apply kept_in in Hm. exists m. split; [apply Hm|]. split; [|apply Hm]. unfold get_r, pf_hr. rewrite E0. reflexivity.
  - intros (m & Hm & -> & Hr). exists m. assert (E : get_r s (IZR m) = / 10 + IZR m * ((pf_R1 s - / 10) / IZR (pf_N s))) by (unfold get_r, pf_hr; rewrite E0; reflexivity).
    split; [exact E|]. apply kept_in. rewrite E. split; assumption.
Qed.

Lemma table_angles : forall s, pf_ok s -> angles (pf_N s) (pf_a s) (zm_th_data s).
Proof.
  intros s Hok. split; [apply th_data_increasing; exact Hok|]. intros t. unfold zm_th_data. rewrite in_map_iff. split.
  - intros (l & <- & Hl). apply py_range_in in Hl. exists l. split; [lia|]. unfold get_th, pf_hth. reflexivity.
  - intros (l & Hl & ->). exists l. split; [unfold get_th, pf_hth; reflexivity|]. apply py_range_in. lia.
Qed.

Lemma interp_near : forall interp2d s Rb bet (v : Z -> Z -> C) f Lam eta D r th, pf_ok s ->
  interp2d_zero interp2d ->
  let x := zm_r_data s (zm_rmin (pf_N s) Rb bet) in let y := zm_th_data s in
  interp2d_close interp2d x y f Lam eta -> 0 <= D ->
  (forall m l, snd (v m l) = 0) ->
  (forall m l, (0 <= m <= pf_N s)%Z -> (0 <= l <= pf_N s)%Z -> Cmod (Cminus (v m l) (RtoC (f (get_r s (IZR m)) (get_th s l)))) <= D) ->
  within x r -> within y th ->
  Cmod (Cminus (zm_v_interp interp2d s Rb bet v r th) (RtoC (f r th))) <= Lam * D + eta.
Proof.
  intros interp2d s Rb bet v f Lam eta D r th Hok Hz x y Hc HD Hv HB Hr Hth. unfold zm_v_interp. cbv zeta. fold x y.
  set (t := zm_v_data s (zm_rmin (pf_N s) Rb bet) v).
  rewrite (Hz x y (map snd t)).
  2:{ intros w Hw. apply in_map_iff in Hw. destruct Hw as (q & <- & Hq). unfold t, zm_v_data in Hq. apply in_flat_map in Hq. destruct Hq as (m & _ & Hq).
      apply in_map_iff in Hq. destruct Hq as (l & <- & _). apply Hv. }
  assert (E : Cminus (interp2d x y (map fst t) r th, 0) (RtoC (f r th)) = RtoC (interp2d x y (map fst t) r th - f r th)).
  { apply injective_projections; cbn [fst snd RtoC Cminus Cplus Copp]; ring. }
  rewrite E, Cmod_R. apply Hc; [|exact HD| |exact Hr|exact Hth].
  - unfold t, zm_v_data, x, y, zm_r_data, zm_th_data. rewrite !map_length. apply flat_length.
  - intros i j xi yj zij Hi Hj Hij. unfold x, zm_r_data in Hi. rewrite nth_error_map in Hi.
    destruct (nth_error (zm_kept s (zm_rmin (pf_N s) Rb bet)) i) as [m|] eqn:Em; [|discriminate Hi]. cbn [option_map] in Hi. injection Hi as <-.
    unfold y, zm_th_data in Hj. rewrite nth_error_map in Hj.
    destruct (nth_error (py_range 0 (pf_N s + 1)) j) as [l|] eqn:El; [|discriminate Hj]. cbn [option_map] in Hj. injection Hj as <-.
    assert (F := flat_table _ _ v _ _ i j m l Em El). rewrite nth_error_map in Hij.
    replace (length y) with (length (py_range 0 (pf_N s + 1))) in Hij by (unfold y, zm_th_data; rewrite map_length; reflexivity).
    assert (Hij' : option_map fst (Some (v m l)) = Some zij) by (rewrite <- F; exact Hij). cbn [option_map] in Hij'. injection Hij' as <-.
    assert (Hm := proj1 (kept_in s _ m) (nth_error_In _ _ Em)). assert (Hl := proj1 (py_range_in _ _ _) (nth_error_In _ _ El)).
    specialize (HB m l (proj1 Hm) ltac:(lia)).
    eapply Rle_trans; [|exact HB].
    replace (fst (v m l) - f (get_r s (IZR m)) (get_th s l)) with (fst (Cminus (v m l) (RtoC (f (get_r s (IZR m)) (get_th s l)))))
      by (cbn [fst RtoC Cminus Cplus Copp]; ring).
    eapply Rle_trans; [apply Rmax_l|apply Rmax_Cmod].
Qed.

Lemma curve_of : forall b th, PI / 4 <= th <= 2 * PI -> 23 / 10 - 4 / 3 * bet0 b <= boundary_r b (23 / 10) None (PI / 4) th <= 23 / 10 + bet0 b.
Proof.
  intros b th Hth. destruct b; [unfold boundary_r, r_arc, bet0; lra| | | |];
  (apply curve_band; [unfold bet0; lra|unfold pizza_a; exact Hth|]; unfold boundary_r, boundary_bet, bet0, problem_nu; cbv zeta;
    fold pizza_a; fold pizza_nu; tauto).
Qed.

Lemma bet0_range : forall b, 0 <= bet0 b <= 23 / 10 / 3 /\ / 10 <= 23 / 10 - 4 / 3 * bet0 b.
Proof. intros b. destruct b; unfold bet0; lra. Qed.

Lemma run_interp : forall fuel L p b z1cheat attr N order z f Lam eta D, (1 <= N)%Z ->
  zm_run fuel L p b false z1cheat attr N order = Ok z ->
  interp2d_zero (zl_interp2d L) ->
  (forall x y, radii N (outer_radius b) (if (128 <=? N)%Z then (23 / 10 - bet0 b) * (2 / 3) else 0) x -> angles N (PI / 4) y ->
     interp2d_close (zl_interp2d L) x y f Lam eta) ->
  (forall m l, (0 <= m <= N)%Z -> (0 <= l <= N)%Z ->
     Cmod (Cminus (zr_v z m l) (RtoC (f (/ 10 + IZR m * ((outer_radius b - / 10) / IZR N)) (PI / 4 + IZR l * (7 * PI / 4 / IZR N))))) <= D) ->
  forall th, PI / 4 <= th <= 2 * PI ->
  let r := boundary_r b (23 / 10) None (PI / 4) th in
  Cmod (Cminus (zm_v_interp (zl_interp2d L) (zr_fd z) (23 / 10) (bet0 b) (zr_v z) r th) (RtoC (f r th))) <= Lam * D + eta.
Proof.
  intros fuel L p b z1cheat attr N order z f Lam eta D HN Hz H0 Hc HB th Hth r.
  destruct (run_fd_ok _ _ _ _ _ _ _ _ _ _ Hz HN) as (Hok & E1 & E2 & E3 & E4 & _).
  destruct (zm_run_inv _ _ _ _ _ _ _ _ _ _ Hz) as (_ & _ & _ & Ev & _).
  assert (HD : 0 <= D) by (eapply Rle_trans; [apply Cmod_ge_0|apply (HB 0%Z 0%Z); lia]).
  destruct (curve_of b th Hth) as [C1 C2]. fold r in C1, C2. destruct (bet0_range b) as [B1 B2].
  apply interp_near; [exact Hok|exact H0| |exact HD| | | |].
  - apply Hc; [|rewrite <- E1, <- E4; apply table_angles; exact Hok].
    rewrite <- E1 at 1. rewrite <- E3. rewrite E1. rewrite <- E1 at 1. apply table_radii; assumption.
  - intros m l. rewrite Ev. reflexivity.
  - rewrite E1. intros m l Hm Hl. specialize (HB m l Hm Hl). unfold get_r, get_th, pf_hr, pf_hth. rewrite E1, E2, E3, E4.
    replace ((2 * PI - PI / 4) / IZR N) with (7 * PI / 4 / IZR N) by (unfold Rdiv; field; apply not_0_IZR; lia). exact HB.
  - apply table_range; [exact Hok|exact B1| |rewrite E2; lra|lra].
    rewrite E3. symmetry. exact (proj1 (Proof_OdeSing.outer_arc b)).
  - pose proof (table_angles _ Hok) as [_ T]. rewrite E1, E4 in T. exists (PI / 4), (2 * PI). split; [|split; [|exact Hth]]; apply T.
    + exists 0%Z. split; [lia|]. cbn. lra.
    + exists N. split; [lia|]. field. apply not_0_IZR. lia.
Qed.

(** ** The arc *)

Lemma dst_close : forall n p f g d, 0 <= d -> (forall i, (i < n)%nat -> Cmod (Cminus (f (ab_th n i)) (g (ab_th n i))) <= d) ->
  Cmod (Cminus (arc_dst pizza_a f n (Z.of_nat p)) (arc_dst pizza_a g n (Z.of_nat p))) <= 2 * d.
Proof.
  intros n p f g d Hd H. rewrite !arc_dst_value. pose proof (pos_INR n) as Hn.
  replace (Cminus _ _) with (Cmult (RtoC (2 / (INR n + 1))) (csum n (fun i => Cmult (Cminus (f (ab_th n i)) (g (ab_th n i))) (RtoC (sn n p i))))).
  - rewrite Cmod_mult, Cmod_R, Rabs_pos_eq by (apply Rmult_le_pos; [lra|left; apply Rinv_0_lt_compat; lra]).
    apply Rle_trans with (2 / (INR n + 1) * (INR n * d)).
    + apply Rmult_le_compat_l; [apply Rmult_le_pos; [lra|left; apply Rinv_0_lt_compat; lra]|].
      eapply Rle_trans; [apply csum_le|]. rewrite <- rsum_const. apply rsum_le. intros i Hi. rewrite Cmod_mult, Cmod_R, <- (Rmult_1_r d).
      apply Rmult_le_compat; [apply Cmod_ge_0|apply Rabs_pos|apply H; exact Hi|]. apply Rabs_le. unfold sn. apply SIN_bound.
    + apply Rmult_le_reg_r with (INR n + 1); [lra|]. unfold Rdiv. replace (2 * / (INR n + 1) * (INR n * d) * (INR n + 1)) with (2 * (INR n * d)) by (field; lra). nra.
  - rewrite (csum_ext n _ (fun i => Cplus (Cmult (f (ab_th n i)) (RtoC (sn n p i))) (Cmult (RtoC (-1)) (Cmult (g (ab_th n i)) (RtoC (sn n p i)))))).
    + rewrite csum_plus, csum_scal. replace (RtoC (-1)) with (Copp (RtoC 1)) by (rewrite <- RtoC_opp; reflexivity). ring.
    + intros i _. replace (RtoC (-1)) with (Copp (RtoC 1)) by (rewrite <- RtoC_opp; reflexivity). ring.
Qed.

Lemma zero_dst : forall n p f, (forall i, f (ab_th n i) = RtoC 0) -> arc_dst pizza_a f n (Z.of_nat p) = RtoC 0.
Proof.
  intros n p f H. rewrite arc_dst_value, (csum_ext n _ (fun _ => RtoC 0)), csum_zero; [ring|]. intros i _. rewrite H. ring.
Qed.

Lemma ab_range : forall n i, (i < n)%nat -> PI / 4 <= ab_th n i <= 2 * PI.
Proof.
  intros n i Hi. unfold ab_th, pizza_a. pose proof PI_RGT_0. apply lt_INR in Hi. pose proof (pos_INR i).
  set (q := (INR i + 1) / (INR n + 1)).
  assert (0 <= q <= 1). { unfold q. split; [apply Rmult_le_pos; [lra|left; apply Rinv_0_lt_compat; lra]|]. apply Rmult_le_reg_r with (INR n + 1); [lra|]. unfold Rdiv. rewrite Rmult_assoc, Rinv_l by lra. lra. }
  replace ((2 * PI - PI / 4) / (INR n + 1) * (INR i + 1)) with (7 * PI / 4 * q) by (unfold q; field; lra). nra.
Qed.

(** The exact coefficients: the transform of phi0 - v on the arc, divided by
    the Bessel factors. *)
Lemma expected_value : forall jv gamma s B, let p := sing_problem jv gamma s in
  zm_expected_a_coef jv (zp_name p) (zp_phi0 p (fun _ => 23 / 10)) (zp_eval_v p) pizza_a (zp_k p) (23 / 10) pizza_nu ab_n_nodes 7 = Ok B ->
  (forall m, (m < 7)%nat -> jv ((INR m + 1) * pizza_nu) (zp_k p * (23 / 10)) <> 0) ->
  length B = 7%nat /\ forall m, (m < 7)%nat ->
    Cmult (nth m B (RtoC 0)) (RtoC (jv ((INR m + 1) * pizza_nu) (zp_k p * (23 / 10)))) =
    arc_dst pizza_a (fun th => RtoC (zp_phi0 p (fun _ => 23 / 10) th - zp_eval_v p (23 / 10) th)) ab_n_nodes (Z.of_nat m).
Proof.
  intros jv gamma s B p H Hj. unfold zm_expected_a_coef in H.
  destruct (String.eqb (zp_name p) "iz-bessel") eqn:En.
  - apply Ok_inj' in H. subst B. split; [reflexivity|]. intros m Hm.
    rewrite zero_dst.
    + replace (nth m (repeat (RtoC 0) 7) (RtoC 0)) with (RtoC 0); [ring|]. do 7 (destruct m as [|m]; [reflexivity|]). lia.
    + intros i. destruct s; cbn [p sing_problem zp_name] in En; try discriminate En. cbn [p sing_problem zp_phi0 zp_eval_v]. unfold iz_phi0. f_equal. ring.
  - unfold b_to_a in H. rewrite convert_map in H by auto. apply Ok_inj' in H. subst B. rewrite map_length, seq_length, map_length, seq_length.
    split; [reflexivity|]. intros m Hm. rewrite nth_map_seq by exact Hm. cbn [String.eqb]. rewrite nth_map_seq by exact Hm.
    cbn [String.eqb Ascii.eqb Bool.eqb]. rewrite <- Cmult_assoc, <- RtoC_mult.
    replace (1 / jv ((INR m + 1) * pizza_nu) (zp_k p * (23 / 10)) * jv ((INR m + 1) * pizza_nu) (zp_k p * (23 / 10))) with 1 by (field; apply Hj; exact Hm).
    rewrite Cmult_1_r. reflexivity.
Qed.

Lemma cancel_factor : forall (a b : C) (J e : R), J <> 0 -> Cmod (Cminus (Cmult a (RtoC J)) (Cmult b (RtoC J))) <= e -> Cmod (Cminus a b) <= e / Rabs J.
Proof.
  intros a b J e HJ H. replace (Cminus (Cmult a (RtoC J)) (Cmult b (RtoC J))) with (Cmult (Cminus a b) (RtoC J)) in H by ring.
  rewrite Cmod_mult, Cmod_R in H. assert (HJ' : 0 < Rabs J) by (apply Rabs_pos_lt; exact HJ). apply Rmult_le_reg_r with (Rabs J); [exact HJ'|].
  unfold Rdiv. rewrite Rmult_assoc, Rinv_l by lra. lra.
Qed.

Lemma arc_accurate : forall fuel L s z1cheat attr N order z B delta,
  gamma_like (zl_gamma L) -> (forall p, 0 < p -> bessel_series (zl_jv L) (zl_gamma L) p) ->
  (forall n m W x, least_squares n m W x (lib_lstsq (zl_ps L) n m W x)) ->
  let p := sing_problem (zl_jv L) (zl_gamma L) s in
  zm_run fuel L p Arc false z1cheat attr N order = Ok z ->
  zm_expected_a_coef (zl_jv L) (zp_name p) (zp_phi0 p (fun _ => 23 / 10)) (zp_eval_v p) (PI / 4) (zp_k p) (23 / 10) (4 / 7) (Z.to_nat 2048) 7 = Ok B ->
  (forall th, PI / 4 <= th <= 2 * PI ->
     Cmod (Cminus (zm_v_interp (zl_interp2d L) (zr_fd z) (23 / 10) 0 (zr_v z) (23 / 10) th) (RtoC (zp_eval_v p (23 / 10) th))) <= delta) ->
  length (zr_a z) = 7%nat /\ length B = 7%nat /\ forall m, (m < 7)%nat ->
    Cmod (Cminus (nth m (zr_a z) (RtoC 0)) (nth m B (RtoC 0))) <= 2 * delta / Rabs (zl_jv L (4 / 7 * (INR m + 1)) (zp_k p * (23 / 10))).
Proof.
  intros fuel L s z1cheat attr N order z B delta Hg Hb Hl p Hz HB Hd.
  assert (En : pizza_nu = 4 / 7) by (unfold pizza_nu, pizza_a; pose proof PI_RGT_0; field; lra).
  assert (Hj : forall m, (m < 7)%nat -> zl_jv L ((INR m + 1) * pizza_nu) (zp_k p * (23 / 10)) <> 0).
  { intros m Hm. apply (factors_nonzero (zl_jv L) (zl_gamma L) s m Hg Hb). lia. }
  destruct (fit_arc fuel L s z1cheat attr N order z Hz Hj Hl) as [La Ha].
  rewrite <- En in HB. change (PI / 4) with pizza_a in HB. change (Z.to_nat 2048) with ab_n_nodes in HB.
  destruct (expected_value (zl_jv L) (zl_gamma L) s B HB Hj) as [Lb Hbv].
  split; [exact La|]. split; [exact Lb|]. intros m Hm. rewrite (Rmult_comm (4 / 7)), <- En. apply cancel_factor; [apply Hj; exact Hm|].
  specialize (Ha m Hm). specialize (Hbv m Hm). fold p in Ha, Hbv. rewrite Ha, Hbv. change (PI / 4) with pizza_a. change (Z.to_nat 2048) with ab_n_nodes.
  assert (HD : 0 <= delta) by (eapply Rle_trans; [apply Cmod_ge_0|apply (Hd (PI / 4)); pose proof PI_RGT_0; lra]).
  apply dst_close; [exact HD|]. intros i Hi. specialize (Hd _ (ab_range _ _ Hi)). eapply Rle_trans; [|exact Hd]. right.
  rewrite <- Cmod_opp. f_equal. fold p. rewrite RtoC_minus. ring.
Qed.

Lemma grid_coefficients : forall jv gamma s, gamma_like gamma -> (forall p, 0 < p -> bessel_series jv gamma p) ->
  let p := sing_problem jv gamma s in
  let z1 := fun th => zp_eval_v p (23 / 10) th - (zp_g p (23 / 10) th + zm_q (zp_k p) (PI / 4) (zp_g p) (23 / 10) th) in
  let g1 := / Rabs (gamma (9 / 7)) in let g3 := / Rabs (gamma (13 / 7)) in
  exists K, 0 <= K /\ forall fuel L z1cheat N order z sigma d Lam eta B, zl_jv L = jv -> zl_gamma L = gamma ->
    odeint_contract (zl_odeint L) -> spsolve_contract (zl_spsolve L) -> (N = 16 \/ N = 32)%Z ->
    (forall n m W x, least_squares n m W x (lib_lstsq (zl_ps L) n m W x)) ->
    interp2d_zero (zl_interp2d L) ->
    (forall x y, radii N (23 / 10) 0 x -> angles N (PI / 4) y -> interp2d_close (zl_interp2d L) x y (zp_eval_v p) Lam eta) ->
    zm_run fuel L p Arc false z1cheat (Some None) N order = Ok z ->
    zm_expected_a_coef jv (zp_name p) (zp_phi0 p (fun _ => 23 / 10)) (zp_eval_v p) (PI / 4) (zp_k p) (23 / 10) (4 / 7) (Z.to_nat 2048) 7 = Ok B ->
    polar_stable N (/ 10) (23 / 10) (PI / 4) (zp_k p) sigma ->
    (forall th, PI / 4 <= th <= 2 * PI ->
       Rabs (z1 th - rsum 7 (fun m => sine_coef (PI / 4) z1 m * sin (mode_freq (PI / 4) m * (th - PI / 4)))) <= d) ->
    let hr := (23 / 10 - / 10) / IZR N in let hth := 7 * PI / 4 / IZR N in
    let D := sigma * (K * (hr ^ 4 + hth ^ 4) + d + rsum 7 (coef_error s (zp_k p) (23 / 10) g1 g3 z1cheat) + / 10 ^ 18 * wedge_sum s g1 g3) in
    length (zr_a z) = 7%nat /\ forall m, (m < 7)%nat ->
      Cmod (Cminus (nth m (zr_a z) (RtoC 0)) (nth m B (RtoC 0))) <= 2 * (Lam * D + eta) / Rabs (jv (4 / 7 * (INR m + 1)) (zp_k p * (23 / 10))).
Proof.
  intros jv gamma s Hg Hb p z1 g1 g3.
  assert (ER : outer_radius Arc = 23 / 10) by (unfold outer_radius; lra).
  destruct (grid_run jv gamma s Arc Hg Hb) as (K & HK & H). rewrite ER in H. fold p g1 g3 in H. exists K. split; [exact HK|].
  intros fuel L z1cheat N order z sigma d Lam eta B EJ EG Ho Hc HN Hl H0 Hi Hz HB Hs Hd hr hth D.
  destruct (H fuel L z1cheat N order z sigma d EJ EG Ho Hc HN Hz Hs Hd) as [T _]. fold hr hth in T. fold D in T. clear H.
  subst jv gamma.
  destruct (arc_accurate fuel L s z1cheat (Some None) N order z B (Lam * D + eta) Hg Hb Hl Hz HB) as (L1 & _ & A).
  - intros th Hth. apply (run_interp fuel L p Arc z1cheat (Some None) N order z (zp_eval_v p) Lam eta D ltac:(lia) Hz H0); [| |exact Hth].
    + rewrite ER. replace (128 <=? N)%Z with false by (symmetry; apply Z.leb_gt; lia). exact Hi.
    + rewrite ER. exact T.
  - split; [exact L1|exact A].
Qed.

(** ** The other curves *)

Lemma fit_stable : forall n m W, full_rank n m W -> exists K, 0 <= K /\ forall y x c eps, 0 <= eps -> least_squares n m W y x ->
  (forall i, (i < n)%nat -> Cmod (Cminus (y i) (mat_app m W c i)) <= eps) -> forall j, (j < m)%nat -> Cmod (Cminus (x j) (c j)) <= K * eps.
Proof.
  intros n m W HW. destruct (rank_bounded n m W HW) as (K & HK & B). exists (K * (2 * sqrt (INR n))).
  split; [apply Rmult_le_pos; [exact HK|]; pose proof (sqrt_pos (INR n)); lra|]. intros y x c eps He Hx Hc j Hj.
  assert (S1 : sqrt (lsq_error n m W y c) <= sqrt (INR n) * eps).
  { rewrite <- (sqrt_pow2 eps He), <- sqrt_mult_alt by apply pos_INR. apply sqrt_le_1_alt. unfold lsq_error. rewrite <- rsum_const. apply rsum_le. intros i Hi.
    apply pow_incr. split; [apply Cmod_ge_0|]. rewrite <- Cmod_opp. replace (Copp _) with (Cminus (y i) (mat_app m W c i)) by ring. apply Hc. exact Hi. }
  assert (S2 : sqrt (lsq_error n m W y x) <= sqrt (INR n) * eps).
  { eapply Rle_trans; [|exact S1]. apply sqrt_le_1_alt. apply Hx. }
  eapply Rle_trans; [exact (B (fun j => Cminus (x j) (c j)) j Hj)|]. rewrite Rmult_assoc. apply Rmult_le_compat_l; [exact HK|].
  eapply Rle_trans; [apply (sq_tri n (fun i => Cminus (mat_app m W x i) (y i)) (fun i => Cminus (mat_app m W c i) (y i)))|].
  - intros i _. assert (E : mat_app m W (fun j => Cminus (x j) (c j)) i = Cminus (mat_app m W x i) (mat_app m W c i)).
    { unfold mat_app. rewrite (csum_ext m _ (fun j => Cplus (Cmult (W i j) (x j)) (Cmult (RtoC (-1)) (Cmult (W i j) (c j))))).
      - rewrite csum_plus, csum_scal. replace (RtoC (-1)) with (Copp (RtoC 1)) by (rewrite <- RtoC_opp; reflexivity). ring.
      - intros l _. replace (RtoC (-1)) with (Copp (RtoC 1)) by (rewrite <- RtoC_opp; reflexivity). ring. }
    rewrite E, <- (Cmod_opp (Cminus (mat_app m W c i) (y i))). eapply Rle_trans; [|apply Cmod_triangle]. right. f_equal. ring.
  - change (sq n (fun i => Cminus (mat_app m W x i) (y i))) with (lsq_error n m W y x).
    change (sq n (fun i => Cminus (mat_app m W c i) (y i))) with (lsq_error n m W y c). lra.
Qed.

Lemma curve_accurate : forall jv gamma s b, b <> Arc -> let p := sing_problem jv gamma s in let r := boundary_r b (23 / 10) None (PI / 4) in
  (forall m, (m < 200)%nat -> jv (4 / 7 * (INR m + 1)) (zp_k p * (23 / 10)) <> 0) ->
  full_rank ab_n_nodes 200 (fun i m => RtoC (jv (4 / 7 * (INR m + 1)) (zp_k p * r (ab_th ab_n_nodes i)) *
                                   sin (4 / 7 * (INR m + 1) * (ab_th ab_n_nodes i - PI / 4)))) ->
  exists kappa, 0 <= kappa /\ forall fuel L z1cheat attr N order z (c : nat -> C) eps, zl_jv L = jv -> zl_gamma L = gamma ->
    (forall n m W x, least_squares n m W x (lib_lstsq (zl_ps L) n m W x)) ->
    zm_run fuel L p b false z1cheat attr N order = Ok z ->
    (forall i, (i < ab_n_nodes)%nat -> let th := ab_th ab_n_nodes i in
       Cmod (Cminus (Cminus (RtoC (zp_phi0 p r th)) (zm_v_interp (zl_interp2d L) (zr_fd z) (23 / 10) (bet0 b) (zr_v z) (r th) th))
         (fourier_bessel jv (zp_k p) (4 / 7) (PI / 4) 200 c (r th) th)) <= eps) ->
    length (zr_a z) = 7%nat /\ forall m, (m < 7)%nat -> Cmod (Cminus (nth m (zr_a z) (RtoC 0)) (c m)) <= kappa * eps.
Proof.
  intros jv gamma s b Hb p r Hj Hr.
  assert (En : pizza_nu = 4 / 7) by (unfold pizza_nu, pizza_a; pose proof PI_RGT_0; field; lra).
  set (W0 := fun i m => RtoC (jv (4 / 7 * (INR m + 1)) (zp_k p * r (ab_th ab_n_nodes i)) * sin (4 / 7 * (INR m + 1) * (ab_th ab_n_nodes i - PI / 4)))) in Hr.
  set (t := fun j : nat => if Nat.leb 7 j then jv ((INR j + 1) * pizza_nu) (zp_k p * (23 / 10)) else 1).
  assert (Ht : forall j, (j < 200)%nat -> t j <> 0).
  { intros j Hjm. unfold t. destruct (Nat.leb 7 j); [|lra]. rewrite Rmult_comm, En. apply Hj. exact Hjm. }
  set (W := fun i m => ab_W jv (zp_k p) (23 / 10) pizza_a pizza_nu r ab_n_nodes 7 i m).
  assert (HW : forall i j, (j < 200)%nat -> W0 i j = Cmult (W i j) (RtoC (t j))).
  { intros i j Hjm. specialize (Ht j Hjm). unfold W0, W, ab_W, t in *. cbv zeta in *.
    replace (RtoC (jv (4 / 7 * (INR j + 1)) (zp_k p * r (ab_th ab_n_nodes i)) * sin (4 / 7 * (INR j + 1) * (ab_th ab_n_nodes i - PI / 4)))) with (RtoC (ab_W0 jv (zp_k p) pizza_a pizza_nu r ab_n_nodes i j))
      by (unfold ab_W0; rewrite En, (Rmult_comm (4 / 7)); reflexivity).
    destruct (Nat.leb 7 j).
    - field. apply RtoC_neq. exact Ht.
    - ring. }
  assert (HR : full_rank ab_n_nodes 200 W).
  { intros x Hx j Hjm. specialize (Hr (fun j => Cmult (x j) (Cinv (RtoC (t j))))).
    replace (x j) with (Cmult (Cmult (x j) (Cinv (RtoC (t j)))) (RtoC (t j))) by (field; apply RtoC_neq; auto).
    rewrite Hr; [ring| |assumption]. intros i Hi. rewrite <- (Hx i Hi). unfold mat_app. apply csum_ext. intros l Hlm. rewrite HW by assumption. field. apply RtoC_neq; auto. }
  destruct (fit_stable ab_n_nodes 200 W HR) as (K & HK & B). exists K. split; [exact HK|].
  intros fuel L z1cheat attr N order z c eps EJ EG Hl Hz Hd.
  destruct (zm_run_inv _ _ _ _ _ _ _ _ _ _ Hz) as (_ & _ & Efd & Ev & Ea & _).
  unfold zac in Ea. rewrite <- Efd, <- Ev in Ea. unfold zm_calc_a_coef in Ea.
  destruct (zm_expected_a_coef _ _ _ _ _ _ _ _ _ _) as [fft|] eqn:Ef; cbn [bind] in Ea; [|discriminate].
  assert (Em : get_m1 b = 200%nat) by (destruct b; [congruence| | | |]; reflexivity). rewrite Em in Ea. unfold zm_M in Ea. rewrite EJ in Ea.
  set (y := fun th => Cminus (RtoC (zp_phi0 p r th)) (zm_v_interp (zl_interp2d L) (zr_fd z) (23 / 10) (bet0 b) (zr_v z) (r th) th)).
  assert (Ea' : zr_a z = calc_a_coef (lib_lstsq (zl_ps L)) jv (zp_k p) (23 / 10) pizza_a pizza_nu r y ab_n_nodes 7 200).
  { apply Ok_inj' in Ea. rewrite <- Ea. reflexivity. }
  unfold calc_a_coef in Ea'. fold W in Ea'. rewrite firstn_map, firstn_seq, Nat.min_l in Ea' by lia.
  set (x := lib_lstsq (zl_ps L) ab_n_nodes 200 W (fun i => y (ab_th ab_n_nodes i))) in Ea'.
  split; [rewrite Ea', map_length, seq_length; reflexivity|]. intros m Hm.
  assert (Heps : 0 <= eps) by (eapply Rle_trans; [apply Cmod_ge_0|apply (Hd 0%nat); unfold ab_n_nodes; lia]).
  assert (Ex : nth m (zr_a z) (RtoC 0) = x m) by (rewrite Ea', nth_map_seq by exact Hm; reflexivity).
  replace (c m) with (Cmult (RtoC (t m)) (c m)).
  2:{ unfold t. replace (Nat.leb 7 m) with false by (symmetry; apply Nat.leb_gt; lia). ring. }
  rewrite Ex. apply (B (fun i => y (ab_th ab_n_nodes i)) x (fun j => Cmult (RtoC (t j)) (c j)) eps Heps); [apply Hl| |lia].
  intros i Hi. specialize (Hd i Hi). cbv zeta in Hd. fold (y (ab_th ab_n_nodes i)) in Hd. eapply Rle_trans; [|exact Hd]. right. f_equal. f_equal.
  unfold mat_app, fourier_bessel. apply csum_ext. intros j Hjm. rewrite Cmult_assoc, <- HW by exact Hjm. unfold W0. rewrite (Rmult_comm (4 / 7)). ring.
Qed.

(** ** The boundary data of u_BVP on the arc *)

Lemma arc_data : forall fuel L s z1cheat attr N order z B delta,
  gamma_like (zl_gamma L) -> (forall p, 0 < p -> bessel_series (zl_jv L) (zl_gamma L) p) ->
  (forall n m W x, least_squares n m W x (lib_lstsq (zl_ps L) n m W x)) ->
  let p := sing_problem (zl_jv L) (zl_gamma L) s in
  zm_run fuel L p Arc false z1cheat attr N order = Ok z ->
  zm_expected_a_coef (zl_jv L) (zp_name p) (zp_phi0 p (fun _ => 23 / 10)) (zp_eval_v p) (PI / 4) (zp_k p) (23 / 10) (4 / 7) (Z.to_nat 2048) 7 = Ok B ->
  (forall th, PI / 4 <= th <= 2 * PI ->
     Cmod (Cminus (zm_v_interp (zl_interp2d L) (zr_fd z) (23 / 10) 0 (zr_v z) (23 / 10) th) (RtoC (zp_eval_v p (23 / 10) th))) <= delta) ->
  forall th,
  Cmod (Cminus (o_bc (zr_opt z) th 0%nat)
    (Cminus (RtoC (zp_phi0 p (fun _ => 23 / 10) th - zp_v_asympt p (23 / 10) th))
      (fourier_bessel (zl_jv L) (zp_k p) (4 / 7) (PI / 4) 7 (fun m => nth m B (RtoC 0)) (23 / 10) th))) <= 14 * delta.
Proof.
  intros fuel L s z1cheat attr N order z B delta Hg Hb Hl p Hz HB Hd th.
  assert (En : pizza_nu = 4 / 7) by (unfold pizza_nu, pizza_a; pose proof PI_RGT_0; field; lra).
  destruct (arc_accurate fuel L s z1cheat attr N order z B delta Hg Hb Hl Hz HB Hd) as (_ & _ & A). fold p in A.
  destruct (zm_run_inv _ _ _ _ _ _ _ _ _ _ Hz) as (_ & _ & _ & _ & _ & (nc & nr & Eo) & _).
  assert (E : o_bc (zr_opt z) th 0%nat = Cminus (RtoC (zp_phi0 p (fun _ => 23 / 10) th - zp_v_asympt p (23 / 10) th))
      (fourier_bessel (zl_jv L) (zp_k p) (4 / 7) (PI / 4) 7 (fun m => nth m (zr_a z) (RtoC 0)) (23 / 10) th)).
  { rewrite Eo. unfold zopt. cbn [o_bc]. unfold zm_u_bc. cbn [arg_to_polar Nat.eqb]. unfold zm_M.
    rewrite (fold_minus 7 (fun m => Cmult (nth (m - 1) (zr_a z) (RtoC 0))
      (RtoC (zl_jv L (INR m * pizza_nu) (zp_k p * boundary_r Arc (23 / 10) None pizza_a th) * sin (INR m * pizza_nu * (th - pizza_a)))))).
    change (boundary_r Arc (23 / 10) None pizza_a) with (fun _ : R => 23 / 10). cbv beta.
    unfold zm_lambdify. destruct (Reqb_spec (23 / 10) 0) as [F|_]; [lra|]. f_equal.
    unfold fourier_bessel. apply csum_ext. intros m _. rewrite S_INR, En. replace (S m - 1)%nat with m by lia. reflexivity. }
  rewrite E. set (F := RtoC (zp_phi0 p (fun _ => 23 / 10) th - zp_v_asympt p (23 / 10) th)). unfold fourier_bessel.
  set (SA := csum 7 _). set (SB := csum 7 _). replace (Cminus (Cminus F SA) (Cminus F SB)) with (Copp (Cminus SA SB)) by ring. rewrite Cmod_opp.
  assert (ES : Cminus SA SB = csum 7 (fun m => Cmult (Cminus (nth m (zr_a z) (RtoC 0)) (nth m B (RtoC 0)))
    (RtoC (zl_jv L ((INR m + 1) * (4 / 7)) (zp_k p * (23 / 10)) * sin ((INR m + 1) * (4 / 7) * (th - PI / 4)))))).
  { unfold SA, SB. cbn [csum]. ring. }
  rewrite ES. eapply Rle_trans; [apply csum_le|].
  replace (14 * delta) with (rsum 7 (fun _ => 2 * delta)) by (rewrite rsum_const; cbn [INR]; ring). apply rsum_le. intros m Hm.
  specialize (A m Hm). rewrite (Rmult_comm (4 / 7)) in A. rewrite Cmod_mult, Cmod_R, Rabs_mult.
  set (J := zl_jv L ((INR m + 1) * (4 / 7)) (zp_k p * (23 / 10))) in *.
  assert (HJ : J <> 0). { unfold J. rewrite <- En. apply (factors_nonzero (zl_jv L) (zl_gamma L) s m Hg Hb). lia. }
  assert (HJ' : 0 < Rabs J) by (apply Rabs_pos_lt; exact HJ).
  assert (S1 : Rabs (sin ((INR m + 1) * (4 / 7) * (th - PI / 4))) <= 1) by (apply Rabs_le, SIN_bound).
  set (d := Cmod (Cminus (nth m (zr_a z) (RtoC 0)) (nth m B (RtoC 0)))) in *. assert (0 <= d) by apply Cmod_ge_0.
  assert (d * Rabs J <= 2 * delta).
  { apply Rle_trans with (2 * delta / Rabs J * Rabs J); [apply Rmult_le_compat_r; lra|]. right. field. lra. }
  apply Rle_trans with (d * (Rabs J * 1)); [|lra]. apply Rmult_le_compat_l; [assumption|]. apply Rmult_le_compat_l; lra.
Qed.
