(** Stability of the ODE step, and its exactness. *)
From Coq Require Import ZArith List Bool Reals Lia Lra.
From Coquelicot Require Import Coquelicot.
From Verif Require Import Model_Py Model_Grid Model_Fourier Model_Domain Model_Ode Lib_Csum
  Proof_Fourier Proof_ArcDst Proof_Consist Proof_Ode Spec_Fd Spec_PolarFD Spec_Ode.
Import ListNotations.
Open Scope R_scope.

Lemma decreasing : forall (G G' : R -> R) R0 R1, R0 < R1 ->
  (forall r, R0 < r < R1 -> is_derive G r (G' r) /\ G' r <= 0) ->
  (forall r, R0 <= r <= R1 -> continuous G r) -> G R1 <= G R0.
Proof.
  intros G G' R0 R1 H HG HC.
  destruct (MVT_gen G R0 R1 (fun r => if Rlt_dec R0 r then if Rlt_dec r R1 then G' r else 0 else 0)) as [c [_ Hc]].
  - rewrite Rmin_left, Rmax_right by lra. intros x Hx.
    destruct (Rlt_dec R0 x); [|lra]. destruct (Rlt_dec x R1); [|lra]. apply HG. assumption.
  - rewrite Rmin_left, Rmax_right by lra. intros x Hx. apply continuity_pt_filterlim. apply HC. assumption.
  - assert (Hn : (if Rlt_dec R0 c then if Rlt_dec c R1 then G' c else 0 else 0) <= 0).
    { destruct (Rlt_dec R0 c); [|lra]. destruct (Rlt_dec c R1); [|lra]. apply HG. split; assumption. }
    nra.
Qed.

Lemma gronwall : forall (E E' : R -> R) L B R0 R1, R0 < R1 -> 0 <= L -> 0 <= B ->
  (forall r, R0 < r < R1 -> is_derive E r (E' r) /\ E' r <= L * E r + B) ->
  (forall r, R0 <= r <= R1 -> continuous E r) ->
  E R1 <= (E R0 + B * (R1 - R0)) * exp (L * (R1 - R0)).
Proof.
  intros E E' L B R0 R1 H HL HB HE HC.
  assert (HG : E R1 * exp (- (L * (R1 - R0))) - B * (R1 - R0) <= E R0 * exp (- (L * (R0 - R0))) - B * (R0 - R0)).
  { apply (decreasing (fun r => E r * exp (- (L * (r - R0))) - B * (r - R0))
      (fun r => (E' r - L * E r) * exp (- (L * (r - R0))) - B)); [assumption| |].
    - intros r Hr. destruct (HE r Hr) as [Hd Hle]. split.
      + auto_derive; [exists (E' r); exact Hd|].
        replace (Derive (fun x => E x) r) with (E' r) by (symmetry; apply is_derive_unique; exact Hd). unfold Rminus. ring.
      + assert (Hx : exp (- (L * (r - R0))) <= 1).
        { rewrite <- exp_0. destruct (Req_dec (L * (r - R0)) 0) as [->|Hne].
          - rewrite Ropp_0. lra.
          - left. apply exp_increasing. assert (0 <= L * (r - R0)) by (apply Rmult_le_pos; lra). lra. }
        pose proof (exp_pos (- (L * (r - R0)))). nra.
    - intros r Hr. apply (continuous_minus (V := R_NormedModule)).
      + apply (continuous_mult (K := R_AbsRing)); [apply HC; assumption|].
        apply (ex_derive_continuous (K := R_AbsRing) (V := R_NormedModule)). auto_derive. exact I.
      + apply (ex_derive_continuous (K := R_AbsRing) (V := R_NormedModule)). auto_derive. exact I. }
  replace (- (L * (R0 - R0))) with 0 in HG by ring. rewrite exp_0, exp_Ropp in HG.
  pose proof (exp_pos (L * (R1 - R0))) as Hp.
  apply Rmult_le_reg_r with (/ exp (L * (R1 - R0))); [apply Rinv_0_lt_compat; assumption|].
  rewrite Rmult_assoc, Rinv_r by lra. lra.
Qed.

(** The transform as a real sum. *)
Definition arc_pt (a : R) (N l : nat) : R := a + (2 * PI - a) / (INR N + 1) * (INR l + 1).
Definition dst_w (N m l : nat) : R := sin (PI * (INR m + 1) * (INR l + 1) / (INR N + 1)).

Lemma ode_dst_sum : forall a N func m,
  ode_dst a N func m = 2 / (INR N + 1) * rsum N (fun l => dst_w N m l * func (arc_pt a N l)).
Proof.
  intros a N func m. unfold ode_dst, arc_dst, dst1. pose proof (pos_INR N).
  rewrite (csum_ext N _ (fun l => RtoC (dst_w N m l * func (arc_pt a N l)))).
  - rewrite csum_RtoC, <- RtoC_mult, <- RtoC_div by lra. simpl. field. lra.
  - intros l Hl. rewrite <- RtoC_mult. f_equal. unfold dst_w, arc_pt. rewrite <- !INR_IZR_INZ. ring.
Qed.

Lemma arc_pt_in : forall a N l, a < 2 * PI -> (l < N)%nat -> a < arc_pt a N l < 2 * PI.
Proof.
  intros a N l Ha Hl. unfold arc_pt. pose proof (pos_INR l). apply lt_INR in Hl.
  assert (Hq : 0 < (INR l + 1) / (INR N + 1) < 1).
  { split; [apply Rdiv_lt_0_compat; lra|]. apply (Rdiv_lt_1 (INR l + 1)); lra. }
  replace ((2 * PI - a) / (INR N + 1) * (INR l + 1)) with ((2 * PI - a) * ((INR l + 1) / (INR N + 1))) by (field; lra).
  nra.
Qed.

Lemma ode_dst_loc : forall a N f g m, a < 2 * PI -> (forall th, a < th < 2 * PI -> f th = g th) ->
  ode_dst a N f m = ode_dst a N g m.
Proof.
  intros a N f g m Ha H. rewrite !ode_dst_sum. f_equal. apply rsum_ext. intros l Hl.
  rewrite H by (apply arc_pt_in; assumption). reflexivity.
Qed.

Lemma ode_dst_plus : forall a N f g m,
  ode_dst a N (fun th => f th + g th) m = ode_dst a N f m + ode_dst a N g m.
Proof.
  intros. rewrite !ode_dst_sum, <- Rmult_plus_distr_l, <- rsum_plus. f_equal. apply rsum_ext. intros. ring.
Qed.

Lemma ode_dst_scal : forall a N c f m, ode_dst a N (fun th => c * f th) m = c * ode_dst a N f m.
Proof.
  intros. rewrite !ode_dst_sum.
  rewrite (rsum_ext N _ (fun l => c * (dst_w N m l * f (arc_pt a N l)))) by (intros; ring).
  rewrite rsum_scal. ring.
Qed.

Lemma ode_dst_bound : forall a N f g m d, a < 2 * PI -> 0 <= d ->
  (forall th, a < th < 2 * PI -> Rabs (f th - g th) <= d) ->
  Rabs (ode_dst a N f m - ode_dst a N g m) <= 2 * d.
Proof.
  intros a N f g m d Ha Hd H. pose proof (pos_INR N) as HN. rewrite !ode_dst_sum.
  rewrite <- Rmult_minus_distr_l.
  replace (rsum N (fun l => dst_w N m l * f (arc_pt a N l)) - rsum N (fun l => dst_w N m l * g (arc_pt a N l)))
    with (rsum N (fun l => dst_w N m l * (f (arc_pt a N l) - g (arc_pt a N l)))).
  2:{ unfold Rminus at 2. rewrite <- (Rmult_1_l (rsum N (fun l => _ * g _))), Ropp_mult_distr_l, <- rsum_scal, <- rsum_plus.
      apply rsum_ext. intros. ring. }
  rewrite Rabs_mult, Rabs_pos_eq by (left; apply Rdiv_lt_0_compat; lra).
  assert (HS : Rabs (rsum N (fun l => dst_w N m l * (f (arc_pt a N l) - g (arc_pt a N l)))) <= INR N * d).
  { eapply Rle_trans; [apply rsum_abs|]. rewrite <- rsum_const. apply rsum_le. intros l Hl.
    rewrite Rabs_mult. pose proof (H (arc_pt a N l) (arc_pt_in a N l Ha Hl)).
    assert (Hs : Rabs (dst_w N m l) <= 1).
    { unfold dst_w. apply Rabs_le. apply SIN_bound. }
    pose proof (Rabs_pos (dst_w N m l)). pose proof (Rabs_pos (f (arc_pt a N l) - g (arc_pt a N l))). nra. }
  replace (2 * d) with (2 / (INR N + 1) * ((INR N + 1) * d)) by (field; lra).
  apply Rmult_le_compat_l; [left; apply Rdiv_lt_0_compat; lra|]. nra.
Qed.

Lemma ode_dst_derive : forall a N (u u' : R -> R -> R) m r, a < 2 * PI ->
  (forall th, a < th < 2 * PI -> is_derive (fun r => u r th) r (u' r th)) ->
  is_derive (fun r => ode_dst a N (u r) m) r (ode_dst a N (u' r) m).
Proof.
  intros a N u u' m r Ha H.
  apply (is_derive_ext (fun r => 2 / (INR N + 1) * rsum N (fun l => dst_w N m l * u r (arc_pt a N l)))).
  { intros t. symmetry. apply ode_dst_sum. }
  rewrite ode_dst_sum. apply is_derive_scal.
  apply (rsum_is_derive N (fun l r => dst_w N m l * u r (arc_pt a N l)) (fun l r => dst_w N m l * u' r (arc_pt a N l))).
  intros l Hl. apply is_derive_scal. apply H. apply arc_pt_in; assumption.
Qed.

Lemma ode_dst_continuous : forall a N (u : R -> R -> R) m r, a < 2 * PI ->
  (forall th, a < th < 2 * PI -> continuous (fun r => u r th) r) ->
  continuous (fun r => ode_dst a N (u r) m) r.
Proof.
  intros a N u m r Ha H.
  apply (continuous_ext (fun r => 2 / (INR N + 1) * rsum N (fun l => dst_w N m l * u r (arc_pt a N l)))).
  { intros t. symmetry. apply ode_dst_sum. }
  apply (continuous_mult (K := R_AbsRing)); [apply continuous_const|].
  assert (HM : forall n, (n <= N)%nat -> continuous (fun r => rsum n (fun l => dst_w N m l * u r (arc_pt a N l))) r).
  { induction n as [|n IH]; intros Hn; simpl; [apply continuous_const|].
    apply (continuous_plus (V := R_NormedModule)); [apply IH; lia|].
    apply (continuous_mult (K := R_AbsRing)); [apply continuous_const|apply H; apply arc_pt_in; [assumption|lia]]. }
  apply HM. lia.
Qed.

Lemma ode_dst_modes : forall a N c func m, a < 2 * PI -> (m < N)%nat ->
  (forall th, a < th < 2 * PI -> func th = sine_series a (PI / (2 * PI - a)) N c th) -> ode_dst a N func m = c m.
Proof.
  intros a N c func m Ha Hm H.
  rewrite (ode_dst_loc a N func (sine_series a (PI / (2 * PI - a)) N c) m Ha H).
  apply (ode_dst_series a N N c); [lra|lia|assumption|reflexivity].
Qed.

(** Second derivative in the angle of a function with N modes. *)
Lemma ode_dst_thth : forall a N c func func' func'' m, a < 2 * PI -> (m < N)%nat ->
  (forall th, a < th < 2 * PI -> func th = sine_series a (PI / (2 * PI - a)) N c th) ->
  (forall th, a < th < 2 * PI -> is_derive func th (func' th)) ->
  (forall th, a < th < 2 * PI -> is_derive func' th (func'' th)) ->
  ode_dst a N func'' m = - ((INR m + 1) * (PI / (2 * PI - a))) ^ 2 * c m.
Proof.
  intros a N c func func' func'' m Ha Hm H H1 H2. set (nu := PI / (2 * PI - a)) in *.
  assert (Hloc : forall (p q : R -> R) th d, a < th < 2 * PI -> (forall t, a < t < 2 * PI -> p t = q t) ->
    is_derive p th d -> is_derive q th d).
  { intros p q th d Ht E Hp. apply (is_derive_ext_loc p); [|exact Hp].
    assert (He : 0 < Rmin (th - a) (2 * PI - th)) by (apply Rmin_pos; lra).
    exists (mkposreal _ He). intros y Hy. apply E.
    change (Rabs (y - th) < Rmin (th - a) (2 * PI - th)) in Hy.
    pose proof (Rmin_l (th - a) (2 * PI - th)). pose proof (Rmin_r (th - a) (2 * PI - th)).
    apply Rabs_def2 in Hy. lra. }
  assert (E1 : forall th, a < th < 2 * PI -> func' th = rsum N (fun j => c j * sin_d ((INR j + 1) * nu) a 1 th)).
  { intros th Ht.
    pose proof (Hloc func _ th _ Ht H (H1 th Ht)) as D1.
    pose proof (sum_derive_th N c (fun j => sin_d ((INR j + 1) * nu) a 0) (fun j => sin_d ((INR j + 1) * nu) a 1) th
      (fun j _ => sin_d_derive ((INR j + 1) * nu) a 0%nat th ltac:(lia))) as D2.
    apply is_derive_unique in D1. apply is_derive_unique in D2. rewrite <- D1. exact D2. }
  assert (E2 : forall th, a < th < 2 * PI -> func'' th = sine_series a nu N (fun j => - ((INR j + 1) * nu) ^ 2 * c j) th).
  { intros th Ht.
    pose proof (Hloc func' _ th _ Ht E1 (H2 th Ht)) as D1.
    pose proof (sum_derive_th N c (fun j => sin_d ((INR j + 1) * nu) a 1) (fun j => sin_d ((INR j + 1) * nu) a 2) th
      (fun j _ => sin_d_derive ((INR j + 1) * nu) a 1%nat th ltac:(lia))) as D2.
    apply is_derive_unique in D1. apply is_derive_unique in D2. rewrite <- D1.
    etransitivity; [exact D2|]. unfold sine_series. apply rsum_ext. intros j Hj. unfold sin_d. ring. }
  apply (ode_dst_modes a N _ func'' m Ha Hm E2).
Qed.

Lemma energy : forall y w r c L, 0 < r -> forall rho beta, Rabs rho <= beta -> 2 + Rabs c <= L ->
  2 * y * w + 2 * w * (- w / r - c * y + rho) <= L * (y ^ 2 + w ^ 2) + beta ^ 2.
Proof.
  intros y w r c L Hr rho beta Hrho HL.
  assert (Hw : 0 <= w ^ 2 / r) by (apply Rmult_le_pos; [nra|left; apply Rinv_0_lt_compat; assumption]).
  assert (Hc : - 2 * c * (w * y) <= Rabs c * (y ^ 2 + w ^ 2)).
  { assert (Hp : 0 <= (y + w) ^ 2) by apply pow2_ge_0. assert (Hm : 0 <= (y - w) ^ 2) by apply pow2_ge_0.
    unfold Rabs. destruct (Rcase_abs c) as [Hc|Hc].
    - assert (0 <= - c * (y - w) ^ 2) by (apply Rmult_le_pos; lra). nra.
    - assert (0 <= c * (y + w) ^ 2) by (apply Rmult_le_pos; lra). nra. }
  assert (Hb : rho ^ 2 <= beta ^ 2).
  { pose proof (Rabs_pos rho). rewrite <- (pow2_abs rho). nra. }
  assert (HE : (2 + Rabs c) * (y ^ 2 + w ^ 2) <= L * (y ^ 2 + w ^ 2)) by (apply Rmult_le_compat_r; nra).
  replace (2 * w * (- w / r - c * y + rho)) with (- 2 * (w ^ 2 / r) + - 2 * c * (w * y) + 2 * w * rho) by (field; lra).
  assert (H1 : 0 <= (y - w) ^ 2) by apply pow2_ge_0. assert (H2 : 0 <= (w - rho) ^ 2) by apply pow2_ge_0. nra.
Qed.

Lemma ode_stable : forall odeint init d_init f1 a k R0 R1 M N z1 Z f d0 d1 d2,
  a < 2 * PI -> 0 < R0 < R1 -> (M <= N)%nat -> 0 <= d0 -> 0 <= d1 -> 0 <= d2 ->
  (let deriv := ode_eval_deriv a (PI / (2 * PI - a)) k N f1 M in let ic := ode_ic a R0 N init d_init in
   trajectory deriv (2 * M) ic R0 R1 (odeint deriv (2 * M)%nat ic R0 R1)) ->
  partials 2 (fun r th => R0 < r < R1 /\ a < th < 2 * PI) z1 Z ->
  (forall r th, R0 <= r <= R1 -> a < th < 2 * PI ->
     continuous (fun r => z1 r th) r /\ continuous (fun r => Z 1%nat 0%nat r th) r) ->
  (forall r th, R0 < r < R1 -> a < th < 2 * PI -> polar_helmholtz k Z r th = f r th) ->
  (forall r, R0 < r < R1 -> exists c, forall th, a < th < 2 * PI ->
     z1 r th = sine_series a (PI / (2 * PI - a)) N c th) ->
  (forall th, a < th < 2 * PI -> Rabs (init R0 th - z1 R0 th) <= d0) ->
  (forall th, a < th < 2 * PI -> Rabs (d_init R0 th - Z 1%nat 0%nat R0 th) <= d1) ->
  (forall r th, R0 < r < R1 -> a < th < 2 * PI -> Rabs (f1 r th - f r th) <= d2) ->
  forall c, (forall th, a < th < 2 * PI -> z1 R1 th = sine_series a (PI / (2 * PI - a)) N c th) ->
  forall m, (m < M)%nat ->
  (nth m (ode_calc_z1_fourier odeint init d_init f1 a (PI / (2 * PI - a)) k R0 R1 M N) 0 - c m) ^ 2 <=
  4 * (d0 ^ 2 + d1 ^ 2 + d2 ^ 2 * (R1 - R0))
    * exp ((2 + k ^ 2 + (INR (m + 1) * (PI / (2 * PI - a)) / R0) ^ 2) * (R1 - R0)).
Proof.
  intros odeint init d_init f1 a k R0 R1 M N z1 Z f d0 d1 d2 Ha HR HM Hd0 Hd1 Hd2 Ht [HZ0 HZ] HC Heq Hmodes
    Hi Hdi Hf c Hc m Hm.
  cbv zeta in Ht. destruct Ht as [Y [Hend [Hcont HY]]].
  set (nu := PI / (2 * PI - a)) in *.
  set (d := fun r => ode_dst a N (z1 r) m).
  set (w := fun r => ode_dst a N (Z 1%nat 0%nat r) m).
  set (s := fun r => ode_dst a N (Z 2%nat 0%nat r) m).
  assert (Dd : forall r, R0 < r < R1 -> is_derive d r (w r)).
  { intros r Hr. unfold d, w. apply ode_dst_derive; [assumption|]. intros th Hth.
    apply (is_derive_ext (fun r => Z 0%nat 0%nat r th)); [intros; apply HZ0|].
    apply (HZ 0%nat 0%nat); [lia|split; assumption]. }
  assert (Dw : forall r, R0 < r < R1 -> is_derive w r (s r)).
  { intros r Hr. unfold w, s. apply ode_dst_derive; [assumption|]. intros th Hth.
    apply (HZ 1%nat 0%nat); [lia|split; assumption]. }
  assert (Hs : forall r, R0 < r < R1 ->
    s r = - w r / r - (k ^ 2 - (INR (m + 1) * nu / r) ^ 2) * d r + ode_dst a N (f r) m).
  { intros r Hr. destruct (Hmodes r Hr) as [b Hb].
    assert (E : ode_dst a N (f r) m = s r + (/ r * w r + (/ r ^ 2 * ode_dst a N (Z 0%nat 2%nat r) m + k ^ 2 * d r))).
    { unfold s, w, d. rewrite <- !ode_dst_scal, <- !ode_dst_plus. apply ode_dst_loc; [assumption|].
      intros th Hth. rewrite <- Heq by assumption. unfold polar_helmholtz. rewrite HZ0. field. lra. }
    rewrite E.
    rewrite (ode_dst_thth a N b (z1 r) (Z 0%nat 1%nat r) (Z 0%nat 2%nat r) m Ha ltac:(lia) Hb).
    - assert (Ed : d r = b m) by (unfold d; apply (ode_dst_modes a N b (z1 r) m Ha ltac:(lia) Hb)).
      rewrite Ed, plus_INR. fold nu. simpl (INR 1). field. lra.
    - intros th Hth. apply (is_derive_ext (fun t => Z 0%nat 0%nat r t)); [intros; apply HZ0|].
      apply (HZ 0%nat 0%nat); [lia|split; assumption].
    - intros th Hth. apply (HZ 0%nat 1%nat); [lia|split; assumption]. }
  set (y := fun r => Y r (2 * m)%nat - d r).
  set (v := fun r => Y r (2 * m + 1)%nat - w r).
  set (rho := fun r => ode_dst a N (f1 r) m - ode_dst a N (f r) m).
  assert (Dy : forall r, R0 < r < R1 -> is_derive y r (v r)).
  { intros r Hr. unfold y, v. apply (is_derive_minus (V := R_NormedModule)); [|apply Dd; assumption].
    destruct (HY r Hr) as [D [HD Hdv]]. unfold ode_eval_deriv, Reqb in HD. destruct (Req_EM_T r 0) as [E|E]; [lra|].
    apply Ok_inj in HD. pose proof (Hdv (2 * m)%nat ltac:(lia)) as H. rewrite <- HD in H. cbv beta zeta in H.
    destruct (even_div m) as [E1 _]. rewrite E1 in H. exact H. }
  assert (Dv : forall r, R0 < r < R1 -> is_derive v r (- v r / r - (k ^ 2 - (INR (m + 1) * nu / r) ^ 2) * y r + rho r)).
  { intros r Hr. unfold v.
    replace (- (Y r (2 * m + 1)%nat - w r) / r - (k ^ 2 - (INR (m + 1) * nu / r) ^ 2) * y r + rho r)
      with ((- Y r (2 * m + 1)%nat / r - (k ^ 2 - (INR (m + 1) * nu / r) ^ 2) * Y r (2 * m)%nat + ode_dst a N (f1 r) m) - s r)
      by (rewrite (Hs r Hr); unfold y, rho; field; lra).
    apply (is_derive_minus (V := R_NormedModule)); [|apply Dw; assumption].
    destruct (HY r Hr) as [D [HD Hdv]]. unfold ode_eval_deriv, Reqb in HD. destruct (Req_EM_T r 0) as [E|E]; [lra|].
    apply Ok_inj in HD. pose proof (Hdv (2 * m + 1)%nat ltac:(lia)) as H. rewrite <- HD in H. cbv beta zeta in H.
    destruct (even_div m) as [_ [E2 [_ E4]]]. rewrite E2, E4 in H.
    replace (2 * m + 1 - 1)%nat with (2 * m)%nat in H by lia.
    replace (m + 1 - 1)%nat with m in H by lia. exact H. }
  set (L := 2 + k ^ 2 + (INR (m + 1) * nu / R0) ^ 2).
  assert (HG : y R1 ^ 2 + v R1 ^ 2 <= (y R0 ^ 2 + v R0 ^ 2 + (2 * d2) ^ 2 * (R1 - R0)) * exp (L * (R1 - R0))).
  { apply (gronwall (fun r => y r ^ 2 + v r ^ 2)
      (fun r => 2 * y r * v r + 2 * v r * (- v r / r - (k ^ 2 - (INR (m + 1) * nu / r) ^ 2) * y r + rho r)));
      [lra|unfold L; nra|nra| |].
    - intros r Hr. split.
      + pose proof (Dy r Hr) as A1. pose proof (Dv r Hr) as A2.
        auto_derive; [split; [eexists; exact A1|split; [eexists; exact A2|exact I]]|].
        replace (Derive (fun x => y x) r) with (v r) by (symmetry; apply is_derive_unique; exact A1).
        replace (Derive (fun x => v x) r) with (- v r / r - (k ^ 2 - (INR (m + 1) * nu / r) ^ 2) * y r + rho r)
          by (symmetry; apply is_derive_unique; exact A2). ring.
      + apply energy; [lra| |].
        * unfold rho. apply ode_dst_bound; [assumption|assumption|]. intros th Hth. apply Hf; assumption.
        * unfold L.
          assert (Hq : (INR (m + 1) * nu / r) ^ 2 <= (INR (m + 1) * nu / R0) ^ 2).
          { unfold Rdiv. rewrite !Rpow_mult_distr. apply Rmult_le_compat_l; [nra|].
            assert (0 < / r <= / R0) by (split; [apply Rinv_0_lt_compat; lra|apply Rinv_le_contravar; lra]). nra. }
          assert (0 <= (INR (m + 1) * nu / r) ^ 2) by nra.
          assert (0 <= k ^ 2) by nra.
          apply Rle_trans with (2 + (k ^ 2 + (INR (m + 1) * nu / r) ^ 2)); [|lra].
          apply Rplus_le_compat_l. apply Rabs_le. split; lra.
    - intros r Hr.
      assert (Cy : continuous y r).
      { apply (continuous_minus (V := R_NormedModule)); [apply Hcont; [lia|assumption]|].
        apply ode_dst_continuous; [assumption|]. intros th Hth. apply (HC r th Hr Hth). }
      assert (Cv : continuous v r).
      { apply (continuous_minus (V := R_NormedModule)); [apply Hcont; [lia|assumption]|].
        apply ode_dst_continuous; [assumption|]. intros th Hth. apply (HC r th Hr Hth). }
      apply (continuous_ext (fun r => y r * y r + v r * v r)); [intros x; change (y x * y x + v x * v x = y x ^ 2 + v x ^ 2); ring|].
      apply (continuous_plus (V := R_NormedModule)); apply (continuous_mult (K := R_AbsRing)); assumption. }
  destruct (even_div m) as [E1 [E2 [E3 E4]]].
  assert (Hy0 : y R0 ^ 2 <= 4 * d0 ^ 2).
  { assert (B : Rabs (y R0) <= 2 * d0).
    { unfold y, d. destruct (Hend (2 * m)%nat ltac:(lia)) as [-> _]. unfold ode_ic. rewrite E1, E3.
      replace (m + 1 - 1)%nat with m by lia. apply ode_dst_bound; assumption. }
    pose proof (Rabs_pos (y R0)). rewrite <- (pow2_abs (y R0)). nra. }
  assert (Hv0 : v R0 ^ 2 <= 4 * d1 ^ 2).
  { assert (B : Rabs (v R0) <= 2 * d1).
    { unfold v, w. destruct (Hend (2 * m + 1)%nat ltac:(lia)) as [-> _]. unfold ode_ic. rewrite E2, E4.
      replace (m + 1 - 1)%nat with m by lia. apply ode_dst_bound; assumption. }
    pose proof (Rabs_pos (v R0)). rewrite <- (pow2_abs (v R0)). nra. }
  assert (HyR : y R1 = nth m (ode_calc_z1_fourier odeint init d_init f1 a nu k R0 R1 M N) 0 - c m).
  { unfold y, d. rewrite (ode_dst_modes a N c (z1 R1) m Ha ltac:(lia) Hc).
    unfold ode_calc_z1_fourier. rewrite nth_map_seqR by assumption.
    destruct (Hend (2 * m)%nat ltac:(lia)) as [_ ->]. reflexivity. }
  rewrite <- HyR. fold nu. fold L.
  assert (0 <= v R1 ^ 2) by nra. pose proof (exp_pos (L * (R1 - R0))).
  apply Rle_trans with ((y R0 ^ 2 + v R0 ^ 2 + (2 * d2) ^ 2 * (R1 - R0)) * exp (L * (R1 - R0))); [lra|].
  apply Rmult_le_compat_r; [lra|]. nra.
Qed.

Lemma ode_exact : forall odeint init d_init f1 a k R0 R1 M N z1 Z,
  a < 2 * PI -> 0 < R0 < R1 -> (M <= N)%nat ->
  (let deriv := ode_eval_deriv a (PI / (2 * PI - a)) k N f1 M in let ic := ode_ic a R0 N init d_init in
   trajectory deriv (2 * M) ic R0 R1 (odeint deriv (2 * M)%nat ic R0 R1)) ->
  partials 2 (fun r th => R0 < r < R1 /\ a < th < 2 * PI) z1 Z ->
  (forall r th, R0 <= r <= R1 -> a < th < 2 * PI ->
     continuous (fun r => z1 r th) r /\ continuous (fun r => Z 1%nat 0%nat r th) r) ->
  (forall r th, R0 < r < R1 -> a < th < 2 * PI -> polar_helmholtz k Z r th = f1 r th) ->
  (forall r, R0 < r < R1 -> exists c, forall th, a < th < 2 * PI ->
     z1 r th = sine_series a (PI / (2 * PI - a)) N c th) ->
  (forall th, a < th < 2 * PI -> init R0 th = z1 R0 th) ->
  (forall th, a < th < 2 * PI -> d_init R0 th = Z 1%nat 0%nat R0 th) ->
  forall c, (forall th, a < th < 2 * PI -> z1 R1 th = sine_series a (PI / (2 * PI - a)) N c th) ->
  forall m, (m < M)%nat ->
  nth m (ode_calc_z1_fourier odeint init d_init f1 a (PI / (2 * PI - a)) k R0 R1 M N) 0 = c m.
Proof.
  intros odeint init d_init f1 a k R0 R1 M N z1 Z Ha HR HM Ht HZ HC Heq Hmodes Hi Hdi c Hc m Hm.
  assert (Z0 : forall p q : R, p = q -> Rabs (p - q) <= 0)
    by (intros p q ->; unfold Rminus; rewrite Rplus_opp_r, Rabs_R0; lra).
  pose proof (ode_stable odeint init d_init f1 a k R0 R1 M N z1 Z f1 0 0 0 Ha HR HM (Rle_refl 0) (Rle_refl 0)
    (Rle_refl 0) Ht HZ HC Heq Hmodes (fun th Hth => Z0 _ _ (Hi th Hth)) (fun th Hth => Z0 _ _ (Hdi th Hth))
    (fun r th _ _ => Z0 _ _ eq_refl) c Hc m Hm) as H.
  replace (0 ^ 2 + 0 ^ 2 + 0 ^ 2 * (R1 - R0)) with 0 in H by ring.
  rewrite Rmult_0_r, Rmult_0_l in H.
  set (t := nth m _ 0 - c m) in H. assert (Ht0 : t = 0) by nra. unfold t in Ht0. lra.
Qed.
