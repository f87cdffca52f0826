(** problems/singular.py, problems/functions.py, the default evaluators (C64-C66)
    and the coefficients of the regularisation (C67). *)
From Coq Require Import String ZArith List Bool Reals Lia Lra.
From Coquelicot Require Import Coquelicot.
From Verif Require Import Model_Py Model_Grid Model_Fourier Model_Domain Model_Abcoef Model_ZMethod
  Model_Problems Model_Singular Lib_Csum Spec_Abcoef
  Proof_Domain Proof_ArcDst Proof_Abcoef Proof_Bessel Proof_BesselJ Proof_ZMethod Proof_Regular
  Spec_Fd Spec_PolarFD Spec_Problems Spec_Bessel Spec_ZRun.
Import ListNotations.
Open Scope R_scope.

(** ** SingularKnown *)

Lemma fold_plus : forall M (f : nat -> C) x,
  fold_left (fun u m => Cplus u (f m)) (seq 1 M) x = Cplus x (csum M (fun m => f (S m))).
Proof.
  intros M f x. induction M as [|M IH]; [simpl; ring|].
  rewrite seq_S, fold_left_app, IH. cbn [fold_left csum Nat.add]. ring.
Qed.

Lemma sk_value : forall jv no_w A k a nu M r th,
  sk_expected jv no_w A k a nu M r th =
  Cplus (no_w r th) (fourier_bessel jv k nu a M (fun m => nth m A (RtoC 0)) r th).
Proof.
  intros. unfold sk_expected. rewrite (fold_plus M (fun m => Cmult (nth (m - 1) A (RtoC 0))
      (RtoC (jv (INR m * nu) (k * r) * sin (INR m * nu * (th - a)))))).
  f_equal. unfold fourier_bessel. apply csum_ext. intros m Hm. rewrite S_INR.
  replace (S m - 1)%nat with m by lia. reflexivity.
Qed.

Lemma fb_parts : forall jv k nu a M c, 0 < k ->
  (forall m, (m < M)%nat -> bessel_like jv ((INR m + 1) * nu)) ->
  exists Pr Pi, partials 2 off_tip (fun r th => fst (fourier_bessel jv k nu a M c r th)) Pr /\
    partials 2 off_tip (fun r th => snd (fourier_bessel jv k nu a M c r th)) Pi /\
    forall r th, off_tip r th -> polar_helmholtz k Pr r th = fst (RtoC 0) /\
      polar_helmholtz k Pi r th = snd (RtoC 0).
Proof.
  intros jv k nu a M c Hk HJ.
  destruct (modes_sum jv k nu a M (fun m => fst (c m)) Hk HJ) as [A [PA HA]].
  destruct (modes_sum jv k nu a M (fun m => snd (c m)) Hk HJ) as [B [PB HB]].
  exists A, B. split; [|split].
  - eapply partials_ext; [|exact PA]. intros x y. cbv beta. unfold fourier_bessel. rewrite fst_csum.
    apply rsum_ext. intros m Hm. unfold Cmult, RtoC. cbn [fst snd]. ring.
  - eapply partials_ext; [|exact PB]. intros x y. cbv beta. unfold fourier_bessel. rewrite snd_csum.
    apply rsum_ext. intros m Hm. unfold Cmult, RtoC. cbn [fst snd]. ring.
  - intros r th Hr. cbn [RtoC fst snd]. split; [apply HA|apply HB]; exact Hr.
Qed.

Lemma sk_solves : forall jv no_w A k a nu M f, 0 < k ->
  (forall m, (m < M)%nat -> bessel_like jv ((INR m + 1) * nu)) ->
  csolves k off_tip f no_w -> csolves k off_tip f (sk_expected jv no_w A k a nu M).
Proof.
  intros jv no_w A k a nu M f Hk HJ H.
  destruct (fb_parts jv k nu a M (fun m => nth m A (RtoC 0)) Hk HJ) as [Pr [Pi [HPr [HPi HP]]]].
  eapply csolves_ext; [| |apply (csolves_add k off_tip f (fun _ _ => RtoC 0) no_w _ Pr Pi
    (fun r th H => H) HPr HPi HP H)].
  - intros r th _. cbv beta. apply Cplus_0_r.
  - intros r th. cbv beta. rewrite sk_value. reflexivity.
Qed.

Lemma sk_edges : forall jv no_w A k a nu M r, nu * (2 * PI - a) = PI ->
  sk_expected jv no_w A k a nu M r a = no_w r a /\
  sk_expected jv no_w A k a nu M r (2 * PI) = no_w r (2 * PI).
Proof.
  intros jv no_w A k a nu M r H. rewrite !sk_value.
  destruct (fb_edges jv k nu a M (fun m => nth m A (RtoC 0)) r H) as [E1 E2].
  rewrite E1, E2, !Cplus_0_r. split; reflexivity.
Qed.

Lemma csum_pad0 : forall n m (f : nat -> C), (m <= n)%nat ->
  csum n (fun i => if Nat.ltb i m then f i else RtoC 0) = csum m f.
Proof.
  intros n m f H. replace n with (m + (n - m))%nat by lia. generalize (n - m)%nat as d. clear H.
  induction d as [|d IH].
  - rewrite Nat.add_0_r. apply csum_ext. intros i Hi. destruct (Nat.ltb_spec i m); [reflexivity|lia].
  - rewrite Nat.add_succ_r. cbn [csum]. rewrite IH. destruct (Nat.ltb_spec (m + d) m); [lia|]. ring.
Qed.

(** Sine coefficients of a function with at most [M] modes. *)
Lemma arc_dst_low : forall a n M p func (b : nat -> C), 2 * PI - a <> 0 -> (M <= n)%nat -> (p < M)%nat ->
  (forall th, func th = csum M (fun m =>
     Cmult (b m) (RtoC (sin ((INR m + 1) * (PI / (2 * PI - a)) * (th - a)))))) ->
  arc_dst a func n (Z.of_nat p) = b p.
Proof.
  intros a n M p func b Ha HM Hp Hf.
  rewrite (arc_dst_modes a n p func (fun m => if Nat.ltb m M then b m else RtoC 0) Ha ltac:(lia)).
  - destruct (Nat.ltb_spec p M); [reflexivity|lia].
  - intros th. rewrite Hf.
    rewrite <- (csum_pad0 n M (fun m => Cmult (b m) _) HM). apply csum_ext. intros m Hm.
    destruct (Nat.ltb m M); ring.
Qed.

Lemma b_to_a_nth : forall jv (b : list C) k R0 nu A, b_to_a jv b k R0 nu = Ok A ->
  length A = length b /\
  forall m, (m < length b)%nat -> jv ((INR m + 1) * nu) (k * R0) <> 0 ->
    Cmult (nth m A (RtoC 0)) (RtoC (jv ((INR m + 1) * nu) (k * R0))) = nth m b (RtoC 0).
Proof.
  intros jv b k R0 nu A H. unfold b_to_a in H. rewrite convert_map in H by auto.
  apply (proj1 (Ok_iff _ _ _)) in H. subst A. split; [rewrite map_length, seq_length; reflexivity|].
  intros m Hm Hj. rewrite nth_map_seq by exact Hm. cbn [String.eqb Ascii.eqb Bool.eqb].
  rewrite <- Cmult_assoc, <- RtoC_mult. replace (_ * _) with 1 by (field; exact Hj). ring.
Qed.

(** On the arc the Fourier-Bessel sum reproduces data with at most M modes. *)
Lemma fb_on_arc : forall jv k R0 a n M data (b : nat -> C) A, 2 * PI - a <> 0 -> (M <= n)%nat ->
  let nu := PI / (2 * PI - a) in
  (forall m, (m < M)%nat -> jv ((INR m + 1) * nu) (k * R0) <> 0) ->
  (forall th, data th = csum M (fun m => Cmult (b m) (RtoC (sin ((INR m + 1) * nu * (th - a)))))) ->
  b_to_a jv (map (fun m => arc_dst a data n (Z.of_nat m)) (seq 0 M)) k R0 nu = Ok A ->
  (forall m, (m < M)%nat -> Cmult (nth m A (RtoC 0)) (RtoC (jv ((INR m + 1) * nu) (k * R0))) = b m) /\
  forall th, fourier_bessel jv k nu a M (fun m => nth m A (RtoC 0)) R0 th = data th.
Proof.
  intros jv k R0 a n M data b A Ha HM nu Hj Hd HA.
  destruct (b_to_a_nth _ _ _ _ _ _ HA) as [_ HN]. rewrite map_length, seq_length in HN.
  assert (E : forall m, (m < M)%nat ->
    Cmult (nth m A (RtoC 0)) (RtoC (jv ((INR m + 1) * nu) (k * R0))) = b m).
  { intros m Hm. rewrite (HN m Hm (Hj m Hm)), nth_map_seq by exact Hm.
    apply (arc_dst_low a n M m data b Ha HM Hm Hd). }
  split; [exact E|]. intros th. rewrite Hd. unfold fourier_bessel. apply csum_ext. intros m Hm.
  rewrite <- (E m Hm), RtoC_mult. ring.
Qed.

Lemma sk_arc : forall jv no_w to_dst k R0 a n M (b : nat -> C) A, 2 * PI - a <> 0 -> (M <= n)%nat ->
  let nu := PI / (2 * PI - a) in
  (forall m, (m < M)%nat -> jv ((INR m + 1) * nu) (k * R0) <> 0) ->
  (forall th, to_dst th = csum M (fun m => Cmult (b m) (RtoC (sin ((INR m + 1) * nu * (th - a)))))) ->
  sk_a_coef jv (Some to_dst) a k R0 nu n M = Ok A ->
  forall th, sk_expected jv no_w A k a nu M R0 th = Cplus (no_w R0 th) (to_dst th).
Proof.
  intros jv no_w to_dst k R0 a n M b A Ha HM nu Hj Hd HA th. rewrite sk_value. f_equal.
  apply (fb_on_arc jv k R0 a n M to_dst b A Ha HM Hj Hd HA).
Qed.

Lemma sk_total : forall jv to_dst a k R0 nu n M, exists A,
  sk_a_coef jv to_dst a k R0 nu n M = Ok A /\ length A = M.
Proof.
  intros. unfold sk_a_coef, b_to_a. rewrite convert_map by auto. eexists. split; [reflexivity|].
  rewrite map_length, seq_length. unfold sk_b_coef. rewrite map_length, seq_length. reflexivity.
Qed.

Lemma sk_none : forall jv no_w a k R0 nu n M A, (M <= n)%nat ->
  2 * PI - a <> 0 -> sk_a_coef jv None a k R0 nu n M = Ok A ->
  forall r th, sk_expected jv no_w A k a nu M r th = no_w r th.
Proof.
  intros jv no_w a k R0 nu n M A HM Ha HA r th. rewrite sk_value.
  unfold sk_a_coef, b_to_a in HA. rewrite convert_map in HA by auto. apply (proj1 (Ok_iff _ _ _)) in HA.
  unfold fourier_bessel.
  transitivity (Cplus (no_w r th) (csum M (fun _ => RtoC 0))); [|rewrite csum_zero; apply Cplus_0_r].
  f_equal. apply csum_ext. intros m Hm. subst A. unfold sk_b_coef.
  rewrite map_length, seq_length, !nth_map_seq by exact Hm.
  rewrite (arc_dst_low a n M m (fun _ => RtoC 0) (fun _ => RtoC 0) Ha HM Hm); [ring|].
  intros t. transitivity (csum M (fun _ => RtoC 0)); [symmetry; apply csum_zero|].
  apply csum_ext. intros. cbv beta. ring.
Qed.

(** ** functions.py *)

Lemma hat_range : forall x, 0 <= hat_x x <= exp (-1).
Proof.
  intros x. unfold hat_x. pose proof (exp_pos (-1)).
  destruct (Rltb_spec (Rabs (Rabs x - 1)) (/ 10 ^ 15)) as [H1|H1]; [cbn [orb]; lra|].
  destruct (Rltb_spec 1 (Rabs x)) as [H2|H2]; [cbn [orb]; lra|]. cbn [orb].
  split; [left; apply exp_pos|].
  assert (Hx : 0 <= Rabs x < 1).
  { split; [apply Rabs_pos|]. destruct (Req_dec (Rabs x) 1) as [E|E]; [|lra].
    exfalso. apply H1. rewrite E, Rminus_diag_eq, Rabs_R0 by reflexivity.
    apply Rinv_0_lt_compat. apply pow_lt. lra. }
  assert (Hq : 0 < 1 - x ^ 2 <= 1).
  { rewrite <- (pow2_abs x). split; nra. }
  destruct (Req_dec (x ^ 2) 0) as [E|E].
  - rewrite E. right. f_equal. field.
  - left. apply exp_increasing.
    apply Rmult_lt_reg_r with (1 - x ^ 2); [lra|].
    replace (-1 / (1 - x ^ 2) * (1 - x ^ 2)) with (-1) by (field; lra).
    pose proof (pow2_ge_0 x). lra.
Qed.

Lemma hat_even : forall x, hat_x (- x) = hat_x x.
Proof.
  intros x. unfold hat_x. rewrite Rabs_Ropp. replace ((- x) ^ 2) with (x ^ 2) by ring. reflexivity.
Qed.

Lemma hat_outside : forall x, 1 <= Rabs x -> hat_x x = 0.
Proof.
  intros x H. unfold hat_x.
  destruct (Rltb_spec (Rabs (Rabs x - 1)) (/ 10 ^ 15)) as [H1|H1]; [reflexivity|].
  destruct (Rltb_spec 1 (Rabs x)) as [H2|H2]; [reflexivity|]. exfalso. apply H1.
  replace (Rabs x - 1) with 0 by lra. rewrite Rabs_R0. apply Rinv_0_lt_compat. apply pow_lt. lra.
Qed.

Lemma hat_inside : forall x, Rabs x <= 1 - / 10 ^ 15 -> hat_x x = exp (-1 / (1 - x ^ 2)).
Proof.
  intros x H. unfold hat_x.
  assert (Hp : 0 < / 10 ^ 15) by (apply Rinv_0_lt_compat, pow_lt; lra).
  destruct (Rltb_spec (Rabs (Rabs x - 1)) (/ 10 ^ 15)) as [H1|H1].
  - rewrite Rabs_left in H1 by lra. lra.
  - destruct (Rltb_spec 1 (Rabs x)) as [H2|H2]; [lra|reflexivity].
Qed.

Lemma hat_ends : forall a, a < 2 * PI -> hat_th a a = 0 /\ hat_th a (2 * PI) = 0 /\
  hat_th a ((a + 2 * PI) / 2) = exp (-1).
Proof.
  intros a H. unfold hat_th. split; [|split].
  - apply hat_outside. replace ((2 * a - (2 * PI + a)) / (2 * PI - a)) with (-1) by (field; lra).
    rewrite Rabs_left by lra. lra.
  - apply hat_outside. replace ((2 * (2 * PI) - (2 * PI + a)) / (2 * PI - a)) with 1 by (field; lra).
    rewrite Rabs_R1. lra.
  - replace ((2 * ((a + 2 * PI) / 2) - (2 * PI + a)) / (2 * PI - a)) with 0 by (field; lra).
    rewrite hat_inside.
    + f_equal. field.
    + rewrite Rabs_R0. assert (/ 10 ^ 15 <= 1); [|lra]. rewrite <- Rinv_1.
      apply Rinv_le_contravar; [lra|]. apply pow_R1_Rle. lra.
Qed.

(** The mirror image of the arc. *)
Lemma hat_mirror : forall a th, a < 2 * PI -> hat_th a (a + 2 * PI - th) = hat_th a th.
Proof.
  intros a th H. unfold hat_th.
  replace ((2 * (a + 2 * PI - th) - (2 * PI + a)) / (2 * PI - a))
    with (- ((2 * th - (2 * PI + a)) / (2 * PI - a))) by (field; lra). apply hat_even.
Qed.

Lemma parabola_sign : forall a th, a < 2 * PI ->
  (parabola th a = 0 <-> th = a \/ th = 2 * PI) /\ (0 < parabola th a <-> a < th < 2 * PI).
Proof.
  intros a th H. unfold parabola. split; split; intros E.
  - assert (E' : (th - a) * (th - 2 * PI) = 0) by lra. apply Rmult_integral in E'. lra.
  - destruct E as [-> | ->]; ring.
  - destruct (Rle_dec th a) as [L|L]; [exfalso; nra|]. destruct (Rle_dec (2 * PI) th) as [L'|L'].
    + exfalso. nra.
    + lra.
  - nra.
Qed.

Lemma linesine_ends : forall jv k R0 a nu, nu * (2 * PI - a) = PI -> a < 2 * PI ->
  linesine jv a k R0 a nu = 0 /\ linesine jv (2 * PI) k R0 a nu = 0.
Proof.
  intros jv k R0 a nu H Ha. unfold linesine. split.
  - replace (nu / 2 * (a - a)) with 0 by ring. rewrite sin_0. field. lra.
  - replace (nu / 2 * (2 * PI - a)) with (PI / 2) by lra. rewrite sin_PI2.
    replace ((2 * PI - a) / (2 * PI - a)) with 1 by (field; lra). ring.
Qed.

(** ** The default evaluators *)

Lemma linesine_data : forall jv k R0 a nu th, 2 * PI - a <> 0 ->
  linesine jv th k R0 a nu = line_phi0 jv 0 k nu a (fun _ => R0) th - ih_eval_v jv 0 k nu a R0 th.
Proof.
  intros jv k R0 a nu th Ha. unfold linesine, line_phi0, ih_eval_v.
  replace ((0 + 1 / 2) * nu) with (nu / 2) by lra. field. exact Ha.
Qed.

Lemma expected_value : forall fuel p f x y, ev_expected p = None -> ev_expected_polar p = Some f ->
  exists r th, pb_expected (S fuel) p x y = Ok (f r th) /\ 0 <= r /\
    (0 < ev_a p <= 4 * PI -> ev_a p / 2 <= th < 2 * PI + ev_a p / 2) /\
    r * cos th = x /\ r * sin th = y.
Proof.
  intros fuel p f x y H1 H2. cbn [pb_expected]. rewrite H1, H2.
  destruct (cart_to_polar x y) as [r th] eqn:E.
  destruct (cart_to_polar_spec _ _ _ _ E) as (Hr & Hth & Hx & Hy).
  pose proof PI_RGT_0 as Hpi.
  destruct (Rltb_spec th (ev_a p / 2)) as [L|L].
  - exists r, (th + 2 * PI). split; [reflexivity|]. split; [exact Hr|]. split; [intros; lra|].
    rewrite cos_plus, sin_plus, cos_2PI, sin_2PI. rewrite <- Hx, <- Hy. split; ring.
  - exists r, th. split; [reflexivity|]. split; [exact Hr|]. split; [intros; lra|]. split; assumption.
Qed.

Lemma expected_polar_value : forall fuel p f r th, ev_expected_polar p = None -> ev_expected p = Some f ->
  pb_expected_polar (S fuel) p r th = Ok (f (r * cos th) (r * sin th)).
Proof. intros fuel p f r th H1 H2. unfold pb_expected_polar. rewrite H1. cbn [pb_expected]. rewrite H2. reflexivity. Qed.

(** With one of the two overridden, the other agrees with it. *)
Lemma expected_roundtrip : forall fuel p f r th, ev_expected p = None -> ev_expected_polar p = Some f ->
  0 < r -> 0 <= ev_a p <= 4 * PI -> ev_a p / 2 <= th < 2 * PI + ev_a p / 2 -> 0 < th ->
  pb_expected (S fuel) p (r * cos th) (r * sin th) = Ok (f r th).
Proof.
  intros fuel p f r th H1 H2 Hr Ha Hth Hp. cbn [pb_expected]. rewrite H1, H2. pose proof PI_RGT_0 as Hpi.
  destruct (Rle_dec th (2 * PI)) as [L|L].
  - rewrite cart_to_polar_of_polar by lra. destruct (Rltb_spec th (ev_a p / 2)) as [L'|L']; [lra|reflexivity].
  - replace th with (th - 2 * PI + 2 * PI) at 1 2 by ring.
    rewrite cos_plus, sin_plus, cos_2PI, sin_2PI.
    replace (r * (cos (th - 2 * PI) * 1 - sin (th - 2 * PI) * 0)) with (r * cos (th - 2 * PI)) by ring.
    replace (r * (sin (th - 2 * PI) * 1 + cos (th - 2 * PI) * 0)) with (r * sin (th - 2 * PI)) by ring.
    rewrite cart_to_polar_of_polar by lra.
    destruct (Rltb_spec (th - 2 * PI) (ev_a p / 2)) as [L'|L']; [|lra].
    replace (th - 2 * PI + 2 * PI) with th by ring. reflexivity.
Qed.

(** Neither overridden: the two defaults call each other for ever. *)
Lemma expected_loops : forall p fuel x y, ev_expected p = None -> ev_expected_polar p = None ->
  pb_expected fuel p x y = Err OutOfFuel /\ pb_expected_polar fuel p x y = Err OutOfFuel.
Proof.
  intros p fuel x y H1 H2.
  assert (E : forall x y, pb_expected fuel p x y = Err OutOfFuel).
  { induction fuel as [|fuel IH]; intros x' y'; [reflexivity|]. cbn [pb_expected]. rewrite H1, H2.
    destruct (cart_to_polar x' y') as [r th]. apply IH. }
  split; [apply E|]. unfold pb_expected_polar. rewrite H2. apply E.
Qed.

Lemma f_value : forall fuel p f x y, ev_f p = None -> ev_homogeneous p = false -> ev_f_polar p = Some f ->
  exists r th, pb_f (S fuel) p x y = Ok (f r th) /\ 0 <= r /\ 0 < th <= 2 * PI /\
    r * cos th = x /\ r * sin th = y.
Proof.
  intros fuel p f x y H1 H2 H3. cbn [pb_f]. rewrite H1, H2, H3.
  destruct (cart_to_polar x y) as [r th] eqn:E.
  destruct (cart_to_polar_spec _ _ _ _ E) as (Hr & Hth & Hx & Hy).
  exists r, th. repeat split; try assumption; lra.
Qed.

Lemma f_polar_value : forall fuel p f r th, ev_f_polar p = None -> ev_homogeneous p = false -> ev_f p = Some f ->
  pb_f_polar (S fuel) p r th = Ok (f (r * cos th) (r * sin th)).
Proof. intros fuel p f r th H1 H2 H3. unfold pb_f_polar. rewrite H1, H2. cbn [pb_f]. rewrite H3. reflexivity. Qed.

Lemma f_homogeneous : forall fuel p x y, ev_homogeneous p = true ->
  (ev_f p = None -> pb_f (S fuel) p x y = Ok (RtoC 0)) /\
  (ev_f_polar p = None -> pb_f_polar fuel p x y = Ok (RtoC 0)).
Proof.
  intros fuel p x y H. split; intros H1.
  - cbn [pb_f]. rewrite H1, H. reflexivity.
  - unfold pb_f_polar. rewrite H1, H. reflexivity.
Qed.

Lemma f_loops : forall p fuel x y, ev_f p = None -> ev_f_polar p = None -> ev_homogeneous p = false ->
  pb_f fuel p x y = Err OutOfFuel /\ pb_f_polar fuel p x y = Err OutOfFuel.
Proof.
  intros p fuel x y H1 H2 H3.
  assert (E : forall x y, pb_f fuel p x y = Err OutOfFuel).
  { induction fuel as [|fuel IH]; intros x' y'; [reflexivity|]. cbn [pb_f]. rewrite H1, H2, H3.
    destruct (cart_to_polar x' y') as [r th]. apply IH. }
  split; [apply E|]. unfold pb_f_polar. rewrite H2, H3. apply E.
Qed.

(** ** The coefficients of the regularisation *)

Lemma acoef_bessel : forall jv phi0 v a k R0 nu n M,
  zm_expected_a_coef jv "iz-bessel" phi0 v a k R0 nu n M = Ok (repeat (RtoC 0) M).
Proof. reflexivity. Qed.

Lemma acoef_arc : forall jv name phi0 v a k R0 n M (b : nat -> R) A, name <> "iz-bessel"%string ->
  2 * PI - a <> 0 -> (M <= n)%nat ->
  let nu := PI / (2 * PI - a) in
  (forall m, (m < M)%nat -> jv ((INR m + 1) * nu) (k * R0) <> 0) ->
  (forall th, phi0 th - v R0 th = rsum M (fun m => b m * sin ((INR m + 1) * nu * (th - a)))) ->
  zm_expected_a_coef jv name phi0 v a k R0 nu n M = Ok A ->
  (forall m, (m < M)%nat ->
     Cmult (nth m A (RtoC 0)) (RtoC (jv ((INR m + 1) * nu) (k * R0))) = RtoC (b m)) /\
  forall th, Cplus (RtoC (v R0 th)) (fourier_bessel jv k nu a M (fun m => nth m A (RtoC 0)) R0 th) =
    RtoC (phi0 th).
Proof.
  intros jv name phi0 v a k R0 n M b A Hn Ha HM nu Hj Hd HA. unfold zm_expected_a_coef in HA.
  destruct (String.eqb_spec name "iz-bessel") as [E|_]; [contradiction|].
  destruct (fb_on_arc jv k R0 a n M (fun th => RtoC (phi0 th - v R0 th)) (fun m => RtoC (b m)) A Ha HM Hj) as [E1 E2].
  - intros th. rewrite Hd, <- csum_RtoC. apply csum_ext. intros m Hm. apply RtoC_mult.
  - exact HA.
  - split; [exact E1|]. intros th. fold nu in E2. rewrite E2, RtoC_minus. ring.
Qed.

(** The cheat changes nothing on the arc when v is exact at the nodes. *)
Lemma acheat_same : forall lstsq jv name phi0 v vi k R0 n M m1, name <> "iz-bessel"%string ->
  (M <= m1)%nat -> (m1 <= n)%nat ->
  (forall m, (m < m1)%nat -> jv ((INR m + 1) * pizza_nu) (k * R0) <> 0) ->
  (forall i, (i < n)%nat -> vi R0 (ab_th n i) = RtoC (v R0 (ab_th n i))) ->
  (let W := fun i m => ab_W jv k R0 pizza_a pizza_nu (fun _ => R0) n M i m in
   let y := fun i => Cminus (RtoC (phi0 (ab_th n i))) (vi R0 (ab_th n i)) in
   least_squares n m1 W y (lstsq n m1 W y)) ->
  zm_calc_a_coef lstsq jv false name phi0 v vi (fun _ => R0) pizza_a k R0 pizza_nu n M m1 =
  zm_calc_a_coef lstsq jv true name phi0 v vi (fun _ => R0) pizza_a k R0 pizza_nu n M m1.
Proof.
  intros lstsq jv name phi0 v vi k R0 n M m1 Hn HM Hm Hj Hv Hl. unfold zm_calc_a_coef, zm_expected_a_coef.
  destruct (String.eqb_spec name "iz-bessel") as [E|_]; [contradiction|].
  pose proof (calc_on_arc lstsq jv k R0 (fun th => Cminus (RtoC (phi0 th)) (vi R0 th)) n M m1 HM Hm Hj Hl) as E.
  set (b := map (fun m => arc_dst pizza_a (fun th => RtoC (phi0 th - v R0 th)) n (Z.of_nat m)) (seq 0 M)).
  set (b' := map (fun m => arc_dst pizza_a (fun th => Cminus (RtoC (phi0 th)) (vi R0 th)) n (Z.of_nat m)) (seq 0 M)) in E.
  assert (Eb : b = b').
  { apply map_ext_in. intros m Hmm. rewrite !arc_dst_value. f_equal. apply csum_ext. intros i Hi.
    rewrite (Hv i Hi), RtoC_minus. reflexivity. }
  rewrite Eb, E. reflexivity.
Qed.

(** On any boundary: what is left on the outer segment at the nodes. *)
Lemma acoef_curve : forall lstsq jv name phi0 phi1 phi2 v vi w eval_r a k R0 nu n M m1 (c : nat -> C) A,
  (M <= m1)%nat ->
  (forall m, (m < m1)%nat -> jv ((INR m + 1) * nu) (k * R0) <> 0) ->
  (let W := fun i m => ab_W jv k R0 a nu eval_r n M i m in
   let y := fun i => Cminus (RtoC (phi0 (ab_th n i))) (vi (eval_r (ab_th n i)) (ab_th n i)) in
   least_squares n m1 W y (lstsq n m1 W y)) ->
  full_rank n m1 (fun i m => RtoC (jv ((INR m + 1) * nu) (k * eval_r (ab_th n i)) *
                                   sin ((INR m + 1) * nu * (ab_th n i - a)))) ->
  (forall i, (i < n)%nat -> Cminus (RtoC (phi0 (ab_th n i))) (vi (eval_r (ab_th n i)) (ab_th n i)) =
     fourier_bessel jv k nu a M c (eval_r (ab_th n i)) (ab_th n i)) ->
  zm_calc_a_coef lstsq jv false name phi0 v vi eval_r a k R0 nu n M m1 = Ok A ->
  (forall m, (m < M)%nat -> nth m A (RtoC 0) = c m) /\
  forall i, (i < n)%nat -> zm_u_bc jv phi0 phi1 phi2 w A eval_r a nu k M (ab_th n i) 0%nat =
    Ok (Cminus (vi (eval_r (ab_th n i)) (ab_th n i)) (RtoC (w (eval_r (ab_th n i)) (ab_th n i)))).
Proof.
  intros lstsq jv name phi0 phi1 phi2 v vi w eval_r a k R0 nu n M m1 c A HM Hj Hl Hr Hy HA.
  unfold zm_calc_a_coef in HA.
  destruct (zm_expected_a_coef jv name phi0 v a k R0 nu n M); [|discriminate]. cbn [bind] in HA.
  apply (proj1 (Ok_iff _ _ _)) in HA.
  set (c' := fun m : nat => if Nat.ltb m M then c m else RtoC 0).
  rewrite (calc_recovers lstsq jv k R0 a nu eval_r _ n M m1 c' HM Hj Hl Hr) in HA.
  - assert (EA : forall m, (m < M)%nat -> nth m A (RtoC 0) = c m).
    { intros m Hm. rewrite <- HA, nth_map_seq by exact Hm. unfold c'.
      destruct (Nat.ltb_spec m M); [reflexivity|lia]. }
    split; [exact EA|]. intros i Hi. unfold zm_u_bc. cbn [arg_to_polar Nat.eqb].
    set (r := eval_r (ab_th n i)). set (th := ab_th n i).
    rewrite (fold_minus M (fun m => Cmult (nth (m - 1) A (RtoC 0))
      (RtoC (jv (INR m * nu) (k * r) * sin (INR m * nu * (th - a)))))).
    f_equal. pose proof (Hy i Hi) as E. fold r th in E. unfold fourier_bessel in E.
    set (S1 := csum M _) in E. set (S2 := csum M _).
    assert (ES : S2 = S1).
    { unfold S1, S2. apply csum_ext. intros m Hm. rewrite S_INR.
      replace (S m - 1)%nat with m by lia. rewrite EA by exact Hm. reflexivity. }
    rewrite ES, <- E, RtoC_minus. ring.
  - intros i Hi. rewrite (Hy i Hi). unfold fourier_bessel.
    rewrite <- (csum_pad0 m1 M (fun m => Cmult (c m) _) HM). apply csum_ext. intros m Hm. unfold c'.
    destruct (Nat.ltb m M); [reflexivity|ring].
Qed.

(** On the arc with the cheat: what is left on the outer segment everywhere. *)
Lemma acheat_rest : forall lstsq jv name phi0 phi1 phi2 v vi w eval_r a k R0 n M m1 (b : nat -> R) A,
  name <> "iz-bessel"%string -> 2 * PI - a <> 0 -> (M <= n)%nat ->
  let nu := PI / (2 * PI - a) in
  (forall m, (m < M)%nat -> jv ((INR m + 1) * nu) (k * R0) <> 0) ->
  (forall th, phi0 th - v R0 th = rsum M (fun m => b m * sin ((INR m + 1) * nu * (th - a)))) ->
  zm_calc_a_coef lstsq jv true name phi0 v vi eval_r a k R0 nu n M m1 = Ok A ->
  forall th, zm_u_bc jv phi0 phi1 phi2 w A (fun _ => R0) a nu k M th 0%nat = Ok (RtoC (v R0 th - w R0 th)).
Proof.
  intros lstsq jv name phi0 phi1 phi2 v vi w eval_r a k R0 n M m1 b A Hn Ha HM nu Hj Hd HA th.
  unfold zm_calc_a_coef in HA.
  destruct (zm_expected_a_coef jv name phi0 v a k R0 nu n M) as [A'|] eqn:EA; [|discriminate].
  cbn [bind] in HA. apply (proj1 (Ok_iff _ _ _)) in HA. subst A'.
  destruct (acoef_arc jv name phi0 v a k R0 n M b A Hn Ha HM Hj Hd EA) as [_ E].
  destruct (regular_boundary jv phi0 phi1 phi2 w A (fun _ => R0) a nu k M
    (fun r t => RtoC (v r t - w r t))) as [B _].
  - unfold nu. field. exact Ha.
  - apply (B th). rewrite <- (E th), RtoC_minus. fold nu. ring.
Qed.
